(** Model of the UTF-8 library in utf8/utf8/{core,checked,unchecked}.h.

    A byte is a [Z] in [0,256); an iterator range is the list of the bytes from
    the iterator to the end of the range.  Exceptions are [None] or an error
    code.  Signedness of [char] is not modelled: every read in the C++ code is
    masked ([mask8] or [& 0x3f]). *)
From Coq Require Import List ZArith Bool.
Import ListNotations.
Open Scope Z_scope.

(** core.h lines 58-68: mask8, is_trail. *)
Definition mask8 (b : Z) : Z := Z.land 255 b.
Definition is_trail (b : Z) : bool := Z.shiftr (mask8 b) 6 =? 2.

(** core.h lines 47-50 and 70-93: surrogates and validity. *)
Definition is_lead_surrogate (cp : Z) : bool := (0xd800 <=? cp) && (cp <=? 0xdbff).
Definition is_trail_surrogate (cp : Z) : bool := (0xdc00 <=? cp) && (cp <=? 0xdfff).
Definition is_surrogate (cp : Z) : bool := (0xd800 <=? cp) && (cp <=? 0xdfff).
Definition is_code_point_valid (cp : Z) : bool :=
  (cp <=? 0x10ffff) && negb (is_surrogate cp).

(** core.h lines 98-113: sequence_length (of the lead byte). *)
Definition sequence_length (b : Z) : Z :=
  let lead := mask8 b in
  if lead <? 0x80 then 1
  else if Z.shiftr lead 5 =? 0x6 then 2
  else if Z.shiftr lead 4 =? 0xe then 3
  else if Z.shiftr lead 3 =? 0x1e then 4
  else 0.

(** core.h lines 115-132: is_overlong_sequence. *)
Definition is_overlong_sequence (cp len : Z) : bool :=
  if cp <? 0x80 then negb (len =? 1)
  else if cp <? 0x800 then negb (len =? 2)
  else if cp <? 0x10000 then negb (len =? 3)
  else false.

(** core.h line 134; [DEREF_END] is added for a read through the end iterator
    (undefined behaviour in C++). *)
Inductive utf_error :=
  UTF8_OK | NOT_ENOUGH_ROOM | INVALID_LEAD | INCOMPLETE_SEQUENCE
| OVERLONG_SEQUENCE | INVALID_CODE_POINT | DEREF_END.

(** core.h lines 138-249: get_sequence_1 .. get_sequence_4.  The result is the
    error code, the code point and the range starting at the last byte that was
    read (the iterator is left there by the C++ code). *)
Definition get_sequence_1 (l : list Z) : utf_error * Z * list Z :=
  match l with
  | [] => (NOT_ENOUGH_ROOM, 0, l)
  | a :: _ => (UTF8_OK, mask8 a, l)
  end.

Definition get_sequence_2 (l : list Z) : utf_error * Z * list Z :=
  match l with
  | [] => (NOT_ENOUGH_ROOM, 0, l)
  | a :: l1 =>
    match l1 with
    | [] => (NOT_ENOUGH_ROOM, 0, l1)
    | b :: _ =>
      if is_trail b
      then (UTF8_OK, Z.land (Z.shiftl (mask8 a) 6) 0x7ff + Z.land b 0x3f, l1)
      else (INCOMPLETE_SEQUENCE, 0, l1)
    end
  end.

Definition get_sequence_3 (l : list Z) : utf_error * Z * list Z :=
  match l with
  | [] => (NOT_ENOUGH_ROOM, 0, l)
  | a :: l1 =>
    match l1 with
    | [] => (NOT_ENOUGH_ROOM, 0, l1)
    | b :: l2 =>
      if is_trail b then
        let cp := Z.land (Z.shiftl (mask8 a) 12) 0xffff
                  + Z.land (Z.shiftl (mask8 b) 6) 0xfff in
        match l2 with
        | [] => (NOT_ENOUGH_ROOM, 0, l2)
        | c :: _ =>
          if is_trail c then (UTF8_OK, cp + Z.land c 0x3f, l2)
          else (INCOMPLETE_SEQUENCE, 0, l2)
        end
      else (INCOMPLETE_SEQUENCE, 0, l1)
    end
  end.

Definition get_sequence_4 (l : list Z) : utf_error * Z * list Z :=
  match l with
  | [] => (NOT_ENOUGH_ROOM, 0, l)
  | a :: l1 =>
    match l1 with
    | [] => (NOT_ENOUGH_ROOM, 0, l1)
    | b :: l2 =>
      if is_trail b then
        let cp := Z.land (Z.shiftl (mask8 a) 18) 0x1fffff
                  + Z.land (Z.shiftl (mask8 b) 12) 0x3ffff in
        match l2 with
        | [] => (NOT_ENOUGH_ROOM, 0, l2)
        | c :: l3 =>
          if is_trail c then
            let cp := cp + Z.land (Z.shiftl (mask8 c) 6) 0xfff in
            match l3 with
            | [] => (NOT_ENOUGH_ROOM, 0, l3)
            | d :: _ =>
              if is_trail d then (UTF8_OK, cp + Z.land d 0x3f, l3)
              else (INCOMPLETE_SEQUENCE, 0, l3)
            end
          else (INCOMPLETE_SEQUENCE, 0, l2)
        end
      else (INCOMPLETE_SEQUENCE, 0, l1)
    end
  end.

(** core.h lines 251-302: validate_next; result: error code, code point, range
    after the call (the original one on failure). *)
Definition validate_next (l : list Z) : utf_error * Z * list Z :=
  match l with
  | [] => (DEREF_END, 0, l)
  | lead :: _ =>
    let len := sequence_length lead in
    if len =? 0 then (INVALID_LEAD, 0, l)
    else
      let '(err, cp, it) :=
        if len =? 1 then get_sequence_1 l
        else if len =? 2 then get_sequence_2 l
        else if len =? 3 then get_sequence_3 l
        else get_sequence_4 l in
      match err with
      | UTF8_OK =>
        if is_code_point_valid cp then
          if negb (is_overlong_sequence cp len) then (UTF8_OK, cp, tl it)
          else (OVERLONG_SEQUENCE, cp, l)
        else (INVALID_CODE_POINT, cp, l)
      | _ => (err, cp, l)
      end
  end.

(** core.h lines 316-326: find_invalid.  The result is the range starting at the
    returned iterator; [None] only if the fuel is exhausted. *)
Fixpoint find_invalid_loop (fuel : nat) (l : list Z) : option (list Z) :=
  match l with
  | [] => Some []
  | _ =>
    match fuel with
    | O => None
    | S fuel' =>
      match validate_next l with
      | (UTF8_OK, _, rest) => find_invalid_loop fuel' rest
      | (_, _, rest) => Some rest
      end
    end
  end.
Definition find_invalid (l : list Z) : option (list Z) :=
  find_invalid_loop (length l) l.

(** core.h lines 328-332: is_valid. *)
Definition is_valid (l : list Z) : bool :=
  match find_invalid l with Some [] => true | _ => false end.

(** checked.h lines 110-134 and unchecked.h lines 38-60: append.  The result is
    the list of written bytes; [cast8] is the static_cast to uint8_t. *)
Definition cast8 (z : Z) : Z := z mod 256.
Definition unchecked_append (cp : Z) : list Z :=
  if cp <? 0x80 then [cast8 cp]
  else if cp <? 0x800 then
    [cast8 (Z.lor (Z.shiftr cp 6) 0xc0); cast8 (Z.lor (Z.land cp 0x3f) 0x80)]
  else if cp <? 0x10000 then
    [cast8 (Z.lor (Z.shiftr cp 12) 0xe0);
     cast8 (Z.lor (Z.land (Z.shiftr cp 6) 0x3f) 0x80);
     cast8 (Z.lor (Z.land cp 0x3f) 0x80)]
  else
    [cast8 (Z.lor (Z.shiftr cp 18) 0xf0);
     cast8 (Z.lor (Z.land (Z.shiftr cp 12) 0x3f) 0x80);
     cast8 (Z.lor (Z.land (Z.shiftr cp 6) 0x3f) 0x80);
     cast8 (Z.lor (Z.land cp 0x3f) 0x80)].
Definition append (cp : Z) : option (list Z) :=
  if is_code_point_valid cp then Some (unchecked_append cp) else None.

(** checked.h lines 136-154: next; the code point and the range after it. *)
Definition next (l : list Z) : option (Z * list Z) :=
  match validate_next l with
  | (UTF8_OK, cp, rest) => Some (cp, rest)
  | _ => None
  end.

(** unchecked.h lines 68-94: unchecked::next.  [None] is a read past the end of
    the buffer.  An invalid lead byte is taken as one character. *)
Definition unchecked_next (l : list Z) : option (Z * list Z) :=
  match l with
  | [] => None
  | a :: l1 =>
    let len := sequence_length a in
    if len =? 2 then
      match l1 with
      | b :: r => Some (Z.land (Z.shiftl (mask8 a) 6) 0x7ff + Z.land b 0x3f, r)
      | _ => None
      end
    else if len =? 3 then
      match l1 with
      | b :: c :: r => Some (Z.land (Z.shiftl (mask8 a) 12) 0xffff
                  + Z.land (Z.shiftl (mask8 b) 6) 0xfff + Z.land c 0x3f, r)
      | _ => None
      end
    else if len =? 4 then
      match l1 with
      | b :: c :: d :: r => Some (Z.land (Z.shiftl (mask8 a) 18) 0x1fffff
                  + Z.land (Z.shiftl (mask8 b) 12) 0x3ffff
                  + Z.land (Z.shiftl (mask8 c) 6) 0xfff + Z.land d 0x3f, r)
      | _ => None
      end
    else Some (mask8 a, l1)
  end.

(** checked.h lines 162-175: prior.  The text before the iterator is given
    reversed; [seen] collects the bytes passed on the way back.  The result is
    the code point and the (reversed) text before the new position. *)
Fixpoint prior_loop (rprefix seen : list Z) : option (Z * list Z) :=
  match rprefix with
  | [] => None
  | b :: r =>
    if is_trail b then prior_loop r (b :: seen)
    else match next (b :: seen) with
         | Some (cp, _) => Some (cp, r)
         | None => None
         end
  end.
Definition prior (prefix : list Z) : option (Z * list Z) :=
  match prior_loop (rev prefix) [] with
  | Some (cp, r) => Some (cp, rev r)
  | None => None
  end.

(** unchecked.h lines 102-108: unchecked::prior, same conventions. *)
Fixpoint unchecked_prior_loop (rprefix seen : list Z) : option (Z * list Z) :=
  match rprefix with
  | [] => None
  | b :: r =>
    if is_trail b then unchecked_prior_loop r (b :: seen)
    else match unchecked_next (b :: seen) with
         | Some (cp, _) => Some (cp, r)
         | None => None
         end
  end.
Definition unchecked_prior (prefix : list Z) : option (Z * list Z) :=
  match unchecked_prior_loop (rev prefix) [] with
  | Some (cp, r) => Some (cp, rev r)
  | None => None
  end.

(** checked.h lines 189-204: advance/distance; the number of [next] calls needed
    to reach the end; [None] if one of them throws. *)
Fixpoint distance_loop (fuel : nat) (l : list Z) : option nat :=
  match l with
  | [] => Some O
  | _ =>
    match fuel with
    | O => None
    | S fuel' =>
      match next l with
      | Some (_, rest) => option_map S (distance_loop fuel' rest)
      | None => None
      end
    end
  end.
Definition distance (l : list Z) : option nat := distance_loop (length l) l.

(** checked.h lines 72-101: replace_invalid with a back-inserting output
    iterator.  [None] is an exception.  Line 95 reads the end iterator before
    comparing with it; the model stops at the end (for a std::string the byte
    there is 0, which is not a trail byte). *)
Fixpoint skip_trail (l : list Z) : list Z :=
  match l with
  | b :: r => if is_trail b then skip_trail r else l
  | [] => []
  end.
Fixpoint replace_invalid_loop (fuel : nat) (replacement : Z) (l : list Z)
  : option (list Z) :=
  match l with
  | [] => Some []
  | _ =>
    match fuel with
    | O => None
    | S fuel' =>
      match validate_next l with
      | (UTF8_OK, _, rest) =>
        option_map (fun out => firstn (length l - length rest) l ++ out)
                   (replace_invalid_loop fuel' replacement rest)
      | (NOT_ENOUGH_ROOM, _, _) => None
      | (DEREF_END, _, _) => None
      | (INVALID_LEAD, _, rest) =>
        match append replacement with
        | None => None
        | Some r => option_map (fun out => r ++ out)
                      (replace_invalid_loop fuel' replacement (tl rest))
        end
      | (_, _, rest) =>
        match append replacement with
        | None => None
        | Some r => option_map (fun out => r ++ out)
                      (replace_invalid_loop fuel' replacement (skip_trail (tl rest)))
        end
      end
    end
  end.
Definition replace_invalid (replacement : Z) (l : list Z) : option (list Z) :=
  replace_invalid_loop (length l) replacement l.

(** core.h lines 51-52: constants of the surrogate arithmetic (uint16/uint32). *)
Definition LEAD_OFFSET : Z := (0xd800 - Z.shiftr 0x10000 10) mod 2 ^ 16.
Definition SURROGATE_OFFSET : Z := (0x10000 - Z.shiftl 0xd800 10 - 0xdc00) mod 2 ^ 32.

(** checked.h lines 233-246: utf8to16. *)
Fixpoint utf8to16_loop (fuel : nat) (l : list Z) : option (list Z) :=
  match l with
  | [] => Some []
  | _ =>
    match fuel with
    | O => None
    | S fuel' =>
      match next l with
      | None => None
      | Some (cp, rest) =>
        let units :=
          if 0xffff <? cp
          then [(Z.shiftr cp 10 + LEAD_OFFSET) mod 2 ^ 16;
                (Z.land cp 0x3ff + 0xdc00) mod 2 ^ 16]
          else [cp mod 2 ^ 16] in
        option_map (fun out => units ++ out) (utf8to16_loop fuel' rest)
      end
    end
  end.
Definition utf8to16 (l : list Z) : option (list Z) := utf8to16_loop (length l) l.

(** checked.h lines 206-231: utf16to8. *)
Definition mask16 (u : Z) : Z := Z.land 0xffff u.
Fixpoint utf16to8 (us : list Z) : option (list Z) :=
  match us with
  | [] => Some []
  | u :: us1 =>
    let cp := mask16 u in
    if is_lead_surrogate cp then
      match us1 with
      | [] => None
      | t :: us2 =>
        let trail := mask16 t in
        if is_trail_surrogate trail then
          match append ((Z.shiftl cp 10 + trail + SURROGATE_OFFSET) mod 2 ^ 32) with
          | None => None
          | Some bs => option_map (fun out => bs ++ out) (utf16to8 us2)
          end
        else None
      end
    else if is_trail_surrogate cp then None
    else match append cp with
         | None => None
         | Some bs => option_map (fun out => bs ++ out) (utf16to8 us1)
         end
  end.

(** Model of the text processing of the web server: server/server/request_handler.cpp
    (url_decode, the path check of handle_request) and server/psi_server.cpp (include,
    parseNamesAndValues, urlDecode).  Strings are lists of bytes (0..255); they are
    shorter than 2^31, so positions fit into int. *)
From Coq Require Import List ZArith Bool Arith.
Import ListNotations.
Open Scope Z_scope.

(** Value of a hexadecimal digit. *)
Definition hex_digit (c : Z) : option Z :=
  if (48 <=? c) && (c <=? 57) then Some (c - 48)
  else if (65 <=? c) && (c <=? 70) then Some (c - 55)
  else if (97 <=? c) && (c <=? 102) then Some (c - 87)
  else None.
Definition is_space (c : Z) : bool := (c =? 32) || ((9 <=? c) && (c <=? 13)).
Definition is_sign (c : Z) : bool := (c =? 43) || (c =? 45).

(** Extraction of an int in base 16 from a stream holding two characters
    (istringstream >> hex): white space is skipped, a sign is allowed, reading stops
    at the first character that is not a digit; "0x" alone is an error. *)
Definition extract_hex (a b : Z) : option Z :=
  if is_space a then hex_digit b
  else if is_sign a then
    match hex_digit b with
    | Some v => Some (if a =? 45 then - v else v)
    | None => None
    end
  else
    match hex_digit a with
    | None => None
    | Some x =>
        match hex_digit b with
        | Some y => Some (16 * x + y)
        | None => if (a =? 48) && ((b =? 120) || (b =? 88)) then None else Some x
        end
    end.

(** request_handler.cpp lines 77-114: url_decode; [None]: it returns false. *)
Fixpoint url_decode (s : list Z) : option (list Z) :=
  match s with
  | [] => Some []
  | c :: s' =>
      if c =? 37 then
        match s' with
        | a :: b :: s'' =>
            match extract_hex a b with
            | Some v => match url_decode s'' with Some r => Some (v mod 256 :: r) | None => None end
            | None => None
            end
        | _ => None
        end
      else if c =? 43 then match url_decode s' with Some r => Some (32 :: r) | None => None end
      else match url_decode s' with Some r => Some (c :: r) | None => None end
  end.

(** std::string::find. *)
Fixpoint prefixb (p s : list Z) : bool :=
  match p, s with
  | [], _ => true
  | x :: p', y :: s' => (x =? y) && prefixb p' s'
  | _, [] => false
  end.
Fixpoint find_in (p s : list Z) (i : nat) : option nat :=
  if prefixb p s then Some i
  else match s with [] => None | _ :: s' => find_in p s' (S i) end.
Definition find_from (p s : list Z) (pos : nat) : option nat := find_in p (skipn pos s) pos.

Definition INDEX_HTML : list Z := [105; 110; 100; 101; 120; 46; 104; 116; 109; 108].

(** What ifstream sees of a string: everything before the first NUL. *)
Fixpoint c_str (s : list Z) : list Z :=
  match s with [] => [] | c :: s' => if c =? 0 then [] else c :: c_str s' end.

(** request_handler.cpp lines 23-58: the name of the file to open; [None]: the
    request is answered with "bad request". *)
Definition file_to_open (doc_root uri : list Z) : option (list Z) :=
  match url_decode uri with
  | None => None
  | Some [] => None
  | Some path =>
      if negb (hd 0 path =? 47) then None
      else match find_from [46; 46] path 0 with
           | Some _ => None
           | None =>
               let path' := if last path 0 =? 47 then path ++ INDEX_HTML else path in
               Some (c_str (doc_root ++ path'))
           end
  end.

(** ** psi_server.cpp lines 213-235: urlDecode of a form value.
    [None]: sscanf leaves j without a value, or gets one by a way not modelled
    (white space or a sign after the percent sign). *)
Definition scan_hex (s : list Z) : option Z :=
  match s with
  | [] => None
  | [a] => hex_digit a
  | a :: b :: _ =>
      match hex_digit a with
      | None => None
      | Some x =>
          match hex_digit b with
          | Some y => Some (16 * x + y)
          | None => if (a =? 48) && ((b =? 120) || (b =? 88)) then None else Some x
          end
      end
  end.
Fixpoint form_decode (fuel : nat) (s : list Z) : option (list Z) :=
  match fuel, s with
  | _, [] => Some []
  | O, _ => None
  | S f, c :: s' =>
      if c =? 37 then
        match scan_hex s' with
        | Some v => match form_decode f (skipn 2 s') with Some r => Some (v mod 256 :: r) | None => None end
        | None => None
        end
      else match form_decode f s' with Some r => Some (c :: r) | None => None end
  end.

(** psi_server.cpp lines 196-201: blanks are sent as +. *)
Definition plus_to_space (s : list Z) : list Z := map (fun c => if c =? 43 then 32 else c) s.

(** std::string::substr(p, n) with an int n, negative meaning a huge size_t. *)
Definition sub_from (s : list Z) (p : nat) (n : Z) : option (list Z) :=
  if Nat.ltb (length s) p then None
  else Some (if n <? 0 then skipn p s else firstn (Z.to_nat n) (skipn p s)).

Definition to_int (o : option nat) : Z := match o with Some n => Z.of_nat n | None => -1 end.

(** psi_server.cpp lines 178-207: parseNamesAndValues, the loop; the result is the
    list of addDataToCurrentSession calls.  [Hang]: the number of iterations allowed
    is used up. *)
Inductive form_result := Done (writes : list (list Z * list Z)) | Throw | Unspecified | Hang.
Definition cons_write (w : list Z * list Z) (r : form_result) : form_result :=
  match r with Done ws => Done (w :: ws) | _ => r end.

Fixpoint parse_form (fuel : nat) (uri : list Z) (p : nat) : form_result :=
  match fuel with
  | O => Hang
  | S f =>
      let q := to_int (find_from [61] uri p) in
      match sub_from uri p (q - Z.of_nat p) with
      | None => Throw
      | Some name =>
          let p1 := Z.to_nat (q + 1) in
          let q1 := to_int (find_from [38] uri p1) in
          match sub_from uri p1 (if q1 =? -1 then -1 else q1 - Z.of_nat p1) with
          | None => Throw
          | Some value =>
              let v1 := plus_to_space value in
              match form_decode (length v1) v1 with
              | None => Unspecified
              | Some v =>
                  if q1 =? -1 then Done [(name, v)]
                  else cons_write (name, v) (parse_form f uri (Z.to_nat (q1 + 1)))
              end
          end
      end
  end.

(** ** psi_server.cpp lines 72-102: include; [gen] is the map of the registered
    functions applied to a code.  "<!--#psis" and "-->". *)
Definition OPEN : list Z := [60; 33; 45; 45; 35; 112; 115; 105; 115].
Definition CLOSE : list Z := [45; 45; 62].

Section Include.
Variable gen : list Z -> option (list Z).

Inductive include_result := IDone (reply : list Z) | IThrow | IHang.

Fixpoint include_loop (fuel : nat) (reply : list Z) (p : nat) : include_result :=
  match fuel with
  | O => IHang
  | S f =>
      match find_from OPEN reply p with
      | None => IDone reply
      | Some p =>
          match find_from CLOSE reply p with
          | None => IDone reply
          | Some q0 =>
              let q := (q0 + 3)%nat in
              let reply_len := length reply in
              match sub_from reply (p + 10) (Z.of_nat q - Z.of_nat p - 14) with
              | None => IThrow
              | Some code =>
                  let inserted := match gen code with Some t => t | None => [] end in
                  let reply' := firstn p reply ++ inserted ++ skipn q reply in
                  include_loop f reply' (Z.to_nat (Z.of_nat q + Z.of_nat (length reply') - Z.of_nat reply_len))
              end
          end
      end
  end.
Definition include (reply : list Z) : include_result := include_loop (S (length reply)) reply 0.
End Include.

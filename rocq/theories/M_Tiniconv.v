(** Model of the conversion of encodings: tiniconv/encdec/utf8.h, tiniconv/encdec/ucs2.h,
    tiniconv/tiniconv.c (tiniconv_convert) and common/encoding_converter.cpp (the three
    convert and convert_).  Simplifications: bytes and characters are numbers; the bytes
    from s on with n of them left are a list; the output state is left out (only the encoders of
    UTF-7 and ISO-2022-JP use it); these two, the Chinese sets, Big5 and the sets with
    combining characters (1255, 1258) are given from outside; so is what uchardet detects.
    The warnings are left out. *)
From Coq Require Import String Ascii.
From Coq Require Import List ZArith Bool Lia.
From Verif Require Import M_Charsets.
Import ListNotations.
Open Scope Z_scope.

(** tiniconv_int.h lines 24-27, the answers of xxx_mb2wc: a character with the number of bytes
    read and the new state, RET_ILSEQ, RET_TOOFEW(k) with the new state. *)
Inductive dres := DOk (wc : Z) (k : nat) (st : Z) | DIlseq | DFew (k : nat) (st : Z).
(** and of xxx_wc2mb: the bytes written, RET_ILUNI, RET_TOOSMALL *)
Inductive eres := EOk (e : list Z) | EIlun | ESmall.
Record codec := { mb2wc : Z -> list Z -> dres; wc2mb : Z -> nat -> eres }.

(** utf8.h lines 27-97, utf8_mbtowc *)
Definition tr (b : Z) : Z := Z.lxor b 0x80.
Definition ok (b : Z) : bool := tr b <? 0x40.
Definition at_ (s : list Z) (i : nat) : Z := nth i s 0.
Definition utf8_mbtowc (st : Z) (s : list Z) : dres :=
  let c := at_ s 0 in let n := length s in
  if c <? 0x80 then DOk c 1 st
  else if c <? 0xc2 then DIlseq
  else if c <? 0xe0 then
    if (n <? 2)%nat then DFew 0 st
    else if negb (ok (at_ s 1)) then DIlseq
    else DOk (Z.lor (Z.shiftl (Z.land c 0x1f) 6) (tr (at_ s 1))) 2 st
  else if c <? 0xf0 then
    if (n <? 3)%nat then DFew 0 st
    else if negb (ok (at_ s 1) && ok (at_ s 2) && ((0xe1 <=? c) || (0xa0 <=? at_ s 1))) then DIlseq
    else DOk (Z.lor (Z.lor (Z.shiftl (Z.land c 0x0f) 12) (Z.shiftl (tr (at_ s 1)) 6)) (tr (at_ s 2))) 3 st
  else if c <? 0xf8 then
    if (n <? 4)%nat then DFew 0 st
    else if negb (ok (at_ s 1) && ok (at_ s 2) && ok (at_ s 3) && ((0xf1 <=? c) || (0x90 <=? at_ s 1))) then DIlseq
    else DOk (Z.lor (Z.lor (Z.lor (Z.shiftl (Z.land c 0x07) 18) (Z.shiftl (tr (at_ s 1)) 12))
                (Z.shiftl (tr (at_ s 2)) 6)) (tr (at_ s 3))) 4 st
  else if c <? 0xfc then
    if (n <? 5)%nat then DFew 0 st
    else if negb (ok (at_ s 1) && ok (at_ s 2) && ok (at_ s 3) && ok (at_ s 4) && ((0xf9 <=? c) || (0x88 <=? at_ s 1)))
      then DIlseq
    else DOk (Z.lor (Z.lor (Z.lor (Z.lor (Z.shiftl (Z.land c 0x03) 24) (Z.shiftl (tr (at_ s 1)) 18))
                (Z.shiftl (tr (at_ s 2)) 12)) (Z.shiftl (tr (at_ s 3)) 6)) (tr (at_ s 4))) 5 st
  else if c <? 0xfe then
    if (n <? 6)%nat then DFew 0 st
    else if negb (ok (at_ s 1) && ok (at_ s 2) && ok (at_ s 3) && ok (at_ s 4) && ok (at_ s 5)
                  && ((0xfd <=? c) || (0x84 <=? at_ s 1)))
      then DIlseq
    else DOk (Z.lor (Z.lor (Z.lor (Z.lor (Z.lor (Z.shiftl (Z.land c 0x01) 30) (Z.shiftl (tr (at_ s 1)) 24))
                (Z.shiftl (tr (at_ s 2)) 18)) (Z.shiftl (tr (at_ s 3)) 12)) (Z.shiftl (tr (at_ s 4)) 6)) (tr (at_ s 5))) 6 st
  else DIlseq.

(** utf8.h lines 99-128, utf8_wctomb: the cases of the switch from [count] down, each of which
    falls into the next one. *)
Definition utf8_cases : list (nat * Z) :=
  [(6%nat, 0x4000000); (5%nat, 0x200000); (4%nat, 0x10000); (3%nat, 0x800); (2%nat, 0xc0)].
Fixpoint utf8_put (l : list (nat * Z)) (count : nat) (wc : Z) (acc : list Z) : list Z :=
  match l with
  | [] => Z.land wc 255 :: acc
  | (j, m) :: l' =>
    if (j <=? count)%nat
    then utf8_put l' count (Z.lor (Z.shiftr wc 6) m) (Z.lor 0x80 (Z.land wc 0x3f) :: acc)
    else utf8_put l' count wc acc
  end.
Definition utf8_count (wc : Z) : option nat :=
  if wc <? 0x80 then Some 1%nat
  else if wc <? 0x800 then Some 2%nat
  else if wc <? 0x10000 then Some 3%nat
  else if wc <? 0x200000 then Some 4%nat
  else if wc <? 0x4000000 then Some 5%nat
  else if wc <=? 0x7fffffff then Some 6%nat
  else None.
Definition utf8_wctomb (wc : Z) (n : nat) : eres :=
  match utf8_count wc with
  | None => EIlun
  | Some count => if (n <? count)%nat then ESmall else EOk (utf8_put utf8_cases count wc [])
  end.
Definition utf8_codec : codec := {| mb2wc := utf8_mbtowc; wc2mb := utf8_wctomb |}.

(** ucs2.h lines 28-49, ucs2_mbtowc: the byte order marks are read over; a swapped one turns the
    byte order. *)
Fixpoint ucs2_loop (st : Z) (s : list Z) (count : nat) : dres :=
  match s with
  | a :: b :: s' =>
    let wc := if st =? 0 then Z.shiftl a 8 + b else a + Z.shiftl b 8 in
    if wc =? 0xfeff then ucs2_loop st s' (2 + count)
    else if wc =? 0xfffe then ucs2_loop (Z.lxor st 1) s' (2 + count)
    else if (0xd800 <=? wc) && (wc <? 0xe000) then DIlseq
    else DOk wc (2 + count) st
  | _ => DFew count st
  end.
Definition ucs2_mbtowc (st : Z) (s : list Z) : dres := ucs2_loop st s 0.
(** ucs2.h lines 55-67, ucs2_wctomb *)
Definition ucs2_wctomb (wc : Z) (n : nat) : eres :=
  if (wc <? 0x10000) && negb (wc =? 0xfffe) && negb ((0xd800 <=? wc) && (wc <? 0xe000))
  then if (2 <=? n)%nat then EOk [Z.land (Z.shiftr wc 8) 255; Z.land wc 255] else ESmall
  else EIlun.
Definition ucs2_codec : codec := {| mb2wc := ucs2_mbtowc; wc2mb := ucs2_wctomb |}.

(** A one-byte set as a pair of functions; the answer [Beyond] never comes, see C91_sets. *)
Definition one_byte_codec (cs : charset) : codec :=
  {| mb2wc := fun st s => match mbtowc cs (at_ s 0) with Value v => DOk v 1 st | _ => DIlseq end;
     wc2mb := fun wc n => match wctomb cs wc with Value c => EOk [c] | _ => EIlun end |}.

(** tiniconv.h lines 146-150 *)
Definition CONVERT_OK : Z := 0.
Definition IN_TOO_SMALL : Z := -1.
Definition OUT_TOO_SMALL : Z := -2.
Definition IN_ILSEQ : Z := -3.
Definition OUT_ILSEQ : Z := -4.

(** The options of tiniconv.h lines 128-131. *)
Record opts := { ignore_in : bool; ignore_out : bool; out_char : Z }.
(** The result, the number of bytes read, the bytes written and the state left. *)
Record outcome := { o_code : Z; o_read : nat; o_out : list Z; o_state : Z }.

(** tiniconv.c lines 46-133, tiniconv_convert: [from] reads, [to] writes.  Every round reads a
    byte at least, so the length of the input is fuel enough. *)
Fixpoint convert_loop (fuel : nat) (from to : codec) (o : opts) (st : Z) (s : list Z) (read : nat)
    (out : list Z) (size : nat) : outcome :=
  let stop c s0 := {| o_code := c; o_read := read; o_out := out; o_state := s0 |} in
  match fuel with
  | O => stop CONVERT_OK st
  | S fuel' =>
    match s with
    | [] => stop CONVERT_OK st
    | _ :: _ =>
      if negb (length out <? size)%nat then stop CONVERT_OK st
      else
        match mb2wc from st s with
        | DIlseq =>
          if ignore_in o then convert_loop fuel' from to o 0 (skipn 1 s) (read + 1) out size
          else stop IN_ILSEQ st
        | DFew 0 st1 => stop IN_TOO_SMALL st1
        | DFew k st1 => convert_loop fuel' from to o st1 (skipn k s) (read + k) out size
        | DOk wc k st1 =>
          match wc2mb to wc (size - length out) with
          | EOk e => convert_loop fuel' from to o st1 (skipn k s) (read + k) (out ++ e) size
          | EIlun =>
            if ignore_out o then convert_loop fuel' from to o st1 (skipn k s) (read + k) (out ++ [out_char o]) size
            else stop OUT_ILSEQ st
          | ESmall => stop OUT_TOO_SMALL st
          end
        end
    end
  end.
Definition convert (from to : codec) (o : opts) (st : Z) (s : list Z) (size : nat) : outcome :=
  convert_loop (length s) from to o st s 0 [] size.

(** encoding_converter.cpp lines 10-56: ASCII and CHARSET_CODES. *)
Definition ASCII : string := "ascii/unknown".
Definition CHARSET_CODES : list (string * Z) :=
  [(ASCII, 0); ("windows-1250", 1); ("windows-1251", 2); ("windows-1252", 3); ("windows-1253", 4);
   ("windows-1254", 5); ("windows-1255", 6); ("windows-1256", 7); ("windows-1257", 8); ("windows-1258", 9);
   ("CP939", 10); ("HZ-GB-2312", 11); ("GBK", 12); ("ISO-2020-JP", 13); ("ISO-8859-1", 14); ("ISO-8859-2", 15);
   ("ISO-8859-3", 16); ("ISO-8859-4", 17); ("ISO-8859-5", 18); ("ISO-8859-6", 19); ("ISO-8859-7", 20);
   ("ISO-8859-8", 21); ("ISO-8859-9", 22); ("ISO-8859-10", 23); ("ISO-8859-11", 24); ("ISO-8859-13", 25);
   ("ISO-8859-14", 26); ("ISO-8859-15", 27); ("ISO-8859-16", 28); ("CP866", 29); ("KOI8-R", 30); ("KOI8-RU", 31);
   ("KOI8-U", 32); ("x-max-cyrillic", 33); ("UCS-2", 34); ("UTF-7", 35); ("UTF-8", 36); ("GB-2312", 37);
   ("Big5", 38)]%string.
Fixpoint code_of (name : string) (l : list (string * Z)) : option Z :=
  match l with
  | [] => None
  | (n, c) :: l' => if String.eqb n name then Some c else code_of name l'
  end.

Fixpoint find_set (id : Z) (l : list (Z * charset)) : option charset :=
  match l with
  | [] => None
  | (i, cs) :: l' => if i =? id then Some cs else find_set id l'
  end.

Section Converter.
  (** the encodings that are not modelled *)
  Variable other : Z -> codec.
  (** the size of the output buffer, BUFFER_SIZE, encoding_converter.cpp line 74 *)
  Variable buffer_size : nat.

  (** tiniconv_desc.c lines 76-118, tiniconv_charset_map *)
  Definition codec_of (id : Z) : codec :=
    match find_set id one_byte_sets with
    | Some cs => one_byte_codec cs
    | None => if id =? 36 then utf8_codec else if id =? 34 then ucs2_codec else other id
    end.

  (** What a char const * shows of bytes: those before the first zero byte. *)
  Fixpoint c_string (s : list Z) : list Z :=
    match s with
    | [] => []
    | b :: s' => if b =? 0 then [] else b :: c_string s'
    end.

  (** TINICONV_OPTION, line 71, with the '?' of tiniconv_init *)
  Definition plain : opts := {| ignore_in := false; ignore_out := false; out_char := 63 |}.

  (** encoding_converter.cpp lines 135-167, convert_ *)
  Definition convert_ids (from to : Z) (text : list Z) : option (list Z) :=
    let r := convert (codec_of from) (codec_of to) plain 0 (c_string text) (buffer_size - 1) in
    if o_code r <? OUT_TOO_SMALL then None else Some (c_string (o_out r)).

  (** lines 112-133, convert with both encodings *)
  Definition convert_text (target from to : string) (text : list Z) : list Z :=
    match code_of from CHARSET_CODES, code_of to CHARSET_CODES with
    | Some a, Some b =>
      if String.eqb from ASCII || String.eqb from to || String.eqb from target then text
      else match convert_ids a b text with Some t => t | None => text end
    | _, _ => text
    end.
  (** lines 169-175, the other two *)
  Definition convert_from (target from : string) (text : list Z) : list Z := convert_text target from target text.
  Definition convert_any (detect : list Z -> string) (target : string) (text : list Z) : list Z :=
    convert_text target (detect text) target text.
End Converter.

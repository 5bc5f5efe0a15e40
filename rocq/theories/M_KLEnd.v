(** Model of KLEndEncode and KLEndDecode,
    tools/lemmatizers/lamerlemma/utility_functions.cpp lines 95-143.
    Characters are signed chars as [Z]; size_t is 64 bits wide. *)
From Coq Require Import List ZArith Bool.
Import ListNotations.
Open Scope Z_scope.

(** Conversion to (signed) char and to size_t. *)
Definition to_char (z : Z) : Z := (z + 128) mod 256 - 128.
Definition to_size (z : Z) : Z := z mod 2 ^ 64.

(** std::string::substr; [None] is the exception std::out_of_range. *)
Definition substr (s : list Z) (pos len : Z) : option (list Z) :=
  if Z.of_nat (length s) <? pos then None
  else Some (firstn (Z.to_nat (Z.min len (Z.of_nat (length s)))) (skipn (Z.to_nat pos) s)).

(** Lines 105-107: the inner loop, from j = 1 on; [ref] starts at i+1 and [code]
    at 1. *)
Fixpoint common (ref code : list Z) : nat :=
  match ref, code with
  | r :: ref', c :: code' => if r =? c then S (common ref' code') else O
  | _, _ => O
  end.

(** Lines 102-117: the search, [ref] is the part of asRef from index [i] on.
    toCode[0] of an empty string is the terminating NUL. *)
Fixpoint search (ref code : list Z) (i maxLength maxi : nat) : nat * nat :=
  match ref with
  | [] => (maxLength, maxi)
  | r :: ref' =>
      let '(ml, mi) :=
        if r =? hd 0 code then
          let len := S (common ref' (tl code)) in
          if Nat.ltb maxLength len then (len, i) else (maxLength, maxi)
        else (maxLength, maxi) in
      if Nat.ltb (length ref) ml then (ml, mi)
      else search ref' code (S i) ml mi
  end.

(** Lines 95-125: KLEndEncode. *)
Definition kl_encode (ref code : list Z) : option (list Z) :=
  let '(ml, mi) := search ref code 0 0 0 in
  let K := to_char (65 + Z.of_nat mi) in
  let L := to_char (to_size (65 + Z.of_nat (length ref) - (Z.of_nat mi + Z.of_nat ml))) in
  match substr code (Z.of_nat ml) (2 ^ 64 - 1) with
  | None => None
  | Some e => Some (K :: L :: e)
  end.

(** Lines 127-143: KLEndDecode; [None] is out_of_range, or an invalid code of
    fewer than two characters. *)
Definition kl_decode (ref code : list Z) : option (list Z) :=
  match code with
  | K :: L :: e =>
      let cutFront := K - 65 in
      let cutBack := L - 65 in
      let decodedLen := to_size (Z.of_nat (length ref) - to_size cutFront - to_size cutBack) in
      match substr ref (to_size cutFront) decodedLen with
      | None => None
      | Some s => Some (s ++ e)
      end
  | _ => None
  end.

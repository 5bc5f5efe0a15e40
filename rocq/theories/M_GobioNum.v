(** Model of two helpers of the gobio parser (tools/parsers/gobio): the scrambling of texts with pseudo-random numbers
    (translator/prandseq.cpp lines 4-68, prandseq.h lines 6-29) and the numbers of attribute values (registrar/number_master.cpp
    lines 6-102, registrar.tpl lines 6-30).
    Simplifications: bytes are numbers from 0 to 255 (the sign of char goes away with the cast); int is unbounded for the numbers
    of strings; an assertion that fails is None. *)
From Coq Require Import String Ascii.
From Coq Require Import List Arith ZArith Bool.
From Verif Require Import M_ScoreRead.
Import ListNotations.
Local Open Scope Z_scope.

(* ------------------------------------------------------------------ *)
(** ** prandseq.cpp *)

(** prandseq.h lines 23-29; unsigned int on GNU *)
Record imoa_key := mkKey { x_4 : Z; x_3 : Z; x_2 : Z; x_1 : Z; carry : Z }.
Definition u32 (n : Z) : Z := n mod 2 ^ 32.
Definition u64 (n : Z) : Z := n mod 2 ^ 64.

(** lines 46-60, imoa_random: the first product is of 64 bits, the others are products of an int and an unsigned int, so of
    32 bits *)
Definition imoa_random (k : imoa_key) : Z * imoa_key :=
  let s := u64 (2111111111 * x_4 k) in
  let s := u64 (s + u32 (1492 * x_3 k)) in
  let s := u64 (s + u32 (1776 * x_2 k)) in
  let s := u64 (s + u32 (5115 * x_1 k)) in
  let s := u64 (s + carry k) in
  let x := s mod 2 ^ 32 in
  (x, mkKey (x_3 k) (x_2 k) (x_1 k) x (u32 (s / 2 ^ 32))).

(** lines 62-68, imoa_irandom; the difference does not overflow for the intervals that are asked for *)
Definition imoa_irandom (k : imoa_key) (min max : Z) : Z * imoa_key :=
  let iinterval := max - min + 1 in
  if iinterval <=? 0 then (- 2 ^ 31, k)
  else let '(r, k') := imoa_random k in
       let i := r mod iinterval in
       let i := if iinterval <=? i then iinterval - 1 else i in
       (min + i, k').

(** lines 24-44, imoaxor, for both kinds of texts *)
Fixpoint imoaxor (text : list Z) (k : imoa_key) : list Z * imoa_key :=
  match text with
  | [] => ([], k)
  | c :: text' =>
    let '(n, k1) := imoa_irandom k 0 256 in
    let '(rest, k2) := imoaxor text' k1 in
    (Z.lxor c n mod 256 :: rest, k2)
  end.

(** lines 4-22, prandomSequence and doxor *)
Definition prandom (x : Z) : Z := u32 (x + 1).
Fixpoint doxor (text : list Z) (key : Z) : list Z * Z :=
  match text with
  | [] => ([], key)
  | c :: text' =>
    let key := prandom key in
    let '(rest, key') := doxor text' key in
    (Z.lxor c key mod 256 :: rest, key')
  end.

(* ------------------------------------------------------------------ *)
(** ** number_master.cpp *)

Definition int_limit : Z := 65535.
Definition lit (s : string) : str := list_ascii_of_string s.
(** lines 18-26 *)
Definition is_int (v : Z) : bool := v <=? int_limit.
Definition is_string (v : Z) : bool := (int_limit <? v) || (v =? -1) || (v =? 0).
(** lines 59-64 and 28-33 *)
Definition from_int (i : Z) : option Z := if i <=? int_limit then Some i else None.
Definition to_int (v : Z) : option Z := if is_int v then Some v else None.
(** lines 66-72, with the registrar, whose get_id (registrar.tpl lines 6-18) is that of a vocabulary *)
Definition from_string (reg : list str) (s : str) : list str * Z :=
  if str_eqb s (lit "any") || str_eqb s (lit "nil") then (reg, 0)
  else if str_eqb s (lit "fail") || str_eqb s (lit "false") || str_eqb s (lit "empty") then (reg, -1)
  else let '(reg', n) := store reg s in (reg', Z.of_nat n + 1 + int_limit).
(** lines 35-43; None is the assertion or an object that is not there *)
Definition to_string (reg : list str) (v : Z) : option str :=
  if negb (is_string v) then None
  else if v =? 0 then Some (lit "nil") else if v =? -1 then Some (lit "fail")
  else nth_error reg (Z.to_nat (v - (1 + int_limit))).
(** lines 45-57: the number, to be printed, or the string *)
Definition representation (reg : list str) (v : Z) : option (Z + str) :=
  if is_int v then Some (inl v) else match to_string reg v with Some s => Some (inr s) | None => None end.
(** lines 74-77 and 89-102 *)
Definition from_bool (b : bool) : Z := if b then 0 else -1.
Definition is_true (v : Z) : bool := negb (v =? -1).

(** Model of tools/translators/bonsai/rules/ListCoders.h (VarIntType, Simple9) and
    of MonotonicVector.hpp from the same directory. *)
From Coq Require Import List NArith Arith Bool.
Import ListNotations.
Open Scope N_scope.

Definition W64 : N := 2 ^ 64.
Definition W32 : N := 2 ^ 32.

(** ** VarIntType<T>, ListCoders.h lines 7-97 *)
Section VarInt.
(** [sh] is sizeof(T)*8-1, the number of payload bits of a code unit. *)
Variable sh : N.
Definition msb : N := 2 ^ sh.

(** ListCoders.h lines 25-33, the loop of EncodeSymbol.  [fuel] bounds the number
    of iterations; the input loses [sh] bits in each of them.  The mask ~msb is
    written as the [sh] low bits: for T narrower than int the higher bits of the
    mask are dropped by the conversion of the result to T. *)
Fixpoint vi_loop (fuel : nat) (input : N) : list N :=
  match fuel with
  | O => []
  | S fuel' =>
      if input =? 0 then []
      else
        let res := N.land input (N.ones sh) in
        let input' := N.shiftr input sh in
        (if input' =? 0 then res else N.lor res msb) :: vi_loop fuel' input'
  end.

(** ListCoders.h lines 11-34: EncodeSymbol. *)
Definition vi_encode_symbol (input : N) : list N :=
  if input =? 0 then [0] else vi_loop (N.size_nat input) input.

(** ListCoders.h lines 36-56: DecodeSymbol into a size_t.  [None]: the assertion
    fails (the data end within a symbol) or a shift reaches the width of
    size_t (undefined behaviour). *)
Fixpoint vi_decode_loop (its : list N) (i : N) (output : N) : option (N * list N) :=
  match its with
  | [] => None
  | u :: its' =>
      if 64 <=? sh * i then None
      else if N.testbit u sh then
        vi_decode_loop its' (i + 1)
          (N.lor output (N.shiftl (N.clearbit u sh) (sh * i) mod W64))
      else Some (N.lor output (N.shiftl u (sh * i) mod W64), its')
  end.
Definition vi_decode_symbol (its : list N) : option (N * list N) := vi_decode_loop its 0 0.

(** ListCoders.h lines 60-68. *)
Definition vi_encode (xs : list N) : list N := flat_map vi_encode_symbol xs.

(** ListCoders.h lines 70-80; fuel: every symbol consumes a unit. *)
Fixpoint vi_decode_fuel (fuel : nat) (its : list N) : option (list N) :=
  match its with
  | [] => Some []
  | _ =>
      match fuel with
      | O => None
      | S fuel' =>
          match vi_decode_symbol its with
          | None => None
          | Some (x, its') => option_map (cons x) (vi_decode_fuel fuel' its')
          end
      end
  end.
Definition vi_decode (its : list N) : option (list N) := vi_decode_fuel (length its) its.

(** ListCoders.h lines 82-96: DecodeAndSum; also returns the advanced iterator. *)
Fixpoint vi_sum_loop (num : nat) (its : list N) (sum : N) : option (N * list N) :=
  match num, its with
  | O, _ => Some (sum, its)
  | _, [] => Some (sum, [])
  | S num', _ =>
      match vi_decode_symbol its with
      | None => None
      | Some (x, its') => vi_sum_loop num' its' ((sum + x) mod W64)
      end
  end.
Definition vi_decode_and_sum (its : list N) (num : nat) : option (N * list N) :=
  vi_sum_loop num its 0.
End VarInt.

(** ** Simple9, ListCoders.h lines 105-281 *)
Section Simple9.
(** [reqbit v] is (uint)ceil(log(v+1)/log(2)) computed in double precision. *)
Variable reqbit : N -> N.

(** ListCoders.h lines 118-129: type and field width for a group length. *)
Definition s9_type (length : nat) : N * N :=
  match length with
  | 1%nat => (1, 28) | 2%nat => (2, 14) | 3%nat => (3, 9) | 4%nat => (4, 7)
  | 5%nat => (5, 5) | 7%nat => (6, 4) | 9%nat => (7, 3) | 14%nat => (8, 2)
  | 28%nat => (9, 1)
  | _ => (0, 0)
  end.

(** ListCoders.h lines 134-141: the loop of EncodeSymbol. *)
Fixpoint s9_pack (bitlength : N) (vals : list N) (output : N) : N :=
  match vals with
  | [] => output
  | v :: vals' =>
      s9_pack bitlength vals'
        (N.lor output (N.shiftl v (bitlength * N.of_nat (length vals')) mod W32))
  end.

(** ListCoders.h lines 110-142: EncodeSymbol. *)
Definition s9_encode_symbol (vals : list N) : N :=
  let '(type, bitlength) := s9_type (length vals) in
  s9_pack bitlength vals (N.shiftl type 28 mod W32).

(** ListCoders.h lines 149-165: field width, first shift, mask. *)
Definition s9_layout (type : N) : N * N * N :=
  match type with
  | 1 => (28, 0, 268435455) | 2 => (14, 14, 16383) | 3 => (9, 18, 511)
  | 4 => (7, 21, 127) | 5 => (5, 20, 31) | 6 => (4, 24, 15)
  | 7 => (3, 24, 7) | 8 => (2, 26, 3) | 9 => (1, 27, 1)
  | _ => (0, 0, 0)
  end.

(** ListCoders.h lines 167-174: the loop of DecodeSymbol; the shift decreases by
    a positive width, 28 iterations are enough. *)
Fixpoint s9_unpack (fuel : nat) (input bitlen shift mask : N) : list N :=
  match fuel with
  | O => []
  | S fuel' =>
      if 0 <? shift then
        N.land (N.shiftr input shift) mask :: s9_unpack fuel' input bitlen (shift - bitlen) mask
      else [N.land input mask]
  end.
Definition s9_decode_symbol (input : N) : list N :=
  let '(bitlen, shift, mask) := s9_layout (N.shiftr input 28) in
  s9_unpack 28 input bitlen shift mask.

(** ListCoders.h lines 197-207: the loop of DecodeAndSumSymbol; returns the sum
    and the new value of curr. *)
Fixpoint s9_sum_unpack (fuel : nat) (input bitlen shift mask : N) (num curr : nat) (sum : N)
  : N * nat :=
  match fuel with
  | O => (sum, curr)
  | S fuel' =>
      if 0 <? shift then
        let sum' := (sum + N.land (N.shiftr input shift) mask) mod W64 in
        if (S curr =? num)%nat then (sum', S curr)
        else s9_sum_unpack fuel' input bitlen (shift - bitlen) mask num (S curr) sum'
      else ((sum + N.land input mask) mod W64, S curr)
  end.
Definition s9_sum_symbol (input : N) (num curr : nat) : N * nat :=
  let '(bitlen, shift, mask) := s9_layout (N.shiftr input 28) in
  s9_sum_unpack 28 input bitlen shift mask num curr 0.

(** ListCoders.h line 214. *)
Definition s9_parts : list nat := [1; 2; 3; 4; 5; 7; 9; 14; 28]%nat.

(** ListCoders.h lines 225-246: the loop that chooses the length of the next
    group of [rest]; yields lastyes.  [None]: division by zero for a value that
    needs no bits, or the assertion on reqbit fails.  lastpos grows in every
    iteration and is below 28. *)
Fixpoint s9_choose (fuel : nat) (rest : list N) (lastbit : N) (lastpos lastyes j : nat)
  : option nat :=
  match fuel with
  | O => Some lastyes
  | S fuel' =>
      if ((j <? 9) && (lastpos <? 28) && (lastpos <? length rest))%nat then
        let j' := if (nth j s9_parts 0 <=? lastpos)%nat then S j else j in
        let rb := reqbit (nth lastpos rest 0) in
        if rb =? 0 then None
        else if 28 <? rb then None
        else
          let bit := 28 / (28 / rb) in
          let lastbit' := if lastbit <? bit then bit else lastbit in
          if N.of_nat (nth j' s9_parts 0%nat) <=? 28 / lastbit' then
            let lastyes' := if (S lastpos =? nth j' s9_parts 0)%nat then lastpos else lastyes in
            s9_choose fuel' rest lastbit' (S lastpos) lastyes' j'
          else Some lastyes
      else Some lastyes
  end.

(** ListCoders.h lines 211-256: Encode. *)
Fixpoint s9_encode_fuel (fuel : nat) (rest : list N) : option (list N) :=
  match rest with
  | [] => Some []
  | _ =>
      match fuel with
      | O => None
      | S fuel' =>
          match s9_choose 29 rest 1 0 0 0 with
          | None => None
          | Some lastyes =>
              option_map (cons (s9_encode_symbol (firstn (S lastyes) rest)))
                         (s9_encode_fuel fuel' (skipn (S lastyes) rest))
          end
      end
  end.
Definition s9_encode (xs : list N) : option (list N) := s9_encode_fuel (length xs) xs.

(** ListCoders.h lines 258-266. *)
Definition s9_decode (ws : list N) : list N := flat_map s9_decode_symbol ws.

(** ListCoders.h lines 268-280; [None]: the assertion fails. *)
Fixpoint s9_sum_loop (ws : list N) (num curr : nat) (sum : N) : option N :=
  match ws with
  | [] => if (curr =? num)%nat then Some sum else None
  | w :: ws' =>
      if (curr <? num)%nat then
        let '(d, curr') := s9_sum_symbol w num curr in
        s9_sum_loop ws' num curr' ((sum + d) mod W64)
      else if (curr =? num)%nat then Some sum else None
  end.
Definition s9_decode_and_sum (ws : list N) (num : nat) : option N := s9_sum_loop ws num 0 0.

(** ** MonotonicVector.hpp of bonsai *)
(** [step] is stepSize; positions are size_t. *)
Variable step : nat.

(** MonotonicVector.hpp lines 32-38. *)
Record bvec := BV {
  bv_anchors : list nat;
  bv_diffs : list N;
  bv_temp : list N;
  bv_msize : nat;
  bv_last : N;
  bv_final : bool
}.
Definition bv_empty : bvec := BV [] [] [] 0 0 false.

(** MonotonicVector.hpp lines 45-48. *)
Definition bv_size (v : bvec) : nat := (bv_msize v + length (bv_temp v))%nat.

(** MonotonicVector.hpp lines 50-68; [None]: an assertion of the coders fails. *)
Definition bv_at (v : bvec) (i : nat) : option N :=
  let j := nth (i / step) (bv_anchors v) O in
  let r := (i mod step)%nat in
  match vi_decode_and_sum 31 (skipn j (bv_diffs v)) 1 with
  | None => None
  | Some (k, it) =>
      if (i <? bv_msize v)%nat then
        option_map (fun d => (k + d) mod W64) (s9_decode_and_sum it r)
      else if (i <? bv_msize v + length (bv_temp v))%nat then
        Some (fold_left (fun k d => (k + d) mod W64) (firstn r (bv_temp v)) k)
      else Some k
  end.

(** MonotonicVector.hpp lines 80-110; m_tempDiffs holds unsigned int.
    [None]: an assertion fails or Simple9 divides by zero. *)
Definition bv_push_back (v : bvec) (i : N) : option bvec :=
  if bv_final v then None
  else if ((length (bv_anchors v) =? 0) && (length (bv_temp v) =? 0))%nat then
    Some (BV (bv_anchors v ++ [O]) (bv_diffs v ++ vi_encode 31 [i]) (bv_temp v)
             (bv_msize v + 1) i (bv_final v))
  else if (length (bv_temp v) =? step - 1)%nat then
    match s9_encode (bv_temp v) with
    | None => None
    | Some ws =>
        let d := bv_diffs v ++ ws in
        Some (BV (bv_anchors v ++ [length d]) (d ++ vi_encode 31 [i]) []
                 (bv_msize v + (length (bv_temp v) + 1)) i (bv_final v))
    end
  else
    Some (BV (bv_anchors v) (bv_diffs v)
             (bv_temp v ++ [((i + W64 - bv_last v) mod W64) mod W32])
             (bv_msize v) i (bv_final v)).

(** MonotonicVector.hpp lines 112-120. *)
Definition bv_commit (v : bvec) : option bvec :=
  if bv_final v then None
  else
    match s9_encode (bv_temp v) with
    | None => None
    | Some ws => Some (BV (bv_anchors v) (bv_diffs v ++ ws) []
                          (bv_msize v + length (bv_temp v)) (bv_last v) true)
    end.

Fixpoint bv_pushes (v : bvec) (xs : list N) : option bvec :=
  match xs with
  | [] => Some v
  | x :: xs' => match bv_push_back v x with None => None | Some v' => bv_pushes v' xs' end
  end.
End Simple9.

(** Model of tools/datastructures/psi_query/fsa_hash_fsa.hpp: an automaton as an ordered perfect
    hash.  The automaton is seen through getArcs, isEndState and size; the weights that the
    constructor writes into the arcs are kept in a table beside it, one list for each state.
    Weights are 32-bit unsigned (fsa_types.hpp line 9), counts are size_t, the hash index is an int;
    wrap-around is explicit, signed overflow is modelled as wrap-around. *)
From Coq Require Import List ZArith Bool.
From Verif Require Import M_Fsa.
Import ListNotations.
Local Open Scope nat_scope.

Definition w32 (z : Z) : Z := (z mod 2 ^ 32)%Z.
Definition w64 (z : Z) : Z := (z mod 2 ^ 64)%Z.
Definition s32 (z : Z) : Z := (let r := z mod 2 ^ 32 in if r <? 2 ^ 31 then r else r - 2 ^ 32)%Z.

Record counts := Counts { c_counts : list Z; c_weights : list (list Z) }.
Definition c_get (c : counts) (s : nat) : Z := nth s (c_counts c) 0%Z.
Definition c_set (c : counts) (s : nat) (z : Z) : counts := Counts (update s (fun _ => z) (c_counts c)) (c_weights c).
Definition c_weight (c : counts) (s i : nat) (z : Z) : counts :=
  Counts (c_counts c) (update s (update i (fun _ => z)) (c_weights c)).
(** rec_compute_word_numbers, lines 205-220; the loop over the arcs first, [i] is the number of arcs
    passed.  [None]: the recursion does not end within the given depth.  The type of the counts is
    given by the wrap-around [wrap] of a sum. *)
Section Rec.
Context (wrap : Z -> Z) (rec : nat -> counts -> option counts) (s : nat).
Fixpoint number_arcs (i : nat) (l : list arc) (c : counts) : option counts :=
  match l with
  | [] => Some c
  | (_, q) :: l' =>
      match rec q (c_weight c s i (w32 (c_get c s))) with
      | None => None
      | Some c => number_arcs (S i) l' (c_set c s (wrap (c_get c s + c_get c q)%Z))
      end
  end.
End Rec.
Fixpoint number_words (wrap : Z -> Z) (fuel : nat) (f : view) (s : nat) (c : counts) : option counts :=
  match fuel with
  | O => None
  | S fuel =>
      if (c_get c s =? 0)%Z then
        match number_arcs wrap (number_words wrap fuel f) s 0 (v_arcs f s) c with
        | None => None
        | Some c => Some (if v_is_end f s then c_set c s (wrap (c_get c s + 1)%Z) else c)
        end
      else Some c
  end.
(** The constructor, lines 272-279.  The depth of the recursion in an automaton without cycles is at
    most the number of states. *)
Record hasher := Hasher { h_fsa : view; h_weights : list (list Z); h_size : Z }.
Definition make_hasher (f : view) : option hasher :=
  let c := Counts (repeat 0%Z (v_size f)) (map (fun s => repeat 0%Z (length (v_arcs f s))) (seq 0 (v_size f))) in
  match number_words w64 (S (v_size f)) f 0 c with
  | None => None
  | Some c => Some (Hasher f (c_weights c) (c_get c 0))
  end.
Definition h_weight (h : hasher) (s i : nat) : Z := nth i (nth s (h_weights h) []) 0%Z.

(** find, lines 222-230: std::lower_bound with destination -1, which is smaller than every destination
    since states are signed.  The result is the number of arcs before the one found. *)
Fixpoint first_from (a : symbol) (l : list arc) : nat :=
  match l with
  | [] => 0
  | x :: l' => if (fst x <? a)%Z then S (first_from a l') else 0
  end.
(** hash, lines 315-340. *)
Fixpoint hash_from (h : hasher) (index : Z) (s : nat) (w : list symbol) : Z :=
  match w with
  | [] => if v_is_end (h_fsa h) s then w64 (s32 (index - 1)) else h_size h
  | a :: w' =>
      let i := first_from a (v_arcs (h_fsa h) s) in
      match nth_error (v_arcs (h_fsa h) s) i with
      | None => h_size h
      | Some (_, q) =>
          let index := s32 (index + h_weight h s i) in
          let index := if v_is_end (h_fsa h) q then s32 (index + 1) else index in
          hash_from h index q w'
      end
  end.
Definition hash (h : hasher) (w : list symbol) : Z := hash_from h 0 0 w.

(** binsearch_num, lines 256-270, on the weights of one state; [last] is the position of the last arc. *)
Fixpoint binsearch (fuel : nat) (ws : list Z) (last : Z) (value : Z) (l r : Z) : Z :=
  match fuel with
  | O => last
  | S fuel =>
      if (l <=? r)%Z then
        let m := (l + (r - l) / 2)%Z in
        let wm := nth (Z.to_nat m) ws 0%Z in
        if (wm <? value)%Z && ((m =? last)%Z || (value <=? nth (Z.to_nat (m + 1)) ws 0%Z)%Z) then m
        else if (wm <? value)%Z then binsearch fuel ws last value (m + 1) r
        else binsearch fuel ws last value l (m - 1)
      else last
  end.
(** find_num, lines 232-243.  std::distance is called from the end to the beginning, so it is negative
    and as a size_t above 10 whenever the state has arcs: the linear search is never used.  Without arcs
    the result is an uninitialised iterator: [None]. *)
Definition find_num (h : hasher) (s : nat) (count : Z) : option nat :=
  let n := length (v_arcs (h_fsa h) s) in
  if n =? 0 then None
  else Some (Z.to_nat (binsearch (S n) (nth s (h_weights h) []) (Z.of_nat n - 1) (w32 count) 0 (Z.of_nat n - 1))).
(** unhash, lines 347-368. *)
Fixpoint unhash_from (fuel : nat) (h : hasher) (index : Z) (s : nat) : option (list symbol) :=
  if (index =? 0)%Z then Some [] else
  match fuel with
  | O => None
  | S fuel =>
      match find_num h s index with
      | None => None
      | Some i =>
          match nth_error (v_arcs (h_fsa h) s) i with
          | None => None
          | Some (a, q) =>
              let index := w64 (index - h_weight h s i) in
              let index := if v_is_end (h_fsa h) q then w64 (index - 1) else index in
              match unhash_from fuel h index q with
              | None => None
              | Some w => Some (a :: w)
              end
          end
      end
  end.
(** The assertion of line 349 is the first test. *)
Definition unhash (h : hasher) (index : Z) : option (list symbol) :=
  if (index <? h_size h)%Z then unhash_from (v_size (h_fsa h)) h (w64 (index + 1)) 0 else None.

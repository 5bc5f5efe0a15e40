(** Model of common/edit_distance.hpp.  Elements have a decidable equality.
    [unsigned int] overflow is not modelled: all numbers are bounded by the
    lengths of the two strings plus one. *)
From Coq Require Import List Arith Bool ZArith.
Import ListNotations.

Section Edit.
Context {T : Type} (eqb : T -> T -> bool).

(** edit_distance.hpp lines 18-21, the inner loop over [j]: [left] is col[j],
    [prev] is prevCol from index j on; returns col[j+1..]. *)
Fixpoint inner (x : T) (s2 : list T) (left : nat) (prev : list nat) : list nat :=
  match s2, prev with
  | y :: s2', p :: ((p' :: _) as prev') =>
      let v := Nat.min (Nat.min (1 + left) (1 + p')) (p + (if eqb x y then 0 else 1)) in
      v :: inner x s2' v prev'
  | _, _ => []
  end.

(** edit_distance.hpp lines 16-23, the outer loop over [i]. *)
Fixpoint outer (i : nat) (s1 s2 : list T) (prev : list nat) : list nat :=
  match s1 with
  | [] => prev
  | x :: s1' => outer (S i) s1' s2 ((i + 1) :: inner x s2 (i + 1) prev)
  end.

(** edit_distance.hpp lines 8-26: levenshteinDistance. *)
Definition levenshtein (s1 s2 : list T) : nat :=
  nth (length s2) (outer 0 s1 s2 (seq 0 (length s2 + 1))) 0.

(** edit_distance.hpp lines 28-42: findTheMostSimilarString; [best] and
    [shortest] are the two local variables ([distance] is converted to int). *)
Fixpoint most_similar_loop (string : list T) (container : list (list T))
    (best : list T) (shortest : nat) : list T :=
  match container with
  | [] => best
  | e :: rest =>
      let d := levenshtein e string in
      if d <? shortest then most_similar_loop string rest e d
      else most_similar_loop string rest best shortest
  end.
Definition findTheMostSimilarString (string : list T) (container : list (list T)) : list T :=
  most_similar_loop string container [] 99.
End Edit.

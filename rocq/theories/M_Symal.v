(** Model of tools/translators/bonsai/utils/binaries/symal.cpp lines 123-384: the symmetrisation of word alignments.
    [m], [n]: numbers of words of the source and of the target; [a j] (1 <= j <= m) is the target word
    of the source word j, [b i] (1 <= i <= n) the source word of i, 0 if there is none.
    A point is (i, j); a std::set of points is the increasing list of its elements.  A coordinate -1 is 0
    here, both are refused.  Not modelled: getals (its asserts are hypotheses of the theorems), main. *)
From Coq Require Import String Ascii List ZArith Bool Arith DecimalString.
Import ListNotations.
Local Open Scope nat_scope.

Definition point := (nat * nat)%type.
(** std::pair's operator<, std::set's insert, and the iterator after the one at [p]. *)
Definition less (p q : point) : bool := (fst p <? fst q) || ((fst p =? fst q) && (snd p <? snd q)).
Definition same (p q : point) : bool := (fst p =? fst q) && (snd p =? snd q).
Fixpoint insert (p : point) (l : list point) : list point :=
  match l with [] => [p] | q :: l' => if less p q then p :: l else if same p q then l else q :: insert p l' end.
Definition next (p : point) (l : list point) : option point := hd_error (filter (less p) l).

Section Sentence.
Variables m n : nat.
Variables a b : nat -> nat.

(** Lines 129-135, 158-160, 182-184, 206-208: the pairs that are printed, in order; here as points. *)
Definition union_points : list point :=
  flat_map (fun j => if negb (a j =? 0) then [(a j, j)] else []) (seq 1 m) ++
  flat_map (fun i => if negb (b i =? 0) && negb (a (b i) =? i) then [(i, b i)] else []) (seq 1 n).
Definition intersection_points : list point :=
  flat_map (fun j => if negb (a j =? 0) && (b (a j) =? j) then [(a j, j)] else []) (seq 1 m).
Definition inverse_points : list point := flat_map (fun i => if negb (b i =? 0) then [(i, b i)] else []) (seq 1 n).
Definition direct_points : list point := flat_map (fun j => if negb (a j =? 0) then [(a j, j)] else []) (seq 1 m).

(** Lines 60-62 and 256-269: currentpoints, unionalignment, ea, fa, A. *)
Record grid := { cur : list point; all : list point; ea : nat -> bool; fa : nat -> bool; A : point -> Z }.
Definition set_ (f : nat -> bool) (i : nat) : nat -> bool := fun k => if k =? i then true else f k.
Definition put_ (f : point -> Z) (p : point) (v : Z) : point -> Z := fun q => if same q p then v else f q.
Definition empty : grid := {| cur := []; all := []; ea := fun _ => false; fa := fun _ => false; A := fun _ => 0%Z |}.
(** Lines 311-314, 335-339, 354-358. *)
Definition add (p : point) (g : grid) : grid :=
  {| cur := insert p (cur g); all := all g; ea := set_ (ea g) (fst p); fa := set_ (fa g) (snd p); A := put_ (A g) p 2 |}.
(** Lines 271-290. *)
Definition fill_direct (g : grid) (j : nat) : grid :=
  if negb (a j =? 0) then
    let p := (a j, j) in
    let g1 := {| cur := cur g; all := insert p (all g); ea := ea g; fa := fa g; A := A g |} in
    if b (a j) =? j then add p g1
    else {| cur := cur g1; all := all g1; ea := ea g1; fa := fa g1; A := put_ (A g1) p (-1) |}
  else g.
Definition fill_inverse (g : grid) (i : nat) : grid :=
  if negb (b i =? 0) && negb (a (b i) =? i) then
    {| cur := cur g; all := insert (i, b i) (all g); ea := ea g; fa := fa g; A := put_ (A g) (i, b i) 1 |}
  else g.
Definition filled : grid := fold_left fill_inverse (seq 1 n) (fold_left fill_direct (seq 1 m) empty).

(** Lines 238-249. *)
Definition neighbours (diagonal : bool) : list (point -> point) :=
  [(fun p => (fst p - 1, snd p)); (fun p => (fst p, snd p - 1)); (fun p => (fst p + 1, snd p)); (fun p => (fst p, snd p + 1))] ++
  (if diagonal then
    [(fun p => (fst p - 1, snd p - 1)); (fun p => (fst p - 1, snd p + 1)); (fun p => (fst p + 1, snd p - 1)); (fun p => (fst p + 1, snd p + 1))]
   else []).
(** Lines 301-318; the second part is [added]. *)
Definition try (s : grid * bool) (q : point) : grid * bool :=
  let g := fst s in
  if (0 <? fst q) && (fst q <=? n) && (0 <? snd q) && (snd q <=? m) &&
     ((b (fst q) =? snd q) || (a (snd q) =? fst q)) && negb (ea g (fst q) && fa g (snd q))
  then (add q g, true) else s.
(** Lines 298-320: the set is walked through while it grows. *)
Fixpoint pass (diagonal : bool) (fuel : nat) (k : option point) (s : grid * bool) : option (grid * bool) :=
  match k with
  | None => Some s
  | Some p =>
      match fuel with
      | 0 => None
      | S f =>
          let s' := fold_left (fun s o => try s (o p)) (neighbours diagonal) s in
          pass diagonal f (next p (cur (fst s'))) s'
      end
  end.
(** Lines 293-322. *)
Fixpoint grow (diagonal : bool) (fuel fuel' : nat) (g : grid) : option grid :=
  match fuel with
  | 0 => None
  | S f =>
      match pass diagonal fuel' (hd_error (cur g)) (g, false) with
      | None => None
      | Some (g', true) => grow diagonal f fuel' g'
      | Some (g', false) => Some g'
      end
  end.
(** Lines 325-365. *)
Definition last_step (both : bool) (v : Z) (g : grid) (p : point) : grid :=
  if (A g p =? v)%Z then
    if (both && negb (ea g (fst p)) && negb (fa g (snd p))) || (negb both && negb (ea g (fst p) && fa g (snd p))) then add p g else g
  else g.
Definition final_ (both : bool) (g : grid) : grid :=
  fold_left (last_step both (-1)) (all g) (fold_left (last_step both 1) (all g) g).
(** Lines 229-369: printgrow. *)
Definition printgrow (diagonal final both : bool) (fuel fuel' : nat) : option (list point) :=
  match grow diagonal fuel fuel' filled with
  | None => None
  | Some g => Some (cur (if final then final_ both g else g))
  end.
End Sentence.

(** Lines 137-144, 372-379 and the like: the line.  An int is a number without bounds. *)
Local Open Scope string_scope.
Definition number (k : nat) : string := NilEmpty.string_of_uint (Nat.to_uint k).
Definition pair_text (p : point) : string := number (snd p - 1) ++ "-" ++ number (fst p - 1) ++ " ".
Definition newline : ascii := "010"%char.
Fixpoint replace_last (s : string) : string :=
  match s with EmptyString => EmptyString | String c EmptyString => String newline EmptyString | String c s' => String c (replace_last s') end.
Definition line (ps : list point) : string :=
  let s := fold_left (fun s p => s ++ pair_text p) ps "" in
  if (String.length s =? 0)%nat then String newline EmptyString else replace_last s.

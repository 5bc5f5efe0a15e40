(** What costs of translations should be. *)
From Coq Require Import List ZArith Bool PeanoNat.
From Verif Require Import M_Lm.
Import ListNotations.
Local Open Scope nat_scope.

Section Spec.
Context {W : Type}.
Definition sum (l : list Z) : Z := fold_right Z.add 0%Z l.
Definition window (n : nat) (ws : list W) (j : nat) : list W := firstn n (skipn j ws).
(** Where the windows of n words of a text begin. *)
Definition places (n : nat) (ws : list W) : list nat := seq 0 (length ws + 1 - n).
(** The cost of a text: that of all of its windows. *)
Definition text_cost (g : model W) (ws : list W) : Z :=
  sum (map (fun j => g_cost g (window (g_n g) ws j)) (places (g_n g) ws)).
(** A window that begins at j has words on both sides of c. *)
Definition across (n c j : nat) : bool := (j <? c) && (c <? j + n).
(** The cost of the windows that have words on both sides of some of the points. *)
Definition across_cost (g : model W) (ws : list W) (cs : list nat) : Z :=
  sum (map (fun j => g_cost g (window (g_n g) ws j))
        (filter (fun j => existsb (fun c => across (g_n g) c j) cs) (places (g_n g) ws))).
Definition weighted (lms : container W) (f : model W -> Z) : Z := sum (map (fun x => (fst x * f (snd x))%Z) lms).

(** The text a target side stands for, and the texts of its nonterminals. *)
Definition text (xs : list (item W)) : list W := flat_map (fun x => match x with Word w => [w] | Child ws => ws end) xs.
Definition children (xs : list (item W)) : list (list W) :=
  flat_map (fun x => match x with Word _ => [] | Child ws => [ws] end) xs.
Definition is_word (x : item W) : Prop := match x with Word _ => True | Child _ => False end.
Definition is_child (x : item W) : Prop := match x with Word _ => False | Child _ => True end.
(** All words are before the first or after the last nonterminal. *)
Definition outside (xs : list (item W)) : Prop :=
  exists a b c, xs = a ++ b ++ c /\ Forall is_word a /\ Forall is_child b /\ Forall is_word c.
(** What is counted too much: for the words between two nonterminals all that stands before them. *)
Fixpoint excess (g : model W) (before run : list W) (xs : list (item W)) : Z :=
  match xs with
  | [] => 0%Z
  | Word w :: xs => excess g before (run ++ [w]) xs
  | Child ws :: xs =>
      ((match run with [] => 0 | _ => text_cost g (before ++ run) - text_cost g run end)
       + excess g (before ++ run ++ ws) [] xs)%Z
  end.

(** ** Trees *)
Fixpoint tree_costs (t : tree W) : Z := match t with Node c _ ts => (c + sum (map tree_costs ts))%Z end.
Fixpoint tree_text (t : tree W) : list W :=
  match t with
  | Node _ target ts =>
      let texts := map tree_text ts in
      flat_map (fun p => match p with Terminal w => [w] | Nonterminal i => nth i texts [] end) target
  end.
Definition nonterminals (target : list (piece W)) : list nat :=
  flat_map (fun p => match p with Terminal _ => [] | Nonterminal i => [i] end) target.
(** The target side has every nonterminal of the source side once. *)
Definition linear (target : list (piece W)) (n : nat) : Prop := forall i, count_occ Nat.eq_dec (nonterminals target) i = if i <? n then 1 else 0.
Definition is_terminal (p : piece W) : Prop := match p with Terminal _ => True | Nonterminal _ => False end.
Definition plain_target (target : list (piece W)) : Prop :=
  exists a b c, target = a ++ b ++ c /\ Forall is_terminal a /\ Forall (fun p => ~ is_terminal p) b /\ Forall is_terminal c.
Inductive every (P : list (piece W) -> nat -> Prop) : tree W -> Prop :=
| Every c target ts : P target (length ts) -> Forall (every P) ts -> every P (Node c target ts).
End Spec.

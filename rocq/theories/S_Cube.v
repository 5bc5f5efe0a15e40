(** What merging hyperedges should give. *)
From Coq Require Import List ZArith Bool PeanoNat Permutation.
From Verif Require Import M_Cube.
Import ListNotations.
Local Open Scope nat_scope.

Section Spec.
Context {T R : Type} (build : T -> list R -> R) (cost : R -> Z).
(** All ways to take one of each. *)
Fixpoint ways {A} (ls : list (list A)) : list (list A) :=
  match ls with [] => [[]] | l :: ls => flat_map (fun x => map (cons x) (ways ls)) l end.
(** All translations of hyperedges. *)
Definition translations (hs : list (hyper T R)) : list R :=
  flat_map (fun h => flat_map (fun t => map (build t) (ways (e_kids h))) (e_ts h)) hs.
(** Taking a later transformation, or a later translation of a nonterminal, never makes it cheaper. *)
Definition monotone (h : hyper T R) : Prop :=
  forall i j t u, i <= j -> nth_error (e_ts h) i = Some t -> nth_error (e_ts h) j = Some u ->
  forall r s l m, Forall2 le r s -> pick r (e_kids h) = Some l -> pick s (e_kids h) = Some m ->
  (cost (build t l) <= cost (build u m))%Z.
(** No iterator of a hyperedge begins at its end. *)
Definition filled (h : hyper T R) : Prop := e_ts h <> [] /\ Forall (fun q => q <> []) (e_kids h).
(** What can be said of a set whatever its comparison: what is found is not less nor greater, and what is not inserted has
    something that is not less nor greater in the set. *)
Definition set_like (lt : R -> R -> Prop) (find : list R -> R -> option R) (add : list R -> R -> list R) : Prop :=
  (forall q t u, find q t = Some u -> In u q /\ ~ lt u t /\ ~ lt t u)
  /\ (forall q t, (add q t = q /\ exists u, In u q /\ ~ lt u t /\ ~ lt t u) \/ Permutation (add q t) (t :: q)).
End Spec.

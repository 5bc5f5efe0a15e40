(** What the automaton of a parsed sentence should take. *)
From Coq Require Import List ZArith.
From Verif Require Import M_SimpleDag M_Intersector.
Import ListNotations.

(** The symbols on a way along the edges of a sentence. *)
Inductive path (es : list edge) : Z -> list Z -> Z -> Prop :=
  | path_nil t : path es t [] t
  | path_edge e w t : In e es -> path es (e_to e) w t -> path es (e_from e) (e_sym e :: w) t.
(** A symbol counts as a nonterminal if it is or was the symbol of one. *)
Definition nonterminal (nts : list Z) (trees : list (edge * list edge)) (a : Z) : Prop :=
  In a nts \/ exists lhs es, In (lhs, es) trees /\ (a = e_sym lhs \/ exists e, In e es /\ e_nt e = true /\ a = e_sym e).

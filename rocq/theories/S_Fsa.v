(** Finite automata and the languages they accept, independent of how they are stored.
    An automaton is given by its initial states, its final states and its arcs; an arc
    labelled with the symbol [eps] is passed without reading anything. *)
From Coq Require Import List ZArith.
Import ListNotations.

Definition word := list Z.
Definition lang := word -> Prop.

Section Automaton.
Context {S : Type} (eps : Z) (step : S -> Z -> S -> Prop).
Inductive path : S -> word -> S -> Prop :=
| path_nil p : path p [] p
| path_eps p q r w : step p eps q -> path q w r -> path p w r
| path_cons p a q r w : a <> eps -> step p a q -> path q w r -> path p (a :: w) r.
Definition accepted (ini fin : S -> Prop) : lang :=
  fun w => exists p q, ini p /\ fin q /\ path p w q.
End Automaton.

(** Operations on languages. *)
Definition same (L M : lang) : Prop := forall w, L w <-> M w.
Definition union (L M : lang) : lang := fun w => L w \/ M w.
Definition inter (L M : lang) : lang := fun w => L w /\ M w.
Definition concat (L M : lang) : lang := fun w => exists u v, w = u ++ v /\ L u /\ M v.
Inductive closure (L : lang) : lang :=
| closure_one w : L w -> closure L w
| closure_more u v : L u -> closure L v -> closure L (u ++ v).
Definition mirror (L : lang) : lang := fun w => L (rev w).

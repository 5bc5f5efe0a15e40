(** What is meant by the words of an automaton that is built while translating. *)
From Coq Require Import List ZArith NArith Bool Sorted Permutation.
From Verif Require Import M_Dag M_SimpleDag.
Import ListNotations.

(** A word leads from one state to another. *)
Inductive leads (d : sdag) : nat -> list Z -> nat -> Prop :=
  | leads_nil p : leads d p [] p
  | leads_arc p a q v w r : In (Warc a q v) (s_row d p) -> leads d q w r -> leads d p (a :: w) r.
Definition start_of (d : sdag) (p : nat) : Prop := N.testbit (s_starts d) (N.of_nat p) = true.
Definition words (d : sdag) (w : list Z) : Prop :=
  exists p q, start_of d p /\ leads d p w q /\ In q (s_ends d).
(** Nothing points outside of the automaton. *)
Definition whole (d : sdag) : Prop :=
  (forall p a q v, In (Warc a q v) (s_row d p) -> q < s_size d) /\
  (forall p, start_of d p -> p < s_size d) /\ (forall p, In p (s_ends d) -> p < s_size d).
(** The rows are in the order of the symbols, as std::sort leaves them. *)
Definition ordered (d : sdag) : Prop :=
  forall p, StronglySorted (fun x y => (x_sym x <= x_sym y)%Z) (s_row d p).
(** State 0 is the start state and no row has two arcs with one symbol. *)
Definition deterministic (d : sdag) : Prop :=
  (forall p, start_of d p <-> p = 0) /\ forall p, StronglySorted (fun x y => (x_sym x < x_sym y)%Z) (s_row d p).
(** What std::sort promises. *)
Definition sorts (asort : list warc -> list warc) : Prop :=
  forall l, Permutation (asort l) l /\ StronglySorted (fun x y => (x_sym x <= x_sym y)%Z) (asort l).

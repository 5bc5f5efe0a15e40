(** Model of tools/parsers/gobio/parser/agenda.hpp. *)
From Coq Require Import List ZArith Bool Permutation.
Import ListNotations.
Open Scope Z_scope.

Section Agenda.
Context {Edge Score : Type}.
(** operator< and operator== of the score type. *)
Variables (ltb eqb : Score -> Score -> bool).

(** Lines 34-44: agenda_element. *)
Record element := { edge : Edge; score : Score; tstamp : Z }.

(** Lines 46-55: score_comparator. *)
Definition less (a b : element) : bool :=
  ltb (score a) (score b) || (eqb (score a) (score b) && (tstamp b <? tstamp a)).

(** Lines 57-64: the priority queue and the next time stamp (unsigned int). *)
Record agenda := { pqueue : list element; next_tstamp : Z }.

Definition empty_agenda : agenda := {| pqueue := []; next_tstamp := 0 |}.

(** The operations, as labels with their arguments and results; the score is the one
    the chart gives for the edge at the time of the push. *)
Inductive op :=
| Push (e : Edge) (s : Score)
| Pop
| Top (e : Edge)
| Size (n : nat)
| Empty (b : bool).

(** std::priority_queue is specified by its contract only: it holds the elements
    pushed and not popped, top() is an element that is not less than any other,
    and pop() removes one such element. *)
Definition is_top (q : list element) (x : element) : Prop :=
  In x q /\ forall y, In y q -> less x y = false.

(** Lines 66-86. *)
Inductive step : agenda -> op -> agenda -> Prop :=
| step_push : forall q t e s q',
    Permutation q' ({| edge := e; score := s; tstamp := t |} :: q) ->
    step {| pqueue := q; next_tstamp := t |} (Push e s)
         {| pqueue := q'; next_tstamp := (t + 1) mod 2 ^ 32 |}
| step_pop : forall q t x q',
    is_top q x -> Permutation q (x :: q') ->
    step {| pqueue := q; next_tstamp := t |} Pop {| pqueue := q'; next_tstamp := t |}
| step_top : forall q t x,
    is_top q x -> step {| pqueue := q; next_tstamp := t |} (Top (edge x)) {| pqueue := q; next_tstamp := t |}
| step_size : forall q t,
    step {| pqueue := q; next_tstamp := t |} (Size (length q)) {| pqueue := q; next_tstamp := t |}
| step_empty : forall q t,
    step {| pqueue := q; next_tstamp := t |} (Empty (match q with [] => true | _ => false end))
         {| pqueue := q; next_tstamp := t |}.

Inductive steps : agenda -> list op -> agenda -> Prop :=
| steps_nil : forall a, steps a [] a
| steps_cons : forall a o b os c, step a o b -> steps b os c -> steps a (o :: os) c.

(** Lines 10-24: fifo_agenda; std::queue is a list. *)
Inductive fstep : list Edge -> op -> list Edge -> Prop :=
| fstep_push : forall q e s, fstep q (Push e s) (q ++ [e])
| fstep_pop : forall e q, fstep (e :: q) Pop q
| fstep_top : forall e q, fstep (e :: q) (Top e) (e :: q)
| fstep_size : forall q, fstep q (Size (length q)) q
| fstep_empty : forall q, fstep q (Empty (match q with [] => true | _ => false end)) q.
Inductive fsteps : list Edge -> list op -> list Edge -> Prop :=
| fsteps_nil : forall a, fsteps a [] a
| fsteps_cons : forall a o b os c, fstep a o b -> fsteps b os c -> fsteps a (o :: os) c.
End Agenda.
Arguments element : clear implicits.
Arguments agenda : clear implicits.
Arguments op : clear implicits.

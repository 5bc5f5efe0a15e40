(** What extraction of rules is about: spans and alignment points, without reference to the program. *)
From Coq Require Import List PeanoNat.
From Verif Require Import M_Extract.
Import ListNotations.

(** A point is a source position and a target position that are aligned. *)
Notation point := (nat * nat)%type.
(** The points of a sentence with boundary words: those given, moved by one, and the boundaries. *)
Definition all_points (boundary : bool) (nt ns : nat) (points : list point) : list point :=
  if boundary then map (fun p => (S (fst p), S (snd p))) points ++ [(0, 0); (S ns, S nt)] else points.
Definition words (boundary : bool) (k : nat) : nat := if boundary then k + 2 else k.

Definition in_t (h : span) (t : nat) : Prop := sT h <= t <= eT h.
Definition in_s (h : span) (s : nat) : Prop := sS h <= s <= eS h.
(** A pair of spans is consistent with an alignment if a word of one side is aligned to one of the other and none is aligned to
    anything outside. *)
Definition consistent (points : list point) (h : span) : Prop :=
  (exists s t, In (s, t) points /\ in_s h s /\ in_t h t)
  /\ forall s t, In (s, t) points -> (in_s h s <-> in_t h t).
Definition pair_ok (points : list point) (nt ns max : nat) (node_t node_s : nat -> nat -> bool) (h : span) : Prop :=
  consistent points h /\ sT h <= eT h < nt /\ sS h <= eS h < ns
  /\ eT h - sT h < max /\ eS h - sS h < max
  /\ node_t (sT h) (eT h) = true /\ node_s (sS h) (eS h) = true.

(** Rules with holes: [pair] tells which pairs of spans may be holes. *)
Definition size_t (h : span) : nat := S (eT h) - sT h.
Definition size_s (h : span) : nat := S (eS h) - sS h.
Fixpoint total (f : span -> nat) (hs : list span) : nat := match hs with [] => 0 | h :: hs => f h + total f hs end.
(** A pair inside of the phrase, but not all of its target, and large enough. *)
Definition hole_ok (o : options) (pair : span -> Prop) (ph h : span) : Prop :=
  pair h /\ sT ph <= sT h /\ eT h <= eT ph /\ sS ph <= sS h /\ eS h <= eS ph
  /\ ~ (sT h = sT ph /\ eT h = eT ph) /\ min_hole_t o <= size_t h /\ min_hole_s o <= size_s h
  /\ (first_word o = false -> sT h <> sT ph).
(** Holes follow each other in the target, with a word between them if required. *)
Definition after_t (o : options) (g h : span) : Prop := if consec_t o then eT g < sT h else S (eT g) < sT h.
(** In the source they are apart, with a word between them if required. *)
Definition apart_s (o : options) (g h : span) : Prop :=
  if consec_s o then eS g < sS h \/ eS h < sS g else S (eS g) < sS h \/ S (eS h) < sS g.
(** Choice points: holes at the end of the source side, and holes at its beginning or right behind another hole. *)
Definition begins (ph : span) (hs : list span) (h : span) : bool := (sS h =? sS ph) || existsb (fun g => S (eS g) =? sS h) hs.
Definition choice_points (ph : span) (hs : list span) : nat :=
  length (filter (begins ph hs) hs) + length (filter (fun h => eS h =? eS ph) hs).
(** An aligned word of the target is outside of all holes. *)
Definition aligned_left (points : list point) (ph : span) (hs : list span) : Prop :=
  exists s t, In (s, t) points /\ in_t ph t /\ forall h, In h hs -> ~ in_t h t.
Definition rule_ok (o : options) (points : list point) (pair : span -> Prop) (ph : span) (hs : list span) : Prop :=
  hs <> [] /\ length hs <= max_nonterm o
  /\ Forall (hole_ok o pair ph) hs /\ ForallOrdPairs (after_t o) hs /\ ForallOrdPairs (apart_s o) hs
  /\ total size_t hs + min_words o <= size_t ph /\ total size_s hs + min_words o <= size_s ph
  /\ size_t ph + length hs <= max_symbols_t o + total size_t hs /\ size_s ph + length hs <= max_symbols_s o + total size_s hs
  /\ choice_points ph hs <= max_scope o
  /\ (aligned_word o = true -> aligned_left points ph hs \/ (total size_t hs = size_t ph /\ total size_s hs = size_s ph)).

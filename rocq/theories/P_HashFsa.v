(** C32: the automaton as an ordered perfect hash. *)
From Coq Require Import List ZArith Bool Sorted Permutation Lia PeanoNat.
From Verif Require Import M_OrdSet L_OrdSet M_Fsa M_HashFsa L_BinFsa L_Daciuk L_HashFsa.
Import ListNotations.
Local Open Scope nat_scope.

(** Deterministic automata with sorted arcs and without cycles that do not accept the empty word and
    accept fewer than 2^31 words: the words in lexicographic order are numbered 0, 1, 2, ... *)
Record hashable (f : view) : Prop := {
  hb_sorted : sorted_view f;
  hb_closed : closed_view f;
  hb_acyclic : acyclic f;
  hb_start : 0 < v_size f;
  hb_nonempty : ~ in_lang f 0 [] }.

Theorem C32_numbers_the_words_in_order : forall f, hashable f ->
  exists ws, StronglySorted (fun u v => str_ltb u v = true) ws /\ (forall w, In w ws <-> in_lang f 0 w) /\
    ((Z.of_nat (length ws) < 2 ^ 31)%Z ->
     exists h, make_hasher f = Some h /\ h_size h = Z.of_nat (length ws) /\
       forall i w, nth_error ws i = Some w -> hash h w = Z.of_nat i /\ unhash h (Z.of_nat i) = Some w).
Proof.
  intros f [HI HC HA H0 Hn]. exists (words_of f 0). split; [|split; [intros w; now apply in_words|]].
  - exact (words_sorted f HI HC HA 0 H0).
  - intros Sm. destruct (make_spec f HC HA H0 Sm) as (h & Eh & Hf & Hs & Hw). exists h. split; [exact Eh|]. split; [exact Hs|].
    assert (Eb : eb f 0 = 0).
    { unfold eb. destruct (v_is_end f 0) eqn:E; [|reflexivity]. exfalso. apply Hn. exists 0. split; [constructor|exact E]. }
    intros i w Hi. assert (Li : i < cnt f 0) by (unfold cnt; apply nth_error_Some; intros K; pose proof (eq_trans (eq_sym K) Hi) as K'; discriminate K').
    assert (Sm' : (Z.of_nat (cnt f 0) < 2 ^ 31)%Z) by exact Sm.
    split.
    + unfold hash. rewrite (hash_at f HI HC HA h Hf Hw H0 w 0 0%Z i (reach_refl f 0) Hi); [lia|lia|lia|].
      intros ->. apply Hn. apply (in_words f HC HA 0 H0). now apply nth_error_In in Hi.
    + unfold unhash. rewrite Hs, Hf. destruct (Z.ltb_spec (Z.of_nat i) (Z.of_nat (cnt f 0))); [|lia]. rewrite small_w64 by lia.
      pose proof (unhash_at f HC HA h Hf Hw H0 Sm (v_size f) w 0 i (reach_refl f 0) Hi (goes_stops f HC HA 0 H0)) as K.
      rewrite Eb in K. replace (Z.of_nat i + 1 - Z.of_nat 0)%Z with (Z.of_nat i + 1)%Z in K by lia. exact K.
Qed.
Print Assumptions C32_numbers_the_words_in_order.

(** In particular the hash is injective on the words, and all values below the size are used. *)
Corollary C32_bijection : forall f h ws, hashable f -> NoDup ws -> (forall w, In w ws <-> in_lang f 0 w) ->
  (Z.of_nat (length ws) < 2 ^ 31)%Z -> make_hasher f = Some h ->
  (forall w, In w ws -> (0 <= hash h w < h_size h)%Z) /\
  (forall u v, In u ws -> In v ws -> hash h u = hash h v -> u = v) /\
  (forall w, In w ws -> unhash h (hash h w) = Some w) /\
  (forall i, (0 <= i < h_size h)%Z -> exists w, In w ws /\ hash h w = i /\ unhash h i = Some w).
Proof.
  intros f h ws Hf Nd Hws Sm Eh. destruct (C32_numbers_the_words_in_order f Hf) as (l & Hs & Hl & K).
  assert (Ndl : NoDup l).
  { clear -Hs. induction Hs as [|x l Hl IH Hx]; constructor; [|assumption]. intros Hin. rewrite Forall_forall in Hx.
    specialize (Hx x Hin). destruct str_ltb_strict as [Ir _ _]. rewrite (Ir x) in Hx. discriminate. }
  assert (P : Permutation ws l) by (apply NoDup_Permutation; [assumption|assumption|]; intros w; rewrite Hws, Hl; reflexivity).
  rewrite (Permutation_length P) in Sm. destruct (K Sm) as (h' & Eh' & Sz & Hh). rewrite Eh in Eh'. injection Eh' as <-.
  assert (At : forall w, In w ws -> exists i, nth_error l i = Some w) by (intros w Hw; apply In_nth_error; now rewrite <- P).
  split; [|split; [|split]].
  - intros w Hw. destruct (At w Hw) as (i & Hi). rewrite (proj1 (Hh i w Hi)), Sz. assert (i < length l) by (apply nth_error_Some; congruence). lia.
  - intros u v Hu Hv E. destruct (At u Hu) as (i & Hi). destruct (At v Hv) as (j & Hj).
    rewrite (proj1 (Hh i u Hi)), (proj1 (Hh j v Hj)) in E. assert (i = j) as -> by lia. congruence.
  - intros w Hw. destruct (At w Hw) as (i & Hi). rewrite (proj1 (Hh i w Hi)). apply (Hh i w Hi).
  - intros i Hi. rewrite Sz in Hi. destruct (nth_error l (Z.to_nat i)) as [w|] eqn:E.
    + exists w. destruct (Hh _ _ E) as [E1 E2]. rewrite Z2Nat.id in * by lia. split; [rewrite P; now apply nth_error_In in E|]. now split.
    + apply nth_error_None in E. lia.
Qed.
Print Assumptions C32_bijection.

(** Example: the words "ab", "ac", "b", "bb", "bbc". *)
Definition arcs_ex (s : nat) : list arc :=
  match s with
  | 0 => [(97%Z, 1); (98%Z, 2)]
  | 1 => [(98%Z, 4); (99%Z, 4)]
  | 2 => [(98%Z, 3)]
  | 3 => [(99%Z, 4)]
  | _ => []
  end.
Definition view_ex (arcs : nat -> list arc) (ends : list nat) (n : nat) : view :=
  {| v_size := n; v_starts := [0]; v_ends := ends; v_is_start := Nat.eqb 0; v_is_end := fun s => existsb (Nat.eqb s) ends; v_arcs := arcs |}.
Definition f_ex : view := view_ex arcs_ex [2; 3; 4] 5.
(** Arcs of automata whose arcs lead to larger states form no cycle. *)
Lemma upward_acyclic f : (forall p x, In x (v_arcs f p) -> p < snd x) -> acyclic f.
Proof.
  intros H p w Nw K. enough (L : p + length w <= p) by (destruct w; [congruence|cbn in L; lia]).
  assert (G : forall p w q, spelt f p w q -> p + length w <= q).
  { clear -H. induction 1 as [p|p a q w r Hx K IH]; cbn [length]; [lia|]. apply H in Hx. cbn in Hx. lia. }
  now apply G.
Qed.
Ltac states p := do 6 (destruct p as [|p]; [cbn [arcs_ex In]; intuition (subst; cbn; lia)|]); cbn [arcs_ex In]; intuition (subst; cbn; lia).
Example hashable_ex : hashable f_ex.
Proof.
  constructor.
  - intros p. do 5 (destruct p as [|p]; [cbn; repeat constructor|]). cbn. constructor.
  - intros p x. cbn [f_ex view_ex v_arcs v_size]. states p.
  - apply upward_acyclic. intros p x. cbn [f_ex view_ex v_arcs]. states p.
  - cbn. lia.
  - intros (q & K & E). inversion K; subst. discriminate.
Qed.
Example C32_example :
  option_map (fun h => (h_size h, map (hash h) [[97; 98]; [97; 99]; [98]; [98; 98]; [98; 98; 99]]%Z, map (unhash h) [0; 1; 2; 3; 4; 5]%Z)) (make_hasher f_ex)
  = Some (5, [0; 1; 2; 3; 4], [Some [97; 98]; Some [97; 99]; Some [98]; Some [98; 98]; Some [98; 98; 99]; None])%Z.
Proof. reflexivity. Qed.

(** With the empty word in the language its value is 2^64 - 1, all other words get the value of their
    predecessor, and the last value belongs to no word. *)
Definition f_eps : view := view_ex arcs_ex [0; 2; 3; 4] 5.
Theorem C32_empty_word_refuted : in_lang f_eps 0 [] /\ in_lang f_eps 0 [98; 98; 99]%Z /\
  option_map (fun h => (h_size h, hash h [], hash h [98; 98; 99]%Z, unhash h 0%Z, unhash h 5%Z)) (make_hasher f_eps)
  = Some (6, 2 ^ 64 - 1, 4, Some [97; 98], None)%Z.
Proof.
  split; [exists 0; split; [constructor|reflexivity]|]. split; [exists 4; split; [|reflexivity]|vm_compute; reflexivity].
  apply (spelt_cons _ _ 98%Z 2); [cbn; tauto|]. apply (spelt_cons _ _ 98%Z 3); [cbn; tauto|]. apply (spelt_cons _ _ 99%Z 4); [cbn; tauto|]. constructor.
Qed.
Print Assumptions C32_empty_word_refuted.
(** A word outside the language can get the value of a word in it: the symbol of the arc found is not
    compared with the symbol looked for.  Here "bac" gets the value of "bbc", and "a" is refused. *)
Theorem C32_foreign_word_refuted : ~ in_lang f_ex 0 [98; 97; 99]%Z /\
  option_map (fun h => (h_size h, hash h [98; 97; 99]%Z, hash h [98; 98; 99]%Z, hash h [97]%Z)) (make_hasher f_ex) = Some (5, 4, 4, 5)%Z.
Proof.
  split; [|reflexivity]. intros (q & K & _). inversion K as [|? ? q1 ? ? I1 K1]; subst. cbn in I1. destruct I1 as [I1|[I1|[]]]; [discriminate|].
  injection I1 as <-. inversion K1 as [|? ? q2 ? ? I2 K2]; subst. cbn in I2. destruct I2 as [I2|[]]; discriminate.
Qed.
Print Assumptions C32_foreign_word_refuted.

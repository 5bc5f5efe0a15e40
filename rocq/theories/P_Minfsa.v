(** C64: minfsa writes the minimal automaton of the words it is given, keeping one word in memory. *)
From Coq Require Import List ZArith Bool Sorted Permutation Lia PeanoNat.
From Verif Require Import M_OrdSet M_Fsa L_Fsa M_BinFsa L_BinFsa L_Daciuk L_FsaMin P_BinFsa M_Minfsa L_Minfsa.
Import ListNotations.
Local Open Scope nat_scope.

(** ** What is meant *)
(** The order of words as sequences of numbers. *)
Definition precedes (x y : list Z) : Prop := exists u,
  (exists b t, x = u /\ y = u ++ b :: t) \/ (exists a s b t, x = u ++ a :: s /\ y = u ++ b :: t /\ (a < b)%Z).
(** The automaton that a list of lines tells of, with start state 0. *)
Inductive leads (ls : list line) : nat -> list Z -> nat -> Prop :=
| leads_nil p : leads ls p [] p
| leads_cons p q a w r : In (Arc p q a) ls -> leads ls q w r -> leads ls p (a :: w) r.
Definition accepted (ls : list line) (p : nat) (w : list Z) : Prop := exists q, leads ls p w q /\ In (End q) ls.
Definition mentioned (ls : list line) (p : nat) : Prop :=
  (exists q a, In (Arc p q a) ls) \/ (exists q a, In (Arc q p a) ls) \/ In (End p) ls.

(** ** Lines and the automaton *)
Lemma in_lines A out : Permutation out (flat_map (lines_of A) (seq 0 (length A))) ->
  (forall p q a, In (Arc p q a) out <-> In (a, q) (a_arcs A p)) /\ (forall p, In (End p) out <-> a_end A p = true).
Proof.
  intros P. assert (Lr : forall p x, In x (a_arcs A p) -> p < length A).
  { intros p x H. destruct (Nat.lt_ge_cases p (length A)); [assumption|]. unfold a_arcs in H. rewrite nth_overflow in H by assumption. destruct H. }
  assert (Le : forall p, a_end A p = true -> p < length A).
  { intros p H. destruct (Nat.lt_ge_cases p (length A)); [assumption|]. unfold a_end in H. rewrite nth_overflow in H by assumption. discriminate. }
  split.
  - intros p q a. split.
    + intros H. apply (Permutation_in _ P) in H. apply in_flat_map in H as (p' & _ & H). unfold lines_of in H. apply in_app_iff in H as [H|H].
      * unfold arcs_out, arc_lines in H. apply in_map_iff in H as ([b r] & E & H). cbn in *. now injection E as -> -> ->.
      * unfold end_out in H. destruct (a_end A p'); [destruct H as [H|[]]; discriminate|destruct H].
    + intros H. apply (Permutation_in _ (Permutation_sym P)). apply in_flat_map. exists p. split; [apply in_seq; specialize (Lr _ _ H); lia|].
      apply in_app_iff. left. unfold arcs_out, arc_lines. apply in_map_iff. now exists (a, q).
  - intros p. split.
    + intros H. apply (Permutation_in _ P) in H. apply in_flat_map in H as (p' & _ & H). unfold lines_of in H. apply in_app_iff in H as [H|H].
      * unfold arcs_out, arc_lines in H. apply in_map_iff in H as (? & E & _). discriminate.
      * unfold end_out in H. destruct (a_end A p') eqn:E; [|destruct H]. destruct H as [[= <-]|[]]. exact E.
    + intros H. apply (Permutation_in _ (Permutation_sym P)). apply in_flat_map. exists p. split; [apply in_seq; specialize (Le _ H); lia|].
      apply in_app_iff. right. unfold end_out. rewrite H. now left.
Qed.
Lemma leads_walk A out : (forall p, inc (a_arcs A p)) -> (forall p q a, In (Arc p q a) out <-> In (a, q) (a_arcs A p)) ->
  forall w p q, leads out p w q <-> walk A p w = Some q.
Proof.
  intros I Ha. induction w as [|a w IH]; intros p q; cbn [walk].
  - split; [intros H; inversion H; reflexivity|intros [= <-]; constructor].
  - split.
    + intros H. inversion H as [|? c ? ? ? H1 H2]; subst. apply Ha in H1. rewrite (look_some _ a c (I p) H1). now apply IH.
    + destruct (look (a_arcs A p) a) as [c|] eqn:E; [|discriminate]. intros H. apply look_in, Ha in E. apply (leads_cons _ _ c); [assumption|]. now apply IH.
Qed.
Lemma accepted_acc A out : (forall p, inc (a_arcs A p)) -> Permutation out (flat_map (lines_of A) (seq 0 (length A))) ->
  forall p w, accepted out p w <-> acc A p w = true.
Proof.
  intros I P p w. destruct (in_lines A out P) as [Ha He]. unfold accepted, acc. split.
  - intros (q & H1 & H2). apply (leads_walk A out I Ha) in H1. rewrite H1. now apply He.
  - destruct (walk A p w) as [q|] eqn:E; [|discriminate]. intros H. exists q. split; [now apply (leads_walk A out I Ha)|now apply He].
Qed.
Lemma lines_nodup A l : (forall p, inc (a_arcs A p)) -> NoDup l -> NoDup (flat_map (lines_of A) l).
Proof.
  intros I. assert (Src : forall p x, In x (lines_of A p) -> (exists q a, x = Arc p q a) \/ x = End p).
  { intros p x H. unfold lines_of in H. apply in_app_iff in H as [H|H].
    - unfold arcs_out, arc_lines in H. apply in_map_iff in H as ([a q] & <- & _). left. now exists q, a.
    - unfold end_out in H. destruct (a_end A p); [destruct H as [<-|[]]; now right|destruct H]. }
  assert (One : forall p, NoDup (lines_of A p)).
  { intros p. unfold lines_of. assert (N : NoDup (arcs_out A p)).
    { unfold arcs_out, arc_lines. cbn [fst snd]. specialize (I p). clear -I. unfold inc in I. induction I as [|x l Hl IH Hx]; cbn; constructor; [|exact IH].
      rewrite Forall_forall in Hx. intros K. apply in_map_iff in K as (y & E & Hy). injection E as _ E. specialize (Hx y Hy). apply (Z.lt_neq _ _ Hx). symmetry. exact E. }
    unfold end_out. destruct (a_end A p); [|now rewrite app_nil_r]. apply (Permutation_NoDup (Permutation_cons_append _ _)). constructor; [|assumption].
    intros K. unfold arcs_out, arc_lines in K. apply in_map_iff in K as (? & E & _). discriminate. }
  induction 1 as [|p l Hp Hl IH]; cbn [flat_map]; [constructor|]. specialize (One p). revert One.
  assert (Dj : forall x, In x (lines_of A p) -> ~ In x (flat_map (lines_of A) l)).
  { intros x Hx K. apply in_flat_map in K as (p' & Hp' & K). apply Src in Hx, K. assert (p = p'); [|congruence].
    destruct Hx as [(q & a & ->)| ->], K as [(q' & a' & E)|E]; congruence. }
  revert Dj. generalize (lines_of A p). induction l0 as [|x m IHm]; intros Dj N; cbn [app]; [exact IH|]. inversion N; subst. constructor.
  - rewrite in_app_iff. intros [K|K]; [contradiction|]. apply (Dj x); [now left|assumption].
  - apply IHm; [|assumption]. intros y Hy. apply Dj. now right.
Qed.

(** ** Order *)
Lemma precedes_before x : forall y, precedes x y -> str_ltb y x = false /\ y <> x.
Proof.
  intros y (u & H). revert x y H. induction u as [|c u IH]; intros x y H.
  - destruct H as [(b & t & -> & ->)|(a & s & b & t & -> & -> & L)]; cbn.
    + split; [reflexivity|discriminate].
    + split; [|intros [= E]; lia]. destruct (Z.ltb_spec b a); [lia|]. destruct (Z.ltb_spec a b); [reflexivity|lia].
  - assert (K : exists x' y', x = c :: x' /\ y = c :: y' /\ ((exists b t, x' = u /\ y' = u ++ b :: t) \/ (exists a s b t, x' = u ++ a :: s /\ y' = u ++ b :: t /\ (a < b)%Z))).
    { destruct H as [(b & t & -> & ->)|(a & s & b & t & -> & -> & L)].
      - exists u, (u ++ b :: t). split; [reflexivity|]. split; [reflexivity|]. left. now exists b, t.
      - exists (u ++ a :: s), (u ++ b :: t). split; [reflexivity|]. split; [reflexivity|]. right. now exists a, s, b, t. }
    destruct K as (x' & y' & -> & -> & K). destruct (IH x' y' K) as [K1 K2]. split; [|congruence]. cbn. rewrite Z.ltb_irrefl. exact K1.
Qed.
Lemma sorted_climbing ws : Sorted precedes ws -> ~ In [] ws -> climbing [] ws.
Proof.
  intros S N. assert (G : forall ws w, Sorted precedes (w :: ws) -> climbing w ws).
  { clear. induction ws as [|x ws IH]; intros w S; cbn; [trivial|]. inversion S as [|? ? S1 S2]; subst. inversion S2; subst.
    apply precedes_before in H0 as [H1 H2]. split; [assumption|]. split; [assumption|]. now apply IH. }
  destruct ws as [|x ws]; cbn; [trivial|]. split; [|split].
  - now destruct x.
  - intros ->. apply N. now left.
  - now apply G.
Qed.

(** ** Theorems *)
(** The lines written: no line twice, at most one arc for a state and a symbol, and exactly the given words are accepted. *)
Theorem C64_words ws : Sorted precedes ws -> ~ In [] ws -> ws <> [] -> (Z.of_nat (length (concat ws)) < 2 ^ 31)%Z ->
  exists out, minfsa ws = Some out /\ NoDup out /\
    (forall p q q' a, In (Arc p q a) out -> In (Arc p q' a) out -> q = q') /\
    (forall w, accepted out 0 w <-> In w ws).
Proof.
  intros S N E Sm. destruct (minfsa_spec ws (sorted_climbing ws S N) E Sm) as (A & R & out & F & V & C & P & _).
  pose proof (v_inc _ _ _ _ V) as I. destruct (in_lines A out P) as [Ha He]. exists out. split; [exact F|]. split; [|split].
  - apply (Permutation_NoDup (Permutation_sym P)). apply lines_nodup; [assumption|apply seq_NoDup].
  - intros p q q' a H1 H2. apply Ha in H1, H2. exact (inc_fun _ _ _ _ (I p) H1 H2).
  - intros w. rewrite (accepted_acc A out I P). apply C.
Qed.
Print Assumptions C64_words.

(** The states are numbered without gaps, no two of them accept the same words, all of them lie on the way of a word, and no
    deterministic automaton for the words has fewer states. *)
Theorem C64_minimal ws out : Sorted precedes ws -> ~ In [] ws -> ws <> [] -> (Z.of_nat (length (concat ws)) < 2 ^ 31)%Z ->
  minfsa ws = Some out ->
  exists n, (forall p, mentioned out p <-> p < n) /\
    (forall p q, p < n -> q < n -> (forall w, accepted out p w <-> accepted out q w) -> p = q) /\
    (forall p, p < n -> exists u v, leads out 0 u p /\ accepted out p v) /\
    (forall T (m : machine T) (l : list T), In (m_start m) l -> (forall s a t, In s l -> m_next m s a = Some t -> In t l) ->
       (forall w, m_run m (m_start m) w = true <-> In w ws) -> n <= length l).
Proof.
  intros S N E Sm Eo. destruct (minfsa_spec ws (sorted_climbing ws S N) E Sm) as (A & R & out' & F & V & C & P & _).
  rewrite Eo in F. injection F as <-. pose proof (v_inc _ _ _ _ V) as I. destruct (in_lines A out P) as [Ha He].
  pose proof (accepted_acc A out I P) as Ac. pose proof (leads_walk A out I Ha) as Lw. pose proof (states_distinct A R V) as U.
  assert (Wl : forall x, x < length A -> (exists u, walk A 0 u = Some x) /\ exists v, acc A x v = true).
  { intros x Lx. apply (in_states _ _ _ _ _ V) in Lx as [Lx|[<-|[]]].
    - split; [now apply (v_reach _ _ _ _ V)|now apply (v_live _ _ _ _ V)].
    - split; [now exists []|]. destruct ws as [|w ws]; [congruence|]. exists w. apply C. now left. }
  exists (length A). split; [|split; [|split]].
  - intros p. split.
    + assert (Lr : forall p x, In x (a_arcs A p) -> p < length A).
      { intros p' x H. destruct (Nat.lt_ge_cases p' (length A)); [assumption|]. unfold a_arcs in H. rewrite nth_overflow in H by assumption. destruct H. }
      intros [(q & a & H)|[(q & a & H)|H]].
      * apply Ha in H. now apply Lr in H.
      * apply Ha in H. now apply (dests _ _ _ _ V) in H.
      * apply He in H. destruct (Nat.lt_ge_cases p (length A)); [assumption|]. unfold a_end in H. rewrite nth_overflow in H by assumption. discriminate.
    + intros Lp. destruct (Wl p Lp) as (_ & v & Hv). apply Ac in Hv as (q & H1 & H2). inversion H1 as [|? c a ? ? H3 H4]; subst.
      * right. now right.
      * left. now exists c, a.
  - intros p q Hp Hq K. apply U; [assumption..|]. intros v. apply eq_true_iff_eq. rewrite <- !Ac. apply K.
  - intros p Lp. destruct (Wl p Lp) as ((u & Hu) & v & Hv). exists u, v. split; [now apply Lw|now apply Ac].
  - intros T m l Hs Hn Hm. rewrite <- (seq_length (length A) 0).
    set (go := fix go s u := match u with [] => Some s | a :: u' => match m_next m s a with Some t => go t u' | None => None end end).
    assert (Mr : forall u s s', go s u = Some s' -> (In s l -> In s' l) /\ forall v, m_run m s (u ++ v) = m_run m s' v).
    { induction u as [|a u IH]; intros s s' K; cbn in K; [injection K as <-; now split|]. destruct (m_next m s a) as [t|] eqn:Et; [|discriminate].
      destruct (IH _ _ K) as [K1 K2]. split; [intros K3; apply K1; now apply (Hn s a)|]. intros v. cbn. now rewrite Et. }
    assert (Mn : forall u s, go s u = None -> forall v, m_run m s (u ++ v) = false).
    { induction u as [|a u IH]; intros s K v; cbn in K; [discriminate|]. cbn. destruct (m_next m s a); [now apply IH|reflexivity]. }
    apply (inject (fun x y => x < length A /\ exists u, walk A 0 u = Some x /\ go (m_start m) u = Some y)).
    + intros x x' y (Hx & u & K1 & K2) (Hx' & u' & K3 & K4). apply U; [assumption..|]. intros v.
      assert (B : forall u x, walk A 0 u = Some x -> go (m_start m) u = Some y -> acc A x v = m_run m y v).
      { intros u0 x0 W G. pose proof (acc_app A u0 0 v) as X. rewrite W in X. rewrite <- X, <- (proj2 (Mr _ _ _ G) v).
        apply eq_true_iff_eq. rewrite C. symmetry. apply Hm. }
      now rewrite (B u x K1 K2), (B u' x' K3 K4).
    + apply seq_NoDup.
    + intros x Hx. apply in_seq in Hx. assert (Lx : x < length A) by lia. destruct (Wl x Lx) as [(u & Hu) (v & Hv)].
      destruct (go (m_start m) u) as [y|] eqn:Gy.
      * exists y. split; [now apply (Mr _ _ _ Gy)|]. split; [assumption|]. now exists u.
      * exfalso. pose proof (acc_app A u 0 v) as X. rewrite Hu, Hv in X. apply C in X. apply Hm in X. rewrite (Mn _ _ Gy) in X. discriminate.
Qed.
Print Assumptions C64_minimal.

(** After any number of words only the states along the last word are in memory: all the others have been written out. *)
Theorem C64_memory ws : Sorted precedes ws -> ~ In [] ws -> (Z.of_nat (length (concat ws)) < 2 ^ 31)%Z ->
  exists f, add_words ws start = Some f /\ length (f_table f) = S (length (last ws [])).
Proof.
  intros S N Sm. destruct (add_words_min ws _ _ _ _ _ start_settled (sorted_climbing ws S N)) as (A1 & R1 & Q1 & f1 & E1 & (U1 & V1 & Hl & He) & C1 & _).
  { cbn. now rewrite Nat.add_0_r. }
  exists f1. split; [exact E1|]. pose proof (spine_length _ _ _ _ _ (v_spine _ _ _ _ V1)) as Le. unfold M_Fsa.symbol in Le. rewrite Le. rewrite <- (map_length fst (f_table f1)).
  change (length (map fst (f_table f1)) = length (0 :: Q1)). apply Permutation_length, NoDup_Permutation; [apply keyed_nodup, U1| |].
  - pose proof (nodup_parts _ _ _ _ V1) as Nd. clear -Nd. induction R1 as [|r l IH]; [exact Nd|]. apply IH. now inversion Nd.
  - intros p. rewrite in_map_iff. split.
    + intros ([p' r] & <- & Hr). apply (during_rows _ _ _ _ _ U1) in Hr as [Hr _]. now rewrite app_nil_r in Hr.
    + intros Hp. exists (p, a_arcs A1 p). split; [reflexivity|]. apply (during_rows _ _ _ _ _ U1). rewrite app_nil_r. now split.
Qed.
Print Assumptions C64_memory.

(** A repeated word, the empty word or no words at all are not provided for: delta_prefix ends without a result, and the last
    child of a state without children is asked for. *)
Theorem C64_repeated_refuted : minfsa [[1; 2]; [1; 2]]%Z = None /\ minfsa [[]; [1]]%Z = None /\ minfsa [] = None.
Proof. repeat split; vm_compute; reflexivity. Qed.
Print Assumptions C64_repeated_refuted.
(** Words out of order: a word that was not given may be accepted. *)
Theorem C64_unsorted_refuted : exists out, minfsa [[1; 1]; [2; 1]; [3]; [1; 2]]%Z = Some out /\ accepted out 0 [2; 2]%Z.
Proof.
  eexists. split; [vm_compute; reflexivity|]. exists 4. split; [|cbn; tauto]. apply (leads_cons _ _ 1); [cbn; tauto|].
  apply (leads_cons _ _ 4); [cbn; tauto|]. constructor.
Qed.
Print Assumptions C64_unsorted_refuted.

Definition some_words : list (list Z) := [[1; 2]; [1; 3; 2]; [2; 2]; [2; 2; 2]; [2; 3; 2]; [2; 3; 2; 2]; [3; 2]; [3; 3; 2]]%Z.
Example C64_some_words : Sorted precedes some_words /\ ~ In [] some_words /\
  minfsa some_words = Some [End 2; Arc 1 2 2; Arc 1 3 3; Arc 3 2 2; Arc 5 2 2; End 5; Arc 4 5 2; Arc 4 6 3; Arc 6 5 2; Arc 0 1 1; Arc 0 4 2; Arc 0 1 3]%Z.
Proof.
  split; [|split].
  - assert (G : forall u a s b t, (a < b)%Z -> precedes (u ++ a :: s) (u ++ b :: t)) by (intros u a s b t L; exists u; right; now exists a, s, b, t).
    assert (G' : forall u b t, precedes u (u ++ b :: t)) by (intros u b t; exists u; left; now exists b, t).
    unfold some_words. repeat constructor.
    + apply (G [3]%Z 2%Z [] 3%Z [2]%Z). lia.
    + apply (G [] 2%Z [3; 2; 2]%Z 3%Z [2]%Z). lia.
    + apply (G' [2; 3; 2]%Z 2%Z []).
    + apply (G [2]%Z 2%Z [2]%Z 3%Z [2]%Z). lia.
    + apply (G' [2; 2]%Z 2%Z []).
    + apply (G [] 1%Z [3; 2]%Z 2%Z [2]%Z). lia.
    + apply (G [1]%Z 2%Z [] 3%Z [2]%Z). lia.
  - cbn. intuition discriminate.
  - vm_compute. reflexivity.
Qed.

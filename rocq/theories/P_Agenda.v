(** C39: the agendas. *)
From Coq Require Import List ZArith Bool Permutation Lia Sorted.
From Verif Require Import M_Agenda.
Import ListNotations.
Open Scope Z_scope.

(** ** Specification: the pending edges in the order of insertion; the next one is
    the first among those with the best score. *)
Section Spec.
Context {Edge Score : Type}.
Variable ltb : Score -> Score -> bool.

Definition best (pending : list (Edge * Score)) (pre : list (Edge * Score)) (x : Edge * Score)
  (post : list (Edge * Score)) : Prop :=
  pending = pre ++ x :: post /\
  (forall y, In y pre -> ltb (snd y) (snd x) = true) /\
  (forall y, In y post -> ltb (snd x) (snd y) = false).

Inductive sstep : list (Edge * Score) -> op Edge Score -> list (Edge * Score) -> Prop :=
| s_push : forall p e s, sstep p (Push e s) (p ++ [(e, s)])
| s_pop : forall p pre x post, best p pre x post -> sstep p Pop (pre ++ post)
| s_top : forall p pre x post, best p pre x post -> sstep p (Top (fst x)) p
| s_size : forall p, sstep p (Size (length p)) p
| s_empty : forall p b, (b = true <-> p = []) -> sstep p (Empty b) p.
Inductive ssteps : list (Edge * Score) -> list (op Edge Score) -> list (Edge * Score) -> Prop :=
| ss_nil : forall p, ssteps p [] p
| ss_cons : forall p o q os r, sstep p o q -> ssteps q os r -> ssteps p (o :: os) r.
End Spec.

Fixpoint pushes {E S} (os : list (op E S)) : Z :=
  match os with
  | [] => 0
  | Push _ _ :: os' => 1 + pushes os'
  | _ :: os' => pushes os'
  end.

Section Proofs.
Context {Edge Score : Type}.
Variables (ltb eqb : Score -> Score -> bool).
(** The scores are linearly ordered, up to ==: operator< is a strict weak order and
    == is its equivalence (true for numbers, if there are no NaNs). *)
Definition score_order : Prop :=
  (forall x, ltb x x = false) /\
  (forall x y z, ltb x y = true -> ltb y z = true -> ltb x z = true) /\
  (forall x y z, ltb x y = false -> ltb y z = false -> ltb x z = false) /\
  (forall x y, eqb x y = true <-> ltb x y = false /\ ltb y x = false).

Notation element := (element Edge Score).
Notation agenda := (agenda Edge Score).
Notation op := (op Edge Score).
Notation is_top := (@is_top Edge Score ltb eqb).
Notation steps := (@steps Edge Score ltb eqb).

Definition pair_of (x : element) : Edge * Score := (edge x, score x).

(** The queue holds the pending edges, with increasing time stamps. *)
Definition R (a : agenda) (p : list (Edge * Score)) : Prop :=
  exists els, Permutation (pqueue a) els /\ map pair_of els = p /\
    StronglySorted (fun x y => tstamp x < tstamp y) els /\
    Forall (fun x => tstamp x < next_tstamp a) els.

Lemma StronglySorted_mid : forall (pre post : list element) x,
  StronglySorted (fun x y => tstamp x < tstamp y) (pre ++ x :: post) ->
  StronglySorted (fun x y => tstamp x < tstamp y) (pre ++ post) /\
  (forall y, In y pre -> tstamp y < tstamp x) /\ (forall y, In y post -> tstamp x < tstamp y).
Proof.
  induction pre as [|z pre IH]; intros post x H; cbn in *.
  - inversion H; subst. split; [assumption|]. split; [contradiction|]. apply Forall_forall. assumption.
  - inversion H; subst. destruct (IH _ _ H2) as (I1 & I2 & I3). split; [|split; [|assumption]].
    + constructor; [assumption|]. rewrite Forall_forall in *. intros y Hy. apply H3.
      apply in_app_or in Hy. apply in_or_app. cbn. tauto.
    + intros y [<-|Hy]; [|auto]. rewrite Forall_forall in H3. apply H3. apply in_or_app. cbn. tauto.
Qed.

Lemma StronglySorted_snoc : forall (l : list element) x,
  StronglySorted (fun x y => tstamp x < tstamp y) l -> Forall (fun y => tstamp y < tstamp x) l ->
  StronglySorted (fun x y => tstamp x < tstamp y) (l ++ [x]).
Proof.
  induction l as [|y l IH]; intros x H F; cbn; [repeat constructor|].
  inversion H; subst. inversion F; subst. constructor; [auto|].
  apply Forall_app. split; [assumption|]. constructor; [assumption|constructor].
Qed.

Lemma top_best : forall els x, score_order ->
  StronglySorted (fun x y => tstamp x < tstamp y) els -> is_top els x ->
  exists pre post, els = pre ++ x :: post /\ best ltb (map pair_of els) (map pair_of pre) (pair_of x) (map pair_of post).
Proof.
  intros els x (Oirr & Otr & Ont & Oeq) Hs [Hin Hmax].
  apply in_split in Hin. destruct Hin as (pre & post & ->). exists pre, post. split; [reflexivity|].
  apply StronglySorted_mid in Hs. destruct Hs as (_ & Hpre & Hpost).
  unfold best. rewrite map_app. split; [reflexivity|].
  assert (H : forall y, In y (pre ++ x :: post) -> ltb (score x) (score y) = false /\
             (eqb (score x) (score y) = true -> tstamp x <= tstamp y)).
  { intros y Hy. specialize (Hmax y Hy). unfold less in Hmax. apply orb_false_iff in Hmax.
    destruct Hmax as [H1 H2]. split; [assumption|]. intro E. rewrite E in H2. cbn in H2.
    apply Z.ltb_ge in H2. assumption. }
  split.
  - intros y Hy. apply in_map_iff in Hy. destruct Hy as (z & <- & Hz). cbn [pair_of snd].
    destruct (H z) as [H1 H2]; [apply in_or_app; auto|].
    destruct (ltb (score z) (score x)) eqn:E; [reflexivity|].
    assert (Heq : eqb (score x) (score z) = true) by (apply Oeq; auto).
    specialize (H2 Heq). specialize (Hpre z Hz). lia.
  - intros y Hy. apply in_map_iff in Hy. destruct Hy as (z & <- & Hz). cbn [pair_of snd].
    apply H. apply in_or_app. right. right. assumption.
Qed.

Lemma is_top_perm : forall q q' x, Permutation q q' -> is_top q x -> is_top q' x.
Proof.
  intros q q' x P [H1 H2]. split; [eapply Permutation_in; eassumption|].
  intros y Hy. apply H2. eapply Permutation_in; [symmetry; eassumption|assumption].
Qed.

Lemma step_refines : forall a o b p, score_order -> R a p -> step ltb eqb a o b ->
  0 <= next_tstamp a -> next_tstamp a + 1 < 2 ^ 32 ->
  exists q, sstep ltb p o q /\ R b q /\
    next_tstamp b = next_tstamp a + pushes [o].
Proof.
  intros a o b p Hord (els & P & M & S & F) H Hlo Hhi. inversion H; subst; cbn [pqueue next_tstamp] in *.
  - (* push *)
    exists (map pair_of els ++ [(e, s)]). split; [constructor|]. cbn [pushes]. rewrite Z.mod_small by lia. split; [|lia].
    exists (els ++ [{| edge := e; score := s; tstamp := t |}]). split; [|split; [|split]].
    + cbn [pqueue]. rewrite H0, P. apply Permutation_cons_append.
    + rewrite map_app. reflexivity.
    + apply StronglySorted_snoc; assumption.
    + apply Forall_app. cbn [next_tstamp]. split.
      * eapply Forall_impl; [|apply F]. cbn. intros; lia.
      * constructor; [cbn; lia|constructor].
  - (* pop *)
    pose proof (is_top_perm _ _ _ P H0) as Ht. destruct (top_best els x Hord S Ht) as (pre & post & -> & B).
    exists (map pair_of pre ++ map pair_of post). split; [econstructor; eassumption|]. cbn [pushes next_tstamp].
    split; [|lia]. exists (pre ++ post). apply StronglySorted_mid in S. split; [|split; [|split]].
    + cbn [pqueue]. eapply Permutation_cons_inv with (a := x). rewrite <- H1, P. symmetry. apply Permutation_middle.
    + apply map_app.
    + tauto.
    + apply Forall_app in F. destruct F as [F1 F2]. inversion F2; subst. apply Forall_app. auto.
  - pose proof (is_top_perm _ _ _ P H0) as Ht. destruct (top_best els x Hord S Ht) as (pre & post & E & B).
    exists (map pair_of els). split; [change (edge x) with (fst (pair_of x)); econstructor; eassumption|].
    cbn [pushes next_tstamp]. split; [|lia]. exists els. auto.
  - exists (map pair_of els). rewrite (Permutation_length P), <- (map_length pair_of els).
    split; [constructor|]. cbn [pushes next_tstamp]. split; [|lia]. exists els. auto.
  - exists (map pair_of els). split.
    + constructor. destruct q as [|x q].
      * apply Permutation_nil in P. subst. tauto.
      * split; [discriminate|]. intro E. apply map_eq_nil in E. subst. symmetry in P. apply Permutation_nil in P. discriminate.
    + cbn [pushes next_tstamp]. split; [|lia]. exists els. auto.
Qed.

Lemma pushes_nonneg : forall os : list op, 0 <= pushes os.
Proof. induction os as [|[] os IH]; cbn [pushes]; lia. Qed.

Lemma steps_refine : forall os a b p, score_order -> R a p -> steps a os b ->
  0 <= next_tstamp a -> next_tstamp a + pushes os + 1 < 2 ^ 32 ->
  exists q, ssteps ltb p os q /\ R b q.
Proof.
  induction os as [|o os IH]; intros a b p Hord HR H Hlo Hhi; inversion H; subst.
  - exists p. split; [constructor|assumption].
  - pose proof (pushes_nonneg os) as Hn.
    assert (Hc : pushes (o :: os) = pushes [o] + pushes os) by (destruct o; cbn [pushes]; lia).
    assert (Hn1 : 0 <= pushes [o]) by apply pushes_nonneg.
    destruct (step_refines a o b0 p Hord HR) as (q & S1 & R1 & T1); try assumption; try lia.
    destruct (IH b0 b q Hord R1) as (r & S2 & R2); try assumption; try lia.
    exists r. split; [econstructor; eassumption|assumption].
Qed.

(** ** C39 *)
(** Every run of the priority agenda is a run of the specification. *)
Theorem C39_priority : forall os b, score_order ->
  steps empty_agenda os b -> pushes os + 1 < 2 ^ 32 ->
  exists pending, ssteps ltb [] os pending.
Proof.
  intros os b Hord H Hn. destruct (steps_refine os empty_agenda b [] Hord) as (q & S & _); try assumption.
  - exists []. cbn. repeat split; constructor.
  - cbn. lia.
  - exists q. assumption.
Qed.

(** The run is never stuck: a non-empty agenda has a top (whatever the number of
    pushes). *)
Lemma exists_top : forall q : list element, score_order -> q <> [] -> exists x, is_top q x.
Proof.
  intros q (Oirr & Otr & Ont & Oeq). 
  assert (Ltr : forall x y z : element, less ltb eqb x y = false -> less ltb eqb y z = false -> less ltb eqb x z = false).
  { intros x y z H1 H2. unfold less in *. apply orb_false_iff in H1, H2. destruct H1 as [A1 A2]. destruct H2 as [B1 B2].
    apply orb_false_iff. pose proof (Ont _ _ _ A1 B1) as C1. split; [assumption|].
    destruct (eqb (score x) (score z)) eqn:E; [|reflexivity]. cbn. apply Oeq in E. destruct E as [E1 E2].
    assert (ltb (score z) (score y) = false).
    { destruct (ltb (score z) (score y)) eqn:X; [|reflexivity]. exfalso.
      pose proof (Ont _ _ _ E2 A1). congruence. }
    assert (ltb (score y) (score x) = false).
    { exact (Ont _ _ _ B1 E2). }
    rewrite (proj2 (Oeq (score x) (score y)) (conj A1 H0)) in A2.
    rewrite (proj2 (Oeq (score y) (score z)) (conj B1 H)) in B2. cbn in *.
    apply Z.ltb_ge in A2, B2. apply Z.ltb_ge. lia. }
  assert (Lrefl : forall x : element, less ltb eqb x x = false).
  { intro x. unfold less. rewrite Oirr, Z.ltb_irrefl, andb_false_r. reflexivity. }
  assert (Ltot : forall x y : element, less ltb eqb x y = true -> less ltb eqb y x = false).
  { intros x y H. unfold less in *. apply orb_true_iff in H. apply orb_false_iff. destruct H as [H|H].
    - assert (ltb (score y) (score x) = false).
      { destruct (ltb (score y) (score x)) eqn:X; [|reflexivity]. pose proof (Otr _ _ _ H X). rewrite Oirr in *. discriminate. }
      split; [assumption|]. destruct (eqb (score y) (score x)) eqn:E; [|reflexivity]. apply Oeq in E. destruct E. congruence.
    - apply andb_true_iff in H. destruct H as [H1 H2]. apply Oeq in H1. split; [tauto|].
      apply Z.ltb_lt in H2. destruct (Z.ltb_spec (tstamp x) (tstamp y)); [lia|]. apply andb_false_r. }
  induction q as [|x q IH]; intro Hne; [congruence|].
  destruct q as [|y q].
  - exists x. split; [left; reflexivity|]. intros z [<-|[]]. apply Lrefl.
  - destruct IH as (m & Hm1 & Hm2); [discriminate|].
    destruct (less ltb eqb m x) eqn:E.
    + exists x. split; [left; reflexivity|]. intros z [<-|Hz]; [apply Lrefl|].
      apply (Ltr x m z); [apply Ltot; assumption|apply Hm2; assumption].
    + exists m. split; [right; assumption|]. intros z [<-|Hz]; [assumption|apply Hm2; assumption].
Qed.

Theorem C39_progress : forall a : agenda, score_order -> pqueue a <> [] ->
  (exists b, step ltb eqb a Pop b) /\ (exists e, step ltb eqb a (Top e) a).
Proof.
  intros [q t] Hord Hne. cbn in Hne. destruct (exists_top q Hord Hne) as (x & Hx). split.
  - pose proof Hx as [Hin _]. apply in_split in Hin. destruct Hin as (l1 & l2 & E).
    exists {| pqueue := l1 ++ l2; next_tstamp := t |}. apply step_pop with (x := x); [assumption|].
    rewrite E. symmetry. apply Permutation_middle.
  - exists (edge x). constructor. assumption.
Qed.

(** The FIFO agenda: what was popped, followed by what is left, is what was pushed. *)
Fixpoint pushed (os : list op) : list Edge :=
  match os with [] => [] | Push e _ :: r => e :: pushed r | _ :: r => pushed r end.

(** [served q os]: the edges at the front whenever Pop is called. *)
Inductive served : list Edge -> list op -> list Edge -> Prop :=
| served_nil : forall q, served q [] []
| served_pop : forall q os e q' r, fstep q (@Pop Edge Score) q' -> q = e :: q' -> served q' os r -> served q (Pop :: os) (e :: r)
| served_other : forall q o q' os r, o <> Pop -> fstep q o q' -> served q' os r -> served q (o :: os) r.

Lemma fstep_det : forall q (o : op) q1 q2, fstep q o q1 -> fstep q o q2 -> q1 = q2.
Proof. intros q o q1 q2 H1 H2. destruct H1; inversion H2; subst; reflexivity. Qed.

Theorem C39_fifo : forall os q q' popped, fsteps q os q' -> served q os popped ->
  q ++ pushed os = popped ++ q'.
Proof.
  induction os as [|o os IH]; intros q q' popped H Hs.
  - inversion H; subst. inversion Hs; subst. cbn. rewrite app_nil_r. reflexivity.
  - inversion H as [|? ? b ? ? F1 F2]; subst. inversion Hs as [|? ? e q1 r G1 G2 G3|? ? q1 ? r G1 G2 G3]; subst.
    + assert (b = q1) by (eapply fstep_det; eassumption). subst. cbn. f_equal. apply IH; assumption.
    + assert (b = q1) by (eapply fstep_det; eassumption). subst.
      rewrite <- (IH _ _ _ F2 G3). destruct G2; cbn [pushed]; try reflexivity; try congruence.
      rewrite <- app_assoc. reflexivity.
Qed.

(** A top() of the FIFO agenda is the next edge to be popped. *)
Theorem C39_fifo_top : forall q e q', fstep q (@Top Edge Score e) q' -> q' = q /\ exists r, q = e :: r.
Proof. intros q e q' H. inversion H; subst. split; eauto. Qed.
End Proofs.
Print Assumptions C39_priority.
Print Assumptions C39_progress.
Print Assumptions C39_fifo.
Print Assumptions C39_fifo_top.

Lemma Z_score_order : score_order Z.ltb Z.eqb.
Proof.
  split; [apply Z.ltb_irrefl|]. split; [intros x y z; rewrite !Z.ltb_lt; lia|].
  split; [intros x y z; rewrite !Z.ltb_ge; lia|]. intros x y. rewrite Z.eqb_eq, !Z.ltb_ge. lia.
Qed.

(** a:1, b:2, c:2 are pushed: b comes out before c. *)
Example C39_witness : exists b, steps Z.ltb Z.eqb empty_agenda
  [Push 10 1; Push 20 2; Push 30 2; Top 20; Pop; Top 30; Size 2; Empty false] b.
Proof.
  eexists.
  eapply steps_cons; [apply step_push; reflexivity|].
  eapply steps_cons; [apply step_push; reflexivity|].
  eapply steps_cons; [apply step_push; reflexivity|].
  eapply steps_cons.
  { change 20 with (edge {| edge := 20; score := 2; tstamp := 1 |}). apply step_top. split; [cbn; auto|].
    intros y [<-|[<-|[<-|[]]]]; reflexivity. }
  eapply steps_cons.
  { apply step_pop with (x := {| edge := 20; score := 2; tstamp := 1 |}).
    - split; [cbn; auto|]. intros y [<-|[<-|[<-|[]]]]; reflexivity.
    - apply perm_swap. }
  eapply steps_cons.
  { change 30 with (edge {| edge := 30; score := 2; tstamp := 2 |}). apply step_top. split; [cbn; auto|].
    intros y [<-|[<-|[]]]; reflexivity. }
  eapply steps_cons; [apply step_size|].
  eapply steps_cons; [apply step_empty|].
  apply steps_nil.
Qed.

Lemma step_top_inv : forall {E S} (ltb eqb : S -> S -> bool) (a b : agenda E S) e,
  step ltb eqb a (Top e) b -> exists x, is_top ltb eqb (pqueue a) x /\ edge x = e.
Proof. intros E S ltb eqb a b e H. inversion H; subst. cbn. eauto. Qed.

(** After 2^32 - 1 pushes the time stamps wrap around and a later edge overtakes an
    earlier one of the same score. *)
Theorem C39_wrap_refuted : exists q : list (element Z Z),
  step Z.ltb Z.eqb {| pqueue := []; next_tstamp := 2 ^ 32 - 1 |} (Push 10 1) {| pqueue := q; next_tstamp := 0 |} /\
  exists q', step Z.ltb Z.eqb {| pqueue := q; next_tstamp := 0 |} (Push 20 1) {| pqueue := q'; next_tstamp := 1 |} /\
  step Z.ltb Z.eqb {| pqueue := q'; next_tstamp := 1 |} (Top 20) {| pqueue := q'; next_tstamp := 1 |} /\
  ~ step Z.ltb Z.eqb {| pqueue := q'; next_tstamp := 1 |} (Top 10) {| pqueue := q'; next_tstamp := 1 |}.
Proof.
  eexists. split; [apply (step_push _ _ [] (2 ^ 32 - 1)); reflexivity|].
  eexists. split; [apply (step_push _ _ _ 0); reflexivity|]. split.
  - change 20 with (edge {| edge := 20; score := 1; tstamp := 0 |}) at 2. apply step_top. split; [cbn; auto|].
    intros y [<-|[<-|[]]]; reflexivity.
  - intro H. apply step_top_inv in H. destruct H as (x & [Hi Hm] & Ex). cbn [pqueue] in *.
    destruct Hi as [E|[E|[]]]; subst x; [discriminate|].
    specialize (Hm {| edge := 20; score := 1; tstamp := 0 |} (or_introl eq_refl)). vm_compute in Hm. discriminate.
Qed.
Print Assumptions C39_wrap_refuted.

(** The state with the stamp about to wrap is reached by pushing and popping. *)
Theorem C39_wrap_reachable : forall n, exists os,
  steps Z.ltb Z.eqb (@empty_agenda Z Z) os {| pqueue := []; next_tstamp := Z.of_nat n mod 2 ^ 32 |}.
Proof.
  induction n as [|n (os & H)].
  - exists []. apply steps_nil.
  - exists (os ++ [Push 0 0; Pop]).
    assert (App : forall os1 (a b c : agenda Z Z) os2, steps Z.ltb Z.eqb a os1 b -> steps Z.ltb Z.eqb b os2 c -> steps Z.ltb Z.eqb a (os1 ++ os2) c).
    { induction os1; intros a0 b0 c0 os2 S1 S2; inversion S1; subst; cbn; [assumption|]. econstructor; eauto. }
    eapply App; [apply H|]. eapply steps_cons; [apply step_push; reflexivity|].
    eapply steps_cons; [|].
    + eapply step_pop; [|reflexivity]. split; [left; reflexivity|]. intros y [<-|[]]. unfold less. cbn. rewrite Z.ltb_irrefl. reflexivity.
    + rewrite Zplus_mod_idemp_l. replace (Z.of_nat n + 1) with (Z.of_nat (S n)) by lia. apply steps_nil.
Qed.
Print Assumptions C39_wrap_reachable.

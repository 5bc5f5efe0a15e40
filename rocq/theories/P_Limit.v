(** C18: the limit checker. *)
From Coq Require Import List ZArith Bool Lia ZifyBool Sorting.Permutation Sorting.Sorted.
From Verif Require Import M_Limit.
Import ListNotations.
Open Scope Z_scope.

(** ** Specification: what the calls made so far prescribe. *)
Fixpoint specified (ops : list lc_op) : list (Z * Z) :=
  match ops with
  | [] => []
  | OpAdd a l :: r => (a, l) :: specified r
  | OpUnlimited a :: r => (a, 2147483647) :: specified r
  | _ :: r => specified r
  end.
Fixpoint absolute (n : Z) (ops : list lc_op) : Z :=
  match ops with
  | [] => n
  | OpAbsolute m :: r => absolute m r
  | _ :: r => absolute n r
  end.

(** [limit] applies to [argument]: it was specified for the least specified
    argument that is not smaller, and was the first one specified for it; or no
    specified argument is large enough and [limit] is the absolute limit. *)
Definition applicable (specs : list (Z * Z)) (abs argument limit : Z) : Prop :=
  (exists pre a post, specs = pre ++ (a, limit) :: post /\ argument <= a /\
     (forall a' l', In (a', l') specs -> argument <= a' -> a <= a') /\
     (forall l', ~ In (a, l') pre))
  \/ ((forall a' l', In (a', l') specs -> a' < argument) /\ limit = abs).

(** ** Proofs *)
Definition sorted_specs (l : list (Z * Z)) : Prop := StronglySorted (fun x y => fst x <= fst y) l.
Definition at_arg (a : Z) (l : list (Z * Z)) := filter (fun x => fst x =? a) l.

Lemma insert_perm : forall x l, Permutation (x :: l) (insert_spec x l).
Proof.
  induction l as [|y l IH]; cbn; [reflexivity|].
  destruct (fst y <? fst x); [|reflexivity].
  rewrite perm_swap. constructor. assumption.
Qed.

Lemma insert_sorted : forall x l, sorted_specs l -> sorted_specs (insert_spec x l).
Proof.
  intros x l H. induction H as [|y l Hs IH Hf]; cbn.
  - repeat constructor.
  - destruct (Z.ltb_spec (fst y) (fst x)).
    + constructor; [assumption|].
      apply Forall_forall. intros z Hz.
      apply (Permutation_in z (Permutation_sym (insert_perm x l))) in Hz.
      destruct Hz as [<-|Hz]; [lia|]. rewrite Forall_forall in Hf. auto.
    + constructor; [constructor; assumption|].
      constructor; [assumption|]. eapply Forall_impl; [|eassumption]. cbn. lia.
Qed.

Lemma sort_sorted : forall l, sorted_specs (sort_specs l).
Proof. induction l; cbn; [constructor|apply insert_sorted; assumption]. Qed.

Lemma insert_at_arg : forall x a l, at_arg a (insert_spec x l) = at_arg a (x :: l).
Proof.
  intros x a l. induction l as [|y l IH]; [reflexivity|]. cbn [insert_spec].
  destruct (Z.ltb_spec (fst y) (fst x)); [|reflexivity].
  unfold at_arg in *. cbn [filter] in *. rewrite IH.
  destruct (Z.eqb_spec (fst y) a); destruct (Z.eqb_spec (fst x) a); try reflexivity; lia.
Qed.

Lemma sort_at_arg : forall a l, at_arg a (sort_specs l) = at_arg a l.
Proof.
  intros a l. induction l as [|x l IH]; [reflexivity|]. cbn [sort_specs].
  rewrite insert_at_arg. unfold at_arg in *. cbn [filter]. rewrite IH. reflexivity.
Qed.

Lemma sorted_snoc : forall l x, sorted_specs l ->
  (forall y, In y l -> fst y <= fst x) -> sorted_specs (l ++ [x]).
Proof.
  intros l x H. induction H as [|y l Hs IH Hf]; intros Hx; cbn.
  - repeat constructor.
  - constructor.
    + apply IH. intros z Hz. apply Hx. right. assumption.
    + apply Forall_app. split; [assumption|]. constructor; [|constructor].
      apply Hx. left. reflexivity.
Qed.

(** Representation invariant with respect to the specified list. *)
Definition rep (lc : limit_checker) (specs : list (Z * Z)) (abs : Z) : Prop :=
  lc_absolute lc = abs /\
  (lc_ready lc = true -> sorted_specs (lc_specs lc)) /\
  (forall a, at_arg a (lc_specs lc) = at_arg a specs).

Lemma rep_add : forall lc specs abs a l, rep lc specs abs ->
  rep (addLimitSpec lc a l) (specs ++ [(a, l)]) abs.
Proof.
  intros lc specs abs a l (Ha & Hr & Hf). split; [assumption|]. split.
  - cbn. intro Hready.
    destruct (rev (lc_specs lc)) as [|back rest] eqn:Er.
    + apply (f_equal (@rev _)) in Er. rewrite rev_involutive in Er. rewrite Er. repeat constructor.
    + destruct (Z.ltb_spec a (fst back)); [discriminate|].
      specialize (Hr Hready). apply sorted_snoc; [assumption|].
      intros y Hy. apply (f_equal (@rev _)) in Er. rewrite rev_involutive in Er. cbn in Er.
      rewrite Er in Hy, Hr. apply in_app_or in Hy. destruct Hy as [Hy|[<-|[]]]; [|cbn; lia].
      assert (fst y <= fst back); [|cbn; lia].
      clear - Hy Hr. induction (rev rest) as [|z r IH]; [destruct Hy|].
      cbn in Hr. inversion Hr as [|? ? Hs' Hf']; subst. destruct Hy as [<-|Hy].
      * rewrite Forall_forall in Hf'. apply Hf'. apply in_or_app. right. left. reflexivity.
      * apply IH; assumption.
  - intro b. unfold at_arg in *. cbn. rewrite !filter_app, Hf. reflexivity.
Qed.

Lemma rep_query : forall lc specs abs a v, rep lc specs abs ->
  rep (snd (isAllowed lc a v)) specs abs /\ lc_ready (snd (isAllowed lc a v)) = true.
Proof.
  intros lc specs abs a v (Ha & Hr & Hf). unfold isAllowed. cbn [snd].
  destruct (lc_ready lc) eqn:E.
  - split; [|assumption]. split; [assumption|split; [intros _; auto|assumption]].
  - split; [|reflexivity]. split; [assumption|]. split.
    + intros _. cbn. apply sort_sorted.
    + intro b. cbn [lc_specs]. rewrite sort_at_arg. apply Hf.
Qed.

Lemma rep_run : forall ops lc specs abs, rep lc specs abs ->
  rep (lc_run lc ops) (specs ++ specified ops) (absolute abs ops).
Proof.
  induction ops as [|o ops IH]; intros lc specs abs H.
  - cbn. rewrite app_nil_r. assumption.
  - destruct o; cbn [specified absolute lc_run fold_left lc_step].
    + replace (specs ++ (argument, limit) :: specified ops)
        with ((specs ++ [(argument, limit)]) ++ specified ops) by (rewrite <- app_assoc; reflexivity).
      apply IH. apply rep_add. assumption.
    + replace (specs ++ (argument, 2147483647) :: specified ops)
        with ((specs ++ [(argument, 2147483647)]) ++ specified ops) by (rewrite <- app_assoc; reflexivity).
      apply IH. apply rep_add. assumption.
    + apply IH. destruct H as (Ha & Hr & Hf). repeat split; assumption.
    + apply IH. apply rep_query. assumption.
Qed.

Lemma at_arg_In : forall a x l, In x (at_arg a l) <-> In x l /\ fst x = a.
Proof. intros. unfold at_arg. rewrite filter_In, Z.eqb_eq. reflexivity. Qed.

Lemma same_members : forall l l', (forall a, at_arg a l = at_arg a l') ->
  forall x, In x l <-> In x l'.
Proof.
  intros l l' H x. pose proof (at_arg_In (fst x) x l). pose proof (at_arg_In (fst x) x l').
  rewrite H in *. tauto.
Qed.

Lemma first_at_arg : forall a l limit rest, at_arg a l = (a, limit) :: rest ->
  exists pre post, l = pre ++ (a, limit) :: post /\ forall l', ~ In (a, l') pre.
Proof.
  intros a l. induction l as [|[b m] l IH]; intros limit rest H; [discriminate|].
  unfold at_arg in H. cbn [filter fst] in H. destruct (Z.eqb_spec b a) as [->|Hne].
  - inversion H; subst. exists [], l. split; [reflexivity|]. intros ? [].
  - destruct (IH limit rest H) as (pre & post & -> & Hp).
    exists ((b, m) :: pre), post. split; [reflexivity|].
    intros l' [E|Hin]; [congruence|]. eapply Hp; eassumption.
Qed.

Lemma scan_specs_spec : forall l abs arg, sorted_specs l ->
  (exists a limit rest, (forall v, scan_specs l abs arg v = (v <=? limit)) /\ arg <= a /\
      at_arg a l = (a, limit) :: rest /\
      (forall a' l', In (a', l') l -> arg <= a' -> a <= a'))
  \/ ((forall a' l', In (a', l') l -> a' < arg) /\ forall v, scan_specs l abs arg v = (v <=? abs)).
Proof.
  intros l abs arg H. induction H as [|[b m] l Hs IH Hf].
  - right. split; [intros ? ? []|reflexivity].
  - cbn [scan_specs]. rewrite Forall_forall in Hf. cbn [fst] in Hf. destruct (Z.leb_spec arg b).
    + left. exists b, m, (at_arg b l). repeat split; try assumption.
      * unfold at_arg. cbn. rewrite Z.eqb_refl. reflexivity.
      * intros a' l' [E|Hin] _; [inversion E; lia|]. apply (Hf (a', l')). assumption.
    + destruct IH as [(a & limit & rest & Hsc & Harg & Hat & Hmin)|[Hall Hsc]].
      * left. exists a, limit, rest. repeat split; try assumption.
        -- unfold at_arg in *. cbn. destruct (Z.eqb_spec b a); [lia|]. assumption.
        -- intros a' l' [E|Hin] Hle; [inversion E; lia|]. eapply Hmin; eassumption.
      * right. split; [|assumption]. intros a' l' [E|Hin]; [inversion E; lia|]. eapply Hall; eassumption.
Qed.

Lemma query_applicable : forall lc specs abs arg, rep lc specs abs ->
  exists limit, applicable specs abs arg limit /\
    forall v, fst (isAllowed lc arg v) = (v <=? limit).
Proof.
  intros lc specs abs arg Hrep.
  assert (Hq : exists lc', (forall v, isAllowed lc arg v = (scan_specs (lc_specs lc') (lc_absolute lc') arg v, lc'))
      /\ rep lc' specs abs /\ lc_ready lc' = true).
  { exists (snd (isAllowed lc arg 0)). split; [reflexivity|]. apply rep_query. assumption. }
  destruct Hq as (lc' & Hq & (Ha & Hr & Hf) & Hready). specialize (Hr Hready).
  destruct (scan_specs_spec (lc_specs lc') (lc_absolute lc') arg Hr)
    as [(a & limit & rest & Hsc & Harg & Hat & Hmin)|[Hall Hsc]].
  - exists limit. split; [|intro v; rewrite Hq; apply Hsc].
    left. rewrite Hf in Hat. destruct (first_at_arg _ _ _ _ Hat) as (pre & post & E & Hp).
    exists pre, a, post. repeat split; try assumption.
    intros a' l' Hin. apply (Hmin a' l'). apply (same_members _ _ Hf). assumption.
  - exists abs. split; [|intro v; rewrite Hq, <- Ha; apply Hsc].
    right. split; [|reflexivity]. intros a' l' Hin. apply (Hall a' l').
    apply (same_members _ _ Hf). assumption.
Qed.

Lemma applicable_unique : forall specs abs arg l1 l2,
  applicable specs abs arg l1 -> applicable specs abs arg l2 -> l1 = l2.
Proof.
  intros specs abs arg l1 l2 [(p1 & a1 & q1 & E1 & H1 & M1 & F1)|[N1 ->]]
    [(p2 & a2 & q2 & E2 & H2 & M2 & F2)|[N2 ->]].
  - assert (a1 = a2) as <-.
    { assert (a1 <= a2) by (apply (M1 a2 l2); [rewrite E2; apply in_elt|assumption]).
      assert (a2 <= a1) by (apply (M2 a1 l1); [rewrite E1; apply in_elt|assumption]). lia. }
    clear M1 M2. rewrite E1 in E2. clear E1. revert p2 F2 E2. induction p1 as [|x p1 IH]; intros.
    + destruct p2 as [|y p2]; cbn in E2; inversion E2; subst; [reflexivity|].
      exfalso. apply (F2 l1). left. reflexivity.
    + destruct p2 as [|y p2]; cbn in E2; inversion E2; subst.
      * exfalso. apply (F1 l2). left. reflexivity.
      * apply (IH) with (p2 := p2); try assumption.
        -- intros l' Hin. apply (F1 l'). right. assumption.
        -- intros l' Hin. apply (F2 l'). right. assumption.
  - exfalso. specialize (N2 a1 l1). rewrite E1 in N2. specialize (N2 (in_elt _ _ _)). lia.
  - exfalso. specialize (N1 a2 l2). rewrite E2 in N1. specialize (N1 (in_elt _ _ _)). lia.
  - reflexivity.
Qed.

(** ** The theorems *)
Theorem C18_isAllowed_spec : forall n ops argument value limit,
  applicable (specified ops) (absolute n ops) argument limit ->
  (fst (isAllowed (lc_run (lc_new n) ops) argument value) = true <-> value <= limit).
Proof.
  intros n ops arg v limit Hap.
  assert (Hrep : rep (lc_run (lc_new n) ops) (specified ops) (absolute n ops)).
  { apply (rep_run ops (lc_new n) [] n). repeat split. constructor. }
  destruct (query_applicable _ _ _ arg Hrep) as (l' & Hap' & Hq).
  rewrite Hq. rewrite (applicable_unique _ _ _ _ _ Hap Hap'). lia.
Qed.
Print Assumptions C18_isAllowed_spec.

(** There always is an applicable limit, so the previous statement determines
    the answer of every query after every history. *)
Theorem C18_limit_exists : forall n ops argument,
  exists limit, applicable (specified ops) (absolute n ops) argument limit.
Proof.
  intros n ops arg.
  assert (Hrep : rep (lc_run (lc_new n) ops) (specified ops) (absolute n ops)).
  { apply (rep_run ops (lc_new n) [] n). repeat split. constructor. }
  destruct (query_applicable _ _ _ arg Hrep) as (l' & Hap' & _). exists l'. assumption.
Qed.
Print Assumptions C18_limit_exists.

(** Earlier queries do not influence later answers. *)
Theorem C18_queries_do_not_matter : forall n ops1 ops2 a v argument value,
  fst (isAllowed (lc_run (lc_new n) (ops1 ++ OpQuery a v :: ops2)) argument value) =
  fst (isAllowed (lc_run (lc_new n) (ops1 ++ ops2)) argument value).
Proof.
  intros n ops1 ops2 a v arg val.
  assert (Es : specified (ops1 ++ OpQuery a v :: ops2) = specified (ops1 ++ ops2)).
  { induction ops1 as [|o ops1 IH]; [reflexivity|]. destruct o; cbn; rewrite IH; reflexivity. }
  assert (Ea : forall m, absolute m (ops1 ++ OpQuery a v :: ops2) = absolute m (ops1 ++ ops2)).
  { induction ops1 as [|o ops1 IH]; intro m; [reflexivity|]. cbn in Es.
    destruct o; cbn; apply IH; cbn in Es; inversion Es; reflexivity. }
  destruct (C18_limit_exists n (ops1 ++ ops2) arg) as [lim Hap].
  apply eq_true_iff_eq.
  rewrite (C18_isAllowed_spec n (ops1 ++ ops2) arg val lim Hap).
  apply C18_isAllowed_spec. rewrite Es, Ea. assumption.
Qed.
Print Assumptions C18_queries_do_not_matter.

(** The example from the class documentation, specified out of order. *)
Example C18_example :
  let lc := lc_run (lc_new 8) [OpAdd 30 20; OpAdd 100 12; OpQuery 5 5; OpUnlimited 10; OpAdd 20 30] in
  fst (isAllowed lc 10 1000000) = true /\ fst (isAllowed lc 11 30) = true /\
  fst (isAllowed lc 11 31) = false /\ fst (isAllowed lc 30 21) = false /\
  fst (isAllowed lc 31 12) = true /\ fst (isAllowed lc 101 9) = false /\
  fst (isAllowed lc 101 8) = true.
Proof. vm_compute. repeat split. Qed.

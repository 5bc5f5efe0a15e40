(** Lemmas on cutting down an automaton and on the automaton of a parsed sentence. *)
From Coq Require Import List ZArith NArith Bool Sorted Permutation Lia PeanoNat.
From Verif Require Import M_Fsa L_Fsa M_BinFsa M_HashFsa M_Minfsa M_Dag L_Dag M_SimpleDag S_SimpleDag L_SimpleDag L_SimpleCopy L_SimpleDet P_SimpleDag M_MultiHash L_MultiHash M_Intersector L_Intersector S_Prune.
Import ListNotations.
Local Open Scope nat_scope.

Section Prune.
Context (asort : list warc -> list warc) (Hsort : sorts asort) (i d : sdag) (nts : list Z).
Context (Wi : whole i) (Di : deterministic i) (Wd : whole d) (Dd : deterministic d).
Lemma int_dest_spec p b p' : int_dest i p b = Some p' <-> exists v, In (Warc b p' v) (s_row i p).
Proof.
  unfold int_dest. destruct (find (fun x => (x_sym x =? b)%Z) (rev (s_row i p))) as [x|] eqn:E.
  - apply find_some in E as [H E]. apply in_rev in H. apply Z.eqb_eq in E. split.
    + intros [= <-]. exists (x_wt x). rewrite <- E. now destruct x.
    + intros (v & K). assert (x = Warc b p' v) as -> by (apply (row_once (s_row i p)); [apply Di|assumption..]). reflexivity.
  - split; [discriminate|]. intros (v & K). apply in_rev in K. apply (find_none _ _ E) in K. cbn in K. rewrite Z.eqb_refl in K. discriminate.
Qed.
(** An arc of the product. *)
Definition joint (k : nat * nat) (x : warc) (k' : nat * nat) : Prop :=
  int_dest i (fst k) (bit nts (x_sym x)) = Some (fst k') /\ snd k' = x_dest x.
Record pinv (Pr : nat -> warc -> Prop) (t : product) : Prop := Pinv {
  pi_nodup : NoDup (t_keys t);
  pi_size : length (t_keys t) = s_size (t_dag t);
  pi_first : nth_error (t_keys t) 0 = Some (0, 0);
  pi_start : forall p, start_of (t_dag t) p <-> p = 0;
  pi_row : forall s y, In y (s_row (t_dag t) s) <->
    exists x k k' e, Pr s x /\ nth_error (t_keys t) s = Some k /\ joint k x k' /\ nth_error (t_keys t) e = Some k' /\ y = Warc (x_sym x) e 0;
  pi_to : forall s x k k', Pr s x -> nth_error (t_keys t) s = Some k -> joint k x k' -> In k' (t_keys t);
  pi_from : forall s x, Pr s x -> s < length (t_keys t);
  pi_in : forall k, In k (t_keys t) -> fst k < s_size i /\ snd k < s_size d }.
Lemma pinv_ext (Pr Pr' : nat -> warc -> Prop) t : (forall s x, Pr s x <-> Pr' s x) -> pinv Pr t -> pinv Pr' t.
Proof.
  intros H [I1 I2 I3 I4 I5 I6 I7 I8]. constructor; try assumption.
  - intros s y. rewrite I5. split; intros (x & k & k' & e & P & R); exists x, k, k', e; (split; [now apply H|assumption]).
  - intros s x k k' P. apply I6. now apply H.
  - intros s x P. apply (I7 s x). now apply H.
Qed.
Lemma joint_fun k x k' k'' : joint k x k' -> joint k x k'' -> k' = k''.
Proof. intros [A1 A2] [B1 B2]. destruct k', k''. cbn [fst snd] in *. rewrite A1 in B1. injection B1 as ->. now subst. Qed.
Lemma joint_inside k x k' : In x (s_row d (snd k)) -> joint k x k' -> fst k' < s_size i /\ snd k' < s_size d.
Proof.
  intros Hx [H1 ->]. apply int_dest_spec in H1 as (v & H1). split; [now apply (proj1 Wi) in H1|]. destruct x as [a q w]. now apply (proj1 Wd) in Hx.
Qed.
(** A new pair. *)
Lemma meet_pinv Pr t k : pinv Pr t -> ~ In k (t_keys t) -> fst k < s_size i /\ snd k < s_size d ->
  pinv Pr (Product (new_state false (t_dag t)) (k :: t_queue t) (t_keys t ++ [k])).
Proof.
  intros [I1 I2 I3 I4 I5 I6 I7 I8] N B.
  assert (Old : forall e, e < length (t_keys t) -> nth_error (t_keys t ++ [k]) e = nth_error (t_keys t) e) by (intros e; apply nth_error_app1).
  constructor; cbn [t_keys t_dag].
  - apply L_Dag.nodup_app; [assumption|repeat constructor; easy|]. intros x Hx [<-|[]]. contradiction.
  - rewrite app_length, new_state_size. cbn. lia.
  - rewrite nth_error_app1; [assumption|]; apply nth_error_Some; congruence.
  - exact I4.
  - intros s y. rewrite new_state_row, I5. split.
    + intros (x & k1 & k' & e & P & H1 & H2 & H3 & E). exists x, k1, k', e. split; [assumption|].
      assert (s < length (t_keys t)) by (apply nth_error_Some; congruence). assert (e < length (t_keys t)) by (apply nth_error_Some; congruence). rewrite !Old by assumption. auto.
    + intros (x & k1 & k' & e & P & H1 & H2 & H3 & E). pose proof (I7 s x P) as Ls. rewrite Old in H1 by assumption. pose proof (I6 s x k1 k' P H1 H2) as K. apply In_nth_error in K as (e' & K).
      exists x, k1, k', e. split; [assumption|]. split; [assumption|]. split; [assumption|]. split; [|assumption].
      assert (e' < length (t_keys t)) by (apply nth_error_Some; congruence).
      assert (e = e') as ->; [|assumption]. assert (Nd : NoDup (t_keys t ++ [k])) by (apply L_Dag.nodup_app; [assumption|repeat constructor; easy|]; intros z Hz [<-|[]]; contradiction).
      apply (nodup_nth _ _ _ _ Nd H3). now rewrite Old.
  - intros s x k1 k' P H1 H2. pose proof (I7 s x P) as Ls. rewrite Old in H1 by assumption. apply in_app_iff. left. now apply (I6 s x k1).
  - intros s x P. specialize (I7 s x P). rewrite app_length. lia.
  - intros k1 H. apply in_app_iff in H as [H|[<-|[]]]; [now apply I8|assumption].
Qed.
Lemma prune_arc_pinv Pr t s k x : pinv Pr t -> nth_error (t_keys t) s = Some k -> In x (s_row d (snd k)) ->
  let t' := prune_arc asort i nts s (fst k) t x in
  pinv (fun s' x' => Pr s' x' \/ (s' = s /\ x' = x)) t' /\ s_ends (t_dag t') = s_ends (t_dag t) /\
  exists l, t_keys t' = t_keys t ++ l /\ t_queue t' = l ++ t_queue t.
Proof.
  intros I Hs Hx. unfold prune_arc. destruct (int_dest i (fst k) (bit nts (x_sym x))) as [p'|] eqn:Ed.
  - set (k' := (p', x_dest x)). assert (J : joint k x k') by now split.
    set (t1 := match place_of k' (t_keys t) with Some _ => t | None => Product (new_state false (t_dag t)) (k' :: t_queue t) (t_keys t ++ [k']) end).
    assert (G : pinv Pr t1 /\ s_ends (t_dag t1) = s_ends (t_dag t) /\ In k' (t_keys t1) /\ exists l, t_keys t1 = t_keys t ++ l /\ t_queue t1 = l ++ t_queue t).
    { unfold t1. destruct (place_of k' (t_keys t)) as [e|] eqn:Ep.
      - split; [assumption|]. split; [reflexivity|]. apply place_some in Ep. split; [now apply nth_error_In in Ep|]. exists []. now rewrite app_nil_r.
      - apply place_none in Ep. split; [apply meet_pinv; [assumption..|now apply (joint_inside k x)]|]. split; [reflexivity|]. cbn [t_keys t_queue].
        split; [apply in_app_iff; right; now left|]. exists [k']. now split. }
    destruct G as (I1 & E1 & H1 & l & El & Eq). clearbody t1. pose proof H1 as H1'. apply In_nth_error in H1' as (e & He). rewrite (place_at k' (t_keys t1) e (pi_nodup _ _ I1) He).
    assert (Hs1 : nth_error (t_keys t1) s = Some k) by (rewrite El, nth_error_app1; [assumption|apply nth_error_Some; congruence]).
    assert (Ls : s < s_size (t_dag t1)) by (rewrite <- (pi_size _ _ I1); apply nth_error_Some; congruence).
    cbv zeta. cbn [t_dag t_keys t_queue]. split; [|split; [assumption|now exists l]].
    destruct I1 as [J1 J2 J3 J4 J5 J6 J7 J8]. constructor; cbn [t_dag t_keys]; try assumption.
    + now rewrite new_arc_size.
    + intros s' y. rewrite (new_arc_in asort Hsort) by assumption. rewrite J5. split.
      * intros [(x1 & k1 & k2 & e1 & P & R)|[-> ->]]; [exists x1, k1, k2, e1; split; [now left|assumption]|].
        exists x, k, k', e. split; [now right|]. repeat split; try assumption; apply J.
      * intros (x1 & k1 & k2 & e1 & [P|[-> ->]] & R1 & R2 & R3 & ->); [left; exists x1, k1, k2, e1; auto|].
        right. split; [reflexivity|]. rewrite Hs1 in R1. injection R1 as <-. rewrite (joint_fun _ _ _ _ R2 J) in R3. f_equal. apply (nodup_nth _ _ _ _ J1 R3 He).
    + intros s' x1 k1 k2 [P|[-> ->]] R1 R2; [now apply (J6 s' x1 k1)|]. rewrite Hs1 in R1. injection R1 as <-. now rewrite (joint_fun _ _ _ _ R2 J).
    + intros s' x1 [P|[-> ->]]; [now apply (J7 s' x1)|]. now rewrite J2.
  - cbv zeta. split; [|split; [reflexivity|exists []; now rewrite app_nil_r]]. destruct I as [I1 I2 I3 I4 I5 I6 I7 I8].
    assert (No : forall k1 k2, nth_error (t_keys t) s = Some k1 -> ~ joint k1 x k2) by (intros k1 k2 R1 [R2 _]; rewrite Hs in R1; injection R1 as <-; congruence).
    constructor; try assumption.
    + intros s' y. rewrite I5. split; intros (x1 & k1 & k2 & e1 & P & R); exists x1, k1, k2, e1; [split; [now left|assumption]|].
      destruct P as [P|[-> ->]]; [now split|]. destruct R as (R1 & R2 & _). elim (No _ _ R1 R2).
    + intros s' x1 k1 k2 [P|[-> ->]] R1 R2; [now apply (I6 s' x1 k1)|]. elim (No _ _ R1 R2).
    + intros s' x1 [P|[-> ->]]; [now apply (I7 s' x1)|]. apply nth_error_Some. congruence.
Qed.
Lemma prune_arcs_pinv s k : forall l Pr t, pinv Pr t -> nth_error (t_keys t) s = Some k -> (forall x, In x l -> In x (s_row d (snd k))) ->
  let t' := fold_left (prune_arc asort i nts s (fst k)) l t in
  pinv (fun s' x' => Pr s' x' \/ (s' = s /\ In x' l)) t' /\ s_ends (t_dag t') = s_ends (t_dag t) /\
  exists m, t_keys t' = t_keys t ++ m /\ t_queue t' = rev m ++ t_queue t.
Proof.
  induction l as [|x l IH]; intros Pr t I Hs Hl; cbn [fold_left].
  - split; [|split; [reflexivity|exists []; now rewrite app_nil_r]]. eapply pinv_ext; [|exact I]. intros s' x'. cbn. tauto.
  - destruct (prune_arc_pinv Pr t s k x I Hs (Hl x (or_introl eq_refl))) as (I1 & E1 & m1 & M1 & M2). set (t1 := prune_arc asort i nts s (fst k) t x) in *.
    assert (Hs1 : nth_error (t_keys t1) s = Some k) by (rewrite M1, nth_error_app1; [assumption|apply nth_error_Some; congruence]).
    assert (R1 : rev m1 = m1).
    { unfold t1, prune_arc in M1. destruct (int_dest i (fst k) (bit nts (x_sym x))); [destruct (place_of _ (t_keys t)) eqn:Ep|]; cbn [t_keys] in M1.
      - rewrite <- (app_nil_r (t_keys t)) in M1 at 1. apply app_inv_head in M1. now subst.
      - apply app_inv_head in M1. now subst.
      - rewrite <- (app_nil_r (t_keys t)) in M1 at 1. apply app_inv_head in M1. now subst. }
    destruct (IH _ t1 I1 Hs1 (fun y H => Hl y (or_intror H))) as (I2 & E2 & m2 & M3 & M4).
    split; [|split; [now rewrite E2|exists (m1 ++ m2); rewrite M3, M4, M1, M2, rev_app_distr, R1, !app_assoc; now split]].
    eapply pinv_ext; [|exact I2]. intros s' x'. cbn [In]. intuition congruence.
Qed.
Definition done_arcs (keys : list (nat * nat)) (dn : list nat) (s : nat) (x : warc) : Prop :=
  In s dn /\ exists k, nth_error keys s = Some k /\ In x (s_row d (snd k)).
Record ploop (dn : list nat) (t : product) : Prop := Ploop {
  pl_inv : pinv (done_arcs (t_keys t) dn) t;
  pl_dn : NoDup dn;
  pl_in : forall s, In s dn -> s < length (t_keys t);
  pl_queue : forall s k, nth_error (t_keys t) s = Some k -> (In s dn <-> ~ In k (t_queue t));
  pl_sub : forall k, In k (t_queue t) -> In k (t_keys t);
  pl_once : NoDup (t_queue t);
  pl_ends : forall s, In s (s_ends (t_dag t)) <-> In s dn /\ exists k, nth_error (t_keys t) s = Some k /\ s_is_end i (fst k) && s_is_end d (snd k) = true }.
Lemma ploop_step dn t ns queue : ploop dn t -> t_queue t = ns :: queue -> exists s, nth_error (t_keys t) s = Some ns /\ ~ In s dn /\ place_of ns (t_keys t) = Some s /\
  let g := if s_is_end i (fst ns) && s_is_end d (snd ns) then s_set_end s (t_dag t) else t_dag t in
  ploop (s :: dn) (fold_left (prune_arc asort i nts s (fst ns)) (s_row d (snd ns)) (Product g queue (t_keys t))).
Proof.
  intros [L1 L2 L3 L4 L5 L6 L7] Q. assert (Hn : In ns (t_keys t)) by (apply L5; rewrite Q; now left). apply In_nth_error in Hn as (s & Hs). exists s. split; [assumption|].
  assert (Ns : ~ In s dn) by (intros K; apply (L4 s ns Hs) in K; apply K; rewrite Q; now left). split; [assumption|]. split; [apply place_at; [apply (pi_nodup _ _ L1)|assumption]|].
  cbv zeta. set (g := if s_is_end i (fst ns) && s_is_end d (snd ns) then s_set_end s (t_dag t) else t_dag t). set (t0 := Product g queue (t_keys t)).
  assert (I0 : pinv (done_arcs (t_keys t) dn) t0).
  { destruct L1 as [I1 I2 I3 I4 I5 I6 I7 I8]. constructor; cbn [t_keys t_dag t0]; try assumption.
    - rewrite I2. unfold g. now destruct (s_is_end i (fst ns) && s_is_end d (snd ns)).
    - unfold g. now destruct (s_is_end i (fst ns) && s_is_end d (snd ns)).
    - intros s' y. rewrite <- I5. unfold g. now destruct (s_is_end i (fst ns) && s_is_end d (snd ns)). }
  destruct (prune_arcs_pinv s ns (s_row d (snd ns)) _ t0 I0 Hs (fun x H => H)) as (I' & E' & m & M1 & M2). set (t' := fold_left _ _ t0) in *. cbn [t0 t_keys t_queue t_dag] in *.
  assert (Ls : s < length (t_keys t)) by (apply nth_error_Some; congruence).
  assert (Old : forall e, e < length (t_keys t) -> nth_error (t_keys t') e = nth_error (t_keys t) e) by (intros e He; rewrite M1; now apply nth_error_app1).
  assert (Nk : NoDup (t_keys t')) by apply (pi_nodup _ _ I').
  assert (Sep : forall k, In k m -> ~ In k (t_keys t)).
  { intros k H1 H2. rewrite M1 in Nk. clear - Nk H1 H2. induction (t_keys t) as [|z l IH]; [destruct H2|]. inversion Nk; subst. destruct H2 as [->|H2]; [apply H3, in_app_iff; now right|auto]. }
  rewrite Q in L6. inversion L6 as [|? ? Nq Nq']; subst.
  constructor.
  - eapply pinv_ext; [|exact I']. intros s' x. unfold done_arcs. cbn [In]. split.
    + intros [[H (k & H1 & H2)]|[-> H]].
      * split; [now right|]. exists k. split; [|assumption]. rewrite Old; [assumption|]. now apply L3.
      * split; [now left|]. exists ns. split; [now rewrite Old|assumption].
    + intros [[<-|H] (k & H1 & H2)].
      * right. split; [reflexivity|]. rewrite Old in H1 by assumption. rewrite Hs in H1. now injection H1 as <-.
      * left. split; [assumption|]. exists k. split; [|assumption]. rewrite <- Old; [assumption|]. now apply L3.
  - now constructor.
  - intros s' [<-|H]; rewrite M1, app_length; [lia|]. apply L3 in H. lia.
  - intros s' k H. rewrite M2. cbn [In]. rewrite in_app_iff, <- in_rev. destruct (Nat.lt_ge_cases s' (length (t_keys t))) as [L|L].
    + rewrite Old in H by assumption. assert (Hk : In k (t_keys t)) by now apply nth_error_In in H. specialize (L4 s' k H). rewrite Q in L4. cbn [In] in L4. split.
      * intros [<-|K]; [|intros [K2|K2]; [now apply (Sep k)|apply L4 in K; tauto]]. rewrite Hs in H. injection H as <-. intros [K|K]; [now apply (Sep ns)|contradiction].
      * intros K. destruct (Nat.eq_dec s s') as [->|N]; [now left|right]. apply L4. intros [K2|K2]; [|tauto]. subst k. apply N. apply (nodup_nth _ _ _ _ (pi_nodup _ _ L1) Hs H).
    + assert (Hk : In k m) by (rewrite M1, nth_error_app2 in H by assumption; now apply nth_error_In in H). split; [|tauto]. intros [<-|K]; [lia|]. apply L3 in K. lia.
  - intros k. rewrite M2, M1, !in_app_iff, <- in_rev. intros [K|K]; [now right|left]. apply L5. rewrite Q. now right.
  - rewrite M2. apply L_Dag.nodup_app; [|assumption|].
    + apply NoDup_rev. rewrite M1 in Nk. clear - Nk. induction (t_keys t) as [|z l IH]; [assumption|]. inversion Nk; auto.
    + intros k K1 K2. apply in_rev in K1. apply (Sep k K1). apply L5. rewrite Q. now right.
  - intros s'. rewrite E'. assert (Eg : In s' (s_ends g) <-> In s' (s_ends (t_dag t)) \/ (s' = s /\ s_is_end i (fst ns) && s_is_end d (snd ns) = true)).
    { unfold g. destruct (s_is_end i (fst ns) && s_is_end d (snd ns)); cbn [s_ends s_set_end In]; intuition congruence. }
    rewrite Eg, L7. cbn [In]. split.
    + intros [[H (k & H1 & H2)]|[-> H]].
      * split; [now right|]. exists k. split; [|assumption]. rewrite Old; [assumption|]. now apply L3.
      * split; [now left|]. exists ns. split; [now rewrite Old|assumption].
    + intros [[<-|H] (k & H1 & H2)].
      * right. split; [reflexivity|]. rewrite Old in H1 by assumption. rewrite Hs in H1. now injection H1 as <-.
      * left. split; [assumption|]. exists k. split; [|assumption]. rewrite <- Old; [assumption|]. now apply L3.
Qed.
Lemma ploop_ends dn t : ploop dn t -> t_queue t <> [] -> length dn < s_size i * s_size d.
Proof.
  intros L Q. destruct (t_queue t) as [|ns queue] eqn:E; [congruence|]. destruct (ploop_step dn t ns queue L E) as (s & Hs & Ns & _).
  assert (H1 : length (s :: dn) <= length (t_keys t)).
  { rewrite <- (seq_length (length (t_keys t)) 0). apply NoDup_incl_length; [constructor; [assumption|apply (pl_dn _ _ L)]|]. intros z [<-|Hz]; apply in_seq; [|apply (pl_in _ _ L) in Hz; lia].
    assert (s < length (t_keys t)) by (apply nth_error_Some; congruence). lia. }
  assert (H2 : length (t_keys t) <= s_size i * s_size d).
  { rewrite <- (seq_length (s_size i) 0), <- (seq_length (s_size d) 0) at 1. rewrite <- prod_length. apply NoDup_incl_length; [apply (pi_nodup _ _ (pl_inv _ _ L))|].
    intros [p q] H. apply (pi_in _ _ (pl_inv _ _ L)) in H. cbn in H. apply in_prod; apply in_seq; lia. }
  cbn in H1. lia.
Qed.
Lemma prune_loop_spec : forall fuel dn t, ploop dn t -> match prune_loop asort fuel i d nts t with
  | Some g => exists t' dn', g = t_dag t' /\ ploop dn' t' /\ t_queue t' = []
  | None => fuel + length dn < s_size i * s_size d end.
Proof.
  induction fuel as [|fuel IH]; intros dn t L; cbn [prune_loop]; destruct (t_queue t) as [|ns queue] eqn:Q; try (exists t, dn; split; [reflexivity|now split]).
  - cbn. apply (ploop_ends dn t L). congruence.
  - destruct (ploop_step dn t ns queue L Q) as (s & Hs & Ns & -> & L'). specialize (IH _ _ L'). cbv zeta in *.
    destruct (prune_loop asort fuel i d nts _) as [g|]; [assumption|]. cbn in IH. lia.
Qed.
Lemma ploop_start : ploop [] (Product (new_state true s_empty) [(0, 0)] [(0, 0)]).
Proof.
  assert (S0 : forall p, start_of (new_state true s_empty) p <-> p = 0).
  { intros p. rewrite new_state_start, start_of_bit. cbn [s_size s_empty s_rows length]. change (start_of (new_state false s_empty) p) with (has 0 p = true). rewrite has_none. intuition congruence. }
  constructor; cbn [t_keys t_queue t_dag].
  - constructor; cbn [t_keys t_dag].
    + repeat constructor. easy.
    + reflexivity.
    + reflexivity.
    + exact S0.
    + intros s y. rewrite new_state_row. split; [intros H; exfalso; destruct s; destruct H|]. intros (x & k & k' & e & [[] _] & _).
    + intros s x k k' [[] _].
    + intros s x [[] _].
    + intros k [<-|[]]. cbn [fst snd]. split; [apply (proj1 (proj2 Wi)); now apply (proj1 Di)|apply (proj1 (proj2 Wd)); now apply (proj1 Dd)].
  - constructor.
  - intros s [].
  - intros [|[|s]] k H; cbn in H; try discriminate. injection H as <-. cbn. tauto.
  - intros k H. exact H.
  - repeat constructor. easy.
  - intros s. cbn. tauto.
Qed.
(** The words of the product. *)
Lemma product_words t dn : ploop dn t -> t_queue t = [] -> whole (t_dag t) /\
  forall w, words (t_dag t) w <-> words d w /\ words i (map (bit nts) w).
Proof.
  intros L Q. pose proof (pl_inv _ _ L) as I.
  assert (All : forall s k, nth_error (t_keys t) s = Some k -> In s dn) by (intros s k H; apply (pl_queue _ _ L s k H); rewrite Q; easy).
  assert (Arc : forall s k, nth_error (t_keys t) s = Some k -> forall a e v, In (Warc a e v) (s_row (t_dag t) s) <->
    v = 0%Z /\ exists q u p' u', In (Warc a q u) (s_row d (snd k)) /\ In (Warc (bit nts a) p' u') (s_row i (fst k)) /\ nth_error (t_keys t) e = Some (p', q)).
  { intros s k Hs a e v. rewrite (pi_row _ _ I). split.
    - intros (x & k1 & k' & e1 & (_ & k2 & H1 & Hx) & H2 & [J1 J2] & H3 & E). rewrite Hs in H1, H2. injection H1 as <-. injection H2 as <-. injection E as -> -> ->. split; [reflexivity|].
      apply int_dest_spec in J1 as (u' & J1). exists (x_dest x), (x_wt x), (fst k'), u'. split; [now destruct x|]. split; [assumption|]. rewrite <- J2. now destruct k'.
    - intros (-> & q & u & p' & u' & H1 & H2 & H3). exists (Warc a q u), k, (p', q), e. split; [split; [now apply (All s k)|now exists k]|]. split; [assumption|].
      split; [split; [apply int_dest_spec; now exists u'|reflexivity]|]. now split. }
  assert (Walk : forall w s k e, nth_error (t_keys t) s = Some k -> (leads (t_dag t) s w e <->
    exists k', nth_error (t_keys t) e = Some k' /\ leads d (snd k) w (snd k') /\ leads i (fst k) (map (bit nts) w) (fst k'))).
  { induction w as [|a w IH]; intros s k e Hs; cbn [map].
    - split; [inversion 1; subst; exists k; repeat split; [assumption|constructor..]|]. intros (k' & H1 & H2 & H3). inversion H2 as [p2 E2|]; inversion H3 as [p3 E3|]; subst.
      assert (k' = k) as -> by (destruct k, k'; cbn in *; congruence). rewrite (nodup_nth _ _ _ _ (pi_nodup _ _ I) H1 Hs). constructor.
    - split.
      + inversion 1 as [|? ? s1 v ? ? Hx Hl]; subst. apply (Arc s k Hs) in Hx as (_ & q & u & p' & u' & H1 & H2 & H3). apply (IH s1 _ e H3) in Hl as (k' & K1 & K2 & K3).
        exists k'. split; [assumption|]. split; [now apply (leads_arc _ _ a q u)|now apply (leads_arc _ _ _ p' u')].
      + intros (k' & H1 & H2 & H3). inversion H2 as [|? ? q u ? ? Hx Hl]; subst. inversion H3 as [|? ? p' u' ? ? Hy Hm]; subst.
        assert (T : In (p', q) (t_keys t)).
        { apply (pi_to _ _ I s (Warc a q u) k); [split; [now apply (All s k)|now exists k]|assumption|]. split; [apply int_dest_spec; now exists u'|reflexivity]. }
        apply In_nth_error in T as (s1 & T). apply (leads_arc _ _ a s1 0%Z); [apply (Arc s k Hs); split; [reflexivity|]; now exists q, u, p', u'|]. apply (IH s1 _ e T). now exists k'. }
  assert (Sz : forall e k, nth_error (t_keys t) e = Some k -> e < s_size (t_dag t)) by (intros e k H; rewrite <- (pi_size _ _ I); apply nth_error_Some; congruence).
  split.
  - split; [|split].
    + intros p a q v H. pose proof (row_inside _ _ _ H) as Lp. rewrite <- (pi_size _ _ I) in Lp. apply nth_error_Some in Lp. destruct (nth_error (t_keys t) p) as [k|] eqn:E; [|congruence].
      apply (Arc p k E) in H. destruct H as (_ & q0 & u0 & p0 & u1 & _ & _ & H). exact (Sz _ _ H).
    + intros p H. apply (pi_start _ _ I) in H as ->. apply (Sz 0 (0, 0)). apply (pi_first _ _ I).
    + intros p H. apply (pl_ends _ _ L) in H as (_ & k & H & _). now apply Sz in H.
  - intros w. split.
    + intros (p & q & H1 & H2 & H3). apply (pi_start _ _ I) in H1 as ->. apply (Walk w 0 (0, 0) q (pi_first _ _ I)) in H2 as (k' & K1 & K2 & K3). cbn [fst snd] in *.
      apply (pl_ends _ _ L) in H3 as (_ & k & K4 & K5). rewrite K1 in K4. injection K4 as <-. apply andb_true_iff in K5 as [K5 K6]. apply is_end_in in K5, K6.
      split; [exists 0, (snd k')|exists 0, (fst k')]; (split; [now apply (proj1 Dd)||now apply (proj1 Di)|now split]).
    + intros [(p & q & H1 & H2 & H3) (p' & q' & H1' & H2' & H3')]. apply (proj1 Dd) in H1 as ->. apply (proj1 Di) in H1' as ->.
      assert (T : exists e, nth_error (t_keys t) e = Some (q', q)).
      { assert (G : forall w s k p1 p2, nth_error (t_keys t) s = Some k -> leads d (snd k) w p2 -> leads i (fst k) (map (bit nts) w) p1 -> exists e, nth_error (t_keys t) e = Some (p1, p2)).
        { clear - I All Di. induction w as [|a w IH]; intros s k p1 p2 Hs L1 L2; inversion L1 as [|? ? q u ? ? Hx Hl]; inversion L2 as [|? ? p' u' ? ? Hy Hm]; subst.
          - exists s. rewrite Hs. now destruct k.
          - assert (T : In (p', q) (t_keys t)).
            { apply (pi_to _ _ I s (Warc a q u) k); [split; [now apply (All s k)|now exists k]|assumption|]. split; [apply int_dest_spec; now exists u'|reflexivity]. }
            apply In_nth_error in T as (s1 & T). apply (IH s1 (p', q)); assumption. }
        now apply (G w 0 (0, 0) q' q (pi_first _ _ I)). }
      destruct T as (e & He). exists 0, e. split; [now apply (pi_start _ _ I)|]. split; [apply (Walk w 0 (0, 0) e (pi_first _ _ I)); now exists (q', q)|].
      apply (pl_ends _ _ L). split; [now apply (All e (q', q))|]. exists (q', q). split; [assumption|]. apply andb_true_iff. cbn [fst snd]. split; now apply is_end_in.
Qed.
End Prune.
Section Fuel.
Context (asort : list warc -> list warc).
Lemma subsets_fuel d : forall f ns q l r, subsets f d ns q l = Some r -> forall f', f <= f' -> subsets f' d ns q l = Some r.
Proof.
  induction f as [|f IH]; intros ns q l r E f' L; destruct q as [|z q]; [destruct f'; assumption|discriminate|destruct f'; assumption|]. destruct f' as [|f']; [lia|]. cbn [subsets] in *.
  destruct (fold_left enqueue (map snd (steps d z)) (ns, q)) as [ns' q']. apply IH; [assumption|lia].
Qed.
Lemma determinize_fuel d f g : determinize asort f d = Some g -> forall f', f <= f' -> determinize asort f' d = Some g.
Proof.
  unfold determinize. destruct (subsets f d [] [s_starts d] []) as [l|] eqn:E; [|discriminate]. intros H f' L. now rewrite (subsets_fuel d f _ _ _ _ E f' L).
Qed.
Lemma minimize_fuel d f g : minimize asort f d = Some g -> forall f', f <= f' -> minimize asort f' d = Some g.
Proof.
  unfold minimize. destruct (determinize asort f (reverse asort d)) as [d1|] eqn:E; [|discriminate]. intros H f' L. rewrite (determinize_fuel _ f _ E f' L). now apply (determinize_fuel _ f).
Qed.
Lemma prune_loop_fuel i d nts : forall f t g, prune_loop asort f i d nts t = Some g -> forall f', f <= f' -> prune_loop asort f' i d nts t = Some g.
Proof.
  induction f as [|f IH]; intros t g E f' L; cbn [prune_loop] in E; destruct f' as [|f']; try lia; cbn [prune_loop]; destruct (t_queue t); try assumption; try discriminate.
  apply IH; [assumption|lia].
Qed.
End Fuel.
Section Cut.
Context (asort : list warc -> list warc) (Hsort : sorts asort) (i : sdag) (nts : list Z) (Wi : whole i) (Di : deterministic i).
Lemma prune_spec d fuel g : whole d -> prune asort fuel i nts d = Some g -> whole g /\ deterministic g /\ forall w, words g w <-> words d w /\ words i (map (bit nts) w).
Proof.
  intros W E. unfold prune in E. destruct (minimize asort fuel d) as [d1|] eqn:E1; [|discriminate]. destruct (minimize_spec asort Hsort d W fuel d1 E1) as (A1 & A2 & A3 & _).
  pose proof (prune_loop_spec asort Hsort i d1 nts Wi Di A1 fuel [] _ (ploop_start i d1 nts Wi Di A1 A2)) as P. destruct (prune_loop asort fuel i d1 nts _) as [g1|]; [|discriminate].
  destruct P as (t & dn & -> & L & Q). destruct (product_words i d1 nts Di A2 t dn L Q) as [W1 E2].
  destruct (minimize_spec asort Hsort _ W1 fuel g E) as (B1 & B2 & B3 & _). split; [assumption|]. split; [assumption|]. intros w. now rewrite B3, E2, A3.
Qed.
Lemma prune_ends d : whole d -> exists enough, forall fuel, enough <= fuel -> exists g, prune asort fuel i nts d = Some g.
Proof.
  intros W. destruct (minimize_ends asort Hsort d W _ (Nat.lt_succ_diag_r _)) as (d1 & E1). set (f1 := S (2 ^ (2 ^ s_size d))) in *. destruct (minimize_spec asort Hsort d W f1 d1 E1) as (A1 & A2 & A3 & _).
  set (f2 := s_size i * s_size d1).
  pose proof (prune_loop_spec asort Hsort i d1 nts Wi Di A1 f2 [] _ (ploop_start i d1 nts Wi Di A1 A2)) as P. destruct (prune_loop asort f2 i d1 nts _) as [g1|] eqn:E2; [|unfold f2 in P; cbn in P; lia].
  destruct P as (t & dn & -> & L & Q). destruct (product_words i d1 nts Di A2 t dn L Q) as [W1 _].
  destruct (minimize_ends asort Hsort _ W1 _ (Nat.lt_succ_diag_r _)) as (g & E3). set (f3 := S (2 ^ (2 ^ s_size (t_dag t)))) in *.
  exists (f1 + f2 + f3). intros fuel Lf. exists g. unfold prune. rewrite (minimize_fuel asort d f1 d1 E1 fuel) by lia. rewrite (prune_loop_fuel asort i d1 nts f2 _ _ E2 fuel) by lia. apply (minimize_fuel asort _ f3 g E3). lia.
Qed.
End Cut.

(** ** The automaton of one nonterminal *)
Section Sub.
Context (asort : list warc -> list warc) (Hsort : sorts asort) (lhs : edge).
Record sinv (es : list edge) (dm : sdag * list (Z * nat)) : Prop := Sinv {
  si_start : forall p, start_of (fst dm) p <-> p = 0;
  si_ends : s_ends (fst dm) = [2];
  si_size : 3 <= s_size (fst dm);
  si_range : forall t s, token_state (snd dm) t = Some s -> 1 <= s < s_size (fst dm);
  si_inj : forall t t' s, token_state (snd dm) t = Some s -> token_state (snd dm) t' = Some s -> t = t';
  si_to : token_state (snd dm) (e_to lhs) = Some 2;
  si_from : e_from lhs <> e_to lhs -> token_state (snd dm) (e_from lhs) = Some 1;
  si_none : e_from lhs = e_to lhs -> forall t, token_state (snd dm) t <> Some 1;
  si_edges : forall e, In e es -> token_state (snd dm) (e_from e) <> None /\ token_state (snd dm) (e_to e) <> None;
  si_row : forall s y, In y (s_row (fst dm) s) <-> (s = 0 /\ y = Warc (e_sym lhs) 1 0) \/
    exists e q, In e es /\ token_state (snd dm) (e_from e) = Some s /\ token_state (snd dm) (e_to e) = Some q /\ y = Warc (e_sym e) q 0 }.
Lemma token_sinv es dm t : sinv es dm -> let r := token t dm in
  sinv es (snd r) /\ token_state (snd (snd r)) t = Some (fst r) /\ (forall u s, token_state (snd dm) u = Some s -> token_state (snd (snd r)) u = Some s).
Proof.
  intros I. destruct dm as [d m]. unfold token. destruct (token_state m t) as [s|] eqn:E; cbn [fst snd]; [split; [assumption|split; [assumption|easy]]|].
  destruct I as [I1 I2 I3 I4 I5 I6 I7 I8 I9 I10]. cbn [fst snd] in *. set (m' := (t, s_size d) :: m).
  assert (New : token_state m' t = Some (s_size d)) by (unfold token_state, m'; cbn [find fst]; now rewrite Z.eqb_refl).
  assert (Oth : forall u, u <> t -> token_state m' u = token_state m u).
  { intros u N. unfold token_state, m'. cbn [find fst]. apply Z.eqb_neq in N. now rewrite N. }
  assert (Old : forall u s, token_state m u = Some s -> token_state m' u = Some s) by (intros u s H; rewrite Oth; [assumption|congruence]).
  assert (Case : forall u s, token_state m' u = Some s -> (u = t /\ s = s_size d) \/ token_state m u = Some s).
  { intros u s H. destruct (Z.eq_dec u t) as [->|N]; [left; rewrite New in H; now injection H|right; now rewrite <- Oth]. }
  split; [|now split]. constructor; cbn [fst snd].
  - exact I1.
  - exact I2.
  - rewrite new_state_size. lia.
  - intros u s H. rewrite new_state_size. apply Case in H as [[-> ->]|H]; [lia|apply I4 in H; lia].
  - intros u u' s H H'. apply Case in H as [[-> ->]|H]; apply Case in H' as [[-> ?]|H']; subst; try reflexivity; try (apply I4 in H'; lia); try (apply I4 in H; lia). now apply (I5 u u' s).
  - now apply Old.
  - intros N. now apply Old, I7.
  - intros Eq u H. apply Case in H as [[-> ?]|H]; [lia|now apply (I8 Eq u)].
  - intros e He. destruct (I9 e He) as [H1 H2]. destruct (token_state m (e_from e)) eqn:E1; [|easy]. destruct (token_state m (e_to e)) eqn:E2; [|easy].
    rewrite (Old _ _ E1), (Old _ _ E2). easy.
  - intros s y. rewrite new_state_row, I10. split; (intros [H|(e & q & He & H1 & H2 & ->)]; [now left|right; exists e, q; split; [assumption|]]).
    + split; [now apply Old|]. split; [now apply Old|reflexivity].
    + destruct (I9 e He) as [N1 N2]. destruct (token_state m (e_from e)) eqn:E1; [|easy]. destruct (token_state m (e_to e)) eqn:E2; [|easy].
      rewrite (Old _ _ E1) in H1. rewrite (Old _ _ E2) in H2. now repeat split.
Qed.
Lemma put_sinv es dm e : sinv es dm -> sinv (es ++ [e]) (put_edge asort dm e).
Proof.
  intros I. unfold put_edge. destruct (token_sinv es dm (e_from e) I) as (I1 & T1 & _). destruct (token (e_from e) dm) as [p dm1]. cbn [fst snd] in *.
  destruct (token_sinv es dm1 (e_to e) I1) as (I2 & T2 & K2). destruct (token (e_to e) dm1) as [q dm2]. cbn [fst snd] in *. apply K2 in T1. destruct dm2 as [d m]. cbn [fst snd] in *.
  destruct I2 as [J1 J2 J3 J4 J5 J6 J7 J8 J9 J10]. cbn [fst snd] in *. pose proof (J4 _ _ T1) as R1. pose proof (J4 _ _ T2) as R2.
  constructor; cbn [fst snd]; try assumption.
  - now rewrite new_arc_size.
  - intros t s H. rewrite new_arc_size. now apply (J4 t).
  - intros e' H. apply in_app_iff in H as [H|[<-|[]]]; [now apply J9|]. rewrite T1, T2. easy.
  - intros s y. rewrite (new_arc_in asort Hsort) by lia. rewrite J10. split.
    + intros [[H|(e' & q' & H & R)]|[-> ->]]; [now left|right; exists e', q'; split; [apply in_app_iff; now left|assumption]|]. right. exists e, q. split; [apply in_app_iff; right; now left|]. now repeat split.
    + intros [H|(e' & q' & H & H1 & H2 & ->)]; [left; now left|]. apply in_app_iff in H as [H|[<-|[]]]; [left; right; now exists e', q'|]. right. split; congruence.
Qed.
Lemma puts_sinv : forall l es dm, sinv es dm -> sinv (es ++ l) (fold_left (put_edge asort) l dm).
Proof.
  induction l as [|e l IH]; intros es dm I; cbn [fold_left]; [now rewrite app_nil_r|]. replace (es ++ e :: l) with ((es ++ [e]) ++ l) by now rewrite <- app_assoc. apply IH, put_sinv, I.
Qed.
Lemma start_sinv : sinv [] (new_arc asort 0 1 (e_sym lhs) 0 (s_set_end 2 (new_state false (new_state false (new_state true s_empty)))), [(e_to lhs, 2); (e_from lhs, 1)]).
Proof.
  assert (R0 : forall s, s_row (s_set_end 2 (new_state false (new_state false (new_state true s_empty)))) s = []) by (intros [|[|[|[|s]]]]; reflexivity).
  assert (Tk : forall t, token_state [(e_to lhs, 2); (e_from lhs, 1)] t = if Z.eqb t (e_to lhs) then Some 2 else if Z.eqb t (e_from lhs) then Some 1 else None).
  { intros t. unfold token_state. cbn [find fst]. destruct (Z.eqb t (e_to lhs)); [reflexivity|]. now destruct (Z.eqb t (e_from lhs)). }
  constructor; cbn [fst snd].
  - intros p. change (start_of (new_state true s_empty) p <-> p = 0). rewrite new_state_start, start_of_bit. cbn [s_size s_empty s_rows length]. change (start_of (new_state false s_empty) p) with (has 0 p = true). rewrite has_none. intuition congruence.
  - reflexivity.
  - rewrite new_arc_size. cbn. lia.
  - intros t s. rewrite Tk, new_arc_size. cbn. destruct (Z.eqb t (e_to lhs)); [intros [= <-]; lia|]. destruct (Z.eqb t (e_from lhs)); [intros [= <-]; lia|discriminate].
  - intros t t' s. rewrite !Tk. destruct (Z.eqb_spec t (e_to lhs)), (Z.eqb_spec t' (e_to lhs)), (Z.eqb_spec t (e_from lhs)), (Z.eqb_spec t' (e_from lhs)); congruence.
  - rewrite Tk. now rewrite Z.eqb_refl.
  - intros N. rewrite Tk, Z.eqb_refl. apply Z.eqb_neq in N. now rewrite N.
  - intros Eq t. rewrite Tk, Eq. now destruct (Z.eqb t (e_to lhs)).
  - intros e [].
  - intros s y. rewrite (new_arc_in asort Hsort) by (cbn; lia). rewrite R0. cbn [In]. split.
    + intros [[]|[-> ->]]. now left.
    + intros [[-> ->]|(e & q & [] & _)]. now right.
Qed.
Lemma subparse_spec es : whole (subparse asort lhs es) /\
  forall w, words (subparse asort lhs es) w <-> e_from lhs <> e_to lhs /\ exists v, w = e_sym lhs :: v /\ path es (e_from lhs) v (e_to lhs).
Proof.
  unfold subparse. pose proof (puts_sinv es [] _ start_sinv) as I. cbn [app] in I. set (dm := fold_left _ es _) in *. clearbody dm. destruct dm as [d m]. cbn [fst snd] in *.
  destruct I as [I1 I2 I3 I4 I5 I6 I7 I8 I9 I10]. cbn [fst snd] in *. split.
  - split; [|split].
    + intros p a q v H. apply I10 in H as [[_ [= -> -> ->]]|(e & q' & _ & _ & H & [= -> -> ->])]; [lia|]. now apply I4 in H.
    + intros p H. apply I1 in H as ->. lia.
    + intros p H. rewrite I2 in H. destruct H as [<-|[]]. lia.
  - assert (Walk : forall v t s s', token_state m t = Some s -> (leads d s v s' <-> exists t', token_state m t' = Some s' /\ path es t v t')).
    { induction v as [|a v IH]; intros t s s' Ht.
      - split; [inversion 1; subst; exists t; split; [assumption|constructor]|]. intros (t' & H1 & H2). inversion H2; subst. assert (s' = s) as -> by congruence. constructor.
      - split.
        + intros H. inversion H as [|? ? q u ? ? Hx Hl]; subst. apply I10 in Hx as [[-> _]|(e & q' & He & H1 & H2 & [= -> <- ->])]; [apply I4 in Ht; lia|].
          apply (IH (e_to e) q s' H2) in Hl as (t' & K1 & K2). exists t'. split; [assumption|]. rewrite (I5 _ _ _ Ht H1). now constructor.
        + intros (t' & H1 & H2). inversion H2 as [|e ? ? He Hp]; subst. destruct (token_state m (e_to e)) as [q|] eqn:E; [|now apply I9 in He].
          apply (leads_arc _ _ _ q 0%Z); [apply I10; right; now exists e, q|]. apply (IH (e_to e) q s' E). now exists t'. }
    intros w. split.
    + intros (p & q & H1 & H2 & H3). apply I1 in H1 as ->. rewrite I2 in H3. destruct H3 as [<-|[]]. inversion H2 as [|? a q u v ? Hx Hl]; subst.
      apply I10 in Hx as [[_ [= -> -> ->]]|(e & q' & _ & H & _)]; [|apply I4 in H; lia].
      destruct (Z.eq_dec (e_from lhs) (e_to lhs)) as [Eq|N].
      * exfalso. inversion Hl as [|? a q u v' ? Hx _]; subst. apply I10 in Hx as [[K _]|(e & q' & _ & K & _)]; [discriminate|now apply (I8 Eq) in K].
      * split; [assumption|]. exists v. split; [reflexivity|]. apply (Walk v _ 1 2 (I7 N)) in Hl as (t' & K1 & K2). now rewrite (I5 _ _ _ I6 K1).
    + intros (N & v & -> & H). exists 0, 2. split; [now apply I1|]. split; [|rewrite I2; now left]. apply (leads_arc _ _ _ 1 0%Z); [apply I10; left; now split|].
      apply (Walk v _ 1 2 (I7 N)). now exists (e_to lhs).
Qed.
Lemma path_nonempty es t v t' : path es t v t' -> t <> t' -> 1 <= length v.
Proof. intros [|]; [easy|]. cbn. lia. Qed.
End Sub.
Section All.
Context (asort : list warc -> list warc) (Hsort : sorts asort).
Lemma unions_spec : forall trees d, whole d -> let u := fold_left (fun d t => nd_union asort d (subparse asort (fst t) (snd t))) trees d in
  whole u /\ forall w, words u w <-> words d w \/ exists t, In t trees /\ words (subparse asort (fst t) (snd t)) w.
Proof.
  induction trees as [|t trees IH]; intros d W; cbn [fold_left].
  - split; [assumption|]. intros w. split; [now left|]. intros [H|(t & [] & _)]. assumption.
  - destruct (subparse_spec asort Hsort (fst t) (snd t)) as [Wt _]. destruct (union_whole asort Hsort d _ W Wt) as [W' _]. destruct (IH _ W') as [Wu Eu]. split; [assumption|].
    intros w. rewrite Eu, (union_words asort Hsort d _ W Wt). split.
    + intros [[H|H]|(t' & H1 & H2)]; [now left|right; exists t; split; [now left|assumption]|right; exists t'; split; [now right|assumption]].
    + intros [H|(t' & [<-|H1] & H2)]; [left; now left|left; now right|right; now exists t'].
Qed.
End All.

(** Layer tags (C09, C10). *)
From Coq Require Import List ZArith NArith Bool Arith Sorted Permutation Lia.
From Verif Require Import M_OrdSet L_OrdSet M_Tags.
Import ListNotations.
Open Scope nat_scope.

(** * What a collection stands for *)
Definition has (m : manager) (c : collection) (n : str) : Prop :=
  exists i, nth_error (names m) i = Some n /\ N.testbit c (N.of_nat i) = true.
(** A tag whose name begins with '!' separates planes. *)
Definition plane_name (n : str) : Prop := hd 0%Z n = 33%Z.
Record denotes (m : manager) (c : collection) (S : str -> Prop) : Prop := {
  dn_has : forall n, has m c n <-> S n;
  dn_bits : forall i, N.testbit c i = true -> exists n, nth_error (names m) (N.to_nat i) = Some n;
  dn_plane : forall i n, N.testbit c (N.of_nat i) = true -> nth_error (names m) i = Some n -> plane_name n ->
             N.testbit (planes m) (N.of_nat i) = true
}.
Record ok (m : manager) : Prop := {
  ok_nodup : NoDup (names m);
  ok_size : length (names m) <= 64;
  ok_symbol : nth_error (names m) 0 = Some SYMBOL;
  ok_planes : forall i, N.testbit (planes m) i = true ->
              exists n, nth_error (names m) (N.to_nat i) = Some n /\ plane_name n
}.
(** Later states of the same manager. *)
Record later (m m' : manager) : Prop := {
  lt_names : exists l, names m' = names m ++ l;
  lt_planes : forall i, N.testbit (planes m) i = true -> N.testbit (planes m') i = true
}.

Lemma str_eqb_spec a b : str_eqb a b = true <-> a = b.
Proof. unfold str_eqb. destruct (list_eq_dec Z.eq_dec a b); split; congruence. Qed.
Lemma index_some ns n i : index ns n = Some i -> nth_error ns i = Some n.
Proof.
  revert i. induction ns as [|x ns IH]; intros i; cbn [index]; [discriminate|].
  destruct (str_eqb x n) eqn:E.
  - intros [= <-]. apply str_eqb_spec in E. now subst.
  - destruct (index ns n) as [j|]; [|discriminate]. intros [= <-]. cbn. now apply IH.
Qed.
Lemma index_none ns n : index ns n = None <-> ~ In n ns.
Proof.
  induction ns as [|x ns IH]; cbn [index]; [cbn; intuition|].
  destruct (str_eqb x n) eqn:E.
  - apply str_eqb_spec in E. subst. split; [discriminate|]. intros H. exfalso. apply H. now left.
  - destruct (index ns n) as [j|].
    + split; [discriminate|]. intros H. exfalso. apply H. right.
      destruct (in_dec (list_eq_dec Z.eq_dec) n ns) as [|Hn]; [assumption|]. apply IH in Hn. discriminate.
    + split; [|reflexivity]. intros _ [->|Hin]; [|now apply IH in Hin].
      assert (str_eqb n n = true) by now apply str_eqb_spec. congruence.
Qed.
Lemma nth_error_index ns n i : NoDup ns -> nth_error ns i = Some n -> index ns n = Some i.
Proof.
  intros Hd Hi. destruct (index ns n) as [j|] eqn:E.
  - apply index_some in E. f_equal. symmetry. eapply NoDup_nth_error; [eassumption| |congruence].
    apply nth_error_Some. congruence.
  - exfalso. apply index_none in E. apply E. eapply nth_error_In; eassumption.
Qed.
Lemma register_spec ns n : exists l, register ns n = ns ++ l /\ (l = [] /\ In n ns \/ l = [n] /\ ~ In n ns).
Proof.
  unfold register. destruct (index ns n) as [i|] eqn:E.
  - exists []. rewrite app_nil_r. split; [reflexivity|]. left. split; [reflexivity|].
    apply index_some in E. eapply nth_error_In; eassumption.
  - exists [n]. split; [reflexivity|]. right. split; [reflexivity|]. now apply index_none.
Qed.
Lemma register_nodup ns n : NoDup ns -> NoDup (register ns n).
Proof.
  intros H. destruct (register_spec ns n) as [l [-> [[-> _]|[-> Hn]]]]; [now rewrite app_nil_r|].
  eapply Permutation_NoDup; [apply Permutation_app_comm|]. cbn. now constructor.
Qed.

Lemma nth_error_later m m' i n : later m m' -> nth_error (names m) i = Some n -> nth_error (names m') i = Some n.
Proof.
  intros [[l E] _] H. rewrite E. rewrite nth_error_app1; [assumption|]. apply nth_error_Some. congruence.
Qed.
Lemma later_refl m : later m m.
Proof. constructor; [exists []; now rewrite app_nil_r|auto]. Qed.
Lemma later_trans m1 m2 m3 : later m1 m2 -> later m2 m3 -> later m1 m3.
Proof. intros [[l E] H] [[l' E'] H']. constructor; [exists (l ++ l'); now rewrite E', E, app_assoc|auto]. Qed.

Lemma denotes_later m m' c S : ok m' -> later m m' -> denotes m c S -> denotes m' c S.
Proof.
  intros Hok Hl [H1 H2 H3]. constructor.
  - intros n. rewrite <- H1. split; intros [i [Hi Hb]]; exists i; (split; [|assumption]).
    + destruct (H2 _ Hb) as [n' Hn']. rewrite Nnat.Nat2N.id in Hn'. pose proof (nth_error_later _ _ _ _ Hl Hn'). congruence.
    + eapply nth_error_later; eassumption.
  - intros i Hi. destruct (H2 _ Hi) as [n Hn]. exists n. eapply nth_error_later; eassumption.
  - intros i n Hi Hn Hp. apply (lt_planes _ _ Hl). destruct (H2 _ Hi) as [n' Hn']. rewrite Nnat.Nat2N.id in Hn'.
    pose proof (nth_error_later _ _ _ _ Hl Hn'). apply (H3 i n'); congruence.
Qed.
Lemma denotes_ext m c S T : denotes m c S -> (forall n, S n <-> T n) -> denotes m c T.
Proof. intros [H1 H2 H3] E. constructor; auto. intros n. now rewrite H1. Qed.
Lemma denotes_empty m : denotes m 0%N (fun _ => False).
Proof.
  constructor.
  - intros n. split; [|intros []]. intros [i [_ Hb]]. now rewrite N.bits_0 in Hb.
  - intros i Hi. now rewrite N.bits_0 in Hi.
  - intros i n Hi. now rewrite N.bits_0 in Hi.
Qed.

Lemma set_bit_spec c i j : N.testbit (set_bit c i) (N.of_nat j) = (i =? j) || N.testbit c (N.of_nat j).
Proof.
  unfold set_bit. rewrite N.setbit_eqb. f_equal.
  destruct (Nat.eqb_spec i j); [subst; apply N.eqb_refl|]. apply N.eqb_neq. lia.
Qed.

(** One tag more. *)
Lemma add_tag_ok m c n m' c' S : ok m -> denotes m c S -> add_tag (m, c) n = Some (m', c') ->
  ok m' /\ later m m' /\ denotes m' c' (fun x => S x \/ x = n).
Proof.
  intros Hok Hc. unfold add_tag. destruct (index (register (names m) n) n) as [i|] eqn:Ei; [|discriminate].
  destruct (CAPACITY <=? i) eqn:Ecap; [discriminate|]. apply Nat.leb_gt in Ecap. unfold CAPACITY in Ecap.
  intros [= <- <-]. pose proof (index_some _ _ _ Ei) as Hi.
  set (pl := if Z.eqb (hd 0%Z n) 33 then set_bit (planes m) i else planes m).
  set (m' := Manager (register (names m) n) pl).
  assert (Hlater : later m m').
  { constructor.
    - destruct (register_spec (names m) n) as [l [E _]]. now exists l.
    - intros j Hj. cbn [m' planes]. unfold pl. destruct (Z.eqb (hd 0%Z n) 33); [|assumption].
      rewrite <- (Nnat.N2Nat.id j) in *. rewrite set_bit_spec, Hj. apply orb_true_r. }
  assert (Hok' : ok m').
  { constructor.
    - apply register_nodup, (ok_nodup _ Hok).
    - cbn [m' names]. destruct (register_spec (names m) n) as [l [E [[-> _]|[-> Hn]]]]; rewrite E in *.
      + rewrite app_nil_r. apply (ok_size _ Hok).
      + rewrite app_length. cbn [length]. enough (length (names m) < 64) by lia.
        assert (i = length (names m)); [|lia].
        pose proof (register_nodup (names m) n (ok_nodup _ Hok)) as Hd. rewrite E in Hd.
        assert (nth_error (names m ++ [n]) (length (names m)) = Some n) by (rewrite nth_error_app2, Nat.sub_diag by lia; reflexivity).
        eapply NoDup_nth_error; [exact Hd| |congruence]. apply nth_error_Some. congruence.
    - apply (nth_error_later _ _ _ _ Hlater (ok_symbol _ Hok)).
    - intros j Hj. cbn [m' planes names] in *. unfold pl in Hj.
      assert (Hold : N.testbit (planes m) j = true -> exists n0, nth_error (register (names m) n) (N.to_nat j) = Some n0 /\ plane_name n0).
      { intros Hj'. destruct (ok_planes _ Hok _ Hj') as [x [Hx Hp]]. exists x. split; [|assumption].
        exact (nth_error_later _ _ _ _ Hlater Hx). }
      destruct (Z.eqb_spec (hd 0%Z n) 33) as [Hp|]; [|auto].
      rewrite <- (Nnat.N2Nat.id j), set_bit_spec in Hj. apply orb_true_iff in Hj as [Hj|Hj].
      + apply Nat.eqb_eq in Hj. subst i. exists n. split; assumption.
      + rewrite Nnat.N2Nat.id in Hj. auto. }
  split; [assumption|]. split; [assumption|].
  pose proof (denotes_later _ _ _ _ Hok' Hlater Hc) as [H1 H2 H3].
  assert (Hset : forall j, N.testbit (set_bit c i) (N.of_nat j) = true <-> j = i \/ N.testbit c (N.of_nat j) = true).
  { intros j. rewrite set_bit_spec, orb_true_iff, Nat.eqb_eq. intuition. }
  constructor.
  - intros x. rewrite <- H1. split.
    + intros [j [Hj Hb]]. apply Hset in Hb as [->|Hb]; [right|left; now exists j]. cbn in Hj. congruence.
    + intros [[j [Hj Hb]]| ->]; [exists j; split; [assumption|]; apply Hset; now right|].
      exists i. split; [exact Hi|]. apply Hset. now left.
  - intros j Hj. rewrite <- (Nnat.N2Nat.id j) in Hj. apply Hset in Hj as [Hj|Hj].
    + exists n. rewrite Hj. exact Hi.
    + rewrite Nnat.N2Nat.id in Hj. auto.
  - intros j x Hj Hx Hp. apply Hset in Hj as [->|Hj]; [|eauto].
    assert (x = n) by (cbn in Hx; congruence). subst x. cbn [m' planes]. unfold pl.
    unfold plane_name in Hp. rewrite Hp, Z.eqb_refl. rewrite set_bit_spec, Nat.eqb_refl. reflexivity.
Qed.

Lemma add_tags_ok ns : forall m c m' c' S, ok m -> denotes m c S -> add_tags (m, c) ns = Some (m', c') ->
  ok m' /\ later m m' /\ denotes m' c' (fun x => S x \/ In x ns).
Proof.
  induction ns as [|n ns IH]; intros m c m' c' S Hok Hc; cbn [add_tags].
  - intros [= <- <-]. split; [assumption|]. split; [apply later_refl|]. eapply denotes_ext; [eassumption|]. cbn. intuition.
  - destruct (add_tag (m, c) n) as [[m1 c1]|] eqn:E; [|discriminate].
    destruct (add_tag_ok _ _ _ _ _ _ Hok Hc E) as [Hok1 [Hl1 Hc1]]. intros H.
    destruct (IH _ _ _ _ _ Hok1 Hc1 H) as [Hok' [Hl' Hc']]. split; [assumption|]. split; [eapply later_trans; eassumption|].
    eapply denotes_ext; [exact Hc'|]. cbn. intros x. intuition.
Qed.
Lemma create_ok m ns m' c : ok m -> create m ns = Some (m', c) ->
  ok m' /\ later m m' /\ denotes m' c (fun x => In x ns).
Proof.
  intros Hok H. destruct (add_tags_ok _ _ _ _ _ _ Hok (denotes_empty m) H) as [H1 [H2 H3]].
  split; [assumption|]. split; [assumption|]. eapply denotes_ext; [exact H3|]. cbn. intuition.
Qed.
Lemma create_all_ok al : forall m m' cs, ok m -> create_all m al = Some (m', cs) ->
  ok m' /\ later m m' /\ Forall2 (fun ns c => denotes m' c (fun x => In x ns)) al cs.
Proof.
  induction al as [|ns al IH]; intros m m' cs Hok; cbn [create_all].
  - intros [= <- <-]. split; [assumption|]. split; [apply later_refl|constructor].
  - destruct (create m ns) as [[m1 c]|] eqn:E; [|discriminate].
    destruct (create_all m1 al) as [[m2 cs']|] eqn:E2; [|discriminate]. intros [= <- <-].
    destruct (create_ok _ _ _ _ Hok E) as [Hok1 [Hl1 Hc]].
    destruct (IH _ _ _ Hok1 E2) as [Hok2 [Hl2 Hcs]]. split; [assumption|]. split; [eapply later_trans; eassumption|].
    constructor; [|assumption]. eapply denotes_later; eassumption.
Qed.

Lemma step_ok m c m' : ok m -> step m c = Some m' -> ok m' /\ later m m'.
Proof.
  intros Hok. destruct c as [ns|spec|n c]; cbn [step].
  - destruct (create m ns) as [[m1 c]|] eqn:E; [|discriminate]. intros [= <-].
    destruct (create_ok _ _ _ _ Hok E) as [H1 [H2 _]]. auto.
  - unfold get_mask. destruct (split_mask spec) as [|a al].
    + destruct (create m [spec]) as [[m1 c]|] eqn:E; [|discriminate]. intros [= <-].
      destruct (create_ok _ _ _ _ Hok E) as [H1 [H2 _]]. auto.
    + destruct (create_all m (a :: al)) as [[m1 cs]|] eqn:E; [|discriminate]. intros [= <-].
      destruct (create_all_ok _ _ _ _ Hok E) as [H1 [H2 _]]. auto.
  - (* isThere only registers *)
    unfold is_there. destruct (index (register (names m) n) n) as [i|] eqn:Ei; [|discriminate].
    destruct (CAPACITY <=? i) eqn:Ecap; [discriminate|]. intros [= <-].
    assert (Hl : later m (Manager (register (names m) n) (planes m))).
    { constructor; [|auto]. destruct (register_spec (names m) n) as [l [E _]]. now exists l. }
    split; [|exact Hl].
    destruct (add_tag (m, 0%N) n) as [[m1 c1]|] eqn:Et.
    2:{ unfold add_tag in Et. rewrite Ei, Ecap in Et. discriminate. }
    destruct (add_tag_ok _ _ _ _ _ _ Hok (denotes_empty m) Et) as [Hok1 _].
    unfold add_tag in Et. rewrite Ei, Ecap in Et. injection Et as <- _.
    constructor; cbn [names planes].
    + apply (ok_nodup _ Hok1).
    + apply (ok_size _ Hok1).
    + apply (ok_symbol _ Hok1).
    + intros j Hj. destruct (ok_planes _ Hok _ Hj) as [x [Hx Hp]]. exists x. split; [|assumption].
      exact (nth_error_later _ _ _ _ Hl Hx).
Qed.
Lemma run_ok cs : forall m m', ok m -> run m cs = Some m' -> ok m' /\ later m m'.
Proof.
  induction cs as [|c cs IH]; intros m m' Hok; cbn [run].
  - intros [= <-]. split; [assumption|apply later_refl].
  - destruct (step m c) as [m1|] eqn:E; [|discriminate]. intros H. destruct (step_ok _ _ _ Hok E) as [Hok1 Hl1].
    destruct (IH _ _ Hok1 H) as [Hok2 Hl2]. split; [assumption|eapply later_trans; eassumption].
Qed.
Lemma initial_ok : ok initial.
Proof.
  constructor; cbn.
  - repeat constructor. intros [].
  - lia.
  - reflexivity.
  - intros i Hi. discriminate Hi.
Qed.

(** * C09: collections are sets of names *)
Definition reachable (m : manager) : Prop := exists cs, run initial cs = Some m.
Lemma reachable_ok m : reachable m -> ok m.
Proof. intros [cs H]. now apply run_ok in H as [H _]; [|apply initial_ok]. Qed.

(** A created collection stands for the set of the given names, then and later. *)
Theorem C09_created m ns m1 c cs m2 : reachable m -> create m ns = Some (m1, c) -> run m1 cs = Some m2 ->
  denotes m2 c (fun n => In n ns).
Proof.
  intros Hr E Hrun. apply reachable_ok in Hr. destruct (create_ok _ _ _ _ Hr E) as [Hok [_ Hc]].
  destruct (run_ok _ _ _ Hok Hrun) as [Hok2 Hl]. eapply denotes_later; eassumption.
Qed.
Theorem C09_kept m cs m' c S : reachable m -> denotes m c S -> run m cs = Some m' -> denotes m' c S.
Proof.
  intros Hr Hc Hrun. apply reachable_ok in Hr. destruct (run_ok _ _ _ Hr Hrun) as [Hok2 Hl].
  eapply denotes_later; eassumption.
Qed.
Lemma union_bit a b i : N.testbit (union a b) i = N.testbit a i || N.testbit b i.
Proof. unfold union. now rewrite N.lor_spec. Qed.
Lemma intersection_bit a b i : N.testbit (intersection a b) i = N.testbit a i && N.testbit b i.
Proof. unfold intersection. now rewrite N.land_spec. Qed.
Theorem C09_union m a b S T : denotes m a S -> denotes m b T -> denotes m (union a b) (fun n => S n \/ T n).
Proof.
  intros [A1 A2 A3] [B1 B2 B3]. constructor.
  - intros n. rewrite <- A1, <- B1. split.
    + intros [i [Hi Hb]]. rewrite union_bit in Hb.
      apply orb_true_iff in Hb as [Hb|Hb]; [left|right]; now exists i.
    + intros [[i [Hi Hb]]|[i [Hi Hb]]]; exists i; (split; [assumption|]); rewrite union_bit, Hb; [reflexivity|].
      apply orb_true_r.
  - intros i Hi. rewrite union_bit in Hi. apply orb_true_iff in Hi as [Hi|Hi]; auto.
  - intros i n Hi Hn Hp. rewrite union_bit in Hi. apply orb_true_iff in Hi as [Hi|Hi]; eauto.
Qed.
Lemma index_unique m i j n : ok m -> nth_error (names m) i = Some n -> nth_error (names m) j = Some n -> i = j.
Proof.
  intros Hok Hi Hj. eapply NoDup_nth_error; [apply (ok_nodup _ Hok)| |congruence]. apply nth_error_Some. congruence.
Qed.
Theorem C09_intersection m a b S T : reachable m -> denotes m a S -> denotes m b T ->
  denotes m (intersection a b) (fun n => S n /\ T n).
Proof.
  intros Hr [A1 A2 A3] [B1 B2 B3]. apply reachable_ok in Hr. constructor.
  - intros n. rewrite <- A1, <- B1. split.
    + intros [i [Hi Hb]]. rewrite intersection_bit in Hb.
      apply andb_true_iff in Hb as [H1 H2]. split; now exists i.
    + intros [[i [Hi Hb]] [j [Hj Hb']]]. assert (j = i) by (eapply index_unique; eassumption). subst j.
      exists i. split; [assumption|]. rewrite intersection_bit, Hb, Hb'. reflexivity.
  - intros i Hi. rewrite intersection_bit in Hi. apply andb_true_iff in Hi as [Hi _]. auto.
  - intros i n Hi Hn Hp. rewrite intersection_bit in Hi.
    apply andb_true_iff in Hi as [Hi _]. eauto.
Qed.
Lemma subset_bits a b : subset a b = true <-> forall i, N.testbit a i = true -> N.testbit b i = true.
Proof.
  unfold subset. rewrite N.eqb_eq. split.
  - intros E i Hi. rewrite <- E, N.land_spec in Hi. now apply andb_true_iff in Hi as [_ Hi].
  - intros H. apply N.bits_inj. intros i. rewrite N.land_spec. specialize (H i).
    destruct (N.testbit a i); [now rewrite H|reflexivity].
Qed.
Lemma has_bit m c S i n : denotes m c S -> ok m -> nth_error (names m) i = Some n ->
  (N.testbit c (N.of_nat i) = true <-> S n).
Proof.
  intros Hc Hok Hi. rewrite <- (dn_has _ _ _ Hc). split; [intros Hb; now exists i|].
  intros [j [Hj Hb]]. assert (j = i) by (eapply index_unique; eassumption). now subst.
Qed.
Theorem C09_subset m a b S T : reachable m -> denotes m a S -> denotes m b T ->
  (subset a b = true <-> forall n, S n -> T n).
Proof.
  intros Hr Ha Hb. apply reachable_ok in Hr. rewrite subset_bits. split.
  - intros H n Hn. apply (dn_has _ _ _ Ha) in Hn as [i [Hi Hbit]].
    apply (has_bit _ _ _ _ _ Hb Hr Hi). now apply H.
  - intros H i Hi. destruct (dn_bits _ _ _ Ha _ Hi) as [n Hn].
    rewrite <- (Nnat.N2Nat.id i) in *. rewrite Nnat.Nat2N.id in Hn.
    apply (has_bit _ _ _ _ _ Hb Hr Hn). apply H. now apply (has_bit _ _ _ _ _ Ha Hr Hn).
Qed.
Theorem C09_equal m a b S T : reachable m -> denotes m a S -> denotes m b T ->
  (coll_eqb a b = true <-> forall n, S n <-> T n).
Proof.
  intros Hr Ha Hb. unfold coll_eqb. rewrite N.eqb_eq. split.
  - intros <- n. now rewrite <- (dn_has _ _ _ Ha), <- (dn_has _ _ _ Hb).
  - intros H. apply N.bits_inj. intros i. apply eq_true_iff_eq. split; intros Hi.
    + apply (proj1 (subset_bits a b)); [|assumption]. apply (C09_subset _ _ _ _ _ Hr Ha Hb). intros n. apply H.
    + apply (proj1 (subset_bits b a)); [|assumption]. apply (C09_subset _ _ _ _ _ Hr Hb Ha). intros n. apply H.
Qed.
Theorem C09_empty m c S : reachable m -> denotes m c S ->
  (is_empty c = true <-> forall n, ~ S n) /\ (is_nonempty c = true <-> exists n, S n).
Proof.
  intros Hr Hc.
  assert (H1 : is_empty c = true <-> forall n, ~ S n).
  { pose proof (C09_equal m c 0%N S (fun _ => False) Hr Hc (denotes_empty m)) as H. unfold coll_eqb in H. unfold is_empty.
    rewrite H. split; [intros E n Hn; now apply E in Hn|]. intros E n. split; [apply E|intros []]. }
  split; [exact H1|]. unfold is_nonempty. unfold is_empty in H1. split.
  - intros Hn. destruct (N.eqb_spec c 0) as [|Hne]; [discriminate|].
    exists (nth (N.to_nat (N.log2 c)) (names m) []).
    assert (Hbit : N.testbit c (N.log2 c) = true) by now apply N.bit_log2.
    destruct (dn_bits _ _ _ Hc _ Hbit) as [n Hnn]. apply nth_error_nth with (d := []) in Hnn as Hnn'. rewrite Hnn'.
    apply (dn_has _ _ _ Hc). exists (N.to_nat (N.log2 c)). rewrite Nnat.N2Nat.id. auto.
  - intros [n Hn]. destruct (N.eqb_spec c 0) as [->|]; [|reflexivity]. exfalso. now apply (proj1 H1 eq_refl n).
Qed.

(** Masks: an alternative of required sets. *)
Theorem C09_matches m c S altcs alts : reachable m -> denotes m c S ->
  Forall2 (fun a A => denotes m a A) altcs alts ->
  (matches c (mask_of altcs) = true <-> exists A, In A alts /\ forall n, A n -> S n).
Proof.
  intros Hr Hc Ha. unfold matches, mask_of. cbn [none any M_Tags.alts].
  induction Ha as [|a A altcs alts HaA Ha IH]; cbn [existsb].
  - split; [discriminate|]. now intros [A [[] _]].
  - rewrite orb_true_iff, IH, (C09_subset m a c A S Hr HaA Hc). split.
    + intros [H|[B [HB H]]]; [exists A; split; [now left|assumption]|exists B; split; [now right|assumption]].
    + intros [B [[<-|HB] H]]; [now left|right; eauto].
Qed.
Theorem C09_matches_const c : matches c (mask_const true) = true /\ matches c (mask_const false) = false.
Proof. split; reflexivity. Qed.
Theorem C09_monotone m c c' S S' mk : reachable m -> denotes m c S -> denotes m c' S' -> (forall n, S n -> S' n) ->
  matches c mk = true -> matches c' mk = true.
Proof.
  intros Hr Hc Hc' Hs. unfold matches. destruct (none mk); [auto|]. destruct (any mk); [auto|].
  intros H. apply existsb_exists in H as [a [Ha H]]. apply existsb_exists. exists a. split; [assumption|].
  rewrite subset_bits in *. intros i Hi. apply H in Hi. revert i Hi. rewrite <- subset_bits.
  apply (C09_subset _ _ _ _ _ Hr Hc Hc'). exact Hs.
Qed.

(** Planes. *)
Theorem C09_planes m a b S T : reachable m -> denotes m a S -> denotes m b T ->
  (same_plane m a b = true <-> forall n, plane_name n -> (S n <-> T n)).
Proof.
  intros Hr Ha Hb. apply reachable_ok in Hr.
  assert (Hbit : forall c S, denotes m c S -> forall i, N.testbit (only_planes m c) i = true <->
            exists n, nth_error (names m) (N.to_nat i) = Some n /\ plane_name n /\ S n).
  { clear - Hr. intros c S Hc i. unfold only_planes. rewrite intersection_bit. rewrite andb_true_iff. split.
    - intros [H1 H2]. destruct (ok_planes _ Hr _ H1) as [n [Hn Hp]]. exists n. split; [assumption|]. split; [assumption|].
      rewrite <- (Nnat.N2Nat.id i) in H2. now apply (has_bit _ _ _ _ _ Hc Hr Hn).
    - intros [n [Hn [Hp Hs]]]. apply (has_bit _ _ _ _ _ Hc Hr Hn) in Hs. split; [|now rewrite Nnat.N2Nat.id in Hs].
      pose proof (dn_plane _ _ _ Hc _ _ Hs Hn Hp) as H. now rewrite Nnat.N2Nat.id in H. }
  unfold same_plane, coll_eqb. rewrite N.eqb_eq. split.
  - intros E n Hp.
    assert (Hdir : forall c d S T, denotes m c S -> denotes m d T -> only_planes m c = only_planes m d -> S n -> T n).
    { clear - Hbit Hr Hp. intros c d S T Hc Hd E Hs. apply (dn_has _ _ _ Hc) in Hs as Hs'. destruct Hs' as [i [Hi _]].
      assert (H : N.testbit (only_planes m c) (N.of_nat i) = true).
      { apply (Hbit _ _ Hc). exists n. rewrite Nnat.Nat2N.id. auto. }
      rewrite E in H. apply (Hbit _ _ Hd) in H as [n' [Hn' [_ Ht]]]. rewrite Nnat.Nat2N.id in Hn'.
      assert (n' = n) by congruence. now subst. }
    split; [now apply (Hdir a b)|now apply (Hdir b a)].
  - intros H. apply N.bits_inj. intros i. apply eq_true_iff_eq. rewrite (Hbit _ _ Ha), (Hbit _ _ Hb).
    split; intros [n [Hn [Hp Hs]]]; exists n; (split; [assumption|]); (split; [assumption|]); now apply (H n Hp).
Qed.
Theorem C09_is_there m n c S m' r : reachable m -> denotes m c S -> is_there m n c = Some (m', r) -> (r = true <-> S n).
Proof.
  intros Hr Hc E. pose proof (reachable_ok _ Hr) as Hok.
  assert (Hs : step m (IsThere n c) = Some m') by (cbn; now rewrite E).
  destruct (step_ok _ _ _ Hok Hs) as [Hok' Hl]. pose proof (denotes_later _ _ _ _ Hok' Hl Hc) as Hc'.
  unfold is_there in E. destruct (index (register (names m) n) n) as [i|] eqn:Ei; [|discriminate].
  destruct (CAPACITY <=? i); [discriminate|]. injection E as <- <-.
  apply (has_bit _ _ _ _ _ Hc' Hok'). cbn. now apply index_some.
Qed.

(** * Specifications *)
Definition SEP (c : Z) (l : list str) : str := match l with [] => [] | x :: l' => x ++ concat (map (fun y => c :: y) l') end.
Definition word_ok (w : str) : Prop := w <> [] /\ ~ In 44%Z w /\ ~ In 59%Z w.
Definition render (al : list (list str)) : str := SEP 59%Z (map (SEP 44%Z) al).

Lemma run_of_word w r : ~ In 44%Z w -> ~ In 59%Z w ->
  (r = [] \/ exists c r', r = c :: r' /\ (c = 44 \/ c = 59)%Z) -> run_of (w ++ r) = (w, r).
Proof.
  intros H1 H2 Hr. induction w as [|c w IH]; cbn [app run_of].
  - destruct Hr as [->|[c [r' [-> [-> | ->]]]]]; reflexivity.
  - destruct (Z.eqb_spec c 44); [exfalso; apply H1; now left|]. destruct (Z.eqb_spec c 59); [exfalso; apply H2; now left|].
    cbn [orb]. rewrite IH; [reflexivity|intros H; apply H1; now right|intros H; apply H2; now right].
Qed.
Lemma word_word w r : word_ok w -> (r = [] \/ exists c r', r = c :: r' /\ (c = 44 \/ c = 59)%Z) -> word (w ++ r) = Some (w, r).
Proof. intros [H0 [H1 H2]] Hr. unfold word. rewrite run_of_word by assumption. destruct w; [congruence|reflexivity]. Qed.
Definition ends (r : str) : Prop := r = [] \/ exists r', r = 59%Z :: r'.
Lemma more_words_words ws : forall f r, Forall word_ok ws -> ends r -> length (concat (map (fun y => 44%Z :: y) ws)) <= f ->
  more_words f (concat (map (fun y => 44%Z :: y) ws) ++ r) = (ws, r).
Proof.
  induction ws as [|w ws IH]; intros f r Hw Hr Hf; cbn [map concat app].
  - destruct f as [|f]; [destruct r; reflexivity|]. destruct Hr as [->|[r' ->]]; reflexivity.
  - inversion Hw as [|? ? Hw1 Hw2]; subst. cbn [map concat app length] in Hf. rewrite app_length in Hf.
    destruct f as [|f]; [lia|]. cbn [app more_words]. cbn [Z.eqb]. rewrite <- app_assoc. rewrite word_word; [|assumption|].
    + change ((44 =? 44)%Z) with true. cbv iota. rewrite IH; [reflexivity|assumption|assumption|lia].
    + destruct ws as [|w2 ws]; cbn [map concat app].
      * destruct Hr as [->|[r' ->]]; [now left|right; eauto].
      * right. eexists _, _. split; [reflexivity|now left].
Qed.
Lemma conjunction_words ws r : ws <> [] -> Forall word_ok ws -> ends r -> conjunction (SEP 44%Z ws ++ r) = Some (ws, r).
Proof.
  intros Hne Hw Hr. destruct ws as [|w ws]; [congruence|]. inversion Hw as [|? ? Hw1 Hw2]; subst.
  unfold conjunction. cbn [SEP]. rewrite <- app_assoc. rewrite word_word; [|assumption|].
  - rewrite more_words_words; [reflexivity|assumption|assumption|]. rewrite app_length. lia.
  - destruct ws as [|w2 ws]; cbn [map concat app].
    + destruct Hr as [->|[r' ->]]; [now left|right; eauto].
    + right. eexists _, _. split; [reflexivity|now left].
Qed.
Lemma more_conjunctions_all al : forall f, Forall (fun ws => ws <> [] /\ Forall word_ok ws) al ->
  length (concat (map (fun y => 59%Z :: y) (map (SEP 44%Z) al))) <= f ->
  more_conjunctions f (concat (map (fun y => 59%Z :: y) (map (SEP 44%Z) al))) = (al, []).
Proof.
  induction al as [|ws al IH]; intros f Ha Hf; cbn [map concat].
  - destruct f; reflexivity.
  - inversion Ha as [|? ? [Hne Hw] Ha2]; subst. cbn [map concat app length] in Hf. rewrite app_length in Hf.
    destruct f as [|f]; [lia|]. cbn [app more_conjunctions]. change ((59 =? 59)%Z) with true. cbv iota.
    rewrite conjunction_words; [|assumption|assumption|].
    + rewrite IH; [reflexivity|assumption|lia].
    + destruct al as [|ws2 al]; [now left|]. right. cbn [map concat app]. eauto.
Qed.
(** A mask specification is split at semicolons and commas. *)
Lemma split_mask_render al : al <> [] -> Forall (fun ws => ws <> [] /\ Forall word_ok ws) al -> split_mask (render al) = al.
Proof.
  intros Hne Ha. destruct al as [|ws al]; [congruence|]. inversion Ha as [|? ? [Hw1 Hw2] Ha2]; subst.
  unfold split_mask, render. cbn [map SEP]. rewrite conjunction_words; [|assumption|assumption|].
  - rewrite more_conjunctions_all; [reflexivity|assumption|lia].
  - destruct al as [|ws2 al]; [now left|]. right. cbn [map concat app]. eauto.
Qed.
Theorem C09_mask_spec al m m' mk c S : al <> [] -> Forall (fun ws => ws <> [] /\ Forall word_ok ws) al ->
  reachable m -> get_mask m (render al) = Some (m', mk) -> denotes m' c S ->
  (matches c mk = true <-> exists ws, In ws al /\ forall n, In n ws -> S n).
Proof.
  intros Hne Hal Hr E Hc.
  assert (Hr' : reachable m').
  { destruct Hr as [cs Hcs]. exists (cs ++ [MaskOf (render al)]).
    assert (Happ : forall l m0 m1, run m0 l = Some m1 -> forall l', run m0 (l ++ l') = run m1 l').
    { clear. induction l as [|x l IH]; intros m0 m1 H l'; cbn in *; [now injection H as ->|].
      destruct (step m0 x); [now apply IH|discriminate]. }
    rewrite (Happ _ _ _ Hcs). cbn [run step]. now rewrite E. }
  unfold get_mask in E. rewrite split_mask_render in E by assumption.
  destruct al as [|ws al]; [congruence|].
  destruct (create_all m (ws :: al)) as [[m1 cs]|] eqn:Ec; [|discriminate]. injection E as <- <-.
  destruct (create_all_ok _ _ _ _ (reachable_ok _ Hr) Ec) as [_ [_ H2]].
  rewrite (C09_matches m1 c S cs (map (fun ws n => In n ws) (ws :: al)) Hr' Hc).
  - split.
    + intros [A [HA H]]. apply in_map_iff in HA as [w [<- Hw]]. exists w. split; assumption.
    + intros [w [Hw H]]. exists (fun n => In n w). split; [|assumption]. apply in_map_iff. exists w. split; [reflexivity|assumption].
  - clear - H2. revert H2. generalize (ws :: al). intros l. induction 1; cbn [map]; constructor; assumption.
Qed.
Lemma split_commas_words ws : ws <> [] -> Forall (fun w => ~ In 44%Z w) ws -> split_commas (SEP 44%Z ws) = ws.
Proof.
  intros Hne Hw. destruct ws as [|w ws]; [congruence|]. cbn [SEP].
  assert (H : forall ws w, Forall (fun w => ~ In 44%Z w) (w :: ws) ->
            split_commas (w ++ concat (map (fun y => 44%Z :: y) ws)) = w :: ws).
  { clear. induction ws as [|w2 ws IH]; intros w Hw; inversion Hw as [|? ? H1 H2]; subst; cbn [map concat].
    - rewrite app_nil_r. clear Hw H2. induction w as [|c w IHw]; [reflexivity|]. cbn [split_commas].
      destruct (Z.eqb_spec c 44); [exfalso; apply H1; now left|]. rewrite IHw; [reflexivity|]. intros H. apply H1. now right.
    - clear Hw. induction w as [|c w IHw].
      + cbn [app split_commas]. change ((44 =? 44)%Z) with true. cbv iota. f_equal. now apply IH.
      + cbn [app split_commas]. destruct (Z.eqb_spec c 44); [exfalso; apply H1; now left|].
        cbn [app] in IHw. rewrite IHw; [reflexivity|]. intros H. apply H1. now right. }
  now apply H.
Qed.
(** A collection specification is split at commas. *)
Theorem C09_collection_spec ws m m' c : ws <> [] -> Forall (fun w => ~ In 44%Z w) ws -> reachable m ->
  create m (split_commas (SEP 44%Z ws)) = Some (m', c) -> denotes m' c (fun n => In n ws).
Proof.
  intros Hne Hw Hr E. rewrite split_commas_words in E by assumption.
  destruct (create_ok _ _ _ _ (reachable_ok _ Hr) E) as [_ [_ H]]. exact H.
Qed.
(** The empty specification does not give the empty collection. *)
Theorem C09_empty_spec_refuted : exists m c, create initial (split_commas []) = Some (m, c) /\ is_empty c = false /\ has m c [].
Proof. eexists _, _. split; [vm_compute; reflexivity|]. split; [reflexivity|]. exists 1. split; reflexivity. Qed.

(** Equal masks match the same collections and have the same hash. *)
Lemma alts_eqb_eq a b : alts_eqb a b = true -> a = b.
Proof.
  revert b. induction a as [|x a IH]; intros [|y b]; cbn; try discriminate; [reflexivity|].
  rewrite andb_true_iff. unfold coll_eqb. rewrite N.eqb_eq. intros [-> H]. f_equal. now apply IH.
Qed.
Definition made (mk : mask) : Prop := (exists cs, mk = mask_of cs) \/ exists b, mk = mask_const b.
Theorem C09_mask_equal a b : made a -> made b -> mask_eqb a b = true ->
  hash a = hash b /\ forall c, matches c a = matches c b.
Proof.
  intros [[cs ->]|[x ->]] [[ds ->]|[y ->]]; unfold mask_eqb, mask_of, mask_const; cbn.
  - intros H. apply alts_eqb_eq in H. subst. auto.
  - destruct y; discriminate.
  - destruct x; discriminate.
  - destruct x, y; cbn; try discriminate; auto.
Qed.
(** Implicit symbols: a mask that can be applied to them matches the symbol tag; the
    converse holds when no alternative is empty. *)
Theorem C09_implicit_symbol mk : made mk ->
  (can_be_applied_to_implicit_symbol mk = true -> matches symbol_tag mk = true) /\
  (Forall (fun a => is_empty a = false) (alts mk) -> matches symbol_tag mk = true ->
   can_be_applied_to_implicit_symbol mk = true).
Proof.
  intros [[cs ->]|[x ->]].
  - unfold can_be_applied_to_implicit_symbol, matches, mask_of. cbn [any none alts orb].
    split.
    + intros H. apply existsb_exists in H as [a [Ha E]]. apply existsb_exists. exists a. split; [assumption|].
      unfold coll_eqb in E. apply N.eqb_eq in E. subst. reflexivity.
    + intros Hne H. apply existsb_exists in H as [a [Ha E]]. apply existsb_exists. exists a. split; [assumption|].
      rewrite Forall_forall in Hne. apply Hne in Ha. unfold is_empty in Ha. apply N.eqb_neq in Ha.
      unfold coll_eqb. apply N.eqb_eq. rewrite subset_bits in E.
      assert (Hb : forall i, N.testbit a i = true -> i = 0%N).
      { intros i Hi. apply E in Hi. unfold symbol_tag in Hi. destruct i as [|p]; [reflexivity|]. rewrite N.testbit_eqb in Hi.
        rewrite N.div_small in Hi; [discriminate|]. apply N.pow_gt_1; lia. }
      pose proof (Hb _ (N.bit_log2 _ Ha)) as Hl. destruct (N.lt_ge_cases a 2) as [H2|H2]; [unfold symbol_tag; lia|].
      apply N.log2_le_mono in H2. change (N.log2 2) with 1%N in H2. lia.
  - destruct x; cbn; auto.
Qed.
Theorem C09_implicit_symbol_refuted : exists mk, made mk /\ matches symbol_tag mk = true /\
  can_be_applied_to_implicit_symbol mk = false.
Proof. exists (mask_of [0%N]). split; [left; eauto|]. split; reflexivity. Qed.
(** Asking whether a mask is empty changes what it matches. *)
Theorem C09_is_none_refuted : exists mk c, made mk /\ matches c mk = true /\ matches c (snd (is_none mk)) = false.
Proof. exists (mask_of [0%N]), 1%N. split; [left; eauto|]. split; reflexivity. Qed.
(** operator< is not a strict order. *)
Theorem C09_less_refuted c : coll_less c c = true.
Proof. unfold coll_less. rewrite N.land_diag. apply N.eqb_refl. Qed.

(** * C10: registration *)
Theorem C10_stable cs m cs' m' : run initial cs = Some m -> run m cs' = Some m' ->
  (forall n i, index (names m) n = Some i -> index (names m') n = Some i) /\
  (forall n n' i, index (names m') n = Some i -> index (names m') n' = Some i -> n = n').
Proof.
  intros H H'. destruct (run_ok _ _ _ initial_ok H) as [Hok _]. destruct (run_ok _ _ _ Hok H') as [Hok' Hl]. split.
  - intros n i Hi. apply nth_error_index; [apply (ok_nodup _ Hok')|]. eapply nth_error_later; [exact Hl|]. now apply index_some.
  - intros n n' i Hi Hi'. apply index_some in Hi. apply index_some in Hi'. congruence.
Qed.

Lemma insert_sorted_perm x l : Permutation (insert_sorted x l) (x :: l).
Proof.
  induction l as [|y l IH]; cbn; [apply Permutation_refl|]. destruct (str_ltb y x); [|apply Permutation_refl].
  eapply Permutation_trans; [apply perm_skip, IH|apply perm_swap].
Qed.
Lemma sort_perm l : Permutation (sort l) l.
Proof.
  induction l as [|x l IH]; cbn; [constructor|].
  eapply Permutation_trans; [apply insert_sorted_perm|]. now apply perm_skip.
Qed.
Lemma sort_sorted l : NoDup l -> increasing str_ltb (sort l).
Proof.
  assert (H : forall x s, increasing str_ltb s -> ~ In x s -> increasing str_ltb (insert_sorted x s)).
  { intros x s Hs. induction Hs as [|y s Hs IH Hy]; intros Hx; cbn [insert_sorted]; [repeat constructor|].
    destruct (str_ltb y x) eqn:E.
    - constructor; [apply IH; intros H; apply Hx; now right|]. apply Forall_forall. intros z Hz.
      apply (Permutation_in _ (insert_sorted_perm x s)) in Hz as [->|Hz]; [assumption|].
      rewrite Forall_forall in Hy. auto.
    - assert (Hxy : str_ltb x y = true).
      { destruct (str_ltb x y) eqn:E2; [reflexivity|]. exfalso. apply Hx. left.
        apply (st_total _ str_ltb_strict); assumption. }
      constructor; [now constructor|]. constructor; [assumption|].
      apply (Forall_impl _ (fun z Hz => st_trans _ str_ltb_strict _ _ _ Hxy Hz) Hy). }
  induction 1 as [|x l Hx Hn IH]; cbn [sort]; [constructor|]. apply H; [assumption|].
  intros Hin. apply Hx. now apply (Permutation_in _ (sort_perm l)).
Qed.
Lemma collect_spec ns c is : NoDup ns -> NoDup is ->
  (forall i, In i is -> N.testbit c (N.of_nat i) = true -> nth_error ns i <> None) ->
  exists r, collect ns c is = Some r /\ NoDup r /\
    forall n, In n r <-> exists i, In i is /\ nth_error ns i = Some n /\ N.testbit c (N.of_nat i) = true.
Proof.
  intros Hd. induction 1 as [|i is Hi His IH]; intros Hbits; cbn [collect].
  - exists []. split; [reflexivity|]. split; [constructor|]. intros n. split; [intros []|]. now intros [i [[] _]].
  - destruct IH as [r [E [Hr Hin]]]; [intros j Hj; apply Hbits; now right|].
    destruct (N.testbit c (N.of_nat i)) eqn:Eb.
    + destruct (nth_error ns i) as [n|] eqn:En; [|exfalso; apply (Hbits i (or_introl eq_refl) Eb En)].
      rewrite E. exists (n :: r). split; [reflexivity|]. split.
      * constructor; [|assumption]. intros Hn. apply Hin in Hn as [j [Hj [Hjn _]]].
        assert (j = i).
        { eapply NoDup_nth_error; [exact Hd| |congruence]. apply nth_error_Some. congruence. }
        subst. contradiction.
      * intros x. cbn. rewrite Hin. split.
        -- intros [->|[j [Hj Hx]]]; [exists i; auto|exists j; auto].
        -- intros [j [[->|Hj] [Hx Hb]]]; [left; congruence|right; eauto].
    + exists r. split; [exact E|]. split; [assumption|]. intros n. rewrite Hin. split.
      * intros [j [Hj H]]. exists j. split; [now right|assumption].
      * intros [j [[->|Hj] [Hx Hb]]]; [congruence|eauto].
Qed.
(** The names come back: as a set exactly the ones given, each once, in order. *)
Theorem C10_names cs m ns m1 c cs' m2 : run initial cs = Some m -> create m ns = Some (m1, c) -> run m1 cs' = Some m2 ->
  exists r, get_names m2 c = Some r /\ (forall n, In n r <-> In n ns) /\
    StronglySorted (fun a b => str_ltb a b = true) r /\ NoDup r.
Proof.
  intros H E H'. destruct (run_ok _ _ _ initial_ok H) as [Hok _].
  destruct (create_ok _ _ _ _ Hok E) as [Hok1 [_ Hc]]. destruct (run_ok _ _ _ Hok1 H') as [Hok2 Hl].
  pose proof (denotes_later _ _ _ _ Hok2 Hl Hc) as [D1 D2 _].
  destruct (collect_spec (names m2) c (seq 0 CAPACITY) (ok_nodup _ Hok2) (seq_NoDup _ _)) as [r [Er [Hr Hin]]].
  { intros i _ Hb. destruct (D2 _ Hb) as [n Hn]. rewrite Nnat.Nat2N.id in Hn. congruence. }
  unfold get_names. rewrite Er. cbn [option_map]. exists (sort r). split; [reflexivity|]. split; [|split].
  - intros n. rewrite <- D1. split.
    + intros Hn. apply (Permutation_in _ (sort_perm r)) in Hn. apply Hin in Hn as [i [_ Hi]]. now exists i.
    + intros [i Hi]. apply (Permutation_in _ (Permutation_sym (sort_perm r))). apply Hin. exists i.
      split; [|assumption]. apply in_seq. unfold CAPACITY. destruct Hi as [Hi _].
      assert (i < length (names m2)) by (apply nth_error_Some; congruence). pose proof (ok_size _ Hok2). lia.
  - now apply sort_sorted.
  - eapply Permutation_NoDup; [apply Permutation_sym, sort_perm|assumption].
Qed.

(** Creating works as long as there are at most 64 different names. *)
Definition distinct (l : list str) : nat := length (nodup (list_eq_dec Z.eq_dec) l).
Lemma register_distinct ns n : NoDup ns -> length (register ns n) = distinct (ns ++ [n]).
Proof.
  intros Hd. apply Nat.le_antisymm.
  - apply NoDup_incl_length; [now apply register_nodup|]. intros x Hx. apply nodup_In.
    destruct (register_spec ns n) as [l [E [[-> Hn]|[-> Hn]]]]; rewrite E in Hx; [rewrite app_nil_r in Hx; apply in_or_app; now left|exact Hx].
  - apply NoDup_incl_length; [apply NoDup_nodup|]. intros x Hx. apply nodup_In in Hx.
    destruct (register_spec ns n) as [l [E [[-> Hn]|[-> Hn]]]]; rewrite E; [|exact Hx].
    rewrite app_nil_r. apply in_app_or in Hx as [|[<-|[]]]; assumption.
Qed.
Lemma index_in ns n : In n ns -> exists i, index ns n = Some i /\ i < length ns.
Proof.
  intros H. destruct (index ns n) as [i|] eqn:E; [|apply index_none in E; contradiction].
  exists i. split; [reflexivity|]. apply index_some in E. apply nth_error_Some. congruence.
Qed.
Lemma in_register ns n : In n (register ns n).
Proof.
  destruct (register_spec ns n) as [l [-> [[-> H]|[-> H]]]]; [now rewrite app_nil_r|]. apply in_or_app. right. now left.
Qed.
Theorem C10_capacity cs m ns : run initial cs = Some m ->
  (create m ns <> None <-> distinct (names m ++ ns) <= 64).
Proof.
  intros H. destruct (run_ok _ _ _ initial_ok H) as [Hok _]. unfold create. generalize 0%N as c. clear H cs.
  revert m Hok. induction ns as [|n ns IH]; intros m Hok c; cbn [add_tags].
  - split; [|discriminate]. intros _. rewrite app_nil_r. unfold distinct. rewrite nodup_fixed_point by apply (ok_nodup _ Hok).
    apply (ok_size _ Hok).
  - assert (Hperm : distinct (names m ++ n :: ns) = distinct (register (names m) n ++ ns)).
    { apply Nat.le_antisymm; apply NoDup_incl_length; try apply NoDup_nodup; intros x Hx; apply nodup_In; apply nodup_In in Hx;
        destruct (register_spec (names m) n) as [l [E [[-> Hn]|[-> Hn]]]]; rewrite E in *;
        rewrite ?app_nil_r in *; apply in_app_or in Hx; rewrite ?in_app_iff in *; cbn in *; intuition (subst; auto). }
    destruct (index_in _ _ (in_register (names m) n)) as [i [Hi Hlt]].
    unfold add_tag. rewrite Hi.
    destruct (CAPACITY <=? i) eqn:Ecap.
    + apply Nat.leb_le in Ecap. unfold CAPACITY in Ecap. split; [congruence|]. intros Hd. exfalso.
      assert (length (register (names m) n) <= distinct (register (names m) n ++ ns)).
      { apply NoDup_incl_length; [apply register_nodup, (ok_nodup _ Hok)|]. intros x Hx. apply nodup_In, in_or_app. now left. }
      lia.
    + rewrite Hperm.
      destruct (add_tag (m, c) n) as [[m1 c1]|] eqn:Et.
      2:{ unfold add_tag in Et. rewrite Hi, Ecap in Et. discriminate. }
      assert (Hok1 : ok m1).
      { unfold add_tag in Et. rewrite Hi, Ecap in Et.
        destruct (add_tag (m, 0%N) n) as [[m2 c2]|] eqn:Et2.
        2:{ unfold add_tag in Et2. rewrite Hi, Ecap in Et2. discriminate. }
        destruct (add_tag_ok _ _ _ _ _ _ Hok (denotes_empty m) Et2) as [Hok2 _].
        unfold add_tag in Et2. rewrite Hi, Ecap in Et2. injection Et as <- _. injection Et2 as <- _. exact Hok2. }
      unfold add_tag in Et. rewrite Hi, Ecap in Et. injection Et as <- <-. apply (IH _ Hok1).
Qed.

(** * Witnesses *)
Definition t (c : Z) : str := [c].
Definition PL : str := [33; 112; 108]%Z.
Example ex_history : exists m c m2, create initial [t 97; PL; t 97; SYMBOL] = Some (m, c) /\
  run m [Create [t 98]; MaskOf [97; 44; 33; 112; 108; 59; 99]%Z; IsThere (t 100) c] = Some m2 /\
  get_names m2 c = Some [PL; t 97; SYMBOL] /\ names m2 = [SYMBOL; t 97; PL; t 98; t 99; t 100].
Proof. eexists _, _, _. split; [vm_compute; reflexivity|]. split; [vm_compute; reflexivity|]. split; vm_compute; reflexivity. Qed.
Example ex_mask : render [[t 97; PL]; [t 99]] = [97; 44; 33; 112; 108; 59; 99]%Z /\
  Forall (fun ws => ws <> [] /\ Forall word_ok ws) [[t 97; PL]; [t 99]].
Proof.
  split; [reflexivity|].
  assert (forall w, w <> [] -> forallb (fun c => negb (c =? 44)%Z && negb (c =? 59)%Z) w = true -> word_ok w).
  { intros w H1 H2. rewrite forallb_forall in H2. split; [assumption|]. split; intros Hin; apply H2 in Hin; discriminate. }
  constructor; [split; [discriminate|]|constructor; [split; [discriminate|]|constructor]];
    repeat (apply Forall_cons; [apply H; [discriminate|reflexivity]|]); constructor.
Qed.
Example ex_planes : exists m c1 m2 c2 m3 c3, create initial [t 97; PL] = Some (m, c1) /\ create m [t 98; PL] = Some (m2, c2) /\
  create m2 [t 98] = Some (m3, c3) /\ same_plane m3 c1 c2 = true /\ same_plane m3 c1 c3 = false.
Proof. eexists _, _, _, _, _, _. repeat (split; [vm_compute; reflexivity|]). vm_compute. reflexivity. Qed.
(** The 65th tag cannot be made. *)
Theorem C10_capacity_refuted : exists ns, distinct ns = 64 /\ create initial ns = None.
Proof. exists (map (fun i => [Z.of_nat i]) (seq 0 64)). split; vm_compute; reflexivity. Qed.
Example ex_capacity : create initial (map (fun i => [Z.of_nat i]) (seq 0 63)) <> None.
Proof. vm_compute. discriminate. Qed.

Print Assumptions C09_created.
Print Assumptions C09_kept.
Print Assumptions C09_union.
Print Assumptions C09_intersection.
Print Assumptions C09_subset.
Print Assumptions C09_equal.
Print Assumptions C09_empty.
Print Assumptions C09_matches.
Print Assumptions C09_matches_const.
Print Assumptions C09_monotone.
Print Assumptions C09_planes.
Print Assumptions C09_is_there.
Print Assumptions C09_mask_spec.
Print Assumptions C09_collection_spec.
Print Assumptions C09_empty_spec_refuted.
Print Assumptions C09_mask_equal.
Print Assumptions C09_implicit_symbol.
Print Assumptions C09_implicit_symbol_refuted.
Print Assumptions C09_is_none_refuted.
Print Assumptions C09_less_refuted.
Print Assumptions C10_stable.
Print Assumptions C10_names.
Print Assumptions C10_capacity.
Print Assumptions C10_capacity_refuted.

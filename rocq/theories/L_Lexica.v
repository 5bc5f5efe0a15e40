From Coq Require Import List NArith Arith Bool Lia ZifyBool.
From Verif Require Import M_Lexica.
Import ListNotations.


(** ** MonotonicVector *)
Section MV.
Variables (W M : N) (s : nat).
Hypothesis HM : (M < W)%N.
Hypothesis Hs : 1 <= s.

Notation iter := (mv_iter W M).
Notation at_ := (mv_at W M s).
Notation push := (mv_push_back W M s).

Fixpoint rests_sorted (bound : nat) (l : list (nat * N)) : Prop :=
  match l with
  | [] => True
  | (k, _) :: l' => k < bound /\ (forall k' r', In (k', r') l' -> k < k') /\ rests_sorted bound l'
  end.

Lemma rests_sorted_mono : forall b b' l, b <= b' -> rests_sorted b l -> rests_sorted b' l.
Proof. induction l as [|[k r] l IH]; cbn; intros Hb H; [trivial|]. intuition lia. Qed.

Lemma rests_sorted_bound : forall b l k r, rests_sorted b l -> In (k, r) l -> k < b.
Proof.
  induction l as [|[k r] l IH]; cbn; intros k0 r0 H Hin; [destruct Hin|].
  destruct Hin as [E|Hin]; [inversion E; subst; tauto|]. eapply IH; [apply H|eassumption].
Qed.

Lemma rests_sorted_snoc : forall b l r, rests_sorted b l -> rests_sorted (S b) (l ++ [(b, r)]).
Proof.
  induction l as [|[k r] l IH]; cbn; intros r0 H.
  - split; [lia|]. split; [intros k' r' []|trivial].
  - destruct H as (H1 & H2 & H3). split; [lia|]. split; [|apply IH; assumption].
    intros k' r' Hin. apply in_app_or in Hin. destruct Hin as [Hin|[E|[]]].
    + eapply H2; eassumption.
    + inversion E; subst. assumption.
Qed.

Lemma rest_at_app_old : forall l x r k, rests_sorted x l -> k < x ->
  rest_at (l ++ [(x, r)]) k = rest_at l k.
Proof.
  induction l as [|[k' r'] l IH]; cbn [rest_at app rests_sorted]; intros x r k H Hk.
  - destruct (Nat.ltb_spec x k); [lia|]. destruct (Nat.eqb_spec x k); [lia|]. reflexivity.
  - destruct (k' <? k); [apply IH; tauto|]. reflexivity.
Qed.

Lemma rest_at_app_new : forall l x r, rests_sorted x l -> rest_at (l ++ [(x, r)]) x = r.
Proof.
  induction l as [|[k' r'] l IH]; cbn [rest_at app rests_sorted]; intros x r H.
  - rewrite Nat.ltb_irrefl, Nat.eqb_refl. reflexivity.
  - destruct (Nat.ltb_spec k' x); [apply IH; tauto|lia].
Qed.

Lemma rest_at_new_none : forall l x, rests_sorted x l -> rest_at l x = 0%N.
Proof.
  induction l as [|[k' r'] l IH]; cbn [rest_at app rests_sorted]; intros x H; [reflexivity|].
  destruct (Nat.ltb_spec k' x); [apply IH; tauto|lia].
Qed.

(** The representation invariant. *)
Record rep (v : mvec) (xs : list N) : Prop := {
  rep_small : Forall (fun x => x < W)%N xs;
  rep_anchors_len : length (mv_anchors v) = (length xs + s - 1) / s;
  rep_diffs_len : length (mv_diffs v) + length (mv_anchors v) = length xs;
  rep_rests : rests_sorted (length (mv_diffs v)) (mv_rests v);
  rep_anchor : forall q, q * s < length xs -> nth q (mv_anchors v) 0%N = nth (q * s) xs 0%N;
  rep_diff : forall q r, S r < s -> q * s + S r < length xs ->
     iter v (nth (q * s + r) xs 0%N) (q * (s - 1) + r) = nth (q * s + S r) xs 0%N
}.

Lemma rep_loop : forall v xs q r, rep v xs -> r < s -> q * s + r < length xs ->
  fold_left (iter v) (seq (q * (s - 1)) r) (nth (q * s) xs 0%N) = nth (q * s + r) xs 0%N.
Proof.
  intros v xs q r H. induction r as [|r IH]; intros Hr Hl.
  - cbn. f_equal. lia.
  - rewrite seq_S, fold_left_app, IH by lia. cbn [fold_left].
    apply (rep_diff _ _ H); assumption.
Qed.

Lemma rep_at : forall v xs i, rep v xs -> i < length xs -> at_ v i = nth i xs 0%N.
Proof.
  intros v xs i H Hi. unfold mv_at.
  pose proof (Nat.div_mod i s ltac:(lia)) as Hdm.
  pose proof (Nat.mod_upper_bound i s ltac:(lia)) as Hub.
  assert (E : i / s * s + i mod s = i) by lia.
  rewrite (rep_anchor _ _ H) by lia.
  destruct (Nat.eqb_spec (i mod s) 0) as [E0|Hne].
  - f_equal. lia.
  - rewrite rep_loop with (xs := xs); [congruence|assumption|assumption|congruence || lia].
Qed.

Lemma rep_empty : rep mv_empty [].
Proof.
  constructor; cbn; try lia; auto.
  symmetry. apply Nat.div_small. lia.
Qed.

Lemma iter_app_diff : forall v v' j k,
  k < length (mv_diffs v) ->
  (exists d, mv_diffs v' = mv_diffs v ++ d) ->
  rest_at (mv_rests v') k = rest_at (mv_rests v) k ->
  iter v' j k = iter v j k.
Proof.
  intros v v' j k Hk (d & Hd) Hr. unfold mv_iter.
  rewrite Hd, app_nth1 by assumption. rewrite Hr. reflexivity.
Qed.

Lemma wrap_add : forall last x d, (last < W)%N -> (x < W)%N -> d = ((x + W - last) mod W)%N ->
  ((last + d) mod W = x)%N.
Proof.
  intros last x d H1 H2 ->.
  rewrite N.add_mod_idemp_r by lia.
  replace (last + (x + W - last))%N with (x + 1 * W)%N by lia.
  rewrite N.mod_add by lia. apply N.mod_small. assumption.
Qed.

Lemma div_facts : forall n, n mod s <> 0 ->
  (S n + s - 1) / s = (n + s - 1) / s /\ (n + s - 1) / s = n / s + 1.
Proof.
  intros n Hn. pose proof (Nat.div_mod n s ltac:(lia)) as Hdm.
  pose proof (Nat.mod_upper_bound n s ltac:(lia)) as Hub.
  assert (E1 : (n + s - 1) / s = n / s + 1).
  { symmetry. apply Nat.div_unique with (r := n mod s - 1); lia. }
  split; [|assumption]. rewrite E1. symmetry.
  apply Nat.div_unique with (r := n mod s); lia.
Qed.

Lemma rep_push : forall v xs x, rep v xs -> (x < W)%N -> rep (push v x) (xs ++ [x]).
Proof.
  intros v xs x H Hx. pose proof H as [Hsm Hal Hdl Hrs Han Hdf].
  unfold mv_push_back, mv_size. rewrite Hdl.
  set (n := length xs) in *.
  assert (Hsm' : Forall (fun x => x < W)%N (xs ++ [x])) by (apply Forall_app; split; [assumption|repeat constructor; assumption]).
  assert (Hlen : length (xs ++ [x]) = S n) by (rewrite app_length; cbn; lia).
  pose proof (Nat.div_mod n s ltac:(lia)) as Hdm.
  pose proof (Nat.mod_upper_bound n s ltac:(lia)) as Hub.
  assert (Hold : forall i, i < n -> nth i (xs ++ [x]) 0%N = nth i xs 0%N) by (intros; apply app_nth1; assumption).
  assert (Hnew : nth n (xs ++ [x]) 0%N = x) by (rewrite app_nth2, Nat.sub_diag; [reflexivity|unfold n; lia]).
  destruct (Nat.eqb_spec (n mod s) 0) as [E0|Hne].
  - assert (E1 : (n + s - 1) / s = n / s).
    { symmetry. apply Nat.div_unique with (r := s - 1); lia. }
    constructor; cbn [mv_diffs mv_anchors mv_rests]; rewrite ?Hlen, ?app_length; cbn [length].
    + assumption.
    + rewrite Hal, E1. apply Nat.div_unique with (r := 0); lia.
    + lia.
    + assumption.
    + intros q Hq. destruct (Nat.eq_dec (q * s) n) as [Eq|Nq].
      * rewrite Eq, Hnew. assert (q = n / s) by (apply Nat.div_unique with (r := 0); lia).
        rewrite app_nth2 by lia. replace (q - length (mv_anchors v)) with 0 by lia. reflexivity.
      * rewrite Hold by lia. rewrite app_nth1; [apply Han; lia|].
        rewrite Hal, E1. apply Nat.mul_lt_mono_pos_r with (p := s); lia.
    + intros q r Hr Hq. rewrite !Hold.
      * unfold mv_iter in *. cbn [mv_diffs mv_rests]. apply Hdf; [assumption|].
        assert (q * s + S r <> n); [|lia].
        intro E. rewrite <- E in E0. rewrite Nat.add_comm, Nat.mod_add, Nat.mod_small in E0 by lia. lia.
      * assert (q * s + S r <> n); [|lia].
        intro E. rewrite <- E in E0. rewrite Nat.add_comm, Nat.mod_add, Nat.mod_small in E0 by lia. lia.
      * lia.
  - destruct (div_facts n Hne) as [E1 E2].
    assert (Hn0 : n <> 0) by (intro E; rewrite E, Nat.mod_0_l in Hne; lia).
    assert (Hback : mv_back W M s v = nth (n - 1) xs 0%N).
    { unfold mv_back, mv_size. rewrite Hdl. apply rep_at; [assumption|unfold n in *; lia]. }
    assert (Hlast : (nth (n - 1) xs 0 < W)%N).
    { rewrite Forall_forall in Hsm. apply Hsm. apply nth_In. unfold n in *. lia. }
    rewrite Hback.
    set (diff := ((x + W - nth (n - 1) xs 0) mod W)%N).
    assert (Hdiff : (diff < W)%N) by (apply N.mod_upper_bound; lia).
    pose proof (wrap_add _ x diff Hlast Hx eq_refl) as Hwrap.
    assert (Hdpos : length (mv_diffs v) = (n / s) * (s - 1) + (n mod s - 1)).
    { assert (length (mv_anchors v) = n / s + 1) by congruence.
      assert (n / s * (s - 1) + n / s = n / s * s) by (rewrite Nat.mul_sub_distr_l; nia). lia. }
    assert (Hdprev : forall q r, S r < s -> q * s + S r < n -> q * (s - 1) + r < length (mv_diffs v)).
    { intros q r Hr Hq. rewrite Hdpos.
      destruct (Nat.eq_dec q (n / s)) as [->|Nq]; [lia|].
      assert (q < n / s).
      { assert (q <= n / s); [|lia]. apply Nat.div_le_lower_bound; lia. }
      nia. }
    assert (Hcase : forall q r, S r < s -> q * s + S r < S n ->
               q * s + S r < n \/ (q = n / s /\ S r = n mod s)).
    { intros q r Hr Hq. destruct (Nat.eq_dec (q * s + S r) n) as [E|N].
      - right. assert (q = n / s) by (apply Nat.div_unique with (r := S r); lia).
        split; [assumption|]. apply Nat.mod_unique with (q := q); lia.
      - left. lia. }
    destruct (N.leb_spec diff M).
    + constructor; cbn [mv_diffs mv_anchors mv_rests]; rewrite ?Hlen, ?app_length; cbn [length].
      * assumption.
      * rewrite Hal, <- E1. f_equal; lia.
      * lia.
      * eapply rests_sorted_mono; [|eassumption]. lia.
      * intros q Hq. assert (q * s <> n).
        { intro E. apply Hne. rewrite <- E. apply Nat.mod_mul. lia. }
        rewrite Hold by lia. apply Han. lia.
      * intros q r Hr Hq. destruct (Hcase q r Hr Hq) as [Hlt|[-> Er]].
        -- rewrite !Hold by lia.
           rewrite iter_app_diff with (v := v); [apply Hdf; assumption|apply Hdprev; assumption| |reflexivity].
           exists [diff]. reflexivity.
        -- assert (Epos : n / s * s + S r = n) by lia. rewrite Epos, Hnew.
           replace (n / s * s + r) with (n - 1) by lia. rewrite Hold by lia.
           unfold mv_iter. cbn [mv_diffs mv_rests].
           replace (n / s * (s - 1) + r) with (length (mv_diffs v)) by lia.
           rewrite app_nth2, Nat.sub_diag by lia. cbn [nth].
           rewrite rest_at_new_none by assumption. rewrite Hwrap.
           destruct (N.eqb_spec diff M); [|reflexivity].
           rewrite N.add_0_r. apply N.mod_small. assumption.
    + constructor; cbn [mv_diffs mv_anchors mv_rests]; rewrite ?Hlen, ?app_length; cbn [length].
      * assumption.
      * rewrite Hal, <- E1. f_equal; lia.
      * lia.
      * rewrite Nat.add_1_r. apply rests_sorted_snoc. assumption.
      * intros q Hq. assert (q * s <> n).
        { intro E. apply Hne. rewrite <- E. apply Nat.mod_mul. lia. }
        rewrite Hold by lia. apply Han. lia.
      * intros q r Hr Hq. destruct (Hcase q r Hr Hq) as [Hlt|[-> Er]].
        -- rewrite !Hold by lia.
           rewrite iter_app_diff with (v := v); [apply Hdf; assumption|apply Hdprev; assumption| |].
           ++ exists [M]. reflexivity.
           ++ cbn [mv_rests]. apply rest_at_app_old; [assumption|apply Hdprev; assumption].
        -- assert (Epos : n / s * s + S r = n) by lia. rewrite Epos, Hnew.
           replace (n / s * s + r) with (n - 1) by lia. rewrite Hold by lia.
           unfold mv_iter. cbn [mv_diffs mv_rests].
           replace (n / s * (s - 1) + r) with (length (mv_diffs v)) by lia.
           rewrite app_nth2, Nat.sub_diag by lia. cbn [nth].
           rewrite rest_at_app_new by assumption. rewrite N.eqb_refl.
           rewrite N.add_mod_idemp_l by lia.
           replace (nth (n - 1) xs 0 + M + (diff - M))%N with (nth (n - 1) xs 0 + diff)%N by lia.
           assumption.
Qed.

Lemma rep_pushes : forall xs v ys, rep v ys -> Forall (fun x => x < W)%N xs ->
  rep (fold_left push xs v) (ys ++ xs).
Proof.
  induction xs as [|x xs IH]; intros v ys H Hf; cbn.
  - rewrite app_nil_r. assumption.
  - inversion Hf; subst. replace (ys ++ x :: xs) with ((ys ++ [x]) ++ xs) by (rewrite <- app_assoc; reflexivity).
    apply IH; [apply rep_push; assumption|assumption].
Qed.

Lemma rep_size : forall v xs, rep v xs -> mv_size v = length xs.
Proof. intros v xs H. apply (rep_diffs_len _ _ H). Qed.
End MV.

(** ** StringVector *)
Lemma lex_lt_irrefl : forall a, lex_lt a a = false.
Proof. induction a; cbn; [reflexivity|]. rewrite N.ltb_irrefl. assumption. Qed.

Lemma lex_lt_trans : forall a b c, lex_lt a b = true -> lex_lt b c = true -> lex_lt a c = true.
Proof.
  induction a as [|x a IH]; intros [|y b] [|z c]; cbn; try discriminate; auto.
  destruct (N.ltb_spec x y); destruct (N.ltb_spec y z); destruct (N.ltb_spec x z);
  destruct (N.ltb_spec y x); destruct (N.ltb_spec z y); destruct (N.ltb_spec z x);
  try lia; try discriminate; auto.
  apply IH.
Qed.

Lemma lex_total : forall a b, lex_lt a b = false -> lex_lt b a = false -> a = b.
Proof.
  induction a as [|x a IH]; intros [|y b]; cbn; try discriminate; auto.
  destruct (N.ltb_spec x y); destruct (N.ltb_spec y x); try discriminate; try lia.
  intros H1 H2. f_equal; [lia|]. apply IH; assumption.
Qed.

Definition offsets_from (o : nat) (ss : list (list N)) : list nat :=
  (fix go o ss := match ss with [] => [] | x :: ss' => o :: go (o + length x) ss' end) o ss.

Lemma offsets_length : forall ss o, length (offsets_from o ss) = length ss.
Proof. induction ss as [|x ss IH]; intro o; cbn; [reflexivity|]. f_equal. apply IH. Qed.

Lemma offsets_snoc : forall ss o x,
  offsets_from o (ss ++ [x]) = offsets_from o ss ++ [o + length (concat ss)].
Proof.
  induction ss as [|y ss IH]; intros o x; cbn.
  - f_equal. lia.
  - f_equal. rewrite app_length. change ((fix go o ss := match ss with [] => [] | x :: ss' => o :: go (o + length x) ss' end) (o + length y) (ss ++ [x]))
      with (offsets_from (o + length y) (ss ++ [x])).
    rewrite IH. rewrite Nat.add_assoc. reflexivity.
Qed.

Lemma offsets_nth : forall ss o i, i < length ss ->
  nth i (offsets_from o ss) 0 = o + length (concat (firstn i ss)).
Proof.
  induction ss as [|y ss IH]; intros o i Hi; cbn in Hi; [lia|].
  destruct i as [|i]; cbn.
  - lia.
  - change ((fix go o ss := match ss with [] => [] | x :: ss' => o :: go (o + length x) ss' end) (o + length y) ss)
      with (offsets_from (o + length y) ss).
    rewrite IH by lia. rewrite app_length. lia.
Qed.

Fixpoint increasing (ss : list (list N)) : Prop :=
  match ss with
  | [] => True
  | x :: ss' => (match ss' with [] => True | y :: _ => lex_lt x y = true end) /\ increasing ss'
  end.

Record svrep (v : svec) (ss : list (list N)) : Prop := {
  svr_chars : sv_chars v = concat ss;
  svr_pos : rep W32 USHRT_MAX 20 (sv_positions v) (map N.of_nat (offsets_from 0 ss));
  svr_sorted : sv_sorted v = true <-> increasing ss
}.

Definition fits (ss : list (list N)) : Prop := (N.of_nat (length (concat ss)) < W32)%N.

Lemma svrep_size : forall v ss, svrep v ss -> sv_size v = length ss.
Proof.
  intros v ss H. unfold sv_size. rewrite (rep_size _ _ _ _ _ (svr_pos _ _ H)).
  rewrite map_length. apply offsets_length.
Qed.

Lemma svrep_pos : forall v ss i, svrep v ss -> i < length ss ->
  pos_at (sv_positions v) i = N.of_nat (length (concat (firstn i ss))).
Proof.
  intros v ss i H Hi. unfold pos_at.
  rewrite (rep_at W32 USHRT_MAX 20) with (xs := map N.of_nat (offsets_from 0 ss)).
  - change 0%N with (N.of_nat 0). rewrite map_nth, offsets_nth by assumption. reflexivity.
  - reflexivity.
  - lia.
  - apply (svr_pos _ _ H).
  - rewrite map_length, offsets_length. assumption.
Qed.

Lemma firstn_S_snoc : forall (A : Type) (l : list A) i d, i < length l ->
  firstn (S i) l = firstn i l ++ [nth i l d].
Proof.
  induction l as [|x l IH]; intros i d Hi; cbn in Hi; [lia|].
  destruct i as [|i]; [reflexivity|].
  change (firstn (S (S i)) (x :: l)) with (x :: firstn (S i) l).
  rewrite (IH i d) by lia. reflexivity.
Qed.

Lemma concat_split : forall (ss : list (list N)) i, i < length ss ->
  concat ss = concat (firstn i ss) ++ nth i ss [] ++ concat (skipn (S i) ss).
Proof.
  induction ss as [|x ss IH]; intros i Hi; cbn in Hi; [lia|].
  destruct i as [|i]; cbn [firstn concat nth skipn app]; [reflexivity|].
  rewrite <- app_assoc. rewrite <- IH by lia. reflexivity.
Qed.

Lemma svrep_at : forall v ss i, svrep v ss -> fits ss -> i < length ss -> sv_at v i = nth i ss [].
Proof.
  intros v ss i H Hf Hi. unfold sv_at, sv_length.
  rewrite (svrep_size _ _ H), (svr_chars _ _ H).
  pose proof (concat_split ss i Hi) as Hc.
  assert (Hlen : length (concat ss) = length (concat (firstn i ss)) + length (nth i ss []) + length (concat (skipn (S i) ss))).
  { rewrite Hc at 1. rewrite !app_length. lia. }
  rewrite (svrep_pos _ _ i H Hi). unfold fits in Hf.
  assert (Hval : (if i + 1 <? length ss
     then ((pos_at (sv_positions v) (i + 1) + W32 - N.of_nat (length (concat (firstn i ss)))) mod W32)%N
     else ((N.of_nat (length (concat ss)) + W32 - N.of_nat (length (concat (firstn i ss)))) mod W32)%N)
     = N.of_nat (length (nth i ss []))).
  { assert (Hmod : forall a b c : N, (c < W32 -> b + c = a -> (a + W32 - b) mod W32 = c)%N).
    { intros a b c Hc' He. replace (a + W32 - b)%N with (c + 1 * W32)%N by lia.
      rewrite N.mod_add by (unfold W32; lia). apply N.mod_small. assumption. }
    destruct (Nat.ltb_spec (i + 1) (length ss)).
    - rewrite (svrep_pos _ _ (i + 1) H) by assumption. apply Hmod; [lia|].
      rewrite Nat.add_1_r. rewrite (firstn_S_snoc _ ss i []) by assumption.
      rewrite concat_app, app_length. cbn [concat]. rewrite app_nil_r. lia.
    - apply Hmod; [lia|]. rewrite skipn_all2 in Hlen by lia. cbn in Hlen. lia. }
  rewrite Hval, !Nnat.Nat2N.id. rewrite Hc at 1.
  rewrite skipn_app, skipn_all, Nat.sub_diag. cbn [app skipn].
  rewrite firstn_app, firstn_all, Nat.sub_diag. cbn [firstn]. apply app_nil_r.
Qed.

Lemma increasing_snoc : forall ss x, increasing (ss ++ [x]) <->
  increasing ss /\ (ss = [] \/ lex_lt (nth (length ss - 1) ss []) x = true).
Proof.
  induction ss as [|y ss IH]; intro x.
  - cbn. tauto.
  - cbn [app increasing]. rewrite IH. destruct ss as [|z ss].
    + cbn. split; [tauto|]. intros [_ [E|E]]; [discriminate|tauto].
    + cbn [length]. replace (nth (S (S (length ss)) - 1) (y :: z :: ss) []) with (nth (S (length ss) - 1) (z :: ss) [])
        by (cbn; rewrite Nat.sub_0_r; reflexivity).
      change ((z :: ss) ++ [x]) with (z :: (ss ++ [x])). cbn [app].
      split; intros; intuition (try discriminate).
Qed.

Lemma svrep_empty : svrep sv_empty [].
Proof.
  constructor; cbn; [reflexivity| |tauto]. apply rep_empty; [reflexivity|lia].
Qed.

Lemma svrep_push : forall v ss x, svrep v ss -> fits (ss ++ [x]) ->
  svrep (sv_push_back v x) (ss ++ [x]).
Proof.
  intros v ss x H Hf.
  assert (Hf' : fits ss). { unfold fits in *. rewrite concat_app, app_length in Hf. lia. }
  constructor; cbn [sv_push_back sv_chars sv_positions sv_sorted].
  - rewrite (svr_chars _ _ H), concat_app. cbn. rewrite app_nil_r. reflexivity.
  - rewrite offsets_snoc, map_app. cbn [map Nat.add]. unfold pos_push.
    rewrite (svr_chars _ _ H).
    rewrite N.mod_small by exact Hf'.
    apply rep_push; [reflexivity|lia|apply (svr_pos _ _ H)|exact Hf'].
  - rewrite (svrep_size _ _ H), increasing_snoc, <- (svr_sorted _ _ H).
    destruct (sv_sorted v) eqn:Es; cbn [andb]; [|split; [discriminate|intros [? _]; discriminate]].
    destruct (Nat.eqb_spec (length ss) 0) as [E|Ne]; cbn [negb andb].
    + split; [|tauto]. intros _. split; [tauto|]. left. destruct ss; [reflexivity|discriminate].
    + rewrite (svrep_at v ss) by (assumption || lia).
      destruct (lex_lt (nth (length ss - 1) ss []) x) eqn:El; cbn [negb]; split; try tauto; try discriminate.
      intros [_ [->|E]]; [cbn in Ne; lia|discriminate].
Qed.

Lemma fits_prefix : forall a b, fits (a ++ b) -> fits a.
Proof. intros a b H. unfold fits in *. rewrite concat_app, app_length in H. lia. Qed.

Lemma svrep_pushes : forall xs v ss, svrep v ss -> fits (ss ++ xs) ->
  svrep (fold_left sv_push_back xs v) (ss ++ xs).
Proof.
  induction xs as [|x xs IH]; intros v ss H Hf; cbn.
  - rewrite app_nil_r. assumption.
  - replace (ss ++ x :: xs) with ((ss ++ [x]) ++ xs) in * by (rewrite <- app_assoc; reflexivity).
    apply IH; [|assumption]. apply svrep_push; [assumption|]. eapply fits_prefix; eassumption.
Qed.

Lemma first_index_spec : forall p n i,
  i <= first_index p i n <= i + n /\
  (forall j, i <= j < first_index p i n -> p j = false) /\
  (first_index p i n < i + n -> p (first_index p i n) = true).
Proof.
  induction n as [|n IH]; intro i; cbn.
  - repeat split; lia.
  - destruct (p i) eqn:E.
    + split; [lia|]. split; [intros; lia|]. intros _. assumption.
    + destruct (IH (S i)) as (H1 & H2 & H3). split; [lia|]. split.
      * intros j Hj. destruct (Nat.eq_dec i j) as [<-|Hne]; [assumption|]. apply H2. lia.
      * intros H. apply H3. lia.
Qed.

Lemma increasing_lt : forall ss i j, increasing ss -> i < j < length ss ->
  lex_lt (nth i ss []) (nth j ss []) = true.
Proof.
  induction ss as [|x ss IH]; intros i j H Hij; cbn in Hij; [lia|].
  destruct j as [|j]; [lia|]. destruct i as [|i]; cbn.
  - destruct ss as [|y ss]; [cbn in Hij; lia|]. destruct H as [Hxy H].
    destruct j as [|j]; [assumption|].
    eapply lex_lt_trans; [eassumption|]. apply (IH 0 (S j)); [assumption|cbn in *; lia].
  - apply IH; [apply H|lia].
Qed.

(** ** KeyValueStore *)
Lemma set_nth_length : forall A n (x : A) l, length (set_nth n x l) = length l.
Proof. intros A n x l. revert n. induction l; intros [|n]; cbn; auto. Qed.

Lemma set_nth_same : forall A n (x d : A) l, n < length l -> nth n (set_nth n x l) d = x.
Proof.
  intros A n x d l. revert n. induction l as [|y l IH]; intros [|n] H; cbn in *; try lia; auto.
  apply IH. lia.
Qed.

Lemma set_nth_other : forall A n m (x d : A) l, n <> m -> nth m (set_nth n x l) d = nth m l d.
Proof.
  intros A n m x d l. revert n m. induction l as [|y l IH]; intros [|n] [|m] H; cbn; auto; try lia.
Qed.

Section KV.
Variables (search : list N -> nat) (fprint : list N -> N).
Notation calc := (calc_fprints search fprint).
Notation calc1 := (calc_fprint search fprint).

(** What is required of the external library: on the [keys] it was built for,
    the function is injective with values below the number of keys. *)
Definition perfect (keys : list (list N)) : Prop :=
  forall i j, i < length keys -> j < length keys ->
    search (nth i keys []) < length keys /\
    (search (nth i keys []) = search (nth j keys []) -> i = j).

Lemma calc1_length : forall fps k, length (calc1 fps k) = Nat.max (length fps) (search k + 1).
Proof.
  intros fps k. unfold calc_fprint. rewrite set_nth_length.
  destruct (Nat.leb_spec (length fps) (search k)).
  - rewrite app_length, repeat_length. lia.
  - lia.
Qed.

Lemma calc1_same : forall fps k, nth (search k) (calc1 fps k) 0%N = fprint k.
Proof.
  intros. unfold calc_fprint. apply set_nth_same.
  destruct (Nat.leb_spec (length fps) (search k)); [rewrite app_length, repeat_length|]; lia.
Qed.

Lemma calc1_other : forall fps k m, m <> search k -> m < length fps ->
  nth m (calc1 fps k) 0%N = nth m fps 0%N.
Proof.
  intros. unfold calc_fprint. rewrite set_nth_other by auto.
  destruct (length fps <=? search k); [rewrite app_nth1 by assumption|]; reflexivity.
Qed.

Lemma calc_snoc : forall keys k, calc (keys ++ [k]) = calc1 (calc keys) k.
Proof. intros. unfold calc_fprints. rewrite fold_left_app. reflexivity. Qed.

Lemma calc_facts : forall keys n,
  (forall k, In k keys -> search k < n) ->
  NoDup (map search keys) ->
  length (calc keys) <= n /\
  (forall k, In k keys -> search k < length (calc keys) /\ nth (search k) (calc keys) 0%N = fprint k).
Proof.
  induction keys as [|k keys IH] using rev_ind; intros n Hn Hnd.
  - cbn. split; [lia|]. intros ? [].
  - rewrite calc_snoc, calc1_length. rewrite map_app in Hnd. cbn in Hnd.
    pose proof (NoDup_remove _ _ _ Hnd) as [Hnd' Hni]. rewrite app_nil_r in Hnd', Hni.
    destruct (IH n) as [H1 H2]; [intros; apply Hn; apply in_or_app; auto|assumption|].
    assert (search k < n) by (apply Hn; apply in_or_app; right; left; reflexivity).
    split; [lia|]. intros k' Hin. apply in_app_or in Hin. destruct Hin as [Hin|[<-|[]]].
    + destruct (H2 k' Hin) as [H3 H4]. split; [lia|].
      rewrite calc1_other; [assumption| |assumption].
      intro E. apply Hni. rewrite <- E. apply in_map. assumption.
    + split; [lia|]. apply calc1_same.
Qed.

Lemma perfect_nodup : forall keys, perfect keys -> NoDup (map search keys).
Proof.
  intros keys H. apply (NoDup_nth _ (search [])). intros i j Hi Hj E.
  rewrite map_length in *. rewrite !map_nth in E.
  apply (H i j Hi Hj). assumption.
Qed.

Lemma perfect_length : forall keys, perfect keys -> length (calc keys) = length keys.
Proof.
  intros keys H. pose proof (perfect_nodup keys H) as Hnd.
  assert (Hb : forall k, In k keys -> search k < length keys).
  { intros k Hin. apply (In_nth _ _ []) in Hin. destruct Hin as (i & Hi & <-).
    apply (H i i Hi Hi). }
  destruct (calc_facts keys (length keys) Hb Hnd) as [H1 H2].
  apply Nat.le_antisymm; [assumption|].
  rewrite <- (map_length search keys) at 1. rewrite <- (seq_length (length (calc keys)) 0).
  apply NoDup_incl_length; [assumption|].
  intros n Hin. apply in_map_iff in Hin. destruct Hin as (k & <- & Hk).
  apply in_seq. destruct (H2 k Hk). lia.
Qed.

Lemma perfect_get_hash : forall keys k, perfect keys -> In k keys ->
  get_hash search fprint (calc keys) k = search k.
Proof.
  intros keys k H Hin. unfold get_hash.
  assert (Hb : forall k, In k keys -> search k < length keys).
  { intros k' Hin'. apply (In_nth _ _ []) in Hin'. destruct Hin' as (i & Hi & <-).
    apply (H i i Hi Hi). }
  destruct (calc_facts keys (length keys) Hb (perfect_nodup keys H)) as [H1 H2].
  destruct (H2 k Hin) as [H3 H4]. rewrite H4, N.eqb_refl.
  destruct (Nat.ltb_spec (search k) (length (calc keys))); [reflexivity|lia].
Qed.

(** The translation table inverts the hash. *)
Lemma table_facts : forall (f : nat -> nat) n is t,
  (forall i, In i is -> f i < n) -> NoDup (map f is) -> length t = n ->
  length (fold_left (fun t i => set_nth (f i) i t) is t) = n /\
  (forall i, In i is -> nth (f i) (fold_left (fun t i => set_nth (f i) i t) is t) 0 = i) /\
  (forall m, ~ In m (map f is) -> nth m (fold_left (fun t i => set_nth (f i) i t) is t) 0 = nth m t 0).
Proof.
  intros f n is. induction is as [|i is IH]; intros t Hb Hnd Hl; cbn [fold_left].
  - repeat split; auto. intros ? [].
  - cbn in Hnd. inversion Hnd as [|? ? Hni Hnd']; subst.
    destruct (IH (set_nth (f i) i t)) as (H1 & H2 & H3).
    + intros. apply Hb. right. assumption.
    + assumption.
    + apply set_nth_length.
    + split; [rewrite H1; reflexivity|]. split.
      * intros i' [<-|Hin].
        -- rewrite H3 by assumption. apply set_nth_same. apply Hb. left. reflexivity.
        -- apply H2. assumption.
      * intros m Hm. cbn in Hm. rewrite H3 by tauto. apply set_nth_other. tauto.
Qed.
End KV.

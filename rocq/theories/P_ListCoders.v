(** C25, C46: the integer list coders of bonsai are lossless and its compressed
    vector is a faithful vector. *)
From Coq Require Import List NArith Arith Bool Lia.
From Verif Require Import M_ListCoders L_ListCoders.
Import ListNotations.
Open Scope N_scope.

(** ** C25: VarIntType *)
(** [sh] = 7, 15, 31 are the instances VarInt8, VarInt16, VarInt32. *)
Theorem C25_varint_roundtrip : forall sh xs, 1 <= sh -> Forall (fun x => x < 2 ^ 64) xs ->
  vi_decode sh (vi_encode sh xs) = Some xs /\
  (forall u, In u (vi_encode sh xs) -> u < 2 ^ (sh + 1)).
Proof.
  intros sh xs Hsh Hx. split.
  - apply vi_decode_fuel_roundtrip; [assumption|assumption|apply le_n].
  - intros u Hu. apply in_flat_map in Hu. destruct Hu as (x & _ & Hu).
    unfold vi_encode_symbol in Hu. destruct (x =? 0).
    + destruct Hu as [<-|[]]. apply N.neq_0_lt_0. apply N.pow_nonzero. lia.
    + eapply vi_loop_units; eassumption.
Qed.
Print Assumptions C25_varint_roundtrip.

(** The code is a stream code: what follows a list does not disturb its decoding,
    and the encoding of a concatenation is the concatenation of encodings. *)
Theorem C25_varint_stream : forall sh xs ys, 1 <= sh ->
  Forall (fun x => x < 2 ^ 64) xs -> Forall (fun x => x < 2 ^ 64) ys ->
  vi_encode sh (xs ++ ys) = vi_encode sh xs ++ vi_encode sh ys /\
  vi_decode sh (vi_encode sh xs ++ vi_encode sh ys) = Some (xs ++ ys).
Proof.
  intros sh xs ys Hsh Hx Hy.
  assert (E : vi_encode sh (xs ++ ys) = vi_encode sh xs ++ vi_encode sh ys)
    by (unfold vi_encode; rewrite !flat_map_concat_map, map_app, concat_app; reflexivity).
  split; [assumption|]. rewrite <- E. apply C25_varint_roundtrip; [assumption|].
  apply Forall_app. split; assumption.
Qed.
Print Assumptions C25_varint_stream.

(** DecodeAndSum of the first [num] numbers: their sum in size_t arithmetic; the
    iterator stops directly after them. *)
Theorem C25_varint_sum : forall sh xs ys, 1 <= sh -> Forall (fun x => x < 2 ^ 64) (xs ++ ys) ->
  vi_decode_and_sum sh (vi_encode sh (xs ++ ys)) (length xs)
  = Some (fold_right N.add 0 xs mod 2 ^ 64, vi_encode sh ys).
Proof.
  intros sh xs ys Hsh Hx. unfold vi_decode_and_sum.
  rewrite <- (app_nil_r (vi_encode sh (xs ++ ys))).
  rewrite vi_sum_loop_encode by (try assumption; rewrite app_length; lia).
  rewrite firstn_app, firstn_all, Nat.sub_diag, skipn_app, skipn_all, Nat.sub_diag.
  cbn [firstn skipn app]. rewrite !app_nil_r. do 2 f_equal.
  assert (G : forall l a, fold_left (fun a x => (a + x) mod W64) l (a mod W64) = (a + fold_right N.add 0 l) mod W64).
  { induction l as [|x l IH]; intro a; cbn.
    - rewrite N.add_0_r. reflexivity.
    - rewrite N.add_mod_idemp_l by (unfold W64; lia). rewrite IH. f_equal. lia. }
  apply (G xs 0).
Qed.
Print Assumptions C25_varint_sum.

Example C25_varint_witness :
  vi_encode 7 [0; 127; 128; 300; 18446744073709551615]
  = [0; 127; 128; 1; 172; 2; 255; 255; 255; 255; 255; 255; 255; 255; 255; 1] /\
  vi_encode 31 [4294967296; 5] = [2147483648; 2; 5] /\
  vi_decode 7 [128; 1; 172; 2] = Some [128; 300].
Proof. vm_compute. repeat split. Qed.

(** ** C25: Simple9 *)
(** [reqbit] stands for the floating point computation of the number of bits; all
    that is assumed is that it is large enough and at most 28 for the values at
    hand. *)
Theorem C25_simple9_roundtrip : forall reqbit xs,
  (forall v, v < 2 ^ reqbit v) ->
  Forall (fun v => 1 <= reqbit v <= 28) xs ->
  exists ws, s9_encode reqbit xs = Some ws /\ s9_decode ws = xs /\
    forall num, (num <= length xs)%nat ->
      s9_decode_and_sum ws num = Some (fold_right N.add 0 (firstn num xs) mod 2 ^ 64).
Proof.
  intros reqbit xs Hfit Hx.
  destruct (s9_encode_fuel_ok reqbit Hfit (length xs) xs Hx (le_n _)) as (ws & H1 & H2).
  exists ws. split; [assumption|]. split; [assumption|].
  intros num Hn. unfold s9_decode_and_sum.
  rewrite s9_sum_loop_fold; [|lia|rewrite H2; lia|reflexivity].
  rewrite H2, Nat.sub_0_r. f_equal.
  assert (G : forall l a, fold_left (fun a x => (a + x) mod W64) l (a mod W64) = (a + fold_right N.add 0 l) mod W64).
  { induction l as [|x l IH]; intro a; cbn.
    - rewrite N.add_0_r. reflexivity.
    - rewrite N.add_mod_idemp_l by (unfold W64; lia). rewrite IH. f_equal. lia. }
  apply (G (firstn num xs) 0).
Qed.
Print Assumptions C25_simple9_roundtrip.

(** The exact number of bits satisfies the assumption. *)
Lemma size_fits : forall v, v < 2 ^ N.size v.
Proof. apply N.size_gt. Qed.

Lemma size_range : forall v, 1 <= v < 2 ^ 28 -> 1 <= N.size v <= 28.
Proof.
  intros v H. rewrite N.size_log2 by lia.
  assert (N.log2 v < 28) by (apply N.log2_lt_pow2; lia). lia.
Qed.

Example C25_simple9_witness :
  s9_encode N.size [1; 2; 3; 268435455; 500; 3; 3; 16383; 7]
  = Some (map s9_encode_symbol [[1; 2; 3]; [268435455]; [500; 3; 3]; [16383; 7]]) /\
  length (s9_encode_symbol (repeat 1 28) :: nil) = 1%nat /\
  s9_encode N.size (repeat 1 28) = Some [2684354559].
Proof. vm_compute. repeat split. Qed.

(** A list with a zero cannot be encoded: the number of bits is 0 and the encoder
    divides by it. *)
Theorem C25_simple9_zero_refuted : forall reqbit xs, reqbit 0 = 0 ->
  s9_encode reqbit (0 :: xs) = None.
Proof.
  intros reqbit xs H. unfold s9_encode. cbn [length s9_encode_fuel].
  assert (E : s9_choose reqbit 29 (0 :: xs) 1 0 0 0 = None).
  { assert (G : forall f, s9_choose reqbit (S f) (0 :: xs) 1 0 0 0 = None).
    { intro f. cbn [s9_choose nth length Nat.ltb Nat.leb andb]. rewrite H. reflexivity. }
    apply (G 28%nat). }
  rewrite E. reflexivity.
Qed.
Print Assumptions C25_simple9_zero_refuted.

(** ** C46: MonotonicVector of bonsai *)
Fixpoint deltas (x : N) (ys : list N) : list N :=
  match ys with
  | [] => []
  | y :: ys' => (y - x) :: deltas y ys'
  end.

(** Strictly increasing, with steps below 2^28, within size_t. *)
Fixpoint steps_ok (x : N) (ys : list N) : Prop :=
  match ys with
  | [] => True
  | y :: ys' => x < y < x + 2 ^ 28 /\ y < W64 /\ steps_ok y ys'
  end.

Lemma deltas_length : forall ys x, length (deltas x ys) = length ys.
Proof. induction ys; intros; cbn; auto. Qed.

Lemma deltas_sum : forall ys x r, steps_ok x ys -> x < W64 -> (r <= length ys)%nat ->
  fold_left (fun a d => (a + d) mod W64) (firstn r (deltas x ys)) x = nth r (x :: ys) 0.
Proof.
  induction ys as [|y ys IH]; intros x r H Hx Hr; cbn in Hr.
  - destruct r; [reflexivity|lia].
  - destruct r as [|r]; [reflexivity|]. cbn [deltas firstn fold_left steps_ok] in *.
    destruct H as (H1 & H2 & H3).
    replace ((x + (y - x)) mod W64) with y by (rewrite N.mod_small; lia).
    rewrite IH by (assumption || lia). reflexivity.
Qed.

Lemma last_cons : forall (a : list N) y x, last (y :: a) x = last a y.
Proof.
  induction a as [|z a IH]; intros y x; [reflexivity|].
  change (last (z :: a) x = last (z :: a) y). rewrite !IH. reflexivity.
Qed.

Lemma steps_app : forall a x b, steps_ok x (a ++ b) <-> steps_ok x a /\ steps_ok (last a x) b.
Proof.
  induction a as [|y a IH]; intros x b; cbn [app steps_ok]; [tauto|].
  rewrite IH, last_cons. tauto.
Qed.

Lemma deltas_snoc : forall a x y, deltas x (a ++ [y]) = deltas x a ++ [y - last a x].
Proof.
  induction a as [|z a IH]; intros x y; cbn [app deltas]; [reflexivity|].
  rewrite IH, last_cons. reflexivity.
Qed.

Section BV.
Variable reqbit : N -> N.
Variable step : nat.
Hypothesis Hstep : (1 <= step)%nat.
Hypothesis req_fits : forall v, v < 2 ^ reqbit v.
Hypothesis req_range : forall v, 1 <= v < 2 ^ 28 -> 1 <= reqbit v <= 28.

(** A block of the vector: its first value, the following ones, and the place of
    its code in m_diffs. *)
Definition block_at (v : bvec) (p : nat) (x : N) (ys : list N) : Prop :=
  exists ws rest, skipn (nth p (bv_anchors v) O) (bv_diffs v) = vi_encode 31 [x] ++ ws ++ rest /\
                  s9_decode ws = deltas x ys.

Fixpoint blocks (v : bvec) (p : nat) (bs : list (N * list N)) : Prop :=
  match bs with
  | [] => True
  | (x, ys) :: bs' => block_at v p x ys /\ S (length ys) = step /\ steps_ok x ys /\ x < W64 /\ blocks v (S p) bs'
  end.

Definition flat (bs : list (N * list N)) : list N := flat_map (fun b => fst b :: snd b) bs.

Record binv (v : bvec) (bs : list (N * list N)) (x : N) (ys : list N) : Prop := {
  bi_final : bv_final v = false;
  bi_blocks : blocks v 0 bs;
  bi_anchors : length (bv_anchors v) = S (length bs);
  bi_msize : bv_msize v = (length bs * step + 1)%nat;
  bi_temp : bv_temp v = deltas x ys;
  bi_last : bv_last v = last ys x;
  bi_len : (length ys < step)%nat;
  bi_steps : steps_ok x ys;
  bi_x : x < W64;
  bi_cur : skipn (nth (length bs) (bv_anchors v) O) (bv_diffs v) = vi_encode 31 [x]
}.

Lemma vi_encode1_nonempty : forall x, vi_encode 31 [x] <> [].
Proof.
  intros x H. destruct (vi_encode_symbol_nonempty 31 ltac:(lia) x) as (u & us & E).
  unfold vi_encode in H. cbn [flat_map] in H. rewrite E in H. discriminate.
Qed.

Lemma skipn_ext : forall (A : Type) n (l : list A) more r,
  skipn n l = r -> r <> [] -> skipn n (l ++ more) = r ++ more.
Proof.
  intros A n l more r H Hr. rewrite skipn_app. rewrite H.
  replace (n - length l)%nat with O; [reflexivity|].
  destruct (Nat.le_gt_cases (length l) n) as [L|G]; [|lia].
  exfalso. apply Hr. rewrite <- H. apply skipn_all2. assumption.
Qed.

(** Appending to m_diffs and to m_anchors keeps the blocks. *)
Lemma blocks_extend : forall v v' bs p,
  blocks v p bs ->
  (exists more, bv_diffs v' = bv_diffs v ++ more) ->
  (forall q, (q < p + length bs)%nat -> nth q (bv_anchors v') O = nth q (bv_anchors v) O) ->
  blocks v' p bs.
Proof.
  intros v v' bs p H (more & Hd) Ha. revert p H Ha.
  induction bs as [|[x ys] bs IH]; intros p H Ha; cbn in *; [trivial|].
  destruct H as ((ws & rest & H1 & H2) & H3 & H4 & H5 & H6).
  split; [|split; [assumption|split; [assumption|split; [assumption|]]]].
  - exists ws, (rest ++ more). split; [|assumption].
    rewrite Ha by lia. rewrite Hd. rewrite (skipn_ext _ _ _ _ _ H1).
    + rewrite <- !app_assoc. reflexivity.
    + intro E. apply app_eq_nil in E. apply (vi_encode1_nonempty x). tauto.
  - apply IH; [assumption|]. intros q Hq. apply Ha. lia.
Qed.

Lemma blocks_snoc : forall v bs p x ys,
  blocks v p bs -> block_at v (p + length bs) x ys -> S (length ys) = step -> steps_ok x ys -> x < W64 ->
  blocks v p (bs ++ [(x, ys)]).
Proof.
  induction bs as [|[x0 ys0] bs IH]; intros p x ys H Hb H1 H2 H3; cbn in *.
  - rewrite Nat.add_0_r in Hb. tauto.
  - destruct H as (? & ? & ? & ? & ?). repeat (split; [assumption|]).
    apply IH; try assumption. replace (S p + length bs)%nat with (p + S (length bs))%nat by lia. assumption.
Qed.

Lemma vi_sum1 : forall x rest, x < W64 ->
  vi_decode_and_sum 31 (vi_encode 31 [x] ++ rest) 1 = Some (x, rest).
Proof.
  intros x rest Hx. unfold vi_decode_and_sum.
  rewrite vi_sum_loop_encode; [|lia|repeat constructor; assumption|cbn; lia].
  cbn [firstn skipn fold_left]. rewrite N.add_0_l, N.mod_small by assumption. reflexivity.
Qed.

Lemma s9_decode_app : forall a b, s9_decode (a ++ b) = s9_decode a ++ s9_decode b.
Proof. intros. unfold s9_decode. rewrite !flat_map_concat_map, map_app, concat_app. reflexivity. Qed.

(** Reading inside a finished block. *)
Lemma at_block : forall v p r x ys,
  block_at v p x ys -> steps_ok x ys -> x < W64 -> (r <= length ys)%nat -> (r < step)%nat ->
  (p * step + r < bv_msize v)%nat ->
  bv_at step v (p * step + r) = Some (nth r (x :: ys) 0).
Proof.
  intros v p r x ys (ws & rest & H1 & H2) Hs Hx Hr Hrs Hm. unfold bv_at.
  replace ((p * step + r) / step)%nat with p by (apply Nat.div_unique with (r := r); lia).
  replace ((p * step + r) mod step)%nat with r by (apply Nat.mod_unique with (q := p); lia).
  rewrite H1, vi_sum1 by assumption.
  destruct (Nat.ltb_spec (p * step + r) (bv_msize v)) as [_|L]; [|lia].
  unfold s9_decode_and_sum.
  assert (Hd : firstn r (s9_decode (ws ++ rest)) = firstn r (deltas x ys)).
  { rewrite s9_decode_app, H2, firstn_app, deltas_length.
    replace (r - length ys)%nat with O by lia. cbn [firstn]. apply app_nil_r. }
  rewrite s9_sum_loop_fold; [|lia| |reflexivity].
  - rewrite Nat.sub_0_r, Hd. cbn [option_map]. f_equal.
    rewrite fold_mod_shift, N.add_0_r, (N.mod_small x) by assumption.
    rewrite N.mod_small by (apply fold_mod_small; assumption).
    apply deltas_sum; assumption.
  - rewrite s9_decode_app, app_length, H2, deltas_length. lia.
Qed.

Lemma blocks_nth : forall v bs p q, blocks v p bs -> (q < length bs)%nat ->
  exists x ys, nth_error bs q = Some (x, ys) /\ block_at v (p + q) x ys /\
               S (length ys) = step /\ steps_ok x ys /\ x < W64.
Proof.
  induction bs as [|[x ys] bs IH]; intros p q H Hq; cbn in *; [lia|].
  destruct q as [|q].
  - exists x, ys. rewrite Nat.add_0_r. tauto.
  - destruct (IH (S p) q ltac:(tauto) ltac:(lia)) as (x' & ys' & H').
    exists x', ys'. replace (p + S q)%nat with (S p + q)%nat by lia. exact H'.
Qed.

Lemma flat_length : forall v bs p, blocks v p bs -> length (flat bs) = (length bs * step)%nat.
Proof.
  induction bs as [|[x ys] bs IH]; intros p H; cbn in *; [reflexivity|].
  rewrite app_length. fold (flat bs). destruct H as (_ & H & _ & _ & H').
  rewrite (IH _ H'). lia.
Qed.

Lemma flat_nth : forall bs q r x ys tail, 
  Forall (fun b => S (length (snd b)) = step) bs -> nth_error bs q = Some (x, ys) -> (r < step)%nat ->
  nth (q * step + r) (flat bs ++ tail) 0 = nth r (x :: ys) 0.
Proof.
  induction bs as [|[x0 ys0] bs IH]; intros q r x ys tail Hf Hn Hr; [destruct q; discriminate|].
  pose proof (Forall_inv Hf) as Hl. pose proof (Forall_inv_tail Hf) as Hf'. cbn [snd] in Hl. cbn [flat flat_map fst snd].
  fold (flat bs). destruct q as [|q]; cbn [nth_error] in Hn.
  - injection Hn as -> ->. cbn [Nat.mul Nat.add]. rewrite <- app_assoc.
    rewrite app_nth1; [reflexivity|cbn [length]; lia].
  - rewrite <- app_assoc. rewrite app_nth2 by (cbn [length]; lia).
    cbn [length]. replace (S q * step + r - S (length ys0))%nat with (q * step + r)%nat by lia.
    apply IH; assumption.
Qed.

Lemma blocks_lengths : forall v bs p, blocks v p bs -> Forall (fun b => S (length (snd b)) = step) bs.
Proof.
  induction bs as [|[x ys] bs IH]; intros p H; constructor; cbn in *; [tauto|]. eapply IH. apply H.
Qed.

Lemma at_correct : forall v bs x ys i, binv v bs x ys ->
  (i < length (flat bs) + S (length ys))%nat ->
  bv_at step v i = Some (nth i (flat bs ++ x :: ys) 0).
Proof.
  intros v bs x ys i H Hi.
  pose proof (flat_length _ _ _ (bi_blocks _ _ _ _ H)) as Hfl.
  pose proof (Nat.div_mod i step ltac:(lia)) as Hdm.
  pose proof (Nat.mod_upper_bound i step ltac:(lia)) as Hub.
  assert (Ei : i = (i / step * step + i mod step)%nat) by lia.
  pose proof (bi_len _ _ _ _ H) as Hlen.
  destruct (Nat.lt_ge_cases (i / step) (length bs)) as [L|G].
  - destruct (blocks_nth v bs 0 _ (bi_blocks _ _ _ _ H) L) as (x' & ys' & Hn & Hb & Hl & Hs & Hx).
    rewrite Ei at 1. rewrite (at_block v (i / step) (i mod step) x' ys') by (try assumption; try lia;
      rewrite (bi_msize _ _ _ _ H); nia).
    f_equal. rewrite Ei at 2.
    rewrite (flat_nth bs _ _ x' ys') by (try assumption; eapply blocks_lengths; apply (bi_blocks _ _ _ _ H)).
    reflexivity.
  - assert (Eq : (i / step)%nat = length bs).
    { apply Nat.le_antisymm; [|assumption]. assert (i < S (length bs) * step)%nat by nia.
      apply Nat.lt_succ_r. apply Nat.div_lt_upper_bound; lia. }
    assert (Hr : (i mod step)%nat = (i - length (flat bs))%nat) by nia.
    rewrite app_nth2 by nia. rewrite <- Hr.
    unfold bv_at. rewrite Eq.
    rewrite (bi_cur _ _ _ _ H), <- (app_nil_r (vi_encode 31 [x])), vi_sum1 by apply (bi_x _ _ _ _ H).
    rewrite (bi_msize _ _ _ _ H).
    destruct (Nat.ltb_spec i (length bs * step + 1)) as [L1|G1].
    + assert (Hr0 : (i mod step)%nat = O) by nia. rewrite Hr0. cbn.
      rewrite N.add_0_r. f_equal. apply N.mod_small. apply (bi_x _ _ _ _ H).
    + rewrite (bi_temp _ _ _ _ H), deltas_length.
      destruct (Nat.ltb_spec i (length bs * step + 1 + length ys)) as [_|G2]; [|lia].
      f_equal. apply deltas_sum; [apply (bi_steps _ _ _ _ H)|apply (bi_x _ _ _ _ H)|nia].
Qed.

Lemma deltas_range : forall ys x, steps_ok x ys -> Forall (fun v => 1 <= v < 2 ^ 28) (deltas x ys).
Proof.
  induction ys as [|y ys IH]; intros x H; cbn in *; constructor; [lia|]. apply IH. tauto.
Qed.

Lemma encode_temp : forall x ys, steps_ok x ys ->
  exists ws, s9_encode reqbit (deltas x ys) = Some ws /\ s9_decode ws = deltas x ys.
Proof.
  intros x ys H.
  destruct (s9_encode_fuel_ok reqbit req_fits (length (deltas x ys)) (deltas x ys)) as (ws & H1 & H2).
  - eapply Forall_impl; [|apply (deltas_range _ _ H)]. cbn. intros; apply req_range; assumption.
  - apply le_n.
  - exists ws. split; assumption.
Qed.

(** One push keeps the invariant. *)
Lemma push_ok : forall v bs x ys y, binv v bs x ys -> last ys x < y < last ys x + 2 ^ 28 -> y < W64 ->
  exists v' bs' x' ys', bv_push_back reqbit step v y = Some v' /\ binv v' bs' x' ys' /\
    flat bs' ++ x' :: ys' = (flat bs ++ x :: ys) ++ [y].
Proof.
  intros v bs x ys y H Hy Hw. unfold bv_push_back.
  rewrite (bi_final _ _ _ _ H), (bi_anchors _ _ _ _ H). cbn [Nat.eqb andb].
  rewrite (bi_temp _ _ _ _ H), deltas_length.
  destruct (Nat.eqb_spec (length ys) (step - 1)) as [E|Hne].
  - destruct (encode_temp x ys (bi_steps _ _ _ _ H)) as (ws & H1 & H2). rewrite H1.
    assert (Hlt : (length (bv_diffs v) >= nth (length bs) (bv_anchors v) 0)%nat).
    { destruct (Nat.le_gt_cases (nth (length bs) (bv_anchors v) 0%nat) (length (bv_diffs v))) as [|G]; [assumption|].
      exfalso. pose proof (bi_cur _ _ _ _ H) as Hc. rewrite skipn_all2 in Hc by lia.
      symmetry in Hc. revert Hc. apply vi_encode1_nonempty. }
    eexists _, (bs ++ [(x, ys)]), y, []. split; [reflexivity|]. split.
    + constructor; cbn [bv_final bv_diffs bv_anchors bv_msize bv_temp bv_last length deltas last steps_ok].
      * reflexivity.
      * apply blocks_snoc.
        -- eapply blocks_extend; [apply (bi_blocks _ _ _ _ H)| |].
           ++ exists (ws ++ vi_encode 31 [y]). cbn [bv_diffs]. rewrite app_assoc. reflexivity.
           ++ intros q Hq. cbn [bv_anchors]. apply app_nth1. rewrite (bi_anchors _ _ _ _ H). lia.
        -- exists ws, (vi_encode 31 [y]). split; [|assumption]. cbn [bv_diffs bv_anchors Nat.add].
           rewrite app_nth1 by (rewrite (bi_anchors _ _ _ _ H); lia).
           rewrite <- app_assoc. apply skipn_ext; [apply (bi_cur _ _ _ _ H)|apply vi_encode1_nonempty].
        -- lia.
        -- apply (bi_steps _ _ _ _ H).
        -- apply (bi_x _ _ _ _ H).
      * rewrite !app_length, (bi_anchors _ _ _ _ H). cbn. lia.
      * rewrite (bi_msize _ _ _ _ H), app_length. cbn. nia.
      * reflexivity.
      * reflexivity.
      * lia.
      * trivial.
      * assumption.
      * rewrite app_length. cbn [length]. rewrite app_nth2 by (rewrite (bi_anchors _ _ _ _ H); lia).
        rewrite (bi_anchors _ _ _ _ H). replace (length bs + 1 - S (length bs))%nat with O by lia. cbn [nth].
        rewrite skipn_app, skipn_all, Nat.sub_diag. reflexivity.
    + unfold flat. rewrite flat_map_concat_map, map_app, concat_app, <- flat_map_concat_map. cbn.
      rewrite app_nil_r. reflexivity.
  - eexists _, bs, x, (ys ++ [y]). split; [reflexivity|]. split.
    + pose proof (bi_len _ _ _ _ H).
      assert (Hl : last ys x < W64).
      { lia. }
      constructor; cbn [bv_final bv_diffs bv_anchors bv_msize bv_temp bv_last].
      * reflexivity.
      * eapply blocks_extend; [apply (bi_blocks _ _ _ _ H)|exists []; rewrite app_nil_r; reflexivity|reflexivity].
      * apply (bi_anchors _ _ _ _ H).
      * apply (bi_msize _ _ _ _ H).
      * rewrite deltas_snoc. do 2 f_equal. rewrite (bi_last _ _ _ _ H).
        replace (y + W64 - last ys x) with (y - last ys x + 1 * W64) by lia.
        rewrite N.mod_add by (unfold W64; lia).
        rewrite (N.mod_small _ W64) by lia. apply N.mod_small.
        assert (2 ^ 28 < W32) by reflexivity. lia.
      * rewrite last_last. reflexivity.
      * rewrite app_length. cbn. lia.
      * apply steps_app. split; [apply (bi_steps _ _ _ _ H)|]. cbn. tauto.
      * apply (bi_x _ _ _ _ H).
      * apply (bi_cur _ _ _ _ H).
    + rewrite <- app_assoc. reflexivity.
Qed.

Lemma first_push : forall x, x < W64 -> exists v, bv_push_back reqbit step bv_empty x = Some v /\ binv v [] x [].
Proof.
  intros x Hx. eexists. split; [reflexivity|]. constructor; cbn; auto; try lia.
Qed.

Lemma pushes_ok : forall zs v bs x ys, binv v bs x ys -> steps_ok (last ys x) zs ->
  exists v' bs' x' ys', bv_pushes reqbit step v zs = Some v' /\ binv v' bs' x' ys' /\
    flat bs' ++ x' :: ys' = (flat bs ++ x :: ys) ++ zs.
Proof.
  induction zs as [|z zs IH]; intros v bs x ys H Hs.
  - exists v, bs, x, ys. rewrite app_nil_r. cbn. tauto.
  - cbn [steps_ok] in Hs. destruct Hs as (H1 & H2 & H3).
    destruct (push_ok v bs x ys z H H1 H2) as (v1 & bs1 & x1 & ys1 & E1 & I1 & F1).
    assert (El : last ys1 x1 = z).
    { assert (last (x1 :: ys1) 0 = z).
      { assert (last (flat bs1 ++ x1 :: ys1) 0 = z) by (rewrite F1; apply last_last).
        clear - H0. revert H0. induction (flat bs1) as [|a l IHl]; [auto|].
        intro H0. apply IHl. cbn [app] in H0. destruct (l ++ x1 :: ys1) eqn:E; [destruct l; discriminate|]. exact H0. }
      rewrite last_cons in H0. exact H0. }
    destruct (IH v1 bs1 x1 ys1 I1) as (v2 & bs2 & x2 & ys2 & E2 & I2 & F2).
    { rewrite El. assumption. }
    exists v2, bs2, x2, ys2. cbn [bv_pushes]. rewrite E1. split; [assumption|]. split; [assumption|].
    rewrite F2, F1, <- app_assoc. reflexivity.
Qed.
End BV.

(** After pushing values that strictly increase by steps below 2^28, size() and
    at() are those of a plain vector; so they are after commit(). *)
Theorem C46_bonsai_vector : forall reqbit step x xs,
  (forall v, v < 2 ^ reqbit v) -> (forall v, 1 <= v < 2 ^ 28 -> 1 <= reqbit v <= 28) ->
  (1 <= step)%nat ->
  (forall v, In v (x :: xs) -> v < 2 ^ 64) ->
  (forall i, (S i < length (x :: xs))%nat ->
     nth i (x :: xs) 0 < nth (S i) (x :: xs) 0 < nth i (x :: xs) 0 + 2 ^ 28) ->
  exists v, bv_pushes reqbit step bv_empty (x :: xs) = Some v /\
    bv_size v = length (x :: xs) /\
    (forall i, (i < length (x :: xs))%nat -> bv_at step v i = nth_error (x :: xs) i) /\
    exists v', bv_commit reqbit v = Some v' /\ bv_size v' = length (x :: xs) /\
      forall i, (i < length (x :: xs))%nat -> bv_at step v' i = nth_error (x :: xs) i.
Proof.
  intros reqbit step x xs Hfit Hran Hst Hw Hinc.
  assert (Hs : steps_ok x xs).
  { clear - Hw Hinc. revert x Hw Hinc. induction xs as [|y xs IH]; intros x Hw Hinc; cbn; [trivial|].
    split; [apply (Hinc 0%nat); cbn; lia|]. split; [apply Hw; right; left; reflexivity|].
    apply IH; [intros; apply Hw; right; assumption|].
    intros i Hi. apply (Hinc (S i)). cbn in *. lia. }
  destruct (first_push reqbit step Hst x (Hw x (or_introl eq_refl))) as (v0 & E0 & I0).
  destruct (pushes_ok reqbit step Hst Hfit Hran xs v0 [] x [] I0 Hs) as (v & bs & x' & ys & E & I & F).
  cbn [flat flat_map app] in F.
  exists v. cbn [bv_pushes]. rewrite E0. split; [assumption|].
  pose proof (flat_length step Hst _ _ _ (bi_blocks _ _ _ _ _ I)) as Hfl.
  assert (Hlen : length (x :: xs) = (length (flat bs) + S (length ys))%nat).
  { rewrite <- F, app_length. reflexivity. }
  assert (Hat : forall i, (i < length (x :: xs))%nat -> bv_at step v i = nth_error (x :: xs) i).
  { intros i Hi. rewrite (at_correct step Hst v bs x' ys i I) by lia. rewrite F.
    symmetry. apply nth_error_nth'. assumption. }
  split; [|split; [assumption|]].
  - unfold bv_size. rewrite (bi_msize _ _ _ _ _ I), (bi_temp _ _ _ _ _ I), deltas_length. lia.
  - unfold bv_commit. rewrite (bi_final _ _ _ _ _ I), (bi_temp _ _ _ _ _ I).
    destruct (encode_temp reqbit step Hst Hfit Hran x' ys (bi_steps _ _ _ _ _ I)) as (ws & H1 & H2).
    rewrite H1. eexists. split; [reflexivity|].
    rewrite deltas_length. split.
    + unfold bv_size. cbn [bv_msize bv_temp length]. rewrite (bi_msize _ _ _ _ _ I). cbn [length] in Hlen. lia.
    + intros i Hi.
      assert (Hb : blocks step (BV (bv_anchors v) (bv_diffs v ++ ws) []
                 (bv_msize v + length ys) (bv_last v) true) 0 bs).
      { eapply (blocks_extend step Hst); [apply (bi_blocks _ _ _ _ _ I)|exists ws; reflexivity|reflexivity]. }
      pose proof (Nat.div_mod i step ltac:(lia)) as Hdm.
      pose proof (Nat.mod_upper_bound i step ltac:(lia)) as Hub.
      pose proof (bi_len _ _ _ _ _ I) as Hyl.
      assert (Ei : i = (i / step * step + i mod step)%nat) by lia.
      rewrite (nth_error_nth' (x :: xs) 0 Hi). rewrite <- F.
      destruct (Nat.lt_ge_cases (i / step) (length bs)) as [L|G].
      * destruct (blocks_nth step Hst _ bs 0 _ Hb L) as (x1 & ys1 & Hn & Hbl & Hl & Hss & Hx).
        rewrite Ei at 1. rewrite (at_block step Hst _ (i / step) (i mod step) x1 ys1) by (try assumption; try lia;
          cbn [bv_msize]; rewrite (bi_msize _ _ _ _ _ I); nia).
        f_equal. rewrite Ei at 2.
        rewrite (flat_nth step Hst bs _ _ x1 ys1) by (try assumption; eapply blocks_lengths; apply (bi_blocks _ _ _ _ _ I)).
        reflexivity.
      * assert (Eq : (i / step)%nat = length bs).
        { apply Nat.le_antisymm; [|assumption]. assert (i < S (length bs) * step)%nat by nia.
          apply Nat.lt_succ_r. apply Nat.div_lt_upper_bound; lia. }
        rewrite Ei at 1. rewrite Eq.
        rewrite (at_block step Hst _ (length bs) (i mod step) x' ys).
        -- f_equal. rewrite app_nth2 by nia. f_equal. nia.
        -- exists ws, []. split; [|assumption]. cbn [bv_anchors bv_diffs]. rewrite app_nil_r.
           eapply (skipn_ext step Hst); [apply (bi_cur _ _ _ _ _ I)|]. apply (vi_encode1_nonempty step Hst).
        -- apply (bi_steps _ _ _ _ _ I).
        -- apply (bi_x _ _ _ _ _ I).
        -- nia.
        -- lia.
        -- cbn [bv_msize]. rewrite (bi_msize _ _ _ _ _ I). nia.
Qed.
Print Assumptions C46_bonsai_vector.

Example C46_witness :
  option_map (fun v => (map (bv_at 3 v) (seq 0 6), bv_size v))
    (bv_pushes N.size 3 bv_empty [7; 8; 100008; 100108; 200000000; 200000003])
  = Some (map Some [7; 8; 100008; 100108; 200000000; 200000003], 6%nat) /\
  (forall v, v < 2 ^ N.size v) /\ (forall v, 1 <= v < 2 ^ 28 -> 1 <= N.size v <= 28).
Proof. split; [|split]; [vm_compute; reflexivity|apply size_fits|apply size_range]. Qed.

(** The comment in the header allows equal neighbours; pushing them makes the
    vector fail as soon as the block is encoded. *)
Theorem C46_equal_neighbours_refuted :
  exists xs, (forall i, (S i < length xs)%nat -> nth i xs 0 <= nth (S i) xs 0) /\
    exists v, bv_pushes N.size 32 bv_empty xs = Some v /\ bv_commit N.size v = None.
Proof.
  exists [5; 5]. split.
  - intros i Hi. cbn in Hi. assert (i = 0%nat) as -> by lia. cbn. lia.
  - eexists. split; [vm_compute; reflexivity|]. vm_compute. reflexivity.
Qed.
Print Assumptions C46_equal_neighbours_refuted.

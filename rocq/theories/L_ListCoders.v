From Coq Require Import List NArith Arith Bool Lia.
From Verif Require Import M_ListCoders.
Import ListNotations.
Open Scope N_scope.

(** ** Bit arithmetic *)
Lemma lor_low_high : forall x sh,
  N.lor (N.land x (N.ones sh)) (N.shiftl (N.shiftr x sh) sh) = x.
Proof.
  intros x sh. apply N.bits_inj. intro k.
  rewrite N.lor_spec, N.land_spec.
  destruct (N.lt_ge_cases k sh) as [H|H].
  - rewrite N.ones_spec_low, N.shiftl_spec_low by lia. rewrite andb_true_r, orb_false_r. reflexivity.
  - rewrite N.ones_spec_high, N.shiftl_spec_high', N.shiftr_spec' by lia.
    rewrite andb_false_r. cbn. f_equal. lia.
Qed.

Lemma testbit_small : forall b k i, b < 2 ^ k -> k <= i -> N.testbit b i = false.
Proof.
  intros b k i Hb Hi. destruct (N.eq_dec b 0) as [->|Hne]; [apply N.bits_0|].
  apply N.bits_above_log2. apply N.log2_lt_pow2 in Hb; lia.
Qed.

Lemma land_disjoint : forall a k b, b < 2 ^ k -> N.land (a * 2 ^ k) b = 0.
Proof.
  intros a k b Hb. rewrite <- N.shiftl_mul_pow2.
  apply N.bits_inj. intro i. rewrite N.land_spec, N.bits_0.
  destruct (N.lt_ge_cases i k).
  - rewrite N.shiftl_spec_low by assumption. reflexivity.
  - rewrite (testbit_small b k) by assumption. apply andb_false_r.
Qed.

Lemma lor_add : forall a k b, b < 2 ^ k -> N.lor (a * 2 ^ k) b = a * 2 ^ k + b.
Proof.
  intros a k b Hb. pose proof (land_disjoint a k b Hb) as H.
  rewrite <- N.lxor_lor by assumption. symmetry. apply N.add_nocarry_lxor. assumption.
Qed.

(** ** VarIntType *)
Section VarInt.
Variable sh : N.
Hypothesis Hsh : 1 <= sh.

Lemma pow_sh_ge2 : 2 <= 2 ^ sh.
Proof. change 2 with (2 ^ 1) at 1. apply N.pow_le_mono_r; lia. Qed.

Lemma vi_loop_decode : forall fuel x i out rest,
  x <> 0 -> x < 2 ^ N.of_nat fuel -> x * 2 ^ (sh * i) < W64 ->
  vi_decode_loop sh (vi_loop sh fuel x ++ rest) i out
  = Some (N.lor out (N.shiftl x (sh * i)), rest).
Proof.
  induction fuel as [|fuel IH]; intros x i out rest Hx Hf Hw.
  - cbn in Hf. lia.
  - cbn [vi_loop]. destruct (N.eqb_spec x 0) as [E|_]; [contradiction|].
    cbn zeta. rewrite N.shiftr_div_pow2. set (hi := x / 2 ^ sh).
    pose proof pow_sh_ge2 as H2.
    assert (Hdm : x = 2 ^ sh * hi + x mod 2 ^ sh) by (apply N.div_mod'; lia).
    assert (Hlo : x mod 2 ^ sh < 2 ^ sh) by (apply N.mod_lt; lia).
    rewrite N.land_ones.
    assert (Hsi : sh * i < 64).
    { destruct (N.lt_ge_cases (sh * i) 64) as [|Hge]; [assumption|].
      assert (2 ^ 64 <= 2 ^ (sh * i)) by (apply N.pow_le_mono_r; lia).
      unfold W64 in Hw. assert (1 * 2 ^ 64 <= x * 2 ^ (sh * i)) by (apply N.mul_le_mono; lia). lia. }
    cbn [app vi_decode_loop].
    destruct (N.leb_spec 64 (sh * i)) as [L|_]; [lia|].
    destruct (N.eqb_spec hi 0) as [E|Hne].
    + rewrite E in Hdm. rewrite (testbit_small _ sh) by (assumption || lia).
      replace (vi_loop sh fuel hi) with (@nil N) by (rewrite E; destruct fuel; reflexivity).
      replace (x mod 2 ^ sh) with x by lia.
      rewrite N.mod_small by (rewrite N.shiftl_mul_pow2; assumption). reflexivity.
    + assert (Elor : N.lor (x mod 2 ^ sh) (msb sh) = msb sh + x mod 2 ^ sh).
      { rewrite N.lor_comm. unfold msb. rewrite <- (N.mul_1_l (2 ^ sh)) at 1 3. apply lor_add. assumption. }
      assert (Etb : N.testbit (N.lor (x mod 2 ^ sh) (msb sh)) sh = true).
      { rewrite N.lor_spec. unfold msb. rewrite N.pow2_bits_true, orb_true_r. reflexivity. }
      assert (Ecl : N.clearbit (N.lor (x mod 2 ^ sh) (msb sh)) sh = x mod 2 ^ sh).
      { apply N.bits_inj. intro k. rewrite N.clearbit_eqb, N.lor_spec. unfold msb. rewrite N.pow2_bits_eqb.
        destruct (N.eqb_spec sh k) as [->|]; cbn.
        - rewrite andb_false_r. symmetry. apply testbit_small with (k := k); [assumption|lia].
        - rewrite orb_false_r, andb_true_r. reflexivity. }
      rewrite Etb, Ecl.
      assert (Hhi : hi * 2 ^ (sh * (i + 1)) <= x * 2 ^ (sh * i)).
      { replace (sh * (i + 1)) with (sh + sh * i) by lia. rewrite N.pow_add_r.
        rewrite N.mul_assoc. apply N.mul_le_mono_r. lia. }
      rewrite IH.
      * f_equal. f_equal. rewrite <- N.lor_assoc. f_equal.
        rewrite N.mod_small.
        2:{ rewrite N.shiftl_mul_pow2. eapply N.le_lt_trans; [|apply Hw]. apply N.mul_le_mono_r. lia. }
        replace (sh * (i + 1)) with (sh + sh * i) by lia.
        rewrite <- N.shiftl_shiftl, <- N.shiftl_lor. f_equal.
        unfold hi. rewrite <- N.shiftr_div_pow2, <- N.land_ones. apply lor_low_high.
      * assumption.
      * apply N.div_lt_upper_bound; [lia|].
        eapply N.lt_le_trans; [apply Hf|].
        rewrite Nnat.Nat2N.inj_succ, N.pow_succ_r'. apply N.mul_le_mono_r. assumption.
      * lia.
Qed.

Lemma size_nat_gt : forall x, x < 2 ^ N.of_nat (N.size_nat x).
Proof.
  intro x. replace (N.of_nat (N.size_nat x)) with (N.size x); [apply N.size_gt|].
  destruct x; [reflexivity|]. cbn. symmetry. induction p; cbn in *; try lia; reflexivity.
Qed.

Lemma vi_symbol_roundtrip : forall x rest, x < W64 ->
  vi_decode_symbol sh (vi_encode_symbol sh x ++ rest) = Some (x, rest).
Proof.
  intros x rest Hx. unfold vi_decode_symbol, vi_encode_symbol.
  destruct (N.eqb_spec x 0) as [->|Hne].
  - cbn [app vi_decode_loop]. destruct (N.leb_spec 64 (sh * 0)) as [L|_]; [lia|].
    rewrite N.bits_0, N.shiftl_0_l. reflexivity.
  - rewrite vi_loop_decode; [|assumption|apply size_nat_gt|rewrite N.mul_0_r, N.pow_0_r, N.mul_1_r; assumption].
    rewrite N.mul_0_r, N.shiftl_0_r, N.lor_0_l. reflexivity.
Qed.

Lemma vi_encode_symbol_nonempty : forall x, exists u us, vi_encode_symbol sh x = u :: us.
Proof.
  intro x. unfold vi_encode_symbol. destruct (N.eqb_spec x 0) as [|Hne]; [eexists _, _; reflexivity|].
  destruct (N.size_nat x) eqn:E.
  - pose proof (size_nat_gt x) as H. rewrite E in H. cbn in H. lia.
  - cbn. destruct (N.eqb_spec x 0); [contradiction|]. eexists _, _; reflexivity.
Qed.

Lemma vi_decode_fuel_roundtrip : forall xs fuel, Forall (fun x => x < W64) xs ->
  (length (vi_encode sh xs) <= fuel)%nat ->
  vi_decode_fuel sh fuel (vi_encode sh xs) = Some xs.
Proof.
  induction xs as [|x xs IH]; intros fuel Hx Hf.
  - destruct fuel; reflexivity.
  - inversion Hx; subst. cbn [vi_encode flat_map] in *.
    change (flat_map (vi_encode_symbol sh) xs) with (vi_encode sh xs) in *.
    destruct (vi_encode_symbol_nonempty x) as (u & us & E).
    rewrite app_length, E in Hf. cbn in Hf.
    destruct fuel as [|fuel]; [lia|].
    pose proof (vi_symbol_roundtrip x (vi_encode sh xs) ltac:(assumption)) as R.
    rewrite E in *. cbn [app] in *. cbn [vi_decode_fuel]. rewrite R.
    rewrite IH; [reflexivity|assumption|lia].
Qed.

Lemma vi_sum_loop_encode : forall xs num sum rest, Forall (fun x => x < W64) xs ->
  (num <= length xs)%nat ->
  vi_sum_loop sh num (vi_encode sh xs ++ rest) sum
  = Some (fold_left (fun a x => (a + x) mod W64) (firstn num xs) sum,
          vi_encode sh (skipn num xs) ++ rest).
Proof.
  induction xs as [|x xs IH]; intros num sum rest Hx Hn.
  - destruct num; [reflexivity|cbn in Hn; lia].
  - destruct num as [|num]; [reflexivity|].
    inversion Hx; subst. cbn [vi_encode flat_map] in *.
    change (flat_map (vi_encode_symbol sh) xs) with (vi_encode sh xs) in *.
    rewrite <- app_assoc.
    destruct (vi_encode_symbol_nonempty x) as (u & us & E).
    pose proof (vi_symbol_roundtrip x (vi_encode sh xs ++ rest) ltac:(assumption)) as R.
    rewrite E in *. cbn [app] in *. cbn [vi_sum_loop]. rewrite R.
    cbn [firstn skipn fold_left]. apply IH; [assumption|cbn in Hn; lia].
Qed.

Lemma vi_loop_units : forall fuel x u, In u (vi_loop sh fuel x) -> u < 2 ^ (sh + 1).
Proof.
  pose proof pow_sh_ge2 as H2.
  assert (Hp : 2 ^ (sh + 1) = 2 ^ sh + 2 ^ sh) by (rewrite N.pow_add_r; lia).
  induction fuel as [|fuel IH]; intros x u H; [destruct H|].
  cbn [vi_loop] in H. destruct (x =? 0); [destruct H|]. cbn zeta in H.
  rewrite N.land_ones in H.
  assert (Hlo : x mod 2 ^ sh < 2 ^ sh) by (apply N.mod_lt; lia).
  destruct H as [<-|H]; [|eapply IH; eassumption].
  destruct (N.shiftr x sh =? 0); [lia|].
  rewrite N.lor_comm. unfold msb.
  rewrite <- (N.mul_1_l (2 ^ sh)) at 1. rewrite lor_add by assumption. lia.
Qed.
End VarInt.

(** ** Simple9 *)
(** The number whose base-2^b digits are [vals]. *)
Fixpoint val (b : N) (vals : list N) : N :=
  match vals with
  | [] => 0
  | v :: vs => v * 2 ^ (b * N.of_nat (length vs)) + val b vs
  end.

Lemma val_bound : forall b vals, Forall (fun v => v < 2 ^ b) vals ->
  val b vals < 2 ^ (b * N.of_nat (length vals)).
Proof.
  induction vals as [|v vs IH]; intro H; cbn [val length].
  - rewrite N.mul_0_r. cbn. lia.
  - inversion H; subst. specialize (IH ltac:(assumption)).
    rewrite Nnat.Nat2N.inj_succ, N.mul_succ_r, N.pow_add_r.
    set (p := 2 ^ (b * N.of_nat (length vs))) in *.
    assert (v * p + p <= p * 2 ^ b) by nia. lia.
Qed.

Lemma s9_pack_val : forall b vals acc,
  Forall (fun v => v < 2 ^ b) vals ->
  b * N.of_nat (length vals) <= 28 ->
  s9_pack b vals (acc * 2 ^ (b * N.of_nat (length vals)))
  = acc * 2 ^ (b * N.of_nat (length vals)) + val b vals.
Proof.
  induction vals as [|v vs IH]; intros acc H Hb; cbn [s9_pack val length] in *.
  - lia.
  - inversion H; subst.
    rewrite Nnat.Nat2N.inj_succ, N.mul_succ_r in *.
    set (k := b * N.of_nat (length vs)) in *.
    assert (Hv : v * 2 ^ k < 2 ^ (k + b)).
    { rewrite N.pow_add_r. rewrite N.mul_comm. apply N.mul_lt_mono_pos_l; [|assumption].
      apply N.neq_0_lt_0. apply N.pow_nonzero. lia. }
    assert (Hw : 2 ^ (k + b) <= W32) by (unfold W32; apply N.pow_le_mono_r; lia).
    rewrite N.shiftl_mul_pow2, N.mod_small by lia.
    rewrite lor_add by assumption.
    replace (acc * 2 ^ (k + b) + v * 2 ^ k) with ((acc * 2 ^ b + v) * 2 ^ k) by (rewrite N.pow_add_r; lia).
    unfold k. rewrite IH by (assumption || (fold k; lia)). fold k. rewrite N.pow_add_r. lia.
Qed.

Lemma extract : forall hi v low b k, v < 2 ^ b -> low < 2 ^ k ->
  N.land (N.shiftr (hi * 2 ^ (k + b) + v * 2 ^ k + low) k) (N.ones b) = v.
Proof.
  intros hi v low b k Hv Hl. rewrite N.land_ones, N.shiftr_div_pow2.
  assert (Hp : 2 ^ k <> 0) by (apply N.pow_nonzero; lia).
  assert (Hq : 2 ^ b <> 0) by (apply N.pow_nonzero; lia).
  replace (hi * 2 ^ (k + b) + v * 2 ^ k + low) with (low + (v + hi * 2 ^ b) * 2 ^ k)
    by (rewrite N.pow_add_r; lia).
  rewrite N.div_add, N.div_small by assumption. cbn [N.add].
  rewrite N.mod_add by assumption. apply N.mod_small. assumption.
Qed.

Lemma s9_unpack_val : forall b vals fuel hi, 0 < b ->
  Forall (fun v => v < 2 ^ b) vals -> vals <> [] ->
  (length vals <= fuel)%nat ->
  s9_unpack fuel (hi * 2 ^ (b * N.of_nat (length vals)) + val b vals) b
            (b * N.of_nat (length vals - 1)) (N.ones b) = vals.
Proof.
  induction vals as [|v vs IH]; intros fuel hi Hb H Hne Hf; [congruence|].
  inversion H; subst. cbn [length val] in *. destruct fuel as [|fuel]; [lia|].
  cbn [s9_unpack]. rewrite Nat.sub_succ, Nat.sub_0_r.
  set (k := b * N.of_nat (length vs)).
  pose proof (val_bound b vs ltac:(assumption)) as Hvb. fold k in Hvb.
  rewrite Nnat.Nat2N.inj_succ, N.mul_succ_r. fold k. rewrite N.add_assoc.
  destruct vs as [|v' vs'].
  - assert (k = 0) as -> by (unfold k; cbn; lia). cbn [N.ltb N.compare].
    rewrite <- (N.shiftr_0_r (hi * _ + _ + _)). rewrite extract by (assumption || (cbn; lia)). reflexivity.
  - assert (0 < k) by (unfold k; cbn [length]; nia).
    destruct (N.ltb_spec 0 k) as [_|L]; [|lia].
    rewrite extract by assumption. f_equal.
    replace (hi * 2 ^ (k + b) + v * 2 ^ k) with ((hi * 2 ^ b + v) * 2 ^ k) by (rewrite N.pow_add_r; lia).
    replace (k - b) with (b * N.of_nat (length (v' :: vs') - 1)).
    + apply IH; [assumption|assumption|discriminate|cbn in *; lia].
    + unfold k. cbn [length]. rewrite Nat.sub_succ, Nat.sub_0_r, Nnat.Nat2N.inj_succ. lia.
Qed.

(** The nine layouts are consistent. *)
Definition s9_ok (n : nat) : Prop := In n s9_parts.

Lemma s9_layout_ok : forall n, s9_ok n ->
  let '(t, b) := s9_type n in
  0 < b /\ b * N.of_nat n <= 28 /\ t < 16 /\
  s9_layout t = (b, b * N.of_nat (n - 1), N.ones b) /\
  28 / N.of_nat n = b.
Proof.
  intros n H. unfold s9_ok, s9_parts in H. cbn in H.
  repeat (destruct H as [<-|H]; [vm_compute; intuition congruence|]). destruct H.
Qed.

Lemma s9_word : forall vals, s9_ok (length vals) ->
  Forall (fun v => v < 2 ^ (28 / N.of_nat (length vals))) vals ->
  let '(t, b) := s9_type (length vals) in
  s9_encode_symbol vals = t * 2 ^ 28 + val b vals /\ val b vals < 2 ^ 28 /\
  Forall (fun v => v < 2 ^ b) vals.
Proof.
  intros vals Hok Hv. unfold s9_encode_symbol.
  pose proof (s9_layout_ok _ Hok) as H. destruct (s9_type (length vals)) as [t b].
  destruct H as (Hb & Hn & Ht & Hl & He). rewrite He in Hv.
  pose proof (val_bound b vals Hv) as Hvb.
  assert (Hp : 2 ^ (b * N.of_nat (length vals)) <= 2 ^ 28) by (apply N.pow_le_mono_r; lia).
  split; [|split; [lia|assumption]].
  rewrite N.shiftl_mul_pow2, N.mod_small.
  2:{ unfold W32. change (2 ^ 32) with (16 * 2 ^ 28). apply N.mul_lt_mono_pos_r; [reflexivity|assumption]. }
  replace 28 with ((28 - b * N.of_nat (length vals)) + b * N.of_nat (length vals)) at 1 2 by lia.
  rewrite N.pow_add_r, N.mul_assoc. rewrite s9_pack_val by assumption. reflexivity.
Qed.

Lemma s9_type_of_word : forall t r, r < 2 ^ 28 -> N.shiftr (t * 2 ^ 28 + r) 28 = t.
Proof.
  intros t r Hr. rewrite N.shiftr_div_pow2, N.add_comm, N.div_add by (cbn; lia).
  rewrite N.div_small by assumption. reflexivity.
Qed.

Lemma s9_symbol_roundtrip : forall vals, s9_ok (length vals) ->
  Forall (fun v => v < 2 ^ (28 / N.of_nat (length vals))) vals ->
  s9_decode_symbol (s9_encode_symbol vals) = vals.
Proof.
  intros vals Hok Hv. pose proof (s9_word vals Hok Hv) as H.
  pose proof (s9_layout_ok _ Hok) as HL. destruct (s9_type (length vals)) as [t b].
  destruct H as (-> & Hlt & Hf). destruct HL as (Hb & Hn & Ht & Hl & He).
  unfold s9_decode_symbol. rewrite s9_type_of_word by assumption. rewrite Hl.
  replace (t * 2 ^ 28) with (t * 2 ^ (28 - b * N.of_nat (length vals)) * 2 ^ (b * N.of_nat (length vals))).
  2:{ rewrite <- N.mul_assoc, <- N.pow_add_r. do 2 f_equal. lia. }
  apply s9_unpack_val; try assumption.
  - intro E. rewrite E in Hok. unfold s9_ok, s9_parts in Hok. cbn in Hok. lia.
  - lia.
Qed.

Lemma s9_sum_unpack_fold : forall fuel input bitlen shift mask num curr sum,
  (curr < num)%nat ->
  let vs := s9_unpack fuel input bitlen shift mask in
  let k := Nat.min (length vs) (num - curr) in
  s9_sum_unpack fuel input bitlen shift mask num curr sum
  = (fold_left (fun a x => (a + x) mod W64) (firstn k vs) sum, (curr + k)%nat).
Proof.
  induction fuel as [|fuel IH]; intros input bitlen shift mask num curr sum Hc; cbn zeta.
  - cbn. f_equal. lia.
  - cbn [s9_unpack s9_sum_unpack]. destruct (0 <? shift).
    + cbn zeta. cbn [length].
      destruct (Nat.eqb_spec (S curr) num) as [E|Hne].
      * replace (num - curr)%nat with 1%nat by lia.
        rewrite Nat.min_r by lia. cbn. f_equal. lia.
      * rewrite IH by lia.
        replace (Nat.min (S (length (s9_unpack fuel input bitlen (shift - bitlen) mask))) (num - curr))
          with (S (Nat.min (length (s9_unpack fuel input bitlen (shift - bitlen) mask)) (num - S curr))) by lia.
        cbn [firstn fold_left]. f_equal. lia.
    + cbn [length]. replace (Nat.min 1 (num - curr)) with 1%nat by lia. cbn. f_equal. lia.
Qed.

Lemma s9_sum_symbol_fold : forall w num curr, (curr < num)%nat ->
  let vs := s9_decode_symbol w in
  let k := Nat.min (length vs) (num - curr) in
  s9_sum_symbol w num curr
  = (fold_left (fun a x => (a + x) mod W64) (firstn k vs) 0, (curr + k)%nat).
Proof.
  intros w num curr H. unfold s9_sum_symbol, s9_decode_symbol.
  destruct (s9_layout (N.shiftr w 28)) as [[bitlen shift] mask].
  apply s9_sum_unpack_fold. assumption.
Qed.

Lemma fold_mod_shift : forall vs a b,
  (a + fold_left (fun a x => (a + x) mod W64) vs b) mod W64
  = fold_left (fun a x => (a + x) mod W64) vs ((a + b) mod W64) mod W64.
Proof.
  assert (HW : W64 <> 0) by (unfold W64; lia).
  induction vs as [|v vs IH]; intros a b; cbn [fold_left].
  - rewrite N.mod_mod by assumption. reflexivity.
  - rewrite IH. do 2 f_equal. rewrite N.add_mod_idemp_r, N.add_mod_idemp_l by assumption. f_equal. lia.
Qed.

Lemma fold_mod_small : forall vs a, a < W64 -> fold_left (fun a x => (a + x) mod W64) vs a < W64.
Proof.
  induction vs as [|v vs IH]; intros a H; cbn; [assumption|]. apply IH. apply N.mod_lt. unfold W64; lia.
Qed.

Lemma s9_decode_symbol_nonempty : forall w, (1 <= length (s9_decode_symbol w))%nat.
Proof.
  intro w. unfold s9_decode_symbol. destruct (s9_layout (N.shiftr w 28)) as [[b s] m].
  change 28%nat with (S 27). cbn [s9_unpack]. destruct (0 <? s); cbn; lia.
Qed.

Lemma s9_sum_loop_fold : forall ws num curr sum,
  (curr <= num)%nat -> (num - curr <= length (s9_decode ws))%nat -> sum < W64 ->
  s9_sum_loop ws num curr sum
  = Some (fold_left (fun a x => (a + x) mod W64) (firstn (num - curr) (s9_decode ws)) sum).
Proof.
  induction ws as [|w ws IH]; intros num curr sum Hc Hl Hs; cbn [s9_sum_loop].
  - cbn in Hl. destruct (Nat.eqb_spec curr num); [|lia].
    replace (num - curr)%nat with O by lia. reflexivity.
  - destruct (Nat.ltb_spec curr num) as [L|G].
    + rewrite s9_sum_symbol_fold by assumption. cbn zeta.
      cbn [s9_decode flat_map] in Hl |- *. rewrite app_length in Hl.
      change (flat_map s9_decode_symbol ws) with (s9_decode ws) in *.
      set (vs := s9_decode_symbol w) in *.
      set (k := Nat.min (length vs) (num - curr)).
      rewrite IH.
      * rewrite firstn_app, fold_left_app.
        replace (firstn k vs) with (firstn (num - curr) vs).
        2:{ unfold k. destruct (Nat.le_gt_cases (length vs) (num - curr)).
            - rewrite Nat.min_l by assumption. rewrite firstn_all2, firstn_all by assumption. reflexivity.
            - rewrite Nat.min_r by lia. reflexivity. }
        replace (num - (curr + k))%nat with (num - curr - length vs)%nat by lia.
        do 2 f_equal. rewrite fold_mod_shift, N.add_0_r.
        rewrite (N.mod_small sum) by assumption.
        apply N.mod_small. apply fold_mod_small. assumption.
      * lia.
      * lia.
      * apply N.mod_lt. unfold W64. lia.
    + destruct (Nat.eqb_spec curr num); [|lia].
      replace (num - curr)%nat with O by lia. reflexivity.
Qed.

Section Choose.
Variable reqbit : N -> N.

(** What the choice of a group guarantees. *)
Definition group_ok (rest : list N) (n : nat) : Prop :=
  s9_ok n /\ (n <= length rest)%nat /\
  Forall (fun v => reqbit v <= 28 / N.of_nat n) (firstn n rest).

Lemma bit_ge : forall rb, 1 <= rb <= 28 -> rb <= 28 / (28 / rb).
Proof.
  intros rb H. apply N.div_le_lower_bound.
  - intro E. apply N.div_small_iff in E; lia.
  - rewrite N.mul_comm. apply N.mul_div_le. lia.
Qed.

Lemma div_swap : forall p lb, 1 <= p -> 1 <= lb -> p <= 28 / lb -> lb <= 28 / p.
Proof.
  intros p lb Hp Hl H. apply N.div_le_lower_bound; [lia|].
  assert (lb * (28 / lb) <= 28) by (apply N.mul_div_le; lia). nia.
Qed.

Lemma s9_choose_ok : forall fuel rest lastbit lastpos lastyes j r,
  s9_choose reqbit fuel rest lastbit lastpos lastyes j = Some r ->
  1 <= lastbit ->
  (lastpos <= length rest)%nat ->
  Forall (fun v => reqbit v <= lastbit) (firstn lastpos rest) ->
  (lastpos = O \/ group_ok rest (S lastyes)) -> rest <> [] -> (lastpos = O -> lastyes = O /\ j = O /\ fuel <> O /\ lastbit = 1) ->
  group_ok rest (S r).
Proof.
  induction fuel as [|fuel IH]; intros rest lastbit lastpos lastyes j r H Hlb Hlp Hall Hg Hne Hinit.
  - cbn in H. inversion H; subst. destruct Hg as [->|Hg]; [|assumption].
    destruct (Hinit eq_refl) as (_ & _ & F & _). congruence.
  - cbn [s9_choose] in H.
    destruct ((j <? 9) && (lastpos <? 28) && (lastpos <? length rest))%nat eqn:Ec.
    + apply andb_true_iff in Ec. destruct Ec as [Ec E3]. apply andb_true_iff in Ec. destruct Ec as [E1 E2].
      apply Nat.ltb_lt in E1, E2, E3.
      cbn zeta in H. set (j' := if (nth j s9_parts 0 <=? lastpos)%nat then S j else j) in *.
      set (rb := reqbit (nth lastpos rest 0)) in *.
      destruct (N.eqb_spec rb 0) as [|Hrb]; [discriminate|].
      destruct (N.ltb_spec 28 rb) as [|Hrb2]; [discriminate|].
      set (bit := 28 / (28 / rb)) in *.
      assert (Hbit : rb <= bit) by (apply bit_ge; lia).
      set (lb' := if lastbit <? bit then bit else lastbit) in *.
      assert (Hlb' : lastbit <= lb' /\ bit <= lb').
      { unfold lb'. destruct (N.ltb_spec lastbit bit); lia. }
      assert (Hall' : Forall (fun v => reqbit v <= lb') (firstn (S lastpos) rest)).
      { assert (Ef : firstn (S lastpos) rest = firstn lastpos rest ++ [nth lastpos rest 0]).
        { clear - E3. revert lastpos E3. induction rest as [|y rest IH]; intros [|p] E3; cbn in E3; try lia; [reflexivity|].
          change (firstn (S (S p)) (y :: rest)) with (y :: firstn (S p) rest). rewrite IH by lia. reflexivity. }
        rewrite Ef. apply Forall_app. split.
        - eapply Forall_impl; [|apply Hall]. cbn. intros; lia.
        - constructor; [fold rb; lia|constructor]. }
      assert (Hj' : In (nth j' s9_parts 0%nat) s9_parts).
      { apply nth_In. cbn [s9_parts length]. unfold j'. destruct (Nat.leb_spec (nth j s9_parts 0%nat) lastpos) as [L|]; [|assumption].
        destruct (Nat.eq_dec j 8) as [->|]; [|lia]. cbn in L. lia. }
      destruct (N.leb_spec (N.of_nat (nth j' s9_parts 0%nat)) (28 / lb')) as [Hle|Hgt].
      * eapply IH; [apply H|lia|lia|assumption| |assumption|intro; lia].
        right. destruct (Nat.eqb_spec (S lastpos) (nth j' s9_parts 0%nat)) as [Ep|Np].
        -- split; [|split].
           ++ red. rewrite Ep. assumption.
           ++ lia.
           ++ eapply Forall_impl; [|apply Hall']. cbn beta. intros a Ha.
              rewrite <- Ep in Hle.
              pose proof (div_swap (N.of_nat (S lastpos)) lb' ltac:(lia) ltac:(lia) Hle). lia.
        -- destruct Hg as [E0|Hg]; [|assumption].
           exfalso. destruct (Hinit E0) as (_ & -> & _). subst lastpos. apply Np.
           unfold j'. cbn. reflexivity.
      * inversion H; subst. destruct Hg as [E0|Hg]; [|assumption].
        exfalso. destruct (Hinit E0) as (_ & -> & _ & ->). subst lastpos.
        unfold j' in Hgt. cbn [nth s9_parts Nat.leb] in Hgt.
        change (N.of_nat 1) with 1 in Hgt. pose proof (proj1 (N.lt_1_r _) Hgt) as Hz.
        apply N.div_small_iff in Hz; [|lia].
        assert (lb' <= 28); [|lia].
        unfold lb'. assert (bit <= 28) by (unfold bit; apply N.div_le_upper_bound; [intro E; apply N.div_small_iff in E; lia|];
           assert (1 <= 28 / rb) by (apply N.div_le_lower_bound; lia); nia).
        destruct (1 <? bit); lia.
    + inversion H; subst. destruct Hg as [E0|Hg]; [|assumption].
      exfalso. destruct (Hinit E0) as (_ & -> & _). subst lastpos. destruct rest; [congruence|]. cbn in Ec. discriminate.
Qed.

(** The choice succeeds when every value needs between 1 and 28 bits. *)
Lemma s9_choose_total : forall fuel rest lastbit lastpos lastyes j,
  Forall (fun v => 1 <= reqbit v <= 28) rest ->
  exists r, s9_choose reqbit fuel rest lastbit lastpos lastyes j = Some r.
Proof.
  induction fuel as [|fuel IH]; intros rest lastbit lastpos lastyes j H; cbn [s9_choose]; [eauto|].
  destruct ((j <? 9) && (lastpos <? 28) && (lastpos <? length rest))%nat eqn:Ec; [|eauto].
  apply andb_true_iff in Ec. destruct Ec as [_ E3]. apply Nat.ltb_lt in E3.
  rewrite Forall_forall in H. pose proof (H (nth lastpos rest 0) (nth_In _ _ E3)) as Hr.
  cbn zeta. destruct (N.eqb_spec (reqbit (nth lastpos rest 0)) 0); [lia|].
  destruct (N.ltb_spec 28 (reqbit (nth lastpos rest 0))); [lia|].
  match goal with |- context [if ?c then _ else Some lastyes] => destruct c end; [|eauto].
  apply IH. rewrite Forall_forall. assumption.
Qed.

Hypothesis req_fits : forall v, v < 2 ^ reqbit v.

Lemma s9_encode_fuel_ok : forall fuel xs, Forall (fun v => 1 <= reqbit v <= 28) xs ->
  (length xs <= fuel)%nat ->
  exists ws, s9_encode_fuel reqbit fuel xs = Some ws /\ s9_decode ws = xs.
Proof.
  induction fuel as [|fuel IH]; intros xs H Hf.
  - destruct xs; [|cbn in Hf; lia]. exists []. split; reflexivity.
  - destruct xs as [|x xs0]; [exists []; split; reflexivity|].
    remember (x :: xs0) as xs eqn:Exs.
    destruct (s9_choose_total 29 xs 1 0 0 0 H) as (r & Hr).
    assert (Hok : group_ok xs (S r)).
    { eapply s9_choose_ok; [apply Hr|lia|apply Nat.le_0_l|constructor|left; reflexivity|subst; discriminate|].
      intros _. repeat split. discriminate. }
    destruct Hok as (H1 & H2 & H3).
    destruct (IH (skipn (S r) xs)) as (ws & E1 & E2).
    + rewrite <- (firstn_skipn (S r) xs) in H. apply Forall_app in H. apply H.
    + rewrite skipn_length. lia.
    + exists (s9_encode_symbol (firstn (S r) xs) :: ws). split.
      * subst xs. cbn [s9_encode_fuel]. rewrite Hr, E1. reflexivity.
      * cbn [s9_decode flat_map]. change (flat_map s9_decode_symbol ws) with (s9_decode ws). rewrite E2.
        rewrite s9_symbol_roundtrip; [apply firstn_skipn| |]; rewrite firstn_length, Nat.min_l by assumption.
        -- assumption.
        -- eapply Forall_impl; [|apply H3]. cbn beta. intros a Ha.
           eapply N.lt_le_trans; [apply req_fits|]. apply N.pow_le_mono_r; [lia|assumption].
Qed.
End Choose.

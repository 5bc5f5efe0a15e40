From Coq Require Import List ZArith Bool Lia ZifyBool.
From Verif Require Import M_Utf8 S_Utf8.
Import ListNotations.
Open Scope Z_scope.
Ltac Zify.zify_post_hook ::= Z.div_mod_to_equations.

(** ** Bit operations as arithmetic *)
Lemma mask8_byte : forall b, byte b -> mask8 b = b.
Proof.
  intros b [H1 H2]. unfold mask8. rewrite Z.land_comm.
  change 255 with (Z.ones 8). rewrite Z.land_ones by lia.
  change (2 ^ 8) with 256. apply Z.mod_small. lia.
Qed.

Lemma is_trail_byte : forall b, byte b -> is_trail b = (0x80 <=? b) && (b <? 0xC0).
Proof.
  intros b Hb. unfold is_trail. rewrite mask8_byte by assumption.
  rewrite Z.shiftr_div_pow2 by lia. change (2 ^ 6) with 64.
  destruct Hb. lia.
Qed.

Lemma seqlen_byte : forall b, byte b ->
  sequence_length b =
    if b <? 0x80 then 1
    else if b <? 0xC0 then 0
    else if b <? 0xE0 then 2
    else if b <? 0xF0 then 3
    else if b <? 0xF8 then 4
    else 0.
Proof.
  intros b Hb. unfold sequence_length. rewrite mask8_byte by assumption.
  rewrite !Z.shiftr_div_pow2 by lia.
  change (2 ^ 5) with 32. change (2 ^ 4) with 16. change (2 ^ 3) with 8.
  destruct Hb as [H1 H2]. cbv zeta.
  destruct (Z.ltb_spec b 0x80); [reflexivity|].
  destruct (Z.ltb_spec b 0xC0);
  destruct (Z.ltb_spec b 0xE0);
  destruct (Z.ltb_spec b 0xF0);
  destruct (Z.ltb_spec b 0xF8); try lia;
  destruct (Z.eqb_spec (b / 32) 6); try lia;
  destruct (Z.eqb_spec (b / 16) 14); try lia;
  destruct (Z.eqb_spec (b / 8) 30); try lia.
Qed.

Lemma land3f : forall b, 0 <= b -> Z.land b 0x3f = b mod 64.
Proof. intros. change 0x3f with (Z.ones 6). rewrite Z.land_ones by lia. reflexivity. Qed.

Lemma shl_mask : forall a k n, 0 <= k -> 0 <= n ->
  Z.land (Z.shiftl a k) (Z.ones n) = (a * 2 ^ k) mod 2 ^ n.
Proof. intros. rewrite Z.land_ones, Z.shiftl_mul_pow2 by lia. reflexivity. Qed.

Lemma shl_6_7ff : forall a, Z.land (Z.shiftl a 6) 0x7ff = (a * 64) mod 2048.
Proof. intros. change 0x7ff with (Z.ones 11). rewrite shl_mask by lia. reflexivity. Qed.
Lemma shl_6_fff : forall a, Z.land (Z.shiftl a 6) 0xfff = (a * 64) mod 4096.
Proof. intros. change 0xfff with (Z.ones 12). rewrite shl_mask by lia. reflexivity. Qed.
Lemma shl_12_ffff : forall a, Z.land (Z.shiftl a 12) 0xffff = (a * 4096) mod 65536.
Proof. intros. change 0xffff with (Z.ones 16). rewrite shl_mask by lia. reflexivity. Qed.
Lemma shl_12_3ffff : forall a, Z.land (Z.shiftl a 12) 0x3ffff = (a * 4096) mod 262144.
Proof. intros. change 0x3ffff with (Z.ones 18). rewrite shl_mask by lia. reflexivity. Qed.
Lemma shl_18_1fffff : forall a, Z.land (Z.shiftl a 18) 0x1fffff = (a * 262144) mod 2097152.
Proof. intros. change 0x1fffff with (Z.ones 21). rewrite shl_mask by lia. reflexivity. Qed.

Lemma lor_add : forall a m k, 0 <= k -> 0 <= a < 2 ^ k -> m mod 2 ^ k = 0 ->
  Z.lor a m = m + a.
Proof.
  intros a m k Hk Ha Hm.
  rewrite (Z.add_comm m a). symmetry. rewrite Z.add_nocarry_lxor.
  - apply Z.bits_inj'. intros n Hn. rewrite Z.lxor_spec, Z.lor_spec.
    destruct (Z.lt_ge_cases n k) as [Hlt|Hge].
    + assert (Z.testbit m n = false) as ->.
      { rewrite <- (Z.mod_pow2_bits_low m k n) by lia. rewrite Hm. apply Z.bits_0. }
      destruct (Z.testbit a n); reflexivity.
    + assert (Z.testbit a n = false) as ->.
      { rewrite <- (Z.mod_small a (2 ^ k)) by lia. apply Z.mod_pow2_bits_high. lia. }
      destruct (Z.testbit m n); reflexivity.
  - apply Z.bits_inj'. intros n Hn. rewrite Z.land_spec, Z.bits_0.
    destruct (Z.lt_ge_cases n k) as [Hlt|Hge].
    + rewrite <- (Z.mod_pow2_bits_low m k n) by lia. rewrite Hm, Z.bits_0.
      apply andb_false_r.
    + rewrite <- (Z.mod_small a (2 ^ k)) by lia.
      rewrite Z.mod_pow2_bits_high by lia. reflexivity.
Qed.

Lemma valid_scalar : forall cp, 0 <= cp -> is_code_point_valid cp = true <-> scalar cp.
Proof.
  intros cp H. unfold is_code_point_valid, is_surrogate, scalar. lia.
Qed.

Lemma scalar_nonneg : forall cp, scalar cp -> 0 <= cp.
Proof. unfold scalar. lia. Qed.

Ltac leq := match goal with
  | |- _ :: _ = _ :: _ => apply f_equal2; [lia|leq]
  | |- _ = _ => reflexivity end.

Tactic Notation "peq" := apply f_equal; apply f_equal2; [lia|reflexivity].

Ltac splitc :=
  match goal with
  | |- context [if ?a <? ?b then _ else _] => destruct (Z.ltb_spec a b); try lia
  | |- context [if ?a =? ?b then _ else _] => destruct (Z.eqb_spec a b); try lia
  end.

Lemma unchecked_append_enc : forall cp, scalar cp -> unchecked_append cp = enc cp.
Proof.
  intros cp Hs. pose proof (scalar_nonneg cp Hs). unfold scalar in Hs.
  unfold unchecked_append, enc, cast8.
  rewrite !land3f by (try apply Z.shiftr_nonneg; lia).
  rewrite !Z.shiftr_div_pow2 by lia.
  change (2 ^ 6) with 64; change (2 ^ 12) with 4096; change (2 ^ 18) with 262144.
  assert (E80 : forall x, Z.lor (x mod 64) 0x80 = 0x80 + x mod 64).
  { intro x. apply (lor_add _ _ 6); try reflexivity; lia. }
  rewrite !E80.
  splitc; [leq|].
  splitc.
  { rewrite (lor_add (cp / 64) 0xc0 6) by (try reflexivity; lia).
    leq. }
  splitc.
  { rewrite (lor_add (cp / 4096) 0xe0 4) by (try reflexivity; lia).
    leq. }
  rewrite (lor_add (cp / 262144) 0xf0 3) by (try reflexivity; lia).
  leq.
Qed.

Lemma append_scalar : forall cp, scalar cp -> append cp = Some (enc cp).
Proof.
  intros cp Hs. unfold append.
  rewrite (proj2 (valid_scalar cp (scalar_nonneg _ Hs)) Hs).
  rewrite unchecked_append_enc by assumption. reflexivity.
Qed.

Lemma append_nonscalar : forall cp, 0 <= cp -> ~ scalar cp -> append cp = None.
Proof.
  intros cp H0 Hs. unfold append.
  destruct (is_code_point_valid cp) eqn:E; [|reflexivity].
  apply valid_scalar in E; [contradiction|assumption].
Qed.

Lemma enc_bytes : forall cp, scalar cp -> Forall byte (enc cp).
Proof.
  intros cp Hs. unfold enc, byte. unfold scalar in Hs.
  repeat splitc; repeat constructor; lia.
Qed.

Lemma enc_length : forall cp, (1 <= length (enc cp) <= 4)%nat.
Proof. intros. unfold enc. repeat splitc; cbn; lia. Qed.

Ltac bytes_norm :=
  rewrite ?is_trail_byte, ?mask8_byte by (unfold byte; lia);
  rewrite ?shl_6_7ff, ?shl_6_fff, ?shl_12_ffff, ?shl_12_3ffff, ?shl_18_1fffff.

Lemma validate_next_enc : forall cp rest, scalar cp ->
  validate_next (enc cp ++ rest) = (UTF8_OK, cp, rest).
Proof.
  intros cp rest Hs. pose proof (scalar_nonneg cp Hs) as H0.
  pose proof (proj2 (valid_scalar cp H0) Hs) as Hv.
  unfold scalar in Hs. unfold enc.
  destruct (Z.ltb_spec cp 0x80).
  { cbn [app validate_next]. rewrite seqlen_byte by (unfold byte; lia).
    splitc. change (1 =? 0) with false. cbn iota. cbn [Z.eqb Pos.eqb get_sequence_1].
    rewrite mask8_byte by (unfold byte; lia). rewrite Hv.
    unfold is_overlong_sequence. splitc. reflexivity. }
  destruct (Z.ltb_spec cp 0x800).
  { cbn [app validate_next]. rewrite seqlen_byte by (unfold byte; lia).
    repeat splitc. cbn [Z.eqb Pos.eqb get_sequence_2].
    bytes_norm. rewrite land3f by lia.
    match goal with |- context [if ?x then _ else (INCOMPLETE_SEQUENCE, _, _)] =>
      replace x with true by lia end.
    match goal with |- context [is_code_point_valid ?x] => replace x with cp by lia end.
    rewrite Hv. unfold is_overlong_sequence. repeat splitc. reflexivity. }
  destruct (Z.ltb_spec cp 0x10000).
  { cbn [app validate_next]. rewrite seqlen_byte by (unfold byte; lia).
    repeat splitc. cbn [Z.eqb Pos.eqb get_sequence_3].
    bytes_norm. rewrite land3f by lia.
    repeat match goal with |- context [if (128 <=? ?x) && ?y then _ else _] =>
      replace ((128 <=? x) && y) with true by lia end.
    cbv zeta.
    match goal with |- context [is_code_point_valid ?x] => replace x with cp by lia end.
    rewrite Hv. unfold is_overlong_sequence. repeat splitc. reflexivity. }
  cbn [app validate_next]. rewrite seqlen_byte by (unfold byte; lia).
  repeat splitc. cbn [Z.eqb Pos.eqb get_sequence_4].
  bytes_norm. rewrite land3f by lia.
  repeat match goal with |- context [if (128 <=? ?x) && ?y then _ else _] =>
    replace ((128 <=? x) && y) with true by lia end.
  cbv zeta.
  match goal with |- context [is_code_point_valid ?x] => replace x with cp by lia end.
  rewrite Hv. unfold is_overlong_sequence. repeat splitc. reflexivity.
Qed.

(** Soundness of a successful step. *)
Lemma validate_next_sound : forall l cp rest, Forall byte l ->
  validate_next l = (UTF8_OK, cp, rest) -> scalar cp /\ l = enc cp ++ rest.
Proof.
  intros l cp rest Hb. destruct l as [|a l1]; [discriminate|].
  inversion Hb as [|? ? Ha Hb1]; subst. cbn [validate_next].
  rewrite seqlen_byte by assumption.
  destruct (Z.ltb_spec a 0x80).
  { cbn [Z.eqb Pos.eqb get_sequence_1]. rewrite mask8_byte by assumption.
    destruct (is_code_point_valid a) eqn:Ev; [|discriminate].
    destruct (negb (is_overlong_sequence a 1)) eqn:Eo; [|discriminate].
    intro E. cbn [tl] in E. inversion E; subst. apply valid_scalar in Ev; [|destruct Ha; lia].
    split; [assumption|]. unfold enc. splitc. reflexivity. }
  destruct (Z.ltb_spec a 0xC0); [discriminate|].
  destruct (Z.ltb_spec a 0xE0).
  { cbn [Z.eqb Pos.eqb]. unfold get_sequence_2. destruct l1 as [|b l2]; [discriminate|].
    inversion Hb1 as [|? ? Hbb Hb2]; subst.
    rewrite is_trail_byte by assumption.
    destruct ((128 <=? b) && (b <? 192)) eqn:Et; [|discriminate].
    rewrite mask8_byte, shl_6_7ff, land3f by (unfold byte in *; lia).
    match goal with |- context [is_code_point_valid ?x] => set (v := x) end.
    assert (Hv : v = (a - 192) * 64 + (b - 128)) by (unfold v, byte in *; lia).
    destruct (is_code_point_valid v) eqn:Ev; [|discriminate].
    destruct (negb (is_overlong_sequence v 2)) eqn:Eo; [|discriminate].
    intro E. cbn [tl] in E. inversion E; subst cp rest.
    apply valid_scalar in Ev; [|unfold byte in *; lia].
    split; [assumption|]. clearbody v. clear E Hb Hb1 Hb2.
    unfold is_overlong_sequence in Eo. unfold enc, byte in *.
    destruct (Z.ltb_spec v 0x80); [discriminate|].
    destruct (Z.ltb_spec v 0x800); [|lia].
    cbn [app]. leq. }
  destruct (Z.ltb_spec a 0xF0).
  { cbn [Z.eqb Pos.eqb]. unfold get_sequence_3. destruct l1 as [|b l2]; [discriminate|].
    inversion Hb1 as [|? ? Hbb Hb2]; subst.
    rewrite is_trail_byte by assumption.
    destruct ((128 <=? b) && (b <? 192)) eqn:Et; [|discriminate].
    cbv zeta. destruct l2 as [|c l3]; [discriminate|].
    inversion Hb2 as [|? ? Hc Hb3]; subst.
    rewrite is_trail_byte by assumption.
    destruct ((128 <=? c) && (c <? 192)) eqn:Et2; [|discriminate].
    rewrite !mask8_byte, shl_12_ffff, shl_6_fff, land3f by (unfold byte in *; lia).
    match goal with |- context [is_code_point_valid ?x] => set (v := x) end.
    assert (Hv : v = (a - 224) * 4096 + (b - 128) * 64 + (c - 128)) by (unfold v, byte in *; lia).
    destruct (is_code_point_valid v) eqn:Ev; [|discriminate].
    destruct (negb (is_overlong_sequence v 3)) eqn:Eo; [|discriminate].
    intro E. cbn [tl] in E. inversion E; subst cp rest.
    apply valid_scalar in Ev; [|unfold byte in *; lia].
    split; [assumption|]. clearbody v. clear E Hb Hb1 Hb2 Hb3.
    unfold is_overlong_sequence in Eo. unfold enc, byte in *.
    destruct (Z.ltb_spec v 0x80); [discriminate|].
    destruct (Z.ltb_spec v 0x800); [discriminate|].
    destruct (Z.ltb_spec v 0x10000); [|lia].
    cbn [app]. leq. }
  destruct (Z.ltb_spec a 0xF8); [|discriminate].
  cbn [Z.eqb Pos.eqb]. unfold get_sequence_4. destruct l1 as [|b l2]; [discriminate|].
  inversion Hb1 as [|? ? Hbb Hb2]; subst.
  rewrite is_trail_byte by assumption.
  destruct ((128 <=? b) && (b <? 192)) eqn:Et; [|discriminate].
  cbv zeta. destruct l2 as [|c l3]; [discriminate|].
  inversion Hb2 as [|? ? Hc Hb3]; subst.
  rewrite is_trail_byte by assumption.
  destruct ((128 <=? c) && (c <? 192)) eqn:Et2; [|discriminate].
  destruct l3 as [|d l4]; [discriminate|].
  inversion Hb3 as [|? ? Hd Hb4]; subst.
  rewrite is_trail_byte by assumption.
  destruct ((128 <=? d) && (d <? 192)) eqn:Et3; [|discriminate].
  rewrite !mask8_byte, shl_18_1fffff, shl_12_3ffff, shl_6_fff, land3f by (unfold byte in *; lia).
  match goal with |- context [is_code_point_valid ?x] => set (v := x) end.
  assert (Hv : v = (a - 240) * 262144 + (b - 128) * 4096 + (c - 128) * 64 + (d - 128))
    by (unfold v, byte in *; lia).
  destruct (is_code_point_valid v) eqn:Ev; [|discriminate].
  destruct (negb (is_overlong_sequence v 4)) eqn:Eo; [|discriminate].
  intro E. cbn [tl] in E. inversion E; subst cp rest.
  apply valid_scalar in Ev; [|unfold byte in *; lia].
  split; [assumption|]. clearbody v. clear E Hb Hb1 Hb2 Hb3 Hb4.
  unfold is_overlong_sequence in Eo. unfold enc, byte in *.
  destruct (Z.ltb_spec v 0x80); [discriminate|].
  destruct (Z.ltb_spec v 0x800); [discriminate|].
  destruct (Z.ltb_spec v 0x10000); [discriminate|].
  cbn [app]. leq.
Qed.

Lemma validate_next_fail_rest : forall l e cp rest,
  validate_next l = (e, cp, rest) -> e <> UTF8_OK -> rest = l.
Proof.
  intros l e cp rest. destruct l as [|a l1]; cbn [validate_next].
  - intros E. inversion E; subst. reflexivity.
  - destruct (sequence_length a =? 0); [intros E; inversion E; subst; reflexivity|].
    match goal with |- context [if (sequence_length a =? 1) then ?A else ?B] =>
      destruct (if (sequence_length a =? 1) then A else B) as [[err v] it] end.
    destruct err; try (intros E; inversion E; subst; reflexivity).
    destruct (is_code_point_valid v); [|intros E; inversion E; subst; reflexivity].
    destruct (negb _); intros E; inversion E; subst; [congruence|reflexivity].
Qed.

(** ** Texts *)
Lemma enc_nonempty : forall cp, enc cp <> [].
Proof. intros cp H. pose proof (enc_length cp). rewrite H in *. cbn in *. lia. Qed.

Lemma next_enc : forall cp rest, scalar cp -> next (enc cp ++ rest) = Some (cp, rest).
Proof. intros. unfold next. rewrite validate_next_enc by assumption. reflexivity. Qed.

Lemma next_sound : forall l cp rest, Forall byte l -> next l = Some (cp, rest) ->
  scalar cp /\ l = enc cp ++ rest.
Proof.
  intros l cp rest Hb. unfold next.
  destruct (validate_next l) as [[e v] r] eqn:E. destruct e; try discriminate.
  intro H. inversion H; subst. apply validate_next_sound; assumption.
Qed.

Lemma unchecked_next_enc : forall cp rest, scalar cp ->
  unchecked_next (enc cp ++ rest) = Some (cp, rest).
Proof.
  intros cp rest Hs. pose proof (scalar_nonneg cp Hs) as H0.
  unfold scalar in Hs. unfold enc.
  destruct (Z.ltb_spec cp 0x80).
  { cbn [app unchecked_next]. rewrite seqlen_byte by (unfold byte; lia).
    splitc. cbn [Z.eqb Pos.eqb]. rewrite mask8_byte by (unfold byte; lia). reflexivity. }
  destruct (Z.ltb_spec cp 0x800).
  { cbn [app unchecked_next]. rewrite seqlen_byte by (unfold byte; lia).
    repeat splitc. bytes_norm. rewrite land3f by lia. peq. }
  destruct (Z.ltb_spec cp 0x10000).
  { cbn [app unchecked_next]. rewrite seqlen_byte by (unfold byte; lia).
    repeat splitc. cbn [Z.eqb Pos.eqb].
    bytes_norm. rewrite land3f by lia. peq. }
  cbn [app unchecked_next]. rewrite seqlen_byte by (unfold byte; lia).
  repeat splitc. cbn [Z.eqb Pos.eqb].
  bytes_norm. rewrite land3f by lia. peq.
Qed.

Lemma flat_map_cons : forall (A B : Type) (f : A -> list B) a l,
  flat_map f (a :: l) = f a ++ flat_map f l.
Proof. reflexivity. Qed.

Lemma find_invalid_loop_spec : forall fuel l, (length l <= fuel)%nat -> Forall byte l ->
  exists cps rest, find_invalid_loop fuel l = Some rest /\
    Forall scalar cps /\ l = flat_map enc cps ++ rest /\
    (rest = [] \/ forall cp r, scalar cp -> rest <> enc cp ++ r).
Proof.
  induction fuel as [|fuel IH]; intros l Hl Hb.
  - destruct l; [|cbn in Hl; lia]. exists [], []. repeat split; auto.
  - destruct l as [|a l1] eqn:El.
    { exists [], []. repeat split; auto. }
    rewrite <- El in *.
    destruct (validate_next l) as [[e v] r] eqn:Ev.
    assert (Hcase : e = UTF8_OK \/ e <> UTF8_OK) by (destruct e; (left; reflexivity) || (right; discriminate)).
    destruct Hcase as [->|Hne].
    + destruct (validate_next_sound _ _ _ Hb Ev) as [Hs El2].
      assert (Hb2 : Forall byte r) by (rewrite El2 in Hb; apply Forall_app in Hb; apply Hb).
      destruct (IH r) as (cps & rest & Hf & Hsc & Hr & Hend); [| assumption |].
      { pose proof (enc_length v). rewrite El2, app_length in Hl. lia. }
      exists (v :: cps), rest. rewrite El. cbn [find_invalid_loop]. rewrite <- El, Ev.
      split; [assumption|]. split; [constructor; assumption|].
      split; [|assumption]. rewrite flat_map_cons, <- app_assoc, <- Hr. assumption.
    + pose proof (validate_next_fail_rest _ _ _ _ Ev Hne) as ->.
      exists [], l. split.
      * rewrite El. cbn [find_invalid_loop]. rewrite <- El, Ev. destruct e; congruence.
      * repeat split; [constructor|]. right. intros cp r Hs E.
        rewrite E, validate_next_enc in Ev by assumption. inversion Ev. congruence.
Qed.

Lemma find_invalid_spec : forall l, Forall byte l ->
  exists cps rest, find_invalid l = Some rest /\
    Forall scalar cps /\ l = flat_map enc cps ++ rest /\
    (rest = [] \/ forall cp r, scalar cp -> rest <> enc cp ++ r).
Proof. intros. apply find_invalid_loop_spec; [lia|assumption]. Qed.

Lemma flat_map_enc_bytes : forall cps, Forall scalar cps -> Forall byte (flat_map enc cps).
Proof.
  induction 1; cbn [flat_map]; [constructor|]. apply Forall_app. split; [apply enc_bytes|]; assumption.
Qed.

(** Unique decomposition: any encoding prefix is a prefix of the maximal one. *)
Lemma maximal_decomposition : forall cps cps' rest rest',
  Forall scalar cps -> Forall scalar cps' ->
  flat_map enc cps ++ rest = flat_map enc cps' ++ rest' ->
  (rest = [] \/ forall cp r, scalar cp -> rest <> enc cp ++ r) ->
  exists ext, cps = cps' ++ ext.
Proof.
  intros cps cps'. revert cps. induction cps' as [|c' cps' IH]; intros cps rest rest' H H' E Hmax.
  - exists cps. reflexivity.
  - inversion H' as [|? ? Hc' Hcs']; subst.
    destruct cps as [|c cps].
    + cbn [flat_map app] in E. exfalso. destruct Hmax as [->|Hmax].
      * destruct (enc c') eqn:Ec; [exact (enc_nonempty _ Ec)|discriminate].
      * rewrite <- app_assoc in E. exact (Hmax c' _ Hc' E).
    + inversion H as [|? ? Hc Hcs]; subst.
      cbn [flat_map] in E. rewrite <- !app_assoc in E.
      assert (Hv : validate_next (enc c ++ flat_map enc cps ++ rest)
                 = validate_next (enc c' ++ flat_map enc cps' ++ rest')) by (rewrite E; reflexivity).
      rewrite !validate_next_enc in Hv by assumption. inversion Hv; subst.
      destruct (IH cps rest rest') as [ext ->]; try assumption.
      exists ext. reflexivity.
Qed.

Lemma encodes_unique : forall cps cps' l, encodes cps l -> encodes cps' l -> cps = cps'.
Proof.
  intros cps cps' l [H E] [H' E'].
  destruct (maximal_decomposition cps cps' [] [] H H') as [e1 E1];
    [rewrite !app_nil_r; congruence|left; reflexivity|].
  destruct (maximal_decomposition cps' cps [] [] H' H) as [e2 E2];
    [rewrite !app_nil_r; congruence|left; reflexivity|].
  rewrite E1 in E2. rewrite <- app_assoc in E2.
  rewrite <- (app_nil_r cps') in E2 at 1. apply app_inv_head in E2.
  symmetry in E2. apply app_eq_nil in E2. destruct E2 as [-> ->].
  rewrite app_nil_r in E1. assumption.
Qed.

Lemma is_valid_iff : forall l, Forall byte l -> (is_valid l = true <-> well_formed l).
Proof.
  intros l Hb. destruct (find_invalid_spec l Hb) as (cps & rest & Hf & Hs & El & Hmax).
  unfold is_valid. rewrite Hf. split.
  - destruct rest; [|discriminate]. intros _. exists cps. split; [assumption|].
    rewrite app_nil_r in El. assumption.
  - intros (cps' & Hs' & El'). destruct rest as [|x rest]; [reflexivity|]. exfalso.
    destruct (maximal_decomposition cps cps' (x :: rest) [] Hs Hs') as [ext Ee];
      [rewrite app_nil_r; congruence| assumption |].
    subst cps. rewrite flat_map_app, <- app_assoc in El.
    rewrite El' in El. rewrite <- (app_nil_r (flat_map enc cps')) in El at 1.
    apply app_inv_head in El. symmetry in El. apply app_eq_nil in El.
    destruct El as [_ El]. discriminate.
Qed.

(** Fuelled loops over an encoded text. *)
Lemma flat_map_enc_length : forall cps, (length cps <= length (flat_map enc cps))%nat.
Proof.
  induction cps as [|c cps IH]; cbn [flat_map length]; [lia|].
  rewrite app_length. pose proof (enc_length c). lia.
Qed.

Lemma distance_loop_enc : forall cps fuel, Forall scalar cps ->
  (length cps <= fuel)%nat -> distance_loop fuel (flat_map enc cps) = Some (length cps).
Proof.
  induction cps as [|c cps IH]; intros fuel Hs Hf.
  - destruct fuel; reflexivity.
  - destruct fuel as [|fuel]; [cbn in Hf; lia|]. inversion Hs; subst.
    cbn [flat_map].
    destruct (enc c ++ flat_map enc cps) as [|x l] eqn:El.
    { apply app_eq_nil in El. destruct El as [El _]. destruct (enc_nonempty _ El). }
    cbn [distance_loop]. rewrite <- El, next_enc by assumption.
    rewrite IH by (try assumption; cbn in Hf; lia). reflexivity.
Qed.

Lemma distance_encodes : forall cps l, encodes cps l -> distance l = Some (length cps).
Proof.
  intros cps l [Hs ->]. unfold distance. apply distance_loop_enc; [assumption|].
  apply flat_map_enc_length.
Qed.

Lemma distance_loop_sound : forall fuel l n, Forall byte l ->
  distance_loop fuel l = Some n -> exists cps, encodes cps l /\ length cps = n.
Proof.
  induction fuel as [|fuel IH]; intros l n Hb H.
  - destruct l; [|discriminate]. inversion H. exists []. repeat constructor.
  - destruct l as [|x l1] eqn:El.
    { inversion H. exists []. repeat constructor. }
    rewrite <- El in *. assert (H' := H). rewrite El in H'. cbn [distance_loop] in H'.
    rewrite <- El in H'. destruct (next l) as [[cp r]|] eqn:En; [|discriminate].
    destruct (next_sound _ _ _ Hb En) as [Hs El2].
    destruct (distance_loop fuel r) as [m|] eqn:Ed; [|discriminate].
    inversion H'; subst n.
    assert (Hbr : Forall byte r) by (rewrite El2 in Hb; apply Forall_app in Hb; apply Hb).
    destruct (IH r m Hbr Ed) as (cps & [Hsc Er] & Hlen).
    exists (cp :: cps). split; [split|].
    + constructor; assumption.
    + cbn [flat_map]. congruence.
    + cbn. congruence.
Qed.

(** ** replace_invalid *)
Lemma firstn_enc : forall cp rest,
  firstn (length (enc cp ++ rest) - length rest) (enc cp ++ rest) = enc cp.
Proof.
  intros. rewrite app_length. replace (length (enc cp) + length rest - length rest)%nat
    with (length (enc cp) + 0)%nat by lia.
  rewrite firstn_app_2. cbn. apply app_nil_r.
Qed.

Lemma skip_trail_suffix : forall l, exists p, l = p ++ skip_trail l /\ (length (skip_trail l) <= length l)%nat.
Proof.
  induction l as [|b l (p & E & Hl)]; cbn [skip_trail].
  - exists []. split; [reflexivity|lia].
  - destruct (is_trail b).
    + exists (b :: p). split; [cbn; congruence|cbn; lia].
    + exists []. split; [reflexivity|lia].
Qed.

(** A text that stops in the middle of an encoded character. *)
Definition truncated_tail (l : list Z) : Prop :=
  exists lead trails, l = lead :: trails /\ Z.of_nat (length l) < sequence_length lead /\ Forall (fun b => is_trail b = true) trails.

Lemma validate_not_enough_room : forall l cp r,
  validate_next l = (NOT_ENOUGH_ROOM, cp, r) -> truncated_tail l.
Proof.
  intros l cp r. destruct l as [|a l1]; [discriminate|]. cbn [validate_next].
  assert (Hsl : In (sequence_length a) [0; 1; 2; 3; 4]).
  { unfold sequence_length. cbv zeta.
    repeat match goal with |- context [if ?x then _ else _] => destruct x end; cbn; auto 8. }
  unfold truncated_tail.
  destruct Hsl as [E|[E|[E|[E|[E|[]]]]]]; rewrite <- E.
  - discriminate.
  - cbn. repeat match goal with |- context [if ?x then _ else _] => destruct x end; discriminate.
  - cbn [Z.eqb Pos.eqb]. unfold get_sequence_2.
    destruct l1 as [|b l2].
    { intros _. exists a, []. rewrite <- E. split; [reflexivity|split; [cbn; lia|constructor]]. }
    destruct (is_trail b); [|discriminate].
    repeat match goal with |- context [if ?x then _ else _] => destruct x end; discriminate.
  - cbn [Z.eqb Pos.eqb]. unfold get_sequence_3.
    destruct l1 as [|b l2].
    { intros _. exists a, []. rewrite <- E. split; [reflexivity|split; [cbn; lia|constructor]]. }
    destruct (is_trail b) eqn:Eb; [|discriminate]. cbv zeta.
    destruct l2 as [|c l3].
    { intros _. exists a, [b]. rewrite <- E. split; [reflexivity|split; [cbn; lia|repeat constructor; assumption]]. }
    destruct (is_trail c); [|discriminate].
    repeat match goal with |- context [if ?x then _ else _] => destruct x end; discriminate.
  - cbn [Z.eqb Pos.eqb]. unfold get_sequence_4.
    destruct l1 as [|b l2].
    { intros _. exists a, []. rewrite <- E. split; [reflexivity|split; [cbn; lia|constructor]]. }
    destruct (is_trail b) eqn:Eb; [|discriminate]. cbv zeta.
    destruct l2 as [|c l3].
    { intros _. exists a, [b]. rewrite <- E. split; [reflexivity|split; [cbn; lia|repeat constructor; assumption]]. }
    destruct (is_trail c) eqn:Ec; [|discriminate].
    destruct l3 as [|d l4].
    { intros _. exists a, [b; c]. rewrite <- E. split; [reflexivity|split; [cbn; lia|repeat constructor; assumption]]. }
    destruct (is_trail d) eqn:Ed; [|discriminate].
    repeat match goal with |- context [if ?x then _ else _] => destruct x end; discriminate.
Qed.

Lemma well_formed_nil : well_formed [].
Proof. exists []. repeat constructor. Qed.

Lemma well_formed_cons : forall cp l, scalar cp -> well_formed l -> well_formed (enc cp ++ l).
Proof.
  intros cp l Hs (cps & Hc & ->). exists (cp :: cps). split; [constructor; assumption|reflexivity].
Qed.

Lemma replace_invalid_loop_spec : forall fuel rep l, scalar rep ->
  (length l <= fuel)%nat -> Forall byte l ->
  match replace_invalid_loop fuel rep l with
  | Some out => well_formed out
  | None => exists p t, l = p ++ t /\ truncated_tail t
  end.
Proof.
  intros fuel rep l Hrep. revert l. induction fuel as [|fuel IH]; intros l Hl Hb.
  - destruct l; [|cbn in Hl; lia]. cbn. apply well_formed_nil.
  - destruct l as [|a l1]; [cbn; apply well_formed_nil|].
    set (l := a :: l1) in *.
    change (replace_invalid_loop (S fuel) rep l) with
      (match validate_next l with
      | (UTF8_OK, _, rest) =>
        option_map (fun out => firstn (length l - length rest) l ++ out)
                   (replace_invalid_loop fuel rep rest)
      | (NOT_ENOUGH_ROOM, _, _) => None
      | (DEREF_END, _, _) => None
      | (INVALID_LEAD, _, rest) =>
        match append rep with
        | None => None
        | Some r => option_map (fun out => r ++ out)
                      (replace_invalid_loop fuel rep (tl rest))
        end
      | (_, _, rest) =>
        match append rep with
        | None => None
        | Some r => option_map (fun out => r ++ out)
                      (replace_invalid_loop fuel rep (skip_trail (tl rest)))
        end
      end).
    rewrite append_scalar by assumption.
    assert (Hgen : forall l2, (exists p, l1 = p ++ l2) ->
       match option_map (fun out => enc rep ++ out) (replace_invalid_loop fuel rep l2) with
       | Some out => well_formed out
       | None => exists p t, l = p ++ t /\ truncated_tail t
       end).
    { intros l2 (p & Ep). inversion Hb as [|? ? Ha Hb1]; subst.
      apply Forall_app in Hb1. destruct Hb1 as [_ Hb1].
      assert (Hl2 : (length l2 <= fuel)%nat).
      { unfold l in Hl. cbn in Hl. rewrite app_length in Hl. lia. }
      specialize (IH l2 Hl2 Hb1).
      destruct (replace_invalid_loop fuel rep l2) as [out|]; cbn [option_map].
      - apply well_formed_cons; assumption.
      - destruct IH as (p' & t & -> & Ht). exists (a :: p ++ p'), t. split; [|assumption].
        unfold l. cbn. rewrite <- app_assoc. reflexivity. }
    destruct (validate_next l) as [[e v] r] eqn:Ev.
    assert (Hskip : exists p, l1 = p ++ skip_trail l1)
      by (destruct (skip_trail_suffix l1) as (p & E & _); exists p; exact E).
    destruct e.
    + destruct (validate_next_sound _ _ _ Hb Ev) as [Hs El].
      assert (Hbr : Forall byte r) by (rewrite El in Hb; apply Forall_app in Hb; apply Hb).
      assert (Hlr : (length r <= fuel)%nat).
      { rewrite El, app_length in Hl. pose proof (enc_length v). lia. }
      specialize (IH r Hlr Hbr). rewrite El, firstn_enc.
      destruct (replace_invalid_loop fuel rep r) as [out|]; cbn [option_map].
      * apply well_formed_cons; assumption.
      * destruct IH as (p & t & -> & Ht). exists (enc v ++ p), t. split; [|assumption].
        rewrite <- app_assoc. reflexivity.
    + exists [], l. split; [reflexivity|]. eapply validate_not_enough_room; eassumption.
    + pose proof (validate_next_fail_rest _ _ _ _ Ev ltac:(discriminate)) as ->.
      apply Hgen. exists []. reflexivity.
    + pose proof (validate_next_fail_rest _ _ _ _ Ev ltac:(discriminate)) as ->.
      apply Hgen. exact Hskip.
    + pose proof (validate_next_fail_rest _ _ _ _ Ev ltac:(discriminate)) as ->.
      apply Hgen. exact Hskip.
    + pose proof (validate_next_fail_rest _ _ _ _ Ev ltac:(discriminate)) as ->.
      apply Hgen. exact Hskip.
    + exfalso. unfold l in Ev. cbn [validate_next] in Ev.
      destruct (sequence_length a =? 0); [discriminate|].
      unfold get_sequence_1, get_sequence_2, get_sequence_3, get_sequence_4 in Ev.
      repeat match type of Ev with
      | context [if ?x then _ else _] => destruct x
      | context [match ?x with [] => _ | _ :: _ => _ end] => destruct x
      end; discriminate.
Qed.

Lemma replace_invalid_loop_enc : forall cps fuel rep, Forall scalar cps ->
  (length cps <= fuel)%nat ->
  replace_invalid_loop fuel rep (flat_map enc cps) = Some (flat_map enc cps).
Proof.
  induction cps as [|c cps IH]; intros fuel rep Hs Hf.
  - destruct fuel; reflexivity.
  - destruct fuel as [|fuel]; [cbn in Hf; lia|]. inversion Hs; subst.
    cbn [flat_map]. destruct (enc c ++ flat_map enc cps) as [|x l] eqn:El.
    { apply app_eq_nil in El. destruct El as [El _]. destruct (enc_nonempty _ El). }
    cbn [replace_invalid_loop]. rewrite <- El, validate_next_enc by assumption.
    rewrite IH by (try assumption; cbn in Hf; lia). cbn [option_map].
    rewrite firstn_enc. reflexivity.
Qed.

(** ** prior *)
Lemma enc_shape : forall cp, scalar cp -> exists lead trails,
  enc cp = lead :: trails /\ is_trail lead = false /\ Forall (fun b => is_trail b = true) trails.
Proof.
  intros cp Hs. unfold scalar in Hs. unfold enc.
  repeat splitc; eexists; eexists; (split; [reflexivity|]); split;
  repeat (apply Forall_cons || apply Forall_nil);
  rewrite is_trail_byte by (unfold byte; lia); lia.
Qed.

Lemma prior_loop_trails : forall rt rp seen,
  Forall (fun b => is_trail b = true) rt ->
  prior_loop (rt ++ rp) seen = prior_loop rp (rev rt ++ seen).
Proof.
  induction rt as [|b rt IH]; intros rp seen H; [reflexivity|].
  inversion H as [|? ? Hb Hr]; subst. cbn [app prior_loop rev]. rewrite Hb, IH by assumption.
  rewrite <- app_assoc. reflexivity.
Qed.

Lemma unchecked_prior_loop_trails : forall rt rp seen,
  Forall (fun b => is_trail b = true) rt ->
  unchecked_prior_loop (rt ++ rp) seen = unchecked_prior_loop rp (rev rt ++ seen).
Proof.
  induction rt as [|b rt IH]; intros rp seen H; [reflexivity|].
  inversion H as [|? ? Hb Hr]; subst. cbn [app unchecked_prior_loop rev]. rewrite Hb, IH by assumption.
  rewrite <- app_assoc. reflexivity.
Qed.

Lemma prior_enc : forall p cp, scalar cp -> prior (p ++ enc cp) = Some (cp, p).
Proof.
  intros p cp Hs. unfold prior. rewrite rev_app_distr.
  pose proof (next_enc cp [] Hs) as Hn. rewrite app_nil_r in Hn.
  destruct (enc_shape cp Hs) as (lead & trails & E & Hl & Ht). rewrite E in *.
  cbn [rev]. rewrite <- app_assoc. rewrite prior_loop_trails by (apply Forall_rev; assumption).
  cbn [app prior_loop]. rewrite Hl, rev_involutive, app_nil_r, Hn, rev_involutive. reflexivity.
Qed.

Lemma unchecked_prior_enc : forall p cp, scalar cp ->
  unchecked_prior (p ++ enc cp) = Some (cp, p).
Proof.
  intros p cp Hs. unfold unchecked_prior. rewrite rev_app_distr.
  pose proof (unchecked_next_enc cp [] Hs) as Hn. rewrite app_nil_r in Hn.
  destruct (enc_shape cp Hs) as (lead & trails & E & Hl & Ht). rewrite E in *.
  cbn [rev]. rewrite <- app_assoc. rewrite unchecked_prior_loop_trails by (apply Forall_rev; assumption).
  cbn [app unchecked_prior_loop]. rewrite Hl, rev_involutive, app_nil_r, Hn, rev_involutive. reflexivity.
Qed.

(** ** UTF-16 *)
Lemma utf8to16_loop_enc : forall cps fuel, Forall scalar cps ->
  (length cps <= fuel)%nat ->
  utf8to16_loop fuel (flat_map enc cps) = Some (flat_map enc16 cps).
Proof.
  induction cps as [|c cps IH]; intros fuel Hs Hf.
  - destruct fuel; reflexivity.
  - destruct fuel as [|fuel]; [cbn in Hf; lia|]. inversion Hs as [|? ? Hc Hcs]; subst.
    cbn [flat_map]. destruct (enc c ++ flat_map enc cps) as [|x l] eqn:El.
    { apply app_eq_nil in El. destruct El as [El _]. destruct (enc_nonempty _ El). }
    cbn [utf8to16_loop]. rewrite <- El, next_enc by assumption.
    rewrite IH by (try assumption; cbn in Hf; lia). cbn [option_map].
    f_equal. f_equal. unfold enc16, LEAD_OFFSET.
    change 0x3ff with (Z.ones 10). rewrite Z.land_ones by lia.
    rewrite !Z.shiftr_div_pow2 by lia.
    change (2 ^ 10) with 1024; change (2 ^ 16) with 65536.
    change (0x10000 / 1024) with 64.
    change ((0xd800 - 64) mod 65536) with 0xd7c0. unfold scalar in Hc.
    destruct (Z.ltb_spec 0xffff c); destruct (Z.ltb_spec c 0x10000); try lia;
    leq.
Qed.

Lemma mask16_small : forall u, 0 <= u < 65536 -> mask16 u = u.
Proof.
  intros. unfold mask16. rewrite Z.land_comm. change 0xffff with (Z.ones 16).
  rewrite Z.land_ones by lia. apply Z.mod_small. assumption.
Qed.

Lemma utf16to8_enc16 : forall cps, Forall scalar cps ->
  utf16to8 (flat_map enc16 cps) = Some (flat_map enc cps).
Proof.
  induction 1 as [|c cps Hc Hcs IH]; [reflexivity|].
  cbn [flat_map]. unfold enc16 at 1. pose proof Hc as Hc'. unfold scalar in Hc.
  destruct (Z.ltb_spec c 0x10000).
  - cbn [app utf16to8]. rewrite mask16_small by lia.
    assert (is_lead_surrogate c = false) as -> by (unfold is_lead_surrogate; lia).
    assert (is_trail_surrogate c = false) as -> by (unfold is_trail_surrogate; lia).
    rewrite append_scalar by assumption. rewrite IH. reflexivity.
  - cbn [app utf16to8]. rewrite !mask16_small by lia.
    set (h := 0xD800 + (c - 65536) / 1024). set (t := 0xDC00 + (c - 65536) mod 1024).
    assert (is_lead_surrogate h = true) as -> by (unfold is_lead_surrogate, h; lia).
    assert (is_trail_surrogate t = true) as -> by (unfold is_trail_surrogate, t; lia).
    assert (E : (Z.shiftl h 10 + t + SURROGATE_OFFSET) mod 2 ^ 32 = c).
    { unfold SURROGATE_OFFSET. rewrite !Z.shiftl_mul_pow2 by lia.
      change (2 ^ 10) with 1024. change (2 ^ 32) with 4294967296.
      change ((0x10000 - 0xd800 * 1024 - 0xdc00) mod 4294967296) with 4238353408.
      unfold h, t. lia. }
    rewrite E, append_scalar, IH by assumption. reflexivity.
Qed.

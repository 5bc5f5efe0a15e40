(** C92: the CRC of zlib is the shift register, and what it detects. *)
From Coq Require Import List Arith NArith Bool Lia.
From Verif Require Import M_Checksum.
Import ListNotations.
Local Open Scope N_scope.

(** The register: a bit is shifted out at the low end, and a one adds the polynomial
    x^32+x^26+x^23+x^22+x^16+x^12+x^11+x^10+x^8+x^7+x^5+x^4+x^2+x+1, the lowest power being the
    highest bit. *)
Definition powers : list N := [0; 1; 2; 4; 5; 7; 8; 10; 11; 12; 16; 22; 23; 26].
Definition polynomial : N := fold_right (fun p acc => 2 ^ (31 - p) + acc) 0 powers.
Definition clock (c : N) : N := if N.odd c then N.lxor polynomial (N.div2 c) else N.div2 c.
Definition clocks (n : nat) (c : N) : N := Nat.iter n clock c.
(** A byte is added at the low end and shifted out. *)
Definition shift_in (c b : N) : N := clocks 8 (N.lxor c b).
(** The CRC goes on from one that was given, with all bits turned before and after. *)
Definition crc (c : N) (buf : list N) : N := N.lxor (fold_left shift_in buf (N.lxor c 0xffffffff)) 0xffffffff.

Definition byte (b : N) : Prop := b < 256.

Lemma odd_lxor a b : N.odd (N.lxor a b) = xorb (N.odd a) (N.odd b).
Proof. rewrite <- !N.bit0_odd. apply N.lxor_spec. Qed.
Lemma div2_lxor a b : N.div2 (N.lxor a b) = N.lxor (N.div2 a) (N.div2 b).
Proof. rewrite !N.div2_spec. apply N.shiftr_lxor. Qed.

Lemma clock_lxor a b : clock (N.lxor a b) = N.lxor (clock a) (clock b).
Proof.
  unfold clock. rewrite odd_lxor, div2_lxor. destruct (N.odd a), (N.odd b); cbn [xorb];
    apply N.bits_inj; intros i; rewrite ?N.lxor_spec;
    destruct (N.testbit polynomial i), (N.testbit (N.div2 a) i), (N.testbit (N.div2 b) i); reflexivity.
Qed.
Lemma clocks_out n c : clocks (S n) c = clock (clocks n c).
Proof. reflexivity. Qed.
Lemma clocks_lxor n a b : clocks n (N.lxor a b) = N.lxor (clocks n a) (clocks n b).
Proof. induction n as [|n IH]; [reflexivity|]. rewrite !clocks_out, IH. apply clock_lxor. Qed.
Lemma clocks_add n m c : clocks (n + m) c = clocks n (clocks m c).
Proof. induction n as [|n IH]; [reflexivity|]. cbn [Nat.add]. rewrite !clocks_out. now rewrite IH. Qed.
Lemma clocks_S n c : clocks (S n) c = clocks n (clock c).
Proof. replace (S n) with (n + 1)%nat by lia. apply clocks_add. Qed.
Lemma clocks_shift n y : clocks n (N.shiftl y (N.of_nat n)) = y.
Proof.
  induction n as [|n IH]; [apply N.shiftl_0_r|]. rewrite clocks_S. rewrite <- IH at 2. f_equal. unfold clock.
  replace (N.shiftl y (N.of_nat (S n))) with (2 * N.shiftl y (N.of_nat n)).
  - rewrite N.odd_mul. cbn [N.odd andb]. now rewrite N.div2_double.
  - rewrite !N.shiftl_mul_pow2, Nat2N.inj_succ, N.pow_succ_r'. lia.
Qed.
Lemma clocks_0 n : clocks n 0 = 0.
Proof. induction n as [|n IH]; [reflexivity|]. rewrite clocks_S. exact IH. Qed.

Local Opaque clocks.
Lemma below_bits x n : x < 2 ^ n <-> forall i, n <= i -> N.testbit x i = false.
Proof.
  split.
  - intros H i Hi. destruct (N.eq_dec x 0) as [->|Hx]; [apply N.bits_0|]. apply N.bits_above_log2.
    apply N.log2_lt_pow2 in H; lia.
  - intros H. destruct (N.eq_dec x 0) as [->|Hx]; [apply N.neq_0_lt_0, N.pow_nonzero; lia|].
    apply N.log2_lt_pow2; [lia|]. destruct (N.lt_ge_cases (N.log2 x) n) as [L|L]; [exact L|].
    specialize (H _ L). rewrite N.bit_log2 in H by exact Hx. discriminate H.
Qed.
Lemma lxor_below a b n : a < 2 ^ n -> b < 2 ^ n -> N.lxor a b < 2 ^ n.
Proof. rewrite !below_bits. intros Ha Hb i Hi. rewrite N.lxor_spec, Ha, Hb by exact Hi. reflexivity. Qed.
Lemma polynomial_below : polynomial < 2 ^ 32.
Proof. reflexivity. Qed.
Lemma clock_below c : c < 2 ^ 32 -> clock c < 2 ^ 32.
Proof.
  intros H. assert (D : N.div2 c < 2 ^ 32) by (rewrite N.div2_div; apply N.le_lt_trans with c; [apply N.div_le_upper_bound; lia|exact H]).
  unfold clock. destruct (N.odd c); [|exact D]. apply lxor_below; [exact polynomial_below|exact D].
Qed.
Lemma clocks_below n c : c < 2 ^ 32 -> clocks n c < 2 ^ 32.
Proof. intros H. induction n as [|n IH]; [exact H|]. rewrite clocks_out. now apply clock_below. Qed.

Fixpoint nrange (lo : N) (n : nat) : list N := match n with O => [] | S n' => lo :: nrange (lo + 1) n' end.
Lemma in_nrange n : forall lo x, lo <= x -> x < lo + N.of_nat n -> In x (nrange lo n).
Proof.
  induction n as [|n IH]; intros lo x H1 H2; [lia|]. cbn [nrange].
  destruct (N.eq_dec lo x) as [->|]; [now left|right; apply IH; lia].
Qed.

(** The tables are the register after one to four bytes. *)
Lemma tables_ok : forallb (fun i => (at_table crc_table_0 i =? clocks 8 i) && (at_table crc_table_1 i =? clocks 16 i)
  && (at_table crc_table_2 i =? clocks 24 i) && (at_table crc_table_3 i =? clocks 32 i)) (nrange 0 256) = true.
Proof. vm_compute. reflexivity. Qed.
Theorem C92_tables : forall i, i < 256 -> at_table crc_table_0 i = clocks 8 i /\ at_table crc_table_1 i = clocks 16 i
  /\ at_table crc_table_2 i = clocks 24 i /\ at_table crc_table_3 i = clocks 32 i.
Proof.
  intros i H. pose proof (proj1 (forallb_forall _ _) tables_ok i (in_nrange 256 0 i ltac:(lia) ltac:(lia))) as Q. cbv beta in Q.
  apply andb_prop in Q as [Q Q3]. apply andb_prop in Q as [Q Q2]. apply andb_prop in Q as [Q0 Q1].
  apply N.eqb_eq in Q0, Q1, Q2, Q3. exact (conj Q0 (conj Q1 (conj Q2 Q3))).
Qed.
Print Assumptions C92_tables.

Lemma low8 x : N.land x 0xff < 256.
Proof. change 0xff with (N.ones 8). rewrite N.land_ones. apply N.mod_lt. discriminate. Qed.
Lemma split8 x : x = N.lxor (N.land x 0xff) (N.shiftl (N.shiftr x 8) 8).
Proof.
  apply N.bits_inj. intros i. rewrite N.lxor_spec, N.land_spec. change 0xff with (N.ones 8).
  destruct (N.lt_ge_cases i 8) as [L|L].
  - rewrite N.ones_spec_low, N.shiftl_spec_low by exact L. now rewrite andb_true_r, xorb_false_r.
  - rewrite N.ones_spec_high, N.shiftl_spec_high' by exact L. rewrite N.shiftr_spec' . replace (i - 8 + 8) with i by lia.
    now rewrite andb_false_r, xorb_false_l.
Qed.
Lemma byte_shift b : byte b -> N.shiftr b 8 = 0.
Proof. intros H. rewrite N.shiftr_div_pow2. apply N.div_small. exact H. Qed.

Lemma crc_byte_ok c b : byte b -> crc_byte c b = shift_in c b.
Proof.
  intros H. unfold crc_byte, shift_in. rewrite (split8 (N.lxor c b)) at 2. rewrite clocks_lxor.
  change (N.shiftl (N.shiftr (N.lxor c b) 8) 8) with (N.shiftl (N.shiftr (N.lxor c b) 8) (N.of_nat 8)).
  rewrite clocks_shift. rewrite (proj1 (C92_tables _ (low8 _))). rewrite N.shiftr_lxor, (byte_shift b H), N.lxor_0_r. reflexivity.
Qed.
Lemma crc_bytes_ok buf : Forall byte buf -> forall c, fold_left crc_byte buf c = fold_left shift_in buf c.
Proof. induction 1 as [|b buf Hb Hs IH]; intros c; [reflexivity|]. cbn [fold_left]. rewrite crc_byte_ok by exact Hb. apply IH. Qed.

(** crc32 byte by byte is the register; without a buffer it is the value to start with. *)
Theorem C92_crc32 : forall c buf, Forall byte buf -> crc32_bytes c (Some buf) = crc c buf /\ crc32_bytes c None = crc 0 [].
Proof.
  intros c buf H. split; [|reflexivity]. unfold crc32_bytes, crc. change FFFFFFFF with 0xffffffff. now rewrite crc_bytes_ok.
Qed.
Print Assumptions C92_crc32.

(** x as four bytes *)
Lemma split32 x : x < 2 ^ 32 -> x = N.lxor (N.lxor (N.lxor (N.land x 0xff) (N.shiftl (N.land (N.shiftr x 8) 0xff) 8))
  (N.shiftl (N.land (N.shiftr x 16) 0xff) 16)) (N.shiftl (N.shiftr x 24) 24).
Proof.
  intros _. pose proof (split8 x) as E0. pose proof (split8 (N.shiftr x 8)) as E1. pose proof (split8 (N.shiftr x 16)) as E2.
  rewrite N.shiftr_shiftr in E1, E2. change (8 + 8) with 16 in E1. change (16 + 8) with 24 in E2.
  rewrite E0 at 1. rewrite E1 at 1. rewrite E2 at 1. rewrite !N.shiftl_lxor, !N.shiftl_shiftl. change (8 + 8) with 16. change (8 + 16) with 24.
  replace (8 + (8 + 8)) with 24 by reflexivity. rewrite !N.lxor_assoc. reflexivity.
Qed.

Lemma shift_down n k y : clocks (n + k) (N.shiftl y (N.of_nat k)) = clocks n y.
Proof. rewrite clocks_add. now rewrite clocks_shift. Qed.

Lemma dolit4_ok c w : N.lxor c w < 2 ^ 32 -> dolit4 c w = clocks 32 (N.lxor c w).
Proof.
  intros H. unfold dolit4. cbv zeta. set (x := N.lxor c w) in *. rewrite (split32 x H) at 5. rewrite !clocks_lxor.
  destruct (C92_tables _ (low8 x)) as (_ & _ & _ & T3). rewrite T3.
  destruct (C92_tables _ (low8 (N.shiftr x 8))) as (_ & _ & T2 & _). rewrite T2.
  destruct (C92_tables _ (low8 (N.shiftr x 16))) as (_ & T1 & _ & _). rewrite T1.
  assert (L : N.shiftr x 24 < 256).
  { rewrite N.shiftr_div_pow2. apply N.div_lt_upper_bound; [discriminate|]. change (2 ^ 24 * 256) with (2 ^ 32). exact H. }
  destruct (C92_tables _ L) as (T0 & _ & _ & _). rewrite T0.
  pose proof (shift_down 24 8 (N.land (N.shiftr x 8) 255)) as S1. pose proof (shift_down 16 16 (N.land (N.shiftr x 16) 255)) as S2.
  pose proof (shift_down 8 24 (N.shiftr x 24)) as S3. cbn [Nat.add] in S1, S2, S3.
  change (N.of_nat 8) with 8 in S1. change (N.of_nat 16) with 16 in S2. change (N.of_nat 24) with 24 in S3.
  rewrite S1, S2, S3. reflexivity.
Qed.

(** Four bytes are one word. *)
Lemma lor_shift a b n : a < 2 ^ n -> N.lor a (N.shiftl b n) = N.lxor a (N.shiftl b n).
Proof.
  intros H. symmetry. apply N.lxor_lor. apply N.bits_inj_0. intros i. rewrite N.land_spec.
  destruct (N.lt_ge_cases i n) as [L|L]; [rewrite N.shiftl_spec_low by exact L; apply andb_false_r|].
  rewrite (proj1 (below_bits a n) H i L). reflexivity.
Qed.
Lemma shiftl_below b n m : b < 2 ^ m -> N.shiftl b n < 2 ^ (n + m).
Proof.
  intros H. rewrite N.shiftl_mul_pow2, N.pow_add_r, N.mul_comm.
  apply N.mul_lt_mono_pos_l; [apply N.neq_0_lt_0, N.pow_nonzero; discriminate|exact H].
Qed.
Lemma below_le x n m : n <= m -> x < 2 ^ n -> x < 2 ^ m.
Proof. intros H L. apply N.lt_le_trans with (2 ^ n); [exact L|]. apply N.pow_le_mono_r; [discriminate|exact H]. Qed.
Lemma word4_lxor b0 b1 b2 b3 : byte b0 -> byte b1 -> byte b2 -> byte b3 ->
  word4 b0 b1 b2 b3 = N.lxor (N.lxor (N.lxor b0 (N.shiftl b1 8)) (N.shiftl b2 16)) (N.shiftl b3 24)
  /\ word4 b0 b1 b2 b3 < 2 ^ 32.
Proof.
  unfold byte. change 256 with (2 ^ 8). intros H0 H1 H2 H3. unfold word4.
  assert (A : N.lxor b0 (N.shiftl b1 8) < 2 ^ 16).
  { apply lxor_below; [apply (below_le _ 8); [lia|exact H0]|apply (shiftl_below b1 8 8 H1)]. }
  assert (B : N.lxor (N.lxor b0 (N.shiftl b1 8)) (N.shiftl b2 16) < 2 ^ 24).
  { apply lxor_below; [apply (below_le _ 16); [lia|exact A]|apply (shiftl_below b2 16 8 H2)]. }
  rewrite (lor_shift b0 b1 8) by exact H0. rewrite (lor_shift _ b2 16) by exact A. rewrite (lor_shift _ b3 24) by exact B.
  split; [reflexivity|]. apply lxor_below; [apply (below_le _ 24); [lia|exact B]|apply (shiftl_below b3 24 8 H3)].
Qed.

Lemma later c b n : N.lxor (clocks n c) b = clocks n (N.lxor c (N.shiftl b (N.of_nat n))).
Proof. now rewrite clocks_lxor, clocks_shift. Qed.

Lemma later_in n x b : shift_in (clocks n x) b = clocks (8 + n) (N.lxor x (N.shiftl b (N.of_nat n))).
Proof. unfold shift_in. now rewrite later, clocks_add. Qed.

Lemma four_bytes c b0 b1 b2 b3 : byte b0 -> byte b1 -> byte b2 -> byte b3 ->
  shift_in (shift_in (shift_in (shift_in c b0) b1) b2) b3 = clocks 32 (N.lxor c (word4 b0 b1 b2 b3)).
Proof.
  intros H0 H1 H2 H3. change (shift_in c b0) with (clocks 8 (N.lxor c b0)). rewrite !later_in. cbn [Nat.add].
  apply (f_equal (clocks 32)). rewrite (proj1 (word4_lxor b0 b1 b2 b3 H0 H1 H2 H3)).
  change (N.of_nat 8) with 8. change (N.of_nat 16) with 16. change (N.of_nat 24) with 24. rewrite !N.lxor_assoc. reflexivity.
Qed.

Lemma shift_in_below c b : c < 2 ^ 32 -> byte b -> shift_in c b < 2 ^ 32.
Proof. intros Hc Hb. apply clocks_below. apply lxor_below; [exact Hc|]. apply (below_le _ 8); [lia|exact Hb]. Qed.
Lemma fold_below buf : Forall byte buf -> forall c, c < 2 ^ 32 -> fold_left shift_in buf c < 2 ^ 32.
Proof. induction 1 as [|b buf Hb Hs IH]; intros c Hc; [exact Hc|]. cbn [fold_left]. apply IH. now apply shift_in_below. Qed.

Lemma little_words_4 c b0 b1 b2 b3 buf : little_words c (b0 :: b1 :: b2 :: b3 :: buf) = little_words (dolit4 c (word4 b0 b1 b2 b3)) buf.
Proof. reflexivity. Qed.
Lemma fold_left_4 (f : N -> N -> N) c b0 b1 b2 b3 buf : fold_left f (b0 :: b1 :: b2 :: b3 :: buf) c = fold_left f buf (f (f (f (f c b0) b1) b2) b3).
Proof. reflexivity. Qed.
Lemma little_words_ok n : forall buf c, (length buf <= n)%nat -> Forall byte buf -> c < 2 ^ 32 ->
  little_words c buf = fold_left shift_in buf c.
Proof.
  induction n as [n IH] using lt_wf_ind. intros buf c L F Hc.
  destruct buf as [|b0 [|b1 [|b2 [|b3 buf]]]]; try (cbn [little_words]; apply crc_bytes_ok; exact F).
  cbn [length] in L. inversion F as [|? ? H0 F1]; subst. inversion F1 as [|? ? H1 F2]; subst.
  inversion F2 as [|? ? H2 F3]; subst. inversion F3 as [|? ? H3 F4]; subst.
  rewrite little_words_4, fold_left_4. destruct (word4_lxor b0 b1 b2 b3 H0 H1 H2 H3) as [_ W].
  rewrite dolit4_ok by (apply lxor_below; assumption). rewrite <- four_bytes by assumption.
  apply (IH (n - 4)%nat); [lia|lia|exact F4|]. repeat apply shift_in_below; assumption.
Qed.

(** The variant with words of four bytes gives the same, wherever the buffer begins. *)
Theorem C92_little : forall odd c buf, c < 2 ^ 32 -> Forall byte buf -> crc32_little odd c buf = crc c buf.
Proof.
  intros odd c buf Hc F. unfold crc32_little, crc. cbv zeta. change FFFFFFFF with 0xffffffff.
  assert (X : N.lxor c 0xffffffff < 2 ^ 32) by (apply lxor_below; [exact Hc|reflexivity]).
  pose proof F as F'. rewrite <- (firstn_skipn odd buf) in F'. apply Forall_app in F' as [F1 F2].
  rewrite crc_bytes_ok by exact F1. rewrite (little_words_ok (length (skipn odd buf))); [|lia|exact F2|now apply fold_below].
  rewrite <- fold_left_app, firstn_skipn. reflexivity.
Qed.
Print Assumptions C92_little.

(** A CRC can be gone on with. *)
Theorem C92_goes_on : forall c a b, crc (crc c a) b = crc c (a ++ b).
Proof.
  intros c a b. unfold crc. rewrite N.lxor_assoc, N.lxor_nilpotent, N.lxor_0_r, fold_left_app. reflexivity.
Qed.
Print Assumptions C92_goes_on.

Lemma clock_inj a b : a < 2 ^ 32 -> b < 2 ^ 32 -> clock a = clock b -> a = b.
Proof.
  intros Ha Hb E. assert (Z : clock (N.lxor a b) = 0) by (rewrite clock_lxor, E; apply N.lxor_nilpotent).
  apply N.lxor_eq. set (x := N.lxor a b) in *. assert (Hx : x < 2 ^ 32) by (apply lxor_below; assumption).
  unfold clock in Z. destruct (N.odd x) eqn:O.
  - exfalso. apply (f_equal (fun y => N.testbit y 31)) in Z. rewrite N.lxor_spec, N.bits_0 in Z.
    rewrite N.div2_spec, N.shiftr_spec' in Z. change (31 + 1) with 32 in Z.
    rewrite (proj1 (below_bits x 32) Hx 32 ltac:(lia)) in Z. discriminate Z.
  - rewrite (N.div2_odd x), Z, O. reflexivity.
Qed.
Lemma clocks_inj n a b : a < 2 ^ 32 -> b < 2 ^ 32 -> clocks n a = clocks n b -> a = b.
Proof.
  intros Ha Hb. induction n as [|n IH]; intros E; [exact E|]. rewrite !clocks_out in E.
  apply IH. apply clock_inj; [apply (clocks_below n); exact Ha|apply (clocks_below n); exact Hb|exact E].
Qed.
Lemma lxor_inj_l a b c : N.lxor a b = N.lxor a c -> b = c.
Proof. intros E. apply (f_equal (N.lxor a)) in E. now rewrite <- !N.lxor_assoc, !N.lxor_nilpotent, !N.lxor_0_l in E. Qed.
Lemma fold_inj buf : Forall byte buf -> forall c d, c < 2 ^ 32 -> d < 2 ^ 32 ->
  fold_left shift_in buf c = fold_left shift_in buf d -> c = d.
Proof.
  induction 1 as [|b buf Hb Hs IH]; intros c d Hc Hd E; [exact E|]. cbn [fold_left] in E.
  apply IH in E; [|now apply shift_in_below|now apply shift_in_below]. unfold shift_in in E.
  assert (B : b < 2 ^ 32) by (apply (below_le _ 8); [lia|exact Hb]).
  apply clocks_inj in E; [|apply lxor_below; assumption|apply lxor_below; assumption].
  rewrite (N.lxor_comm c), (N.lxor_comm d) in E. exact (lxor_inj_l _ _ _ E).
Qed.
Lemma word4_inj a0 a1 a2 a3 b0 b1 b2 b3 : byte a0 -> byte a1 -> byte a2 -> byte a3 -> byte b0 -> byte b1 -> byte b2 -> byte b3 ->
  word4 a0 a1 a2 a3 = word4 b0 b1 b2 b3 -> [a0; a1; a2; a3] = [b0; b1; b2; b3].
Proof.
  assert (V : forall x0 x1 x2 x3, byte x0 -> byte x1 -> byte x2 -> byte x3 -> word4 x0 x1 x2 x3 = x0 + 256 * x1 + 65536 * x2 + 16777216 * x3).
  { intros x0 x1 x2 x3 H0 H1 H2 H3. unfold byte in *.
    assert (Add : forall x y n, x < 2 ^ n -> N.lor x (N.shiftl y n) = x + y * 2 ^ n).
    { intros x y n Hx. rewrite lor_shift by exact Hx. rewrite <- N.add_nocarry_lxor; [now rewrite N.shiftl_mul_pow2|].
      apply N.bits_inj_0. intros i. rewrite N.land_spec. destruct (N.lt_ge_cases i n) as [L|L]; [rewrite N.shiftl_spec_low by exact L; apply andb_false_r|].
      now rewrite (proj1 (below_bits x n) Hx i L). }
    unfold word4. rewrite (Add x0 x1 8) by exact H0. rewrite (Add _ x2 16) by (change (2 ^ 8) with 256; change (2 ^ 16) with 65536; lia).
    rewrite (Add _ x3 24) by (change (2 ^ 8) with 256; change (2 ^ 16) with 65536; change (2 ^ 24) with 16777216; lia).
    change (2 ^ 8) with 256; change (2 ^ 16) with 65536; change (2 ^ 24) with 16777216. lia. }
  intros A0 A1 A2 A3 B0 B1 B2 B3. rewrite !V by assumption. unfold byte in *. intros E.
  assert (a3 = b3) by lia. assert (a2 = b2) by lia. assert (a1 = b1) by lia. assert (a0 = b0) by lia. now subst.
Qed.

(** Whatever happens to up to four neighbouring bytes changes the CRC. *)
Theorem C92_detects : forall c before a b after, c < 2 ^ 32 -> Forall byte (before ++ a ++ after) -> Forall byte b ->
  length a = length b -> (length a <= 4)%nat -> crc c (before ++ a ++ after) = crc c (before ++ b ++ after) -> a = b.
Proof.
  intros c before a b after Hc F Fb El Hl E. unfold crc in E. rewrite (N.lxor_comm (fold_left _ _ _)) in E.
  rewrite (N.lxor_comm (fold_left _ (before ++ b ++ after) _)) in E. apply lxor_inj_l in E.
  apply Forall_app in F as [F1 F]. apply Forall_app in F as [Fa F2]. rewrite !fold_left_app in E.
  set (r := fold_left shift_in before (N.lxor c 0xffffffff)) in *.
  assert (R : r < 2 ^ 32) by (apply fold_below; [exact F1|]; apply lxor_below; [exact Hc|reflexivity]).
  apply fold_inj in E; [|exact F2|now apply fold_below|now apply fold_below].
  (* with zero bytes behind them, up to four bytes are a word *)
  assert (P : exists k, (length a + k = 4)%nat) by (exists (4 - length a)%nat; lia). destruct P as [k Hk].
  set (z := repeat 0 k). apply (f_equal (fold_left shift_in z)) in E. rewrite <- !fold_left_app in E.
  assert (Fz : Forall byte z) by (apply Forall_forall; intros x I; apply repeat_spec in I; subst x; reflexivity).
  assert (La : length (a ++ z) = 4%nat) by (rewrite app_length; unfold z; rewrite repeat_length; exact Hk).
  assert (Lb : length (b ++ z) = 4%nat) by (rewrite app_length; unfold z; rewrite repeat_length; lia).
  assert (FA : Forall byte (a ++ z)) by (now apply Forall_app). assert (FB : Forall byte (b ++ z)) by (now apply Forall_app).
  apply (app_inv_tail z). set (x := a ++ z) in *. set (y := b ++ z) in *. clearbody x y. clear - E La Lb FA FB R.
  destruct x as [|a0 [|a1 [|a2 [|a3 [|? ?]]]]]; try discriminate La. destruct y as [|b0 [|b1 [|b2 [|b3 [|? ?]]]]]; try discriminate Lb.
  repeat match goal with H : Forall byte (_ :: _) |- _ => inversion H; subst; clear H end.
  cbn [fold_left] in E. rewrite !four_bytes in E by assumption.
  apply clocks_inj in E; [|apply lxor_below; [exact R|now apply word4_lxor]|apply lxor_below; [exact R|now apply word4_lxor]].
  apply lxor_inj_l in E. now apply word4_inj.
Qed.
Print Assumptions C92_detects.

(** The CRC of "123456789" is 0xcbf43926. *)
Example C92_crc_case : let t := [49; 50; 51; 52; 53; 54; 55; 56; 57] in
  crc 0 t = 0xcbf43926 /\ crc32_bytes 0 (Some t) = 0xcbf43926 /\ crc32_little 3 0 t = 0xcbf43926
  /\ crc (crc 0 (firstn 4 t)) (skipn 4 t) = 0xcbf43926 /\ crc 0 [49; 50; 52; 51] <> crc 0 [49; 50; 51; 52].
Proof. vm_compute. repeat split. discriminate. Qed.

(** crc32_combine *)
Definition matrix (f : N -> N) (k m : nat) : list N := map (fun i => f (N.shiftl 1 (N.of_nat i))) (seq k m).
Lemma split1 v : v = N.lxor (if N.odd v then 1 else 0) (N.shiftl (N.shiftr v 1) 1).
Proof.
  apply N.bits_inj. intros i. rewrite N.lxor_spec. destruct (N.eq_dec i 0) as [->|Hi].
  - rewrite N.shiftl_spec_low by lia. rewrite N.bit0_odd. destruct (N.odd v); reflexivity.
  - rewrite N.shiftl_spec_high' by lia. rewrite N.shiftr_spec'. replace (i - 1 + 1) with i by lia.
    assert (Z : N.testbit (if N.odd v then 1 else 0) i = false); [|now rewrite Z, xorb_false_l].
    destruct (N.odd v); [|apply N.bits_0]. apply (proj1 (below_bits 1 1)); [reflexivity|lia].
Qed.
Lemma times_ok f : (forall a b, f (N.lxor a b) = N.lxor (f a) (f b)) -> f 0 = 0 ->
  forall m k v, v < 2 ^ N.of_nat m -> gf2_times (matrix f k m) v = Some (f (N.shiftl v (N.of_nat k))).
Proof.
  intros Lin Z. induction m as [|m IH]; intros k v Hv.
  - cbn in Hv. assert (v = 0) by lia. subst v. cbn. rewrite Z. reflexivity.
  - unfold matrix. cbn [seq map gf2_times]. fold (matrix f (S k) m). destruct (N.eqb_spec v 0) as [->|Hn].
    + rewrite N.shiftl_0_l, Z. reflexivity.
    + rewrite IH.
      * f_equal. rewrite (split1 v) at 3. rewrite N.shiftl_lxor, Lin. f_equal.
        -- destruct (N.odd v); [reflexivity|now rewrite N.shiftl_0_l, Z].
        -- rewrite N.shiftl_shiftl. do 2 f_equal. lia.
      * rewrite N.shiftr_div_pow2. change (2 ^ 1) with 2. apply N.div_lt_upper_bound; [discriminate|].
        rewrite Nat2N.inj_succ, N.pow_succ_r' in Hv. exact Hv.
Qed.
Lemma all_some_map {A} (g : A -> option N) (h : A -> N) l : (forall x, In x l -> g x = Some (h x)) -> all_some (map g l) = Some (map h l).
Proof.
  induction l as [|x l IH]; intros H; [reflexivity|]. cbn [map all_some]. rewrite (H x) by now left.
  rewrite IH by (intros y I; apply H; now right). reflexivity.
Qed.
Lemma bit_below i : (i < 32)%nat -> N.shiftl 1 (N.of_nat i) < 2 ^ 32.
Proof. intros H. rewrite N.shiftl_1_l. apply N.pow_lt_mono_r; lia. Qed.
Lemma square_ok n : gf2_square (matrix (clocks n) 0 32) = Some (matrix (clocks (n + n)) 0 32).
Proof.
  unfold gf2_square. unfold matrix at 2. rewrite map_map.
  rewrite (all_some_map _ (fun i => clocks (n + n) (N.shiftl 1 (N.of_nat i)))); [reflexivity|].
  intros i I. apply in_seq in I. rewrite times_ok; [|intros; apply clocks_lxor|apply clocks_0|apply clocks_below, bit_below; lia].
  rewrite N.shiftl_0_r, clocks_add. reflexivity.
Qed.
Lemma one_bit_ok : one_bit_matrix = matrix (clocks 1) 0 32.
Proof. vm_compute. reflexivity. Qed.
Lemma size_half x : x <> 0 -> N.size x = N.succ (N.size (N.shiftr x 1)).
Proof.
  intros H. rewrite <- N.div2_spec. destruct x as [|[p|p|]]; [now elim H| | |]; reflexivity.
Qed.
Lemma combine_loop_ok fuel : forall n c len, c < 2 ^ 32 -> len <> 0 -> (N.to_nat (N.size len) <= fuel)%nat ->
  combine_loop fuel (matrix (clocks n) 0 32) c len = Some (clocks (2 * n * N.to_nat len) c).
Proof.
  induction fuel as [|fuel IH]; intros n c len Hc Hl Hf.
  - rewrite size_half in Hf by exact Hl. lia.
  - cbn [combine_loop]. rewrite square_ok.
    assert (T : forall x, x < 2 ^ 32 -> gf2_times (matrix (clocks (n + n)) 0 32) x = Some (clocks (n + n) x)).
    { intros x Hx. rewrite times_ok; [now rewrite N.shiftl_0_r|intros; apply clocks_lxor|apply clocks_0|exact Hx]. }
    assert (D : N.to_nat len = (2 * N.to_nat (N.shiftr len 1) + (if N.odd len then 1 else 0))%nat).
    { rewrite <- N.div2_spec. rewrite (N.div2_odd len) at 1. destruct (N.odd len); cbn [N.b2n]; lia. }
    assert (E : (if N.odd len then gf2_times (matrix (clocks (n + n)) 0 32) c else Some c)
      = Some (clocks (if N.odd len then n + n else 0) c)).
    { destruct (N.odd len); [now apply T|reflexivity]. }
    rewrite E. cbv zeta. destruct (N.eqb_spec (N.shiftr len 1) 0) as [Z|Z].
    + f_equal. f_equal. rewrite D, Z. destruct (N.odd len); lia.
    + rewrite IH; [|now apply clocks_below|exact Z|rewrite size_half in Hf by exact Hl; lia].
      rewrite <- clocks_add. f_equal. f_equal. rewrite D. destruct (N.odd len); lia.
Qed.
Lemma fold_lxor buf : forall x y, fold_left shift_in buf (N.lxor x y) = N.lxor (clocks (8 * length buf) x) (fold_left shift_in buf y).
Proof.
  induction buf as [|b buf IH]; intros x y; [reflexivity|].
  assert (St : forall z, fold_left shift_in (b :: buf) z = fold_left shift_in buf (shift_in z b)) by reflexivity.
  rewrite !St. assert (E : shift_in (N.lxor x y) b = N.lxor (clocks 8 x) (shift_in y b)).
  { unfold shift_in. rewrite <- clocks_lxor. now rewrite N.lxor_assoc. }
  rewrite E, IH. rewrite <- clocks_add. f_equal. f_equal. cbn [length]. lia.
Qed.

(** From the CRCs of two buffers and the length of the second, crc32_combine gives the CRC of one
    behind the other; its products never read beyond a matrix. *)
Theorem C92_combine : forall c a b, c < 2 ^ 32 -> Forall byte a -> Forall byte b ->
  crc32_combine (crc c a) (crc 0 b) (N.of_nat (length b)) = Some (crc c (a ++ b)).
Proof.
  intros c a b Hc Fa Fb. unfold crc32_combine.
  assert (R : crc c a < 2 ^ 32).
  { unfold crc. apply lxor_below; [|reflexivity]. apply fold_below; [exact Fa|]. apply lxor_below; [exact Hc|reflexivity]. }
  destruct (N.eqb_spec (N.of_nat (length b)) 0) as [Z|Z].
  - destruct b; [now rewrite app_nil_r|cbn [length] in Z; lia].
  - rewrite one_bit_ok, !square_ok. cbn [Nat.add].
    rewrite combine_loop_ok; [|exact R|exact Z|lia]. rewrite Nat2N.id. f_equal.
    rewrite <- C92_goes_on. unfold crc at 2 3. rewrite N.lxor_0_l, fold_lxor, N.lxor_assoc.
    replace (2 * 4 * length b)%nat with (8 * length b)%nat by lia. reflexivity.
Qed.
Print Assumptions C92_combine.

Example C92_combine_case : crc32_combine (crc 0 [49; 50; 51; 52]) (crc 0 [53; 54; 55; 56; 57]) 5 = Some 0xcbf43926.
Proof. vm_compute. reflexivity. Qed.

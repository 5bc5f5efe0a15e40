(** C92: the Adler-32 sums of zlib. *)
From Coq Require Import List Arith NArith Bool Lia.
From Verif Require Import M_Checksum.
Import ListNotations.
Local Open Scope N_scope.

(** The sums over a buffer, with numbers without a bound: all bytes, and all bytes each times the
    number of places from it to the end. *)
Fixpoint total (buf : list N) : N := match buf with [] => 0 | b :: buf' => b + total buf' end.
Fixpoint weighted (buf : list N) : N := match buf with [] => 0 | b :: buf' => N.of_nat (length buf) * b + weighted buf' end.
Definition size (buf : list N) : N := N.of_nat (length buf).
(** 65521 is the largest prime below 65536. *)
Definition adler (a s : N) (buf : list N) : N * N :=
  ((a + total buf) mod 65521, (s + size buf * a + weighted buf) mod 65521).
Definition join (p : N * N) : N := fst p + 65536 * snd p.
Definition byte (b : N) : Prop := b < 256.

Lemma size_cons b buf : size (b :: buf) = 1 + size buf.
Proof. unfold size. cbn [length]. lia. Qed.
Lemma size_app x y : size (x ++ y) = size x + size y.
Proof. unfold size. rewrite app_length. lia. Qed.
Lemma total_app x y : total (x ++ y) = total x + total y.
Proof. induction x as [|b x IH]; [reflexivity|]. cbn [app total]. lia. Qed.
Lemma weighted_cons b buf : weighted (b :: buf) = (1 + size buf) * b + weighted buf.
Proof. cbn [weighted]. fold (size (b :: buf)). now rewrite size_cons. Qed.
Lemma weighted_app x y : weighted (x ++ y) = weighted x + size y * total x + weighted y.
Proof.
  induction x as [|b x IH]; [cbn [app total weighted]; lia|]. cbn [app]. rewrite !weighted_cons, IH, size_app. cbn [total]. lia.
Qed.
Lemma total_below buf : Forall byte buf -> total buf <= 255 * size buf.
Proof. induction 1 as [|b buf Hb Hs IH]; [cbn; lia|]. unfold byte in Hb. rewrite size_cons. cbn [total]. lia. Qed.
Lemma weighted_below buf : Forall byte buf -> 2 * weighted buf <= 255 * (size buf * (size buf + 1)).
Proof.
  induction 1 as [|b buf Hb Hs IH]; [cbn; lia|]. unfold byte in Hb. rewrite weighted_cons, size_cons.
  assert ((1 + size buf) * b <= (1 + size buf) * 255) by (apply N.mul_le_mono_l; lia). lia.
Qed.

Section Wide.
  Variable ws : N.
  Hypothesis wide : 2 ^ 32 <= ws.
  Lemma ws32 : 4294967296 <= ws. Proof. exact wide. Qed.
  Lemma wrap_small x : x < 4294967296 -> wrap ws x = x.
  Proof. intros H. apply N.mod_small. pose proof ws32. lia. Qed.

  Lemma do_bytes_ok buf : forall a s, a + total buf < 4294967296 -> s + size buf * a + weighted buf < 4294967296 ->
    do_bytes ws a s buf = (a + total buf, s + size buf * a + weighted buf).
  Proof.
    induction buf as [|b buf IH]; intros a s Ha Hs; [cbn; f_equal; lia|].
    cbn [do_bytes]. cbv zeta. cbn [total] in *. rewrite weighted_cons, size_cons in *.
    rewrite (wrap_small (a + b)) by lia. rewrite (wrap_small (s + (a + b))) by lia.
    rewrite IH; [f_equal; lia|lia|lia].
  Qed.
  (** Within a block nothing is cut off. *)
  Lemma block_ok buf a s : Forall byte buf -> (length buf <= NMAX)%nat -> a < 65521 -> s < 65521 ->
    do_bytes ws a s buf = (a + total buf, s + size buf * a + weighted buf).
  Proof.
    intros F L Ha Hs. assert (n : size buf <= 5552).
    { unfold size. unfold NMAX in L. apply N.le_trans with (N.of_nat (N.to_nat 5552)); [lia|]. rewrite N2Nat.id. lia. }
    pose proof (total_below buf F) as T. pose proof (weighted_below buf F) as W.
    assert (Q : size buf * (size buf + 1) <= 5552 * 5553) by (apply N.mul_le_mono; lia).
    assert (R : size buf * a <= 5552 * 65520) by (apply N.mul_le_mono; lia).
    apply do_bytes_ok; lia.
  Qed.
  Lemma mod_step a s x y : let '(a', s') := adler a s x in adler a' s' y = adler a s (x ++ y).
  Proof.
    unfold adler. rewrite total_app, weighted_app, size_app. f_equal.
    - rewrite N.add_mod_idemp_l by discriminate. f_equal. lia.
    - rewrite <- (N.add_mod_idemp_l (_ + _) (weighted y)) by discriminate.
      rewrite (N.add_mod ((s + size x * a + weighted x) mod 65521)) by discriminate.
      rewrite N.mod_mod by discriminate. rewrite (N.mul_mod_idemp_r (size y)) by discriminate.
      rewrite <- (N.add_mod (s + size x * a + weighted x)) by discriminate. rewrite N.add_mod_idemp_l by discriminate. f_equal. lia.
  Qed.
  Lemma blocks_ok fuel : forall buf a s, (length buf < fuel)%nat -> Forall byte buf -> a < 65521 -> s < 65521 ->
    blocks ws fuel a s buf = adler a s buf.
  Proof.
    induction fuel as [|fuel IH]; intros buf a s L F Ha Hs; [lia|]. cbn [blocks].
    destruct (Nat.leb_spec NMAX (length buf)) as [G|G].
    - pose proof F as F'. rewrite <- (firstn_skipn NMAX buf) in F'. apply Forall_app in F' as [F1 F2].
      assert (L1 : (length (firstn NMAX buf) <= NMAX)%nat) by (rewrite firstn_length; lia).
      rewrite (block_ok _ a s F1 L1 Ha Hs). change BASE with 65521.
      assert (P : (0 < NMAX)%nat) by (unfold NMAX; lia).
      rewrite IH; [|rewrite skipn_length; lia|exact F2|apply N.mod_lt; discriminate|apply N.mod_lt; discriminate].
      pose proof (mod_step a s (firstn NMAX buf) (skipn NMAX buf)) as M. unfold adler at 1 in M. cbv beta iota in M.
      rewrite M, firstn_skipn. reflexivity.
    - destruct buf as [|b buf].
      + unfold adler. cbn [total weighted]. change (size []) with 0. rewrite N.mul_0_l, !N.add_0_r, !N.mod_small by assumption. reflexivity.
      + rewrite block_ok; [reflexivity|exact F|lia|exact Ha|exact Hs].
  Qed.

  Lemma join_ok a s : a < 65536 -> s < 65536 -> join_sums ws a s = join (a, s).
  Proof.
    intros Ha Hs. unfold join_sums, join. cbn [fst snd]. rewrite N.shiftl_mul_pow2. change (2 ^ 16) with 65536.
    rewrite wrap_small by lia. rewrite <- N.lxor_lor, <- N.add_nocarry_lxor; [lia| |].
    all: apply N.bits_inj_0; intros i; rewrite N.land_spec; change 65536 with (2 ^ 16); rewrite <- N.shiftl_mul_pow2.
    all: destruct (N.lt_ge_cases i 16) as [L|L]; [rewrite N.shiftl_spec_low by exact L; apply andb_false_r|].
    all: destruct (N.eq_dec a 0) as [->|Hn]; [now rewrite N.bits_0|]; rewrite N.bits_above_log2; [reflexivity|].
    all: change 65536 with (2 ^ 16) in Ha; apply N.log2_lt_pow2 in Ha; lia.
  Qed.
  Lemma low_ok a s : a < 65536 -> N.land (a + 65536 * s) 65535 = a.
  Proof.
    intros Ha. change 65535 with (N.ones 16). rewrite N.land_ones. change (2 ^ 16) with 65536.
    rewrite N.mul_comm, N.mod_add by discriminate. now apply N.mod_small.
  Qed.
  Lemma high_ok a s : a < 65536 -> s < 65536 -> N.land (N.shiftr (a + 65536 * s) 16) 65535 = s.
  Proof.
    intros Ha Hs. rewrite N.shiftr_div_pow2. change (2 ^ 16) with 65536. rewrite N.mul_comm, N.div_add by discriminate.
    rewrite N.div_small, N.add_0_l by exact Ha. change 65535 with (N.ones 16). rewrite N.land_ones. now apply N.mod_small.
  Qed.
  Lemma once x : x < 2 * 65521 -> (if 65521 <=? x then x - 65521 else x) = x mod 65521.
  Proof.
    intros H. destruct (N.leb_spec 65521 x) as [L|L]; [|symmetry; now apply N.mod_small].
    replace x with (x - 65521 + 1 * 65521) at 2 by lia. rewrite N.mod_add by discriminate. symmetry. apply N.mod_small. lia.
  Qed.
  Lemma mod_below x : x mod 65521 < 65521. Proof. apply N.mod_lt. discriminate. Qed.
  Lemma mod_below' x : x mod 65521 < 65536. Proof. pose proof (mod_below x). lia. Qed.

  Lemma adler32_ok a s buf : a < 65521 -> s < 65521 -> Forall byte buf -> adler32 ws (join (a, s)) (Some buf) = join (adler a s buf).
  Proof.
    intros Ha Hs F. assert (J1 : N.land (join (a, s)) 65535 = a) by (unfold join; cbn [fst snd]; apply (low_ok a s); lia).
    assert (J2 : N.land (N.shiftr (join (a, s)) 16) 65535 = s) by (unfold join; cbn [fst snd]; apply (high_ok a s); lia).
    unfold adler32. rewrite J1, J2. clear J1 J2. cbv zeta. change BASE with 65521.
    assert (Many : (if (length buf <? 16)%nat then let '(a1, s1) := do_bytes ws a s buf in
        join_sums ws (if 65521 <=? a1 then a1 - 65521 else a1) (s1 mod 65521)
      else let '(a1, s1) := blocks ws (S (length buf)) a s buf in join_sums ws a1 s1) = join (adler a s buf)).
    { destruct (Nat.ltb_spec (length buf) 16) as [L|L].
      - assert (L' : (length buf <= NMAX)%nat) by (unfold NMAX; lia).
        rewrite (block_ok buf a s F L' Ha Hs). cbv beta iota. pose proof (total_below buf F) as T. unfold size in T.
        rewrite once by lia. rewrite join_ok; [reflexivity|apply mod_below'|apply mod_below'].
      - rewrite (blocks_ok _ buf a s); [|lia|exact F|exact Ha|exact Hs]. unfold adler.
        rewrite join_ok; [reflexivity|apply mod_below'|apply mod_below']. }
    destruct buf as [|b [|b' buf]]; [exact Many| |exact Many].
    inversion F as [|? ? Hb _]; subst. unfold byte in Hb. rewrite (wrap_small (a + b)) by lia. rewrite once by lia.
    pose proof (mod_below (a + b)). rewrite (wrap_small (s + _)) by lia. rewrite once by lia.
    rewrite join_ok; [|apply mod_below'|apply mod_below']. unfold adler. cbn [total weighted length]. change (size [b]) with 1.
    f_equal. f_equal; [f_equal; lia|]. rewrite N.add_mod_idemp_r by discriminate. f_equal. lia.
  Qed.

  Lemma back m t r : r < 65521 -> m + t + 65521 - r + r = m + t + 1 * 65521.
  Proof. lia. Qed.
  Lemma bounds m t v r : m < 65521 -> t < 65521 -> v < 65521 -> r < 65521 -> 0 < m + t + v + 65521 - r /\ m + t + v + 65521 - r <= 4 * 65521.
  Proof. lia. Qed.
  Definition nonzero (x : N) : N := if x =? 0 then 65521 else x.
  Lemma cut x y : (0 < x) -> (x <= 2 * 65521) -> x mod 65521 = y -> (if 65521 <? x then x - 65521 else x) = nonzero y.
  Proof.
    intros H0 H <-. unfold nonzero. destruct (N.ltb_spec 65521 x) as [L|L].
    - destruct (N.eq_dec x 131042) as [->|Hn]; [reflexivity|].
      assert (E : x mod 65521 = x - 65521) by (rewrite <- once by lia; destruct (N.leb_spec 65521 x); lia).
      rewrite E. destruct (N.eqb_spec (x - 65521) 0); lia.
    - destruct (N.eq_dec x 65521) as [->|Hn]; [reflexivity|]. rewrite N.mod_small by lia. destruct (N.eqb_spec x 0); lia.
  Qed.
  Lemma nonzero_below x : x < 65521 -> nonzero x < 65536.
  Proof. unfold nonzero. destruct (x =? 0); lia. Qed.

  Lemma combine_ok a s x y : a < 65521 -> s < 65521 ->
    let '(a1, s1) := adler a s x in let '(a2, s2) := adler 1 0 y in let '(a3, s3) := adler a s (x ++ y) in
    adler32_combine ws (join (a1, s1)) (join (a2, s2)) (size y) = join (nonzero a3, nonzero s3).
  Proof.
    intros Ha Hs. pose proof (mod_step a s x y) as M. unfold adler in *. cbv beta iota in *.
    set (a1 := (a + total x) mod 65521) in *. set (s1 := (s + size x * a + weighted x) mod 65521) in *.
    assert (A1 : a1 < 65521) by apply mod_below. assert (S1 : s1 < 65521) by apply mod_below.
    injection M as Ma Ms. rewrite <- Ma, <- Ms. clearbody a1 s1. clear Ma Ms.
    set (a2 := (1 + total y) mod 65521) in *. set (s2 := (0 + size y * 1 + weighted y) mod 65521) in *.
    assert (A2 : a2 < 65521) by apply mod_below. assert (S2 : s2 < 65521) by apply mod_below.
    unfold adler32_combine, join. cbn [fst snd]. rewrite !high_ok, !low_ok by lia. cbv zeta. change BASE with 65521.
    set (r := size y mod 65521). assert (R : r < 65521) by apply mod_below.
    assert (Pr : r * a1 <= 65520 * 65520) by (apply N.mul_le_mono; lia).
    rewrite (wrap_small (r * a1)) by lia. pose proof (mod_below (r * a1)) as Pm.
    rewrite (wrap_small (a1 + a2 + 65521 - 1)) by lia. rewrite (wrap_small (_ + s1 + s2 + 65521 - r)) by lia.
    set (u := a1 + a2 + 65521 - 1). set (w := (r * a1) mod 65521 + s1 + s2 + 65521 - r).
    assert (U : u mod 65521 = (a1 + total y) mod 65521).
    { unfold u. replace (a1 + a2 + 65521 - 1) with (a1 + a2 + 65520) by lia. unfold a2.
      rewrite <- N.add_assoc, (N.add_comm ((1 + total y) mod 65521)), N.add_assoc, N.add_mod_idemp_r by discriminate.
      replace (a1 + 65520 + (1 + total y)) with (a1 + total y + 1 * 65521) by lia. now rewrite N.mod_add. }
    pose proof (bounds _ s1 s2 r Pm S1 S2 R) as Wb. fold w in Wb.
    assert (Wm : w mod 65521 = (s1 + size y * a1 + weighted y) mod 65521).
    { assert (Q : (w + r) mod 65521 = (s1 + size y * a1 + weighted y + r) mod 65521).
      { unfold w. rewrite <- (N.add_assoc _ s1 s2), back by exact R.
        rewrite N.mod_add, N.add_mod_idemp_l by discriminate. rewrite N.add_assoc. unfold s2. rewrite N.add_mod_idemp_r by discriminate.
        unfold r. rewrite N.add_mod_idemp_r by discriminate.
        rewrite <- 2 N.add_assoc. rewrite <- N.add_mod_idemp_l by discriminate. rewrite N.mul_mod_idemp_l by discriminate.
        rewrite N.add_mod_idemp_l by discriminate. f_equal. lia. }
      apply (f_equal (fun z => (z + (65521 - r)) mod 65521)) in Q. rewrite !N.add_mod_idemp_l in Q by discriminate.
      replace (w + r + (65521 - r)) with (w + 1 * 65521) in Q by lia.
      replace (s1 + size y * a1 + weighted y + r + (65521 - r)) with (s1 + size y * a1 + weighted y + 1 * 65521) in Q by lia.
      now rewrite !N.mod_add in Q by discriminate. }
    clearbody w.
    set (u' := if 65521 <? u then u - 65521 else u). set (w' := if 2 * 65521 <? w then w - 2 * 65521 else w).
    assert (U' : u' mod 65521 = (a1 + total y) mod 65521 /\ 0 < u' /\ u' <= 2 * 65521).
    { rewrite <- U. unfold u'. destruct (N.ltb_spec 65521 u) as [L|L].
      - split; [|unfold u in *; lia]. replace u with (u - 65521 + 1 * 65521) at 2 by lia. now rewrite N.mod_add.
      - split; [reflexivity|unfold u in *; lia]. }
    assert (W' : w' mod 65521 = (s1 + size y * a1 + weighted y) mod 65521 /\ 0 < w' /\ w' <= 2 * 65521).
    { rewrite <- Wm. unfold w'. destruct (N.ltb_spec (2 * 65521) w) as [L|L].
      - split; [|lia]. replace w with (w - 2 * 65521 + 2 * 65521) at 2 by lia. now rewrite N.mod_add.
      - split; [reflexivity|lia]. }
    destruct U' as (U1 & U2 & U3). destruct W' as (W1 & W2 & W3).
    rewrite (cut u' _ U2 U3 U1), (cut w' _ W2 W3 W1).
    rewrite join_ok; [reflexivity|apply nonzero_below, mod_below|apply nonzero_below, mod_below].
  Qed.
End Wide.

(** adler32 gives the two sums modulo 65521, for a buffer of any length, with an unsigned long of 32
    bits or more: nothing is cut off between two reductions. *)
Theorem C92_adler32 : forall ws a s buf, 2 ^ 32 <= ws -> a < 65521 -> s < 65521 -> Forall byte buf ->
  adler32 ws (join (a, s)) (Some buf) = join (adler a s buf) /\ adler32 ws (join (a, s)) None = join (adler 1 0 []).
Proof. intros ws a s buf H Ha Hs F. split; [now apply adler32_ok|reflexivity]. Qed.
Print Assumptions C92_adler32.

(** A checksum can be gone on with. *)
Theorem C92_adler_goes_on : forall ws a s x y, 2 ^ 32 <= ws -> a < 65521 -> s < 65521 -> Forall byte (x ++ y) ->
  adler32 ws (adler32 ws (join (a, s)) (Some x)) (Some y) = adler32 ws (join (a, s)) (Some (x ++ y)).
Proof.
  intros ws a s x y H Ha Hs F. pose proof F as F'. apply Forall_app in F' as [Fx Fy]. rewrite (adler32_ok ws H a s x Ha Hs Fx).
  pose proof (mod_step ws H a s x y) as M. destruct (adler a s x) as [a' s'] eqn:E. unfold adler in E.
  pose proof (f_equal fst E) as Ea. pose proof (f_equal snd E) as Es. cbn [fst snd] in Ea, Es.
  rewrite !adler32_ok; try assumption; [now rewrite M|rewrite <- Ea; apply mod_below|rewrite <- Es; apply mod_below].
Qed.
Print Assumptions C92_adler_goes_on.

(** From the sums of two buffers and the length of the second, adler32_combine gives those of one
    behind the other, but with 65521 for a sum that is 0. *)
Theorem C92_adler_combine : forall ws a s x y, 2 ^ 32 <= ws -> a < 65521 -> s < 65521 -> Forall byte (x ++ y) ->
  adler32_combine ws (adler32 ws (join (a, s)) (Some x)) (adler32 ws 1 (Some y)) (size y)
  = (let '(a3, s3) := adler a s (x ++ y) in join (if a3 =? 0 then 65521 else a3, if s3 =? 0 then 65521 else s3)).
Proof.
  intros ws a s x y H Ha Hs F. apply Forall_app in F as [Fx Fy]. rewrite (adler32_ok ws H a s x Ha Hs Fx).
  change 1 with (join (1, 0)) at 1. rewrite (adler32_ok ws H 1 0 y ltac:(reflexivity) ltac:(reflexivity) Fy).
  pose proof (combine_ok ws H a s x y Ha Hs) as C. destruct (adler a s x) as [a1 s1], (adler 1 0 y) as [a2 s2], (adler a s (x ++ y)) as [a3 s3].
  exact C.
Qed.
Print Assumptions C92_adler_combine.

(** So two empty buffers, or bytes with the sum 65520, do not give the checksum of both. *)
Theorem C92_adler_combine_refuted : exists x, Forall byte x /\ adler32_combine (2 ^ 64) 1 1 0 <> adler32 (2 ^ 64) 1 (Some [])
  /\ adler32_combine (2 ^ 64) (adler32 (2 ^ 64) 1 (Some x)) (adler32 (2 ^ 64) 1 (Some [1])) 1 = 65521 + 65536 * 2047
  /\ adler32 (2 ^ 64) 1 (Some (x ++ [1])) = 65536 * 2047.
Proof.
  exists (repeat 255 256 ++ [239]). split; [|split; [vm_compute; discriminate|split; vm_compute; reflexivity]].
  apply Forall_app. split; [apply Forall_forall; intros z I; apply repeat_spec in I; subst z|constructor; [|constructor]]; reflexivity.
Qed.
Print Assumptions C92_adler_combine_refuted.

(** The checksum of "Wikipedia" is 0x11E60398. *)
Example C92_adler_case : let t := [87; 105; 107; 105; 112; 101; 100; 105; 97] in
  adler32 (2 ^ 32) 1 (Some t) = 0x11E60398 /\ join (adler 1 0 t) = 0x11E60398
  /\ adler32_combine (2 ^ 32) (adler32 (2 ^ 32) 1 (Some (firstn 4 t))) (adler32 (2 ^ 32) 1 (Some (skipn 4 t))) 5 = 0x11E60398
  /\ adler32 (2 ^ 32) 1 (Some (repeat 255 (N.to_nat 6000))) = join (adler 1 0 (repeat 255 (N.to_nat 6000))).
Proof. vm_compute. repeat split. Qed.

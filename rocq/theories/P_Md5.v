(** C59: the digests of common/md5.cpp are those of RFC 1321. *)
From Coq Require Import String Ascii.
From Coq Require Import List NArith ZArith Bool Arith Lia.
From Verif Require Import M_Md5.
Import ListNotations.
Local Open Scope N_scope.

(** * Specification: RFC 1321, section 3 *)
Definition W : N := 2 ^ 32.
Definition complement (x : N) : N := W - 1 - x.
(** The integer part of 2^32 * abs(sin(i)), i from 1 (in radians). *)
Definition T : list N := [
  3614090360; 3905402710; 606105819; 3250441966; 4118548399; 1200080426; 2821735955; 4249261313;
  1770035416; 2336552879; 4294925233; 2304563134; 1804603682; 4254626195; 2792965006; 1236535329;
  4129170786; 3225465664; 643717713; 3921069994; 3593408605; 38016083; 3634488961; 3889429448;
  568446438; 3275163606; 4107603335; 1163531501; 2850285829; 4243563512; 1735328473; 2368359562;
  4294588738; 2272392833; 1839030562; 4259657740; 2763975236; 1272893353; 4139469664; 3200236656;
  681279174; 3936430074; 3572445317; 76029189; 3654602809; 3873151461; 530742520; 3299628645;
  4096336452; 1126891415; 2878612391; 4237533241; 1700485571; 2399980690; 4293915773; 2240044497;
  1873313359; 4264355552; 2734768916; 1309151649; 4149444226; 3174756917; 718787259; 3951481745].
(** One of the 64 operations; the message word, the rotation and the function are given by i. *)
Definition fun_of (i : nat) (x y z : N) : N :=
  match (i / 16)%nat with
  | 0%nat => N.lor (N.land x y) (N.land (complement x) z)
  | 1%nat => N.lor (N.land x z) (N.land y (complement z))
  | 2%nat => N.lxor x (N.lxor y z)
  | _ => N.lxor y (N.lor x (complement z))
  end.
Definition word_of (i : nat) : nat :=
  match (i / 16)%nat with
  | 0%nat => i mod 16
  | 1%nat => (5 * i + 1) mod 16
  | 2%nat => (3 * i + 5) mod 16
  | _ => (7 * i) mod 16
  end%nat.
Definition turn_of (i : nat) : N :=
  nth (i mod 4) (match (i / 16)%nat with 0%nat => [7; 12; 17; 22] | 1%nat => [5; 9; 14; 20] | 2%nat => [4; 11; 16; 23] | _ => [6; 10; 15; 21] end) 0.
Definition turn (x n : N) : N := (x * 2 ^ n + x / 2 ^ (32 - n)) mod W.
Definition quad : Type := N * N * N * N.
Definition operation (x : list N) (q : quad) (i : nat) : quad :=
  let '(a, b, c, d) := q in
  (d, (b + turn ((a + fun_of i b c d + nth (word_of i) x 0 + nth i T 0) mod W) (turn_of i)) mod W, b, c).
(** Words and bytes, the low-order byte first. *)
Fixpoint words_of (n : nat) (l : list N) : list N :=
  match n with
  | O => []
  | S n' => (nth 0 l 0 + 2 ^ 8 * nth 1 l 0 + 2 ^ 16 * nth 2 l 0 + 2 ^ 24 * nth 3 l 0) :: words_of n' (skipn 4 l)
  end.
Fixpoint bytes_of (n : nat) (w : N) : list N :=
  match n with O => [] | S n' => w mod 256 :: bytes_of n' (w / 256) end.
(** A block of 64 bytes. *)
Definition plus_quad (p q : quad) : quad :=
  let '(a, b, c, d) := p in let '(a', b', c', d') := q in ((a + a') mod W, (b + b') mod W, (c + c') mod W, (d + d') mod W).
Definition block (b : list N) (q : quad) : quad := plus_quad q (fold_left (operation (words_of 16 b)) (seq 0 64) q).
Fixpoint compress (n : nat) (q : quad) (l : list N) : quad :=
  match n with O => q | S n' => compress n' (block (firstn 64 l) q) (skipn 64 l) end.
(** The registers at the start: 01 23 45 67, 89 ab cd ef, fe dc ba 98, 76 54 32 10. *)
Definition start : quad := (0x67452301, 0xefcdab89, 0x98badcfe, 0x10325476).
(** A one bit, zeros up to 56 bytes modulo 64, the number of bits in 64 bits. *)
Definition pad (m : list N) : list N :=
  m ++ [128] ++ repeat 0 ((119 - length m mod 64) mod 64)%nat ++ bytes_of 8 (8 * N.of_nat (length m)).
Definition rfc_digest (m : list N) : list N :=
  let '(a, b, c, d) := compress (length (pad m) / 64) start (pad m) in
  bytes_of 4 a ++ bytes_of 4 b ++ bytes_of 4 c ++ bytes_of 4 d.
Definition hex (l : list N) : list N :=
  flat_map (fun b => let d n := nth (N.to_nat n) (map N_of_ascii (list_ascii_of_string "0123456789abcdef")) 0 in [d (b / 16); d (b mod 16)]) l.
Definition byte (b : N) : Prop := b < 256.

(** * The operations *)
Lemma lor_add a b n : a < 2 ^ n -> N.lor a (N.shiftl b n) = a + 2 ^ n * b.
Proof.
  intros L. assert (E : N.land a (N.shiftl b n) = 0).
  { apply N.bits_inj_iff. intros m. rewrite N.land_spec, N.bits_0. destruct (N.lt_ge_cases m n) as [K|K]; [rewrite N.shiftl_spec_low by assumption; apply andb_false_r|].
    rewrite <- (N.mod_small a (2 ^ n)) by assumption. now rewrite N.mod_pow2_bits_high. }
  rewrite <- N.lxor_lor, <- N.add_nocarry_lxor by assumption. rewrite N.shiftl_mul_pow2. lia.
Qed.
Lemma add32_eq a b : add32 a b = (a + b) mod W.
Proof. reflexivity. Qed.
Lemma not32_eq x : x < W -> not32 x = complement x.
Proof.
  intros L. unfold not32, complement. change 4294967295 with (N.ones 32). change (W - 1) with (N.ones 32). apply (N.lnot_sub_low x 32).
  destruct (N.eq_dec x 0) as [->|K]; [reflexivity|apply N.log2_lt_pow2; [lia|exact L]].
Qed.
Lemma rotate_eq x n : x < W -> n <= 32 -> rotate_left x n = turn x n.
Proof.
  intros Lx Ln. unfold rotate_left, turn. rewrite N.lor_comm. change WORD with W. rewrite N.shiftl_mul_pow2.
  assert (E : x * 2 ^ n mod W = N.shiftl (x mod 2 ^ (32 - n)) n).
  { rewrite N.shiftl_mul_pow2. replace W with (2 ^ (32 - n) * 2 ^ n) by (rewrite <- N.pow_add_r; replace (32 - n + n) with 32 by lia; reflexivity). now rewrite N.mul_mod_distr_r by (apply N.pow_nonzero; lia). }
  assert (P : 2 ^ (32 - n) * 2 ^ n = W) by (rewrite <- N.pow_add_r; replace (32 - n + n) with 32 by lia; reflexivity).
  assert (L1 : N.shiftr x (32 - n) < 2 ^ n) by (rewrite N.shiftr_div_pow2; apply N.div_lt_upper_bound; [apply N.pow_nonzero; lia|rewrite P; exact Lx]).
  rewrite <- N.add_mod_idemp_l by discriminate. rewrite E, lor_add by assumption. rewrite N.shiftl_mul_pow2, N.shiftr_div_pow2 in *.
  assert (L2 : x mod 2 ^ (32 - n) < 2 ^ (32 - n)) by (apply N.mod_lt, N.pow_nonzero; lia).
  rewrite <- P in *. clear P E Lx. generalize dependent (x mod 2 ^ (32 - n)). generalize dependent (x / 2 ^ (32 - n)). generalize (2 ^ (32 - n)) (2 ^ n). clear.
  intros p q z Lz y Ly. rewrite N.mod_small; [lia|]. assert (y * q + q <= p * q) by (rewrite <- (N.mul_1_l q) at 2; rewrite <- N.mul_add_distr_r; apply N.mul_le_mono_r; lia). lia.
Qed.

(** The line of transform for operation [i]. *)
Definition code_fun (i : nat) : N -> N -> N -> N := match (i / 16)%nat with 0%nat => F | 1%nat => G | 2%nat => H | _ => I end.
Definition line_of (i : nat) : line :=
  let l a b c d := Line (code_fun i) a b c d (word_of i) (turn_of i) (nth i T 0) in
  match (i mod 4)%nat with 0%nat => l Ra Rb Rc Rd | 1%nat => l Rd Ra Rb Rc | 2%nat => l Rc Rd Ra Rb | _ => l Rb Rc Rd Ra end.
Lemma lines : LINES = map line_of (seq 0 64).
Proof. reflexivity. Qed.
(** The registers in the order of the specification before operation [i]. *)
Definition view (i : nat) (r : regs) : quad :=
  match (i mod 4)%nat with
  | 0%nat => (ra r, rb r, rc r, rd r)
  | 1%nat => (rd r, ra r, rb r, rc r)
  | 2%nat => (rc r, rd r, ra r, rb r)
  | _ => (rb r, rc r, rd r, ra r)
  end.
Definition bounded (r : regs) : Prop := ra r < W /\ rb r < W /\ rc r < W /\ rd r < W.
Lemma fun_eq i x y z : x < W -> y < W -> z < W -> code_fun i x y z = fun_of i x y z.
Proof.
  intros Lx Ly Lz. unfold code_fun, fun_of. destruct (i / 16)%nat as [|[|[|n]]]; unfold F, G, H, I; rewrite ?not32_eq by assumption; try reflexivity. now rewrite N.lxor_assoc.
Qed.
Lemma turn_le i : turn_of i <= 32.
Proof.
  unfold turn_of. assert (L := Nat.mod_upper_bound i 4 ltac:(lia)). destruct (i mod 4)%nat as [|[|[|[|n]]]]; [| | | |lia]; destruct (i / 16)%nat as [|[|[|m]]]; cbn; lia.
Qed.
Lemma mix_eq i a b c d x : a < W -> b < W -> c < W -> d < W ->
  mix (code_fun i) a b c d (nth (word_of i) x 0) (turn_of i) (nth i T 0)
  = (b + turn ((a + fun_of i b c d + nth (word_of i) x 0 + nth i T 0) mod W) (turn_of i)) mod W.
Proof.
  intros La Lb Lc Ld. unfold mix. rewrite !add32_eq, fun_eq by assumption.
  rewrite rotate_eq by (try apply turn_le; apply N.mod_lt; discriminate).
  assert (E : forall u v, u = v -> (turn u (turn_of i) + b) mod W = (b + turn v (turn_of i)) mod W) by (intros u v ->; now rewrite N.add_comm).
  apply E. rewrite N.add_mod_idemp_l by discriminate. rewrite <- (N.add_assoc (_ mod W)), N.add_mod_idemp_l, N.add_assoc by discriminate. reflexivity.
Qed.
Lemma next_mod i : (S i mod 4 = match i mod 4 with 0 => 1 | 1 => 2 | 2 => 3 | _ => 0 end)%nat.
Proof.
  rewrite <- Nat.add_1_r. rewrite <- Nat.add_mod_idemp_l by lia. assert (L := Nat.mod_upper_bound i 4 ltac:(lia)). destruct (i mod 4)%nat as [|[|[|[|n]]]]; try reflexivity. lia.
Qed.
Lemma mix_lt f a b c d x s ac : mix f a b c d x s ac < W.
Proof. apply N.mod_lt. discriminate. Qed.
Lemma exec_eq x r i : bounded r -> view (S i) (exec x r (line_of i)) = operation x (view i r) i /\ bounded (exec x r (line_of i)).
Proof.
  intros [La [Lb [Lc Ld]]]. unfold view, line_of, exec. rewrite next_mod.
  destruct (i mod 4)%nat as [|[|[|n]]]; cbn [l1 l2 l3 l4 op word shift const get put operation ra rb rc rd]; rewrite <- mix_eq by assumption; (split; [reflexivity|]); unfold bounded; cbn [ra rb rc rd]; pose proof mix_lt; auto.
Qed.
Lemma execs x n : forall k r, bounded r ->
  view (k + n) (fold_left (exec x) (map line_of (seq k n)) r) = fold_left (operation x) (seq k n) (view k r) /\ bounded (fold_left (exec x) (map line_of (seq k n)) r).
Proof.
  induction n as [|n IH]; intros k r B; cbn [seq map fold_left]; [rewrite Nat.add_0_r; auto|].
  destruct (exec_eq x r k B) as [E B']. rewrite <- E. replace (k + S n)%nat with (S k + n)%nat by lia. now apply IH.
Qed.
(** Bytes and words. *)
Lemma decode_eq n : forall l, length l = (4 * n)%nat -> Forall byte l -> decode l = words_of n l.
Proof.
  induction n as [|n IH]; intros l L B; [destruct l; [reflexivity|discriminate L]|].
  destruct l as [|b0 [|b1 [|b2 [|b3 r]]]]; cbn [length] in L; try lia. cbn [decode words_of nth skipn].
  inversion B as [|? ? B0 B']; subst. inversion B' as [|? ? B1 B'']; subst. inversion B'' as [|? ? B2 B3]; subst. inversion B3 as [|? ? B4 B5]; subst. unfold byte in *.
  rewrite IH by (try assumption; lia). f_equal. change (2 ^ 8) with 256. change (2 ^ 16) with 65536. change (2 ^ 24) with 16777216.
  rewrite (lor_add b0 b1 8) by (change (2 ^ 8) with 256; lia). change (2 ^ 8) with 256. rewrite (lor_add _ b2 16) by (change (2 ^ 16) with 65536; lia). change (2 ^ 16) with 65536. rewrite (lor_add _ b3 24) by (change (2 ^ 24) with 16777216; lia). reflexivity.
Qed.
Lemma encode_eq l : encode l = flat_map (bytes_of 4) l.
Proof.
  induction l as [|w l IH]; [reflexivity|]. cbn [encode flat_map bytes_of app]. change 255 with (N.ones 8). rewrite !N.land_ones, !N.shiftr_div_pow2, IH, !N.div_div by discriminate. reflexivity.
Qed.
Definition quad_of (r : regs) : quad := (ra r, rb r, rc r, rd r).
Lemma transform_eq b r : length b = 64%nat -> Forall byte b -> bounded r -> quad_of (transform b r) = block b (quad_of r) /\ bounded (transform b r).
Proof.
  intros L B R. unfold transform, block. rewrite lines. rewrite <- (decode_eq 16 b L B). destruct (execs (decode b) 64 0 r R) as [E B'].
  change (view 0 r) with (quad_of r) in E. rewrite <- E. generalize dependent (fold_left (exec (decode b)) (map line_of (seq 0 64)) r). intros r' E B'. split; [reflexivity|].
  unfold bounded. cbn [ra rb rc rd]. rewrite !add32_eq. repeat split; apply N.mod_lt; discriminate.
Qed.

(** * Blocks *)
Lemma skipn_twice {A} n : forall m (l : list A), skipn n (skipn m l) = skipn (n + m) l.
Proof.
  intros m l. revert n. induction l as [|x l IH] in m |- *; intros n; [now rewrite !skipn_nil|].
  destruct m as [|m]; [now rewrite Nat.add_0_r|]. rewrite Nat.add_succ_r. cbn [skipn]. apply IH.
Qed.
Lemma compress_add a : forall b s l, compress (a + b) s l = compress b (compress a s l) (skipn (64 * a) l).
Proof.
  induction a as [|a IH]; intros b s l; [reflexivity|]. cbn [compress Nat.add]. rewrite IH. f_equal. rewrite skipn_twice. f_equal. lia.
Qed.
Lemma compress_more n : forall s l x, (64 * n <= length l)%nat -> compress n s (l ++ x) = compress n s l.
Proof.
  induction n as [|n IH]; intros s l x L; [reflexivity|]. cbn [compress]. rewrite firstn_app, skipn_app. replace (64 - length l)%nat with 0%nat by lia.
  rewrite firstn_O, app_nil_r. rewrite ?skipn_O. apply IH. rewrite skipn_length. lia.
Qed.
Lemma read_eq input i n : (i + n <= length input)%nat -> read input (N.of_nat i) (N.of_nat n) = Some (firstn n (skipn i input)).
Proof.
  intros L. unfold read. replace (N.of_nat i + N.of_nat n <=? N.of_nat (length input)) with true by (symmetry; apply N.leb_le; lia). now rewrite !Nat2N.id.
Qed.
Lemma Forall_skipn' {A} (P : A -> Prop) n l : Forall P l -> Forall P (skipn n l).
Proof. intros K. rewrite <- (firstn_skipn n l) in K. now apply Forall_app in K as [_ K]. Qed.
Lemma Forall_firstn' {A} (P : A -> Prop) n l : Forall P l -> Forall P (firstn n l).
Proof. intros K. rewrite <- (firstn_skipn n l) in K. now apply Forall_app in K as [K _]. Qed.
Lemma blocks_eq input len : (len <= length input)%nat -> Forall byte input -> N.of_nat len + 64 < W ->
  forall fuel i s, bounded s -> (i <= len)%nat -> (len - i < fuel)%nat ->
  exists s', blocks fuel input (N.of_nat len) (N.of_nat i) s = Some (s', N.of_nat (i + 64 * ((len - i) / 64))) /\ bounded s'
             /\ quad_of s' = compress ((len - i) / 64) (quad_of s) (skipn i input).
Proof.
  intros Ll B Lw. induction fuel as [|fuel IH]; intros i s R Li Lf; [lia|]. cbn [blocks].
  rewrite N.mod_small by (change WORD with W; lia).
  destruct (N.leb_spec (N.of_nat i + 64) (N.of_nat len)) as [K|K].
  - change 64 with (N.of_nat 64) at 1. rewrite read_eq by lia.
    destruct (transform_eq (firstn 64 (skipn i input)) s) as [E R']; [rewrite firstn_length, skipn_length; lia|now apply Forall_firstn', Forall_skipn'|assumption|].
    destruct (IH (i + 64)%nat (transform (firstn 64 (skipn i input)) s)) as [s' [Q [R'' E']]]; [assumption|lia|lia|].
    exists s'. replace (N.of_nat i + 64) with (N.of_nat (i + 64)) by lia. rewrite Q.
    assert (D : ((len - i) / 64 = S ((len - (i + 64)) / 64))%nat).
    { replace (len - i)%nat with (len - (i + 64) + 1 * 64)%nat by lia. rewrite Nat.div_add by lia. lia. }
    rewrite D. split; [do 3 f_equal; lia|]. split; [assumption|]. rewrite E', E. cbn [compress]. rewrite skipn_twice. do 2 f_equal. lia.
  - exists s. rewrite (Nat.div_small (len - i) 64) by lia. rewrite Nat.mul_0_r, Nat.add_0_r. auto.
Qed.

(** * The state after the bytes [m] *)
Record good (m : list N) (st : md5) : Prop := Good {
  g_state : quad_of (state st) = compress (length m / 64) start m;
  g_bounded : bounded (state st);
  g_low : count0 st = 8 * N.of_nat (length m) mod W;
  g_high : count1 st = (8 * N.of_nat (length m) / W) mod W;
  g_buffer : length (buffer st) = 64%nat;
  g_tail : firstn (length m mod 64) (buffer st) = skipn (64 * (length m / 64)) m }.
Lemma low_index n : (8 * n mod W / 8) mod 64 = n mod 64.
Proof.
  change W with (8 * (64 * 2 ^ 23)). rewrite N.mul_mod_distr_l by discriminate. rewrite (N.mul_comm 8), N.div_mul by discriminate.
  rewrite N.mod_mul_r by discriminate. rewrite (N.mul_comm 64), N.mod_add by discriminate. now rewrite N.mod_mod by discriminate.
Qed.
Lemma counts a n c0 c1 bits : n < W -> c0 = 8 * a mod W -> c1 = (8 * a / W) mod W -> bits = N.shiftl n 3 mod WORD ->
  add32 c0 bits = 8 * (a + n) mod W
  /\ add32 (if add32 c0 bits <? bits then add32 c1 1 else c1) (N.shiftr n 29) = (8 * (a + n) / W) mod W.
Proof.
  intros L E0 E1 Eb. rewrite N.shiftl_mul_pow2 in Eb. rewrite N.shiftr_div_pow2. rewrite !add32_eq. change (2 ^ 3) with 8 in Eb. change (2 ^ 29) with (W / 8). change WORD with W in Eb.
  assert (A := N.div_mod' (8 * a) W). assert (A2 := N.mod_lt (8 * a) W ltac:(discriminate)). rewrite <- E0 in *. set (qa := 8 * a / W) in *.
  assert (Q : bits = 8 * (n mod (W / 8)) /\ n / (W / 8) < 8).
  { split; [rewrite Eb; change W with (8 * (W / 8)) at 1; rewrite (N.mul_comm n), N.mul_mod_distr_l by discriminate; reflexivity|apply N.div_lt_upper_bound; [discriminate|exact L]]. }
  destruct Q as [Q1 Q2]. assert (Q3 := N.div_mod' n (W / 8)). assert (Q4 := N.mod_lt n (W / 8) ltac:(discriminate)). set (qn := n / (W / 8)) in *. set (rn := n mod (W / 8)) in *.
  change (W / 8) with 536870912 in *. clear Eb.
  assert (S : 8 * (a + n) = W * (qa + qn) + (c0 + bits)) by (change W with 4294967296 in *; lia).
  assert (M : (c0 + bits) mod W = if c0 + bits <? W then c0 + bits else c0 + bits - W).
  { destruct (N.ltb_spec (c0 + bits) W) as [K|K]; [now apply N.mod_small|]. symmetry. apply (N.mod_unique _ _ 1); change W with 4294967296 in *; lia. }
  assert (D : (c0 + bits) / W = if c0 + bits <? W then 0 else 1).
  { destruct (N.ltb_spec (c0 + bits) W) as [K|K]; [now apply N.div_small|]. symmetry. apply (N.div_unique _ _ _ (c0 + bits - W)); change W with 4294967296 in *; lia. }
  rewrite S. split.
  - rewrite (N.add_comm (W * _)), (N.mul_comm W), N.mod_add by discriminate. reflexivity.
  - rewrite (N.add_comm (W * _)), (N.mul_comm W), N.div_add by discriminate. rewrite D.
    assert (C : ((c0 + bits) mod W <? bits) = negb (c0 + bits <? W)).
    { rewrite M. destruct (N.ltb_spec (c0 + bits) W) as [K|K]; cbn [negb]; [apply N.ltb_ge; lia|apply N.ltb_lt; change W with 4294967296 in *; lia]. }
    rewrite C. destruct (c0 + bits <? W); cbn [negb]; rewrite E1.
    + now rewrite N.add_mod_idemp_l by discriminate.
    + rewrite N.add_mod_idemp_l by discriminate. rewrite <- N.add_assoc, N.add_mod_idemp_l by discriminate. f_equal. lia.
Qed.
Lemma update_good m st input len : good m st -> Forall byte m -> Forall byte input -> (len <= length input)%nat -> N.of_nat len + 64 < W ->
  exists st', update st input (N.of_nat len) = Some st' /\ good (m ++ firstn len input) st' /\ finalized st' = finalized st.
Proof.
  intros [G1 G2 G3 G4 G5 G6] Bm Bi Ll Lw.
  assert (Ix : (count0 st / 8) mod 64 = N.of_nat (length m mod 64)) by (rewrite G3, low_index; change 64 with (N.of_nat 64); now rewrite <- Nat2N.inj_mod).
  destruct (counts (N.of_nat (length m)) (N.of_nat len) (count0 st) (count1 st) _ ltac:(lia) G3 G4 eq_refl) as [C0 C1].
  assert (LM : length (m ++ firstn len input) = (length m + len)%nat) by (rewrite app_length, firstn_length; lia).
  assert (Dm := Nat.div_mod (length m) 64 ltac:(lia)). assert (Lr := Nat.mod_upper_bound (length m) 64 ltac:(lia)).
  set (k := (length m / 64)%nat) in *. set (r := (length m mod 64)%nat) in *.
  unfold update. rewrite Ix, C1, C0. replace (64 - N.of_nat r) with (N.of_nat (64 - r)) by lia.
  destruct (N.leb_spec (N.of_nat (64 - r)) (N.of_nat len)) as [K|K].
  - change 0 with (N.of_nat 0) at 1. rewrite read_eq by lia. rewrite ?skipn_O. rewrite Nat2N.id.
    assert (Wb : write_at (buffer st) r (firstn (64 - r) input) = skipn (64 * k) m ++ firstn (64 - r) input).
    { unfold write_at. rewrite G6, firstn_length_le by lia. rewrite (skipn_all2 (buffer st)) by lia. now rewrite app_nil_r. }
    rewrite Wb. set (b := skipn (64 * k) m ++ firstn (64 - r) input) in *.
    assert (Lb : length b = 64%nat) by (unfold b; rewrite app_length, skipn_length, firstn_length; lia).
    destruct (transform_eq b (state st) Lb) as [E R]; [apply Forall_app; split; [now apply Forall_skipn'|now apply Forall_firstn']|assumption|].
    destruct (blocks_eq input len Ll Bi Lw (S (length input)) (64 - r) (transform b (state st)) R) as [s' [Q [R' E']]]; [lia|lia|].
    rewrite Q. set (j := ((len - (64 - r)) / 64)%nat) in *.
    assert (Dj := Nat.div_mod (len - (64 - r)) 64 ltac:(lia)). fold j in Dj. assert (Lj := Nat.mod_upper_bound (len - (64 - r)) 64 ltac:(lia)).
    set (i := (64 - r + 64 * j)%nat) in *. replace (N.of_nat len - N.of_nat i) with (N.of_nat (len - i)) by lia. rewrite read_eq by lia.
    eexists. split; [reflexivity|]. split; [|reflexivity].
    assert (DM : ((length m + len) / 64 = k + S j)%nat) by (symmetry; apply (Nat.div_unique _ _ _ (len - i)); lia).
    assert (RM : ((length m + len) mod 64 = len - i)%nat) by (symmetry; apply (Nat.mod_unique _ _ (k + S j)); lia).
    constructor; cbn [state count0 count1 buffer]; rewrite ?LM, ?DM, ?RM.
    + rewrite E', E, G1. rewrite compress_add. rewrite compress_more by lia. cbn [compress].
      rewrite skipn_app. replace (64 * k - length m)%nat with 0%nat by lia. rewrite ?skipn_O.
      assert (F1 : firstn 64 (skipn (64 * k) m ++ firstn len input) = b).
      { rewrite firstn_app, skipn_length. rewrite (firstn_all2 (n := 64)) by (rewrite skipn_length; lia). rewrite firstn_firstn. unfold b. do 2 f_equal. lia. }
      rewrite F1. rewrite skipn_app, skipn_length, (skipn_all2 (n := 64)) by (rewrite skipn_length; lia). cbn [app].
      rewrite <- (firstn_skipn len input) at 1. rewrite skipn_app. rewrite (firstn_length_le input) by lia. replace (64 - r - len)%nat with 0%nat by lia. rewrite ?skipn_O.
      rewrite compress_more by (rewrite skipn_length, firstn_length; lia). do 2 f_equal. lia.
    + assumption.
    + f_equal. lia.
    + do 2 f_equal. lia.
    + unfold write_at. rewrite firstn_O, !app_length, !skipn_length, !firstn_length, !skipn_length. cbn [length]. lia.
    + unfold write_at. rewrite firstn_O. cbn [app]. rewrite firstn_app, firstn_firstn, firstn_length, skipn_length. replace (Nat.min (len - i) (length input - i)) with (len - i)%nat by lia.
      rewrite Nat.sub_diag, firstn_O, app_nil_r, Nat.min_id.
      rewrite skipn_app, (skipn_all2 m) by lia. cbn [app]. rewrite skipn_firstn_comm. replace (64 * (k + S j) - length m)%nat with i by lia. reflexivity.
  - change 0 with (N.of_nat 0) at 1. rewrite read_eq by lia. rewrite ?skipn_O. rewrite Nat2N.id.
    eexists. split; [reflexivity|]. split; [|reflexivity].
    assert (DM : ((length m + len) / 64 = k)%nat) by (symmetry; apply (Nat.div_unique _ _ _ (r + len)); lia).
    assert (RM : ((length m + len) mod 64 = r + len)%nat) by (symmetry; apply (Nat.mod_unique _ _ k); lia).
    constructor; cbn [state count0 count1 buffer]; rewrite ?LM, ?DM, ?RM.
    + rewrite compress_more by lia. assumption.
    + assumption.
    + f_equal. lia.
    + do 2 f_equal. lia.
    + unfold write_at. rewrite !app_length, skipn_length, !firstn_length. lia.
    + unfold write_at. rewrite G6. rewrite app_assoc, firstn_app. rewrite app_length, skipn_length, firstn_length.
      replace (r + len - _)%nat with 0%nat by lia. rewrite firstn_O, app_nil_r.
      rewrite firstn_all2 by (rewrite app_length, skipn_length, firstn_length; lia). rewrite skipn_app. replace (64 * k - length m)%nat with 0%nat by lia. reflexivity.
Qed.

(** * The padding *)
Lemma bytes_app a : forall b x, bytes_of (a + b) x = bytes_of a x ++ bytes_of b (x / 256 ^ N.of_nat a).
Proof.
  induction a as [|a IH]; intros b x; [cbn [bytes_of app Nat.add]; now rewrite N.div_1_r|]. cbn [Nat.add bytes_of app]. rewrite IH.
  rewrite N.div_div by (try apply N.pow_nonzero; discriminate). rewrite Nat2N.inj_succ, N.pow_succ_r'. reflexivity.
Qed.
Lemma bytes_mod a : forall x, bytes_of a (x mod 256 ^ N.of_nat a) = bytes_of a x.
Proof.
  induction a as [|a IH]; intros x; [reflexivity|]. cbn [bytes_of]. rewrite Nat2N.inj_succ, N.pow_succ_r'.
  assert (P : 256 ^ N.of_nat a <> 0) by (apply N.pow_nonzero; discriminate). rewrite N.mod_mul_r by (try assumption; discriminate).
  rewrite (N.mul_comm 256 (_ mod _)), N.mod_add, N.div_add by discriminate. rewrite N.mod_mod by discriminate.
  rewrite (N.div_small (x mod 256)) by (apply N.mod_lt; discriminate). now rewrite N.add_0_l, IH.
Qed.
Lemma length_bytes_of n : forall x, length (bytes_of n x) = n.
Proof. induction n as [|n IH]; intros x; cbn [bytes_of length]; [reflexivity|now rewrite IH]. Qed.
Lemma bytes_byte n : forall x, Forall byte (bytes_of n x).
Proof. induction n as [|n IH]; intros x; cbn [bytes_of]; constructor; [apply N.mod_lt; discriminate|apply IH]. Qed.
Lemma counts_bytes x : encode [x mod W; (x / W) mod W] = bytes_of 8 x.
Proof.
  rewrite encode_eq. cbn [flat_map]. rewrite app_nil_r. change (bytes_of 8 x) with (bytes_of (4 + 4) x). rewrite (bytes_app 4 4 x). change (256 ^ N.of_nat 4) with W. change W with (256 ^ N.of_nat 4) at 1 3. now rewrite !bytes_mod.
Qed.
Lemma repeat_byte n : Forall byte (repeat 0 n).
Proof. induction n; constructor; [reflexivity|assumption]. Qed.
Lemma firstn_repeat {A} (x : A) n : forall k, (n <= k)%nat -> firstn n (repeat x k) = repeat x n.
Proof. induction n as [|n IH]; intros [|k] L; try reflexivity; [lia|]. cbn [repeat firstn]. f_equal. apply IH. lia. Qed.
Lemma pad_length m : (length (pad m) mod 64 = 0)%nat.
Proof.
  unfold pad. rewrite !app_length, repeat_length, length_bytes_of. cbn [length].
  assert (Dm := Nat.div_mod (length m) 64 ltac:(lia)). assert (Lr := Nat.mod_upper_bound (length m) 64 ltac:(lia)). set (k := (length m / 64)%nat) in *. set (r := (length m mod 64)%nat) in *.
  destruct (Nat.lt_ge_cases r 56) as [K|K].
  - replace ((119 - r) mod 64)%nat with (55 - r)%nat by (apply (Nat.mod_unique _ _ 1); lia). symmetry. apply (Nat.mod_unique _ _ (k + 1)); lia.
  - rewrite (Nat.mod_small (119 - r)) by lia. symmetry. apply (Nat.mod_unique _ _ (k + 2)); lia.
Qed.
Lemma finalize_eq m st : good m st -> Forall byte m -> finalized st = false ->
  exists st', finalize st = Some st' /\ finalized st' = true /\ digest st' = rfc_digest m.
Proof.
  intros G Bm Fn. unfold finalize. rewrite Fn. rewrite (g_low _ _ G), (g_high _ _ G), counts_bytes, low_index.
  replace (N.of_nat (length m) mod 64) with (N.of_nat (length m mod 64)) by (now rewrite Nat2N.inj_mod).
  assert (Lr := Nat.mod_upper_bound (length m) 64 ltac:(lia)). set (r := (length m mod 64)%nat) in *.
  set (z := ((119 - r) mod 64)%nat).
  assert (Z : (if N.of_nat r <? 56 then 56 - N.of_nat r else 120 - N.of_nat r) = N.of_nat (S z) /\ (z < 64)%nat).
  { unfold z. split; [|apply Nat.mod_upper_bound; lia]. destruct (N.ltb_spec (N.of_nat r) 56) as [K|K].
    - replace ((119 - r) mod 64)%nat with (55 - r)%nat by (apply (Nat.mod_unique _ _ 1); lia). lia.
    - rewrite (Nat.mod_small (119 - r)) by lia. lia. }
  destruct Z as [Z Lz]. rewrite Z.
  assert (B0 : Forall byte PADDING) by (constructor; [reflexivity|apply repeat_byte]).
  destruct (update_good m st PADDING (S z) G Bm B0) as [s1 [Q1 [G1 _]]]; [cbn [PADDING length]; rewrite repeat_length; lia|change W with 4294967296; lia|].
  rewrite Q1. change 8 with (N.of_nat 8) at 2.
  assert (B1 : Forall byte (m ++ firstn (S z) PADDING)) by (apply Forall_app; split; [assumption|now apply Forall_firstn']).
  destruct (update_good _ s1 (bytes_of 8 (8 * N.of_nat (length m))) 8 G1 B1 (bytes_byte _ _)) as [s2 [Q2 [G2 _]]]; [now rewrite length_bytes_of|reflexivity|].
  rewrite Q2. eexists. split; [reflexivity|]. split; [reflexivity|]. cbn [digest].
  assert (P : (m ++ firstn (S z) PADDING) ++ firstn 8 (bytes_of 8 (8 * N.of_nat (length m))) = pad m).
  { unfold pad. fold r z. rewrite <- app_assoc. f_equal. unfold PADDING. rewrite firstn_cons, firstn_repeat by lia. cbn [app]. do 2 f_equal. }
  rewrite P in G2. unfold rfc_digest. rewrite <- (g_state _ _ G2). unfold quad_of. rewrite encode_eq. unfold words. cbn [flat_map]. now rewrite app_nil_r.
Qed.
Lemma hex_digit_eq n : n < 16 -> hex_digit n = nth (N.to_nat n) (map N_of_ascii (list_ascii_of_string "0123456789abcdef")) 0.
Proof.
  intros L. replace n with (N.of_nat (N.to_nat n)) by lia. rewrite Nat2N.id. assert (K : (N.to_nat n < 16)%nat) by lia. clear L. revert K. generalize (N.to_nat n). intros k K.
  do 16 (destruct k as [|k]; [reflexivity|]). lia.
Qed.
Lemma hex_eq st : finalized st = true -> Forall byte (digest st) -> hexdigest st = hex (digest st).
Proof.
  intros K B. unfold hexdigest. rewrite K. unfold hex. induction B as [|b l B Bs IH]; [reflexivity|]. cbn [flat_map]. rewrite IH. unfold byte in B.
  rewrite !hex_digit_eq; [reflexivity|apply N.mod_lt; discriminate|apply N.div_lt_upper_bound; [discriminate|exact B]].
Qed.
Lemma digest_byte m : Forall byte (rfc_digest m).
Proof.
  unfold rfc_digest. destruct (compress _ _ _) as [[[a b] c] d]. rewrite !Forall_app. repeat split; apply bytes_byte.
Qed.
Lemma init_good garbage d : length garbage = 64%nat -> good [] (init garbage d).
Proof. intros L. now constructor. Qed.

(** * C59 *)
(** The digest of a text given in pieces: init, update for each of them, finalize, hexdigest. *)
Fixpoint updates (st : md5) (pieces : list (list N)) : option md5 :=
  match pieces with
  | [] => Some st
  | p :: r => match update st p (N.of_nat (length p)) with Some st' => updates st' r | None => None end
  end.
Definition digest_of (garbage d : list N) (pieces : list (list N)) : option (list N) :=
  match updates (init garbage d) pieces with Some st => option_map hexdigest (finalize st) | None => None end.
Definition short (p : list N) : Prop := N.of_nat (length p) + 64 < W.
Lemma finish m st : good m st -> Forall byte m -> finalized st = false -> option_map hexdigest (finalize st) = Some (hex (rfc_digest m)).
Proof.
  intros G B F. destruct (finalize_eq m st G B F) as [st' [Q [F' D]]]. rewrite Q. cbn [option_map]. rewrite hex_eq, D; [reflexivity|assumption|]. rewrite D. apply digest_byte.
Qed.
Lemma updates_good pieces : forall m st, good m st -> Forall byte m -> finalized st = false -> Forall (Forall byte) pieces -> Forall short pieces ->
  exists st', updates st pieces = Some st' /\ good (m ++ concat pieces) st' /\ finalized st' = false.
Proof.
  induction pieces as [|p r IH]; intros m st G B F Bp Sp; cbn [updates concat]; [exists st; rewrite app_nil_r; auto|].
  inversion_clear Bp as [|? ? B1 B2]. inversion_clear Sp as [|? ? S1 S2].
  destruct (update_good m st p (length p) G B B1 (le_n _) S1) as [st1 [Q [G1 F1]]]. rewrite Q. rewrite firstn_all in G1. rewrite app_assoc. apply IH; try assumption.
  - now apply Forall_app.
  - now rewrite F1.
Qed.
Lemma concat_byte pieces : Forall (Forall byte) pieces -> Forall byte (concat pieces).
Proof. induction 1; cbn [concat]; [constructor|now apply Forall_app]. Qed.
Theorem C59_digest garbage d pieces : length garbage = 64%nat -> Forall (Forall byte) pieces -> Forall short pieces ->
  digest_of garbage d pieces = Some (hex (rfc_digest (concat pieces))).
Proof.
  intros L B S. unfold digest_of. destruct (updates_good pieces [] (init garbage d) (init_good _ _ L) (Forall_nil _) eq_refl B S) as [st [Q [G F]]]. rewrite Q. apply finish; try assumption. now apply concat_byte.
Qed.
Print Assumptions C59_digest.

(** The function md5 and the constructor: the length is an unsigned int, only that many bytes count. *)
Theorem C59_truncated garbage text n : length garbage = 64%nat -> Forall byte text -> N.of_nat n = N.of_nat (length text) mod W -> N.of_nat n + 64 < W ->
  md5_of garbage text = Some (hex (rfc_digest (firstn n text))).
Proof.
  intros L B E S. unfold md5_of. change WORD with W. rewrite <- E.
  assert (Ln : (n <= length text)%nat) by (assert (K := N.mod_le (N.of_nat (length text)) W ltac:(discriminate)); lia).
  destruct (update_good [] (init garbage []) text n (init_good _ _ L) (Forall_nil _) B Ln S) as [st [Q [G F]]]. rewrite Q. apply finish; [assumption|now apply Forall_firstn'|assumption].
Qed.
Print Assumptions C59_truncated.
Theorem C59_text garbage text : length garbage = 64%nat -> Forall byte text -> short text -> md5_of garbage text = Some (hex (rfc_digest text)).
Proof.
  intros L B S. assert (E : N.of_nat (length text) = N.of_nat (length text) mod W) by (unfold short in S; rewrite N.mod_small; [reflexivity|lia]).
  rewrite (C59_truncated garbage text (length text) L B E S). now rewrite firstn_all.
Qed.
Print Assumptions C59_text.
(** All texts of 2^32 bytes have the digest of the empty text. *)
Theorem C59_long_refuted garbage text : length garbage = 64%nat -> Forall byte text -> N.of_nat (length text) = W ->
  md5_of garbage text = Some (hex (rfc_digest [])).
Proof. intros L B E. rewrite (C59_truncated garbage text 0 L B); [reflexivity|rewrite E; reflexivity|reflexivity]. Qed.
Print Assumptions C59_long_refuted.
(** With the 64 greatest lengths the index wraps around and the block after the end of the text is read. *)
Lemma to_wrap input len n : forall i s, N.of_nat (i + 64 * n) + 64 <= W -> (i + 64 * n <= len)%nat -> (len <= length input)%nat ->
  exists s', forall fuel, blocks (n + fuel) input (N.of_nat len) (N.of_nat i) s = blocks fuel input (N.of_nat len) (N.of_nat (i + 64 * n)) s'.
Proof.
  induction n as [|n IH]; intros i s Lw Li Ll; [exists s; intros fuel; now rewrite Nat.mul_0_r, Nat.add_0_r|].
  destruct (IH (i + 64)%nat (transform (firstn 64 (skipn i input)) s)) as [s' Q]; [lia|lia|assumption|]. exists s'. intros fuel. cbn [Nat.add blocks].
  rewrite N.mod_small by (change WORD with W; lia). replace (N.of_nat i + 64 <=? N.of_nat len) with true by (symmetry; apply N.leb_le; lia).
  change 64 with (N.of_nat 64) at 1. rewrite read_eq by lia. replace (N.of_nat i + 64) with (N.of_nat (i + 64)) by lia. rewrite Q. do 2 f_equal. lia.
Qed.
Theorem C59_wrap_refuted garbage text : length garbage = 64%nat -> Forall byte text -> W <= N.of_nat (length text) + 64 -> N.of_nat (length text) < W ->
  md5_of garbage text = None
  /\ read text (W - 64) 64 = None
  /\ exists n s, (n < length text)%nat
     /\ forall fuel, blocks (n + fuel) text (N.of_nat (length text)) 64 (transform (firstn 64 text) (state (init garbage []))) = blocks fuel text (N.of_nat (length text)) (W - 64) s.
Proof.
  intros L B L1 L2.
  assert (R : read text (W - 64) 64 = None) by (unfold read; replace (W - 64 + 64 <=? _) with false by (symmetry; apply N.leb_gt; change W with 4294967296 in *; lia); reflexivity).
  assert (E : exists n, N.of_nat (64 + 64 * n) = W - 64 /\ (n < length text)%nat) by (exists (N.to_nat (W / 64 - 2)); change (W / 64) with 67108864; change W with 4294967296 in *; lia).
  destruct E as [n [En Ln]].
  destruct (to_wrap text (length text) n 64 (transform (firstn 64 text) (state (init garbage [])))) as [s Q]; [change W with 4294967296 in *; lia|change W with 4294967296 in *; lia|lia|].
  rewrite En in Q. split; [|split; [exact R|exists n, s; split; [exact Ln|exact Q]]].
  unfold md5_of. change WORD with W. rewrite N.mod_small by assumption. unfold update. cbn [init count0 count1 buffer state].
  change ((0 / 8) mod 64) with 0. change (64 - 0) with 64. replace (64 <=? N.of_nat (length text)) with true by (symmetry; apply N.leb_le; change W with 4294967296 in *; lia).
  change 0 with (N.of_nat 0) at 1. change 64 with (N.of_nat 64) at 1. rewrite read_eq by (change W with 4294967296 in *; lia). rewrite skipn_O.
  replace (write_at garbage (N.to_nat 0) (firstn 64 text)) with (firstn 64 text).
  2:{ unfold write_at. change (N.to_nat 0) with 0%nat. rewrite firstn_O, (skipn_all2 garbage), app_nil_r; [reflexivity|]. rewrite firstn_length. change W with 4294967296 in *. lia. }
  replace (S (length text)) with (n + S (length text - n))%nat by lia. cbn [init state] in Q. rewrite Q. cbn [blocks].
  replace ((W - 64 + 64) mod WORD) with 0 by reflexivity. cbn [N.leb]. replace (0 <=? N.of_nat (length text)) with true by (symmetry; apply N.leb_le; lia). now rewrite R.
Qed.
Print Assumptions C59_wrap_refuted.

(** Cases. *)
Definition text_of (s : string) : list N := map N_of_ascii (list_ascii_of_string s).
Definition ex_garbage : list N := repeat 170 64.
Definition rfc_suite : list (string * string) :=
  [(""%string, "d41d8cd98f00b204e9800998ecf8427e"%string); ("a"%string, "0cc175b9c0f1b6a831c399e269772661"%string);
   ("abc"%string, "900150983cd24fb0d6963f7d28e17f72"%string); ("message digest"%string, "f96b697d7cb7938d525a2f31aaf161d0"%string);
   ("abcdefghijklmnopqrstuvwxyz"%string, "c3fcd3d76192e4007dfb496cca67e13b"%string);
   ("ABCDEFGHIJKLMNOPQRSTUVWXYZabcdefghijklmnopqrstuvwxyz0123456789"%string, "d174ab98d277d9f5a5611c2c9f419d9f"%string);
   ("12345678901234567890123456789012345678901234567890123456789012345678901234567890"%string, "57edf4a22be3c955ac49da2e2107b67a"%string)].
Example ex_suite_code : Forall (fun c => md5_of ex_garbage (text_of (fst c)) = Some (text_of (snd c))) rfc_suite.
Proof. unfold rfc_suite. repeat (apply Forall_cons; [vm_compute; reflexivity|]). apply Forall_nil. Qed.
Example ex_suite_spec : Forall (fun c => hex (rfc_digest (text_of (fst c))) = text_of (snd c)) rfc_suite.
Proof. unfold rfc_suite. repeat (apply Forall_cons; [vm_compute; reflexivity|]). apply Forall_nil. Qed.
Example ex_pieces : digest_of ex_garbage [] [text_of "12345678901234567890123456789012345678901234567890"; []; text_of "12345678901234567890123456789"; text_of "0"]
  = Some (text_of "57edf4a22be3c955ac49da2e2107b67a").
Proof. vm_compute. reflexivity. Qed.
Example ex_pieces_met : length ex_garbage = 64%nat /\ Forall (Forall byte) [text_of "message "; []; text_of "digest"] /\ Forall short [text_of "message "; []; text_of "digest"].
Proof. split; [reflexivity|]. split; repeat constructor. Qed.
Lemma repeat_a n : Forall byte (repeat 97 n).
Proof. induction n; constructor; [reflexivity|assumption]. Qed.
Example ex_long_met : Forall byte (repeat 97 (N.to_nat W)) /\ N.of_nat (length (repeat 97 (N.to_nat W))) = W.
Proof. split; [apply repeat_a|rewrite repeat_length; apply N2Nat.id]. Qed.
Example ex_wrap_met : let t := repeat 97 (N.to_nat (W - 1)) in Forall byte t /\ W <= N.of_nat (length t) + 64 /\ N.of_nat (length t) < W.
Proof.
  cbv zeta. rewrite repeat_length, N2Nat.id. split; [apply repeat_a|]. split; [discriminate|reflexivity].
Qed.

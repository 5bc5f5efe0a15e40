(** C91: what the encoders and decoders of tiniconv do, and what EncodingConverter makes of a
    text. *)
From Coq Require Import String Ascii.
From Coq Require Import List ZArith Bool Lia.
From Verif Require Import M_Charsets M_Tiniconv.
Import ListNotations.
Local Open Scope Z_scope.

(* ------------------------------------------------------------------ *)
(** * The one-byte sets *)

Fixpoint zrange (lo : Z) (n : nat) : list Z :=
  match n with O => [] | S n' => lo :: zrange (lo + 1) n' end.
Lemma in_zrange n : forall lo x, lo <= x < lo + Z.of_nat n -> In x (zrange lo n).
Proof.
  induction n as [|n IH]; intros lo x H; [lia|]. cbn [zrange].
  destruct (Z.eq_dec lo x) as [->|]; [now left|right; apply IH; lia].
Qed.

Definition good_byte (cs : charset) (c : Z) : bool :=
  match mbtowc cs c with
  | Value v => (0 <=? v) && (v <? 0x10000) && match wctomb cs v with Value c' => c' =? c | _ => false end
  | Refused => true
  | Beyond => false
  end.
Definition good_char (cs : charset) (wc : Z) : bool :=
  match wctomb cs wc with
  | Value c => (0 <=? c) && (c <? 256) && match mbtowc cs c with Value v => v =? wc | _ => false end
  | Refused => true
  | Beyond => false
  end.
Definition check_set (cs : charset) : bool :=
  forallb (good_byte cs) (zrange 0 256) && forallb (good_char cs) (zrange 0 (Z.to_nat (cs_direct cs)))
  && forallb (fun e : Z * Z * ekind => forallb (good_char cs) (zrange (fst (fst e)) (Z.to_nat (snd (fst e) - fst (fst e))))) (cs_enc cs)
  && forallb (fun c => match mbtowc cs c with Value v => v =? c | _ => false end) (zrange 0 128).

Lemma encode_out l wc : (forall e, In e l -> ~ (fst (fst e) <= wc < snd (fst e))) -> encode_in l wc = Value 0.
Proof.
  induction l as [|[[lo hi] k] l IH]; intros H; cbn [encode_in]; [reflexivity|].
  pose proof (H _ (or_introl eq_refl)) as Q. cbn [fst snd] in Q.
  destruct (Z.leb_spec lo wc), (Z.ltb_spec wc hi); cbn [andb]; try (exfalso; lia);
    (apply IH; intros e He; apply H; now right).
Qed.

Lemma check_sets : forallb (fun p : Z * charset => check_set (snd p)) one_byte_sets = true.
Proof. vm_compute. reflexivity. Qed.

Lemma set_checked id cs : In (id, cs) one_byte_sets -> check_set cs = true.
Proof. intros H. exact (proj1 (forallb_forall _ _) check_sets _ H). Qed.

Lemma good_char_all id cs wc : In (id, cs) one_byte_sets -> 0 <= wc -> good_char cs wc = true.
Proof.
  intros H Hw. apply set_checked in H. unfold check_set in H.
  apply andb_prop in H as [H _]. apply andb_prop in H as [H H3]. apply andb_prop in H as [_ H2].
  destruct (Z.ltb_spec wc (cs_direct cs)) as [L|L].
  - apply (proj1 (forallb_forall _ _) H2). apply in_zrange. lia.
  - destruct (existsb (fun e : Z * Z * ekind => (fst (fst e) <=? wc) && (wc <? snd (fst e))) (cs_enc cs)) eqn:E.
    + apply existsb_exists in E as ([[lo hi] k] & Hin & E). cbn [fst snd] in E.
      apply andb_prop in E as [E1 E2]. apply Z.leb_le in E1. apply Z.ltb_lt in E2.
      pose proof (proj1 (forallb_forall _ _) H3 _ Hin) as Q. cbn [fst snd] in Q.
      apply (proj1 (forallb_forall _ _) Q). apply in_zrange. lia.
    + unfold good_char, wctomb. destruct (Z.ltb_spec wc (cs_direct cs)); [lia|].
      rewrite encode_out; [reflexivity|]. intros e He R.
      assert (X : existsb (fun e : Z * Z * ekind => (fst (fst e) <=? wc) && (wc <? snd (fst e))) (cs_enc cs) = true).
      { apply existsb_exists. exists e. split; [exact He|]. apply andb_true_intro. split; [apply Z.leb_le|apply Z.ltb_lt]; lia. }
      congruence.
Qed.

(** A byte that a set reads as a character is what the set writes for that character, a
    character that a set writes as a byte is what it reads from that byte, the lower half is
    ASCII, and no table is read beyond its end. *)
Theorem C91_sets : forall id cs, In (id, cs) one_byte_sets ->
  (forall c, 0 <= c < 256 -> mbtowc cs c <> Beyond
     /\ forall v, mbtowc cs c = Value v -> 0 <= v < 0x10000 /\ wctomb cs v = Value c)
  /\ (forall wc, 0 <= wc -> wctomb cs wc <> Beyond
     /\ forall c, wctomb cs wc = Value c -> 0 <= c < 256 /\ mbtowc cs c = Value wc)
  /\ (forall c, 0 <= c < 128 -> mbtowc cs c = Value c).
Proof.
  intros id cs H. split; [|split].
  - intros c Hc. pose proof (set_checked id cs H) as Q. unfold check_set in Q.
    apply andb_prop in Q as [Q _]. apply andb_prop in Q as [Q _]. apply andb_prop in Q as [Q _].
    pose proof (proj1 (forallb_forall _ _) Q c (in_zrange 256 0 c ltac:(lia))) as G. unfold good_byte in G.
    destruct (mbtowc cs c) as [v| |]; [|split; [discriminate|intros v; discriminate]|discriminate G].
    split; [discriminate|]. intros v0 E. injection E as <-. apply andb_prop in G as [G1 G2].
    apply andb_prop in G1 as [G1 G3]. apply Z.leb_le in G1. apply Z.ltb_lt in G3. split; [lia|]. destruct (wctomb cs v) as [c'| |]; try discriminate G2. apply Z.eqb_eq in G2. now subst.
  - intros wc Hw. pose proof (good_char_all id cs wc H Hw) as G. unfold good_char in G.
    destruct (wctomb cs wc) as [c| |]; [|split; [discriminate|intros v; discriminate]|discriminate G].
    split; [discriminate|]. intros c0 E. injection E as <-. apply andb_prop in G as [G1 G2].
    apply andb_prop in G1 as [G1 G3]. apply Z.leb_le in G1. apply Z.ltb_lt in G3. split; [lia|].
    destruct (mbtowc cs c) as [v| |]; try discriminate G2. apply Z.eqb_eq in G2. now subst.
  - intros c Hc. pose proof (set_checked id cs H) as Q. unfold check_set in Q. apply andb_prop in Q as [_ Q].
    pose proof (proj1 (forallb_forall _ _) Q c (in_zrange 128 0 c ltac:(lia))) as G. cbv beta in G.
    destruct (mbtowc cs c) as [v| |]; try discriminate G. apply Z.eqb_eq in G. now subst.
Qed.
Print Assumptions C91_sets.

(** The letter "a with ogonek": 0xb1 in ISO-8859-2, 0xb9 in windows-1250, 0x105 in Unicode. *)
Example C91_sets_case :
  mbtowc iso8859_2 0xb1 = Value 0x105 /\ mbtowc cp1250 0xb9 = Value 0x105
  /\ wctomb iso8859_2 0x105 = Value 0xb1 /\ wctomb cp1250 0x105 = Value 0xb9
  /\ mbtowc cp1250 0x81 = Refused /\ wctomb cp1250 0x410 = Refused.
Proof. vm_compute. repeat split. Qed.

(* ------------------------------------------------------------------ *)
(** * UTF-8 *)

(** The definition: [k] trailing bytes with six bits each, the most significant ones first; the
    rest is in the leading byte. *)
Fixpoint trailing (k : nat) (wc : Z) : list Z :=
  match k with O => [] | S k' => trailing k' (wc / 64) ++ [128 + wc mod 64] end.
Definition utf8 (wc : Z) : list Z :=
  if wc <? 0x80 then [wc]
  else if wc <? 0x800 then (0xc0 + wc / 2 ^ 6) :: trailing 1 wc
  else if wc <? 0x10000 then (0xe0 + wc / 2 ^ 12) :: trailing 2 wc
  else if wc <? 0x200000 then (0xf0 + wc / 2 ^ 18) :: trailing 3 wc
  else if wc <? 0x4000000 then (0xf8 + wc / 2 ^ 24) :: trailing 4 wc
  else (0xfc + wc / 2 ^ 30) :: trailing 5 wc.

Lemma lor_add a b n : 0 <= n -> 0 <= b < 2 ^ n -> Z.lor (a * 2 ^ n) b = a * 2 ^ n + b.
Proof.
  intros Hn Hb. rewrite <- Z.lxor_lor; [rewrite <- Z.add_nocarry_lxor; [reflexivity|]|];
    (apply Z.bits_inj'; intros m Hm; rewrite Z.land_spec, Z.bits_0;
     destruct (Z.ltb_spec m n) as [L|L];
     [rewrite Z.mul_pow2_bits_low by lia; reflexivity
     |replace (Z.testbit b m) with false; [now rewrite andb_false_r|
        symmetry; rewrite <- (Z.mod_small b (2 ^ n)) by lia; apply Z.mod_pow2_bits_high; lia]]).
Qed.
Lemma lor_shift a b n : 0 <= n -> 0 <= b < 2 ^ n -> Z.lor (Z.shiftl a n) b = a * 2 ^ n + b.
Proof. intros Hn Hb. rewrite Z.shiftl_mul_pow2 by lia. now apply lor_add. Qed.
Lemma lor_flag x m n : 0 <= n -> 0 <= x < 2 ^ n -> Z.lor x (m * 2 ^ n) = x + m * 2 ^ n.
Proof. intros Hn H. rewrite Z.lor_comm, lor_add by assumption. lia. Qed.

Lemma trail_byte x : Z.lor 0x80 (Z.land x 0x3f) = 128 + x mod 64.
Proof.
  change 0x3f with (Z.ones 6). rewrite Z.land_ones by lia. change 0x80 with (2 * 2 ^ 6).
  rewrite lor_add; [reflexivity|lia|]. apply Z.mod_pos_bound. reflexivity.
Qed.
Lemma shift6 x : Z.shiftr x 6 = x / 64.
Proof. rewrite Z.shiftr_div_pow2 by lia. reflexivity. Qed.
Lemma low_byte x : 0 <= x < 256 -> Z.land x 255 = x.
Proof. intros H. change 255 with (Z.ones 8). rewrite Z.land_ones by lia. apply Z.mod_small. lia. Qed.

(** One case of the switch. *)
Lemma put_step wc m n : 0 <= n -> 0 <= wc -> wc / 64 < 2 ^ n ->
  Z.lor (Z.shiftr wc 6) (m * 2 ^ n) = wc / 64 + m * 2 ^ n.
Proof. intros Hn H L. rewrite shift6. apply lor_flag; [lia|]. split; [apply Z.div_pos; lia|exact L]. Qed.

Ltac pows := change (2 ^ 6) with 64 in *; change (2 ^ 11) with 2048 in *; change (2 ^ 12) with 4096 in *;
  change (2 ^ 16) with 65536 in *; change (2 ^ 18) with 262144 in *; change (2 ^ 21) with 2097152 in *;
  change (2 ^ 24) with 16777216 in *; change (2 ^ 26) with 67108864 in *; change (2 ^ 30) with 1073741824 in *;
  change (2 ^ 31) with 2147483648 in *.
Ltac divs := pows; Z.div_mod_to_equations; lia.

Lemma utf8_put_ok wc count : 0 <= wc -> utf8_count wc = Some count ->
  utf8_put utf8_cases count wc [] = utf8 wc /\ length (utf8 wc) = count /\ wc < 2 ^ 31.
Proof.
  intros H E. unfold utf8_count in E. unfold utf8.
  destruct (Z.ltb_spec wc 0x80) as [L|L].
  { injection E as <-. cbn [utf8_put utf8_cases Nat.leb length]. rewrite low_byte by lia. repeat split. lia. }
  destruct (Z.ltb_spec wc 0x800) as [L2|L2].
  { injection E as <-. cbn [utf8_put utf8_cases Nat.leb length trailing app].
    rewrite trail_byte. change 0xc0 with (3 * 2 ^ 6) at 1. rewrite (put_step wc 3 6) by divs.
    rewrite low_byte by divs. repeat split; [|lia]. f_equal. change (2 ^ 6) with 64. lia. }
  destruct (Z.ltb_spec wc 0x10000) as [L3|L3].
  { injection E as <-. cbn [utf8_put utf8_cases Nat.leb length trailing app].
    rewrite !trail_byte. change 0x800 with (1 * 2 ^ 11). rewrite (put_step wc 1 11) by divs.
    change 0xc0 with (3 * 2 ^ 6) at 1. rewrite (put_step _ 3 6) by divs.
    rewrite low_byte by divs. repeat split; [|lia]. f_equal; [divs|]. f_equal. divs. }
  destruct (Z.ltb_spec wc 0x200000) as [L4|L4].
  { injection E as <-. cbn [utf8_put utf8_cases Nat.leb length trailing app].
    rewrite !trail_byte. change 0x10000 with (1 * 2 ^ 16). rewrite (put_step wc 1 16) by divs.
    change 0x800 with (1 * 2 ^ 11). rewrite (put_step _ 1 11) by divs.
    change 0xc0 with (3 * 2 ^ 6) at 1. rewrite (put_step _ 3 6) by divs.
    rewrite low_byte by divs. repeat split; [|lia]. f_equal; [divs|]. f_equal; [divs|]. f_equal. divs. }
  destruct (Z.ltb_spec wc 0x4000000) as [L5|L5].
  { injection E as <-. cbn [utf8_put utf8_cases Nat.leb length trailing app].
    rewrite !trail_byte. change 0x200000 with (1 * 2 ^ 21). rewrite (put_step wc 1 21) by divs.
    change 0x10000 with (1 * 2 ^ 16). rewrite (put_step _ 1 16) by divs.
    change 0x800 with (1 * 2 ^ 11). rewrite (put_step _ 1 11) by divs.
    change 0xc0 with (3 * 2 ^ 6) at 1. rewrite (put_step _ 3 6) by divs.
    rewrite low_byte by divs. repeat split; [|lia]. f_equal; [divs|]. f_equal; [divs|]. f_equal; [divs|]. f_equal. divs. }
  destruct (Z.leb_spec wc 0x7fffffff) as [L6|L6]; [|discriminate E].
  injection E as <-. cbn [utf8_put utf8_cases Nat.leb length trailing app].
  rewrite !trail_byte. change 0x4000000 with (1 * 2 ^ 26). rewrite (put_step wc 1 26) by divs.
  change 0x200000 with (1 * 2 ^ 21). rewrite (put_step _ 1 21) by divs.
  change 0x10000 with (1 * 2 ^ 16). rewrite (put_step _ 1 16) by divs.
  change 0x800 with (1 * 2 ^ 11). rewrite (put_step _ 1 11) by divs.
  change 0xc0 with (3 * 2 ^ 6) at 1. rewrite (put_step _ 3 6) by divs.
  rewrite low_byte by divs. repeat split; [|lia]. f_equal; [divs|]. f_equal; [divs|]. f_equal; [divs|]. f_equal; [divs|]. f_equal. divs.
Qed.

Lemma count_some wc : 0 <= wc < 2 ^ 31 -> exists count, utf8_count wc = Some count.
Proof.
  intros H. unfold utf8_count.
  repeat match goal with |- context [if ?b then _ else _] => destruct b eqn:?; [now eexists|] end.
  exfalso. match goal with H1 : (wc <=? 0x7fffffff) = false |- _ => apply Z.leb_gt in H1 end. lia.
Qed.
Lemma count_none wc : 2 ^ 31 <= wc -> utf8_count wc = None.
Proof.
  intros H. unfold utf8_count.
  repeat match goal with |- context [if ?b then _ else _] => destruct b eqn:Q; [apply Z.ltb_lt in Q || apply Z.leb_le in Q; lia|clear Q] end.
  reflexivity.
Qed.

(** A character below 2^31 is written as the definition says if there is room for it, and
    nothing is written if there is not; the others are refused. *)
Theorem C91_utf8_write : forall wc n, 0 <= wc ->
  utf8_wctomb wc n = if 2 ^ 31 <=? wc then EIlun else if (n <? length (utf8 wc))%nat then ESmall else EOk (utf8 wc).
Proof.
  intros wc n H. unfold utf8_wctomb. destruct (Z.leb_spec (2 ^ 31) wc) as [L|L].
  - now rewrite count_none.
  - destruct (count_some wc) as [count E]; [lia|]. rewrite E. destruct (utf8_put_ok wc count H E) as (E1 & E2 & _).
    rewrite E1, E2. reflexivity.
Qed.
Print Assumptions C91_utf8_write.

Definition byte (b : Z) : Prop := 0 <= b < 256.
Lemma tr_byte_all : forallb (fun b => Bool.eqb (ok b) ((128 <=? b) && (b <? 192)) && (negb (ok b) || (tr b =? b - 128))) (zrange 0 256) = true.
Proof. vm_compute. reflexivity. Qed.
Lemma ok_byte b : byte b -> ok b = true -> tr b = b - 128 /\ 128 <= b < 192.
Proof.
  intros H E. pose proof (proj1 (forallb_forall _ _) tr_byte_all b (in_zrange 256 0 b H)) as Q. cbv beta in Q.
  apply andb_prop in Q as [Q1 Q2]. rewrite E in Q1, Q2. cbn [negb orb] in Q2. apply Z.eqb_eq in Q2.
  apply eqb_prop in Q1. symmetry in Q1. apply andb_prop in Q1 as [A B]. apply Z.leb_le in A. apply Z.ltb_lt in B. lia.
Qed.
Lemma ok_trail b : 128 <= b < 192 -> ok b = true.
Proof.
  intros H. pose proof (proj1 (forallb_forall _ _) tr_byte_all b (in_zrange 256 0 b ltac:(lia))) as Q. cbv beta in Q.
  apply andb_prop in Q as [Q1 _]. apply eqb_prop in Q1. rewrite Q1. apply andb_true_intro. split; [apply Z.leb_le|apply Z.ltb_lt]; lia.
Qed.
Lemma mask c n : 0 <= n -> Z.land c (Z.ones n) = c mod 2 ^ n.
Proof. intros. now apply Z.land_ones. Qed.

Lemma join2 a b : 0 <= b < 64 -> Z.lor (Z.shiftl a 6) b = a * 64 + b.
Proof. intros H. now rewrite lor_shift. Qed.
Lemma join3 a b c : 0 <= b < 64 -> 0 <= c < 64 -> Z.lor (Z.lor (Z.shiftl a 12) (Z.shiftl b 6)) c = a * 4096 + b * 64 + c.
Proof.
  intros Hb Hc. rewrite <- Z.lor_assoc, join2 by assumption. rewrite lor_shift; [pows; lia|lia|]. pows. lia.
Qed.
Lemma join4 a b c d : 0 <= b < 64 -> 0 <= c < 64 -> 0 <= d < 64 ->
  Z.lor (Z.lor (Z.lor (Z.shiftl a 18) (Z.shiftl b 12)) (Z.shiftl c 6)) d = a * 262144 + b * 4096 + c * 64 + d.
Proof.
  intros Hb Hc Hd. rewrite <- 2 Z.lor_assoc, (Z.lor_assoc (Z.shiftl b 12)), join3 by assumption.
  rewrite lor_shift; [pows; lia|lia|]. pows. lia.
Qed.
Lemma join5 a b c d e : 0 <= b < 64 -> 0 <= c < 64 -> 0 <= d < 64 -> 0 <= e < 64 ->
  Z.lor (Z.lor (Z.lor (Z.lor (Z.shiftl a 24) (Z.shiftl b 18)) (Z.shiftl c 12)) (Z.shiftl d 6)) e
  = a * 16777216 + b * 262144 + c * 4096 + d * 64 + e.
Proof.
  intros Hb Hc Hd He. rewrite <- 3 Z.lor_assoc, (Z.lor_assoc (Z.shiftl c 12)), (Z.lor_assoc (Z.shiftl b 18)), (Z.lor_assoc (Z.shiftl b 18)), join4 by assumption.
  rewrite lor_shift; [pows; lia|lia|]. pows. lia.
Qed.
Lemma join6 a b c d e f : 0 <= b < 64 -> 0 <= c < 64 -> 0 <= d < 64 -> 0 <= e < 64 -> 0 <= f < 64 ->
  Z.lor (Z.lor (Z.lor (Z.lor (Z.lor (Z.shiftl a 30) (Z.shiftl b 24)) (Z.shiftl c 18)) (Z.shiftl d 12)) (Z.shiftl e 6)) f
  = a * 1073741824 + b * 16777216 + c * 262144 + d * 4096 + e * 64 + f.
Proof.
  intros Hb Hc Hd He Hf.
  replace (Z.lor (Z.lor (Z.lor (Z.lor (Z.lor (Z.shiftl a 30) (Z.shiftl b 24)) (Z.shiftl c 18)) (Z.shiftl d 12)) (Z.shiftl e 6)) f)
    with (Z.lor (Z.shiftl a 30) (Z.lor (Z.lor (Z.lor (Z.lor (Z.shiftl b 24) (Z.shiftl c 18)) (Z.shiftl d 12)) (Z.shiftl e 6)) f))
    by (rewrite !Z.lor_assoc; reflexivity).
  rewrite join5 by assumption. rewrite lor_shift; [pows; lia|lia|]. pows. lia.
Qed.

Ltac cmp := repeat match goal with |- context [?a <? ?b] =>
  let E := fresh in first [replace (a <? b) with true by (symmetry; apply Z.ltb_lt; lia) | replace (a <? b) with false by (symmetry; apply Z.ltb_ge; lia)] end.

(** What is written is read back, whatever follows. *)
Lemma utf8_read_back st wc rest : 0 <= wc < 2 ^ 31 ->
  utf8_mbtowc st (utf8 wc ++ rest) = DOk wc (length (utf8 wc)) st.
Proof.
  intros H. unfold utf8.
  destruct (Z.ltb_spec wc 0x80) as [L|L].
  { unfold utf8_mbtowc, at_. cbn [app nth length]. cmp. reflexivity. }
  destruct (Z.ltb_spec wc 0x800) as [L2|L2].
  { cbn [trailing app length]. unfold utf8_mbtowc, at_. cbn [nth length].
    set (q := wc / 2 ^ 6). set (b1 := 128 + wc mod 64).
    assert (Hq : 2 <= q < 32) by (subst q; divs). assert (B1 : 128 <= b1 < 192) by (subst b1; divs).
    cmp. cbn [Nat.ltb Nat.leb]. rewrite (ok_trail b1 B1). cbn [negb].
    destruct (ok_byte b1) as [T1 _]; [unfold byte; lia|now apply ok_trail|]. rewrite T1.
    change 0x1f with (Z.ones 5). rewrite mask by lia. rewrite join2 by lia. f_equal. subst q b1. change (2 ^ 5) with 32. divs. }
  destruct (Z.ltb_spec wc 0x10000) as [L3|L3].
  {
    cbn [trailing app length]. unfold utf8_mbtowc, at_. cbn [nth length].
    set (q := wc / 2 ^ 12). set (b1 := 128 + (wc / 64) mod 64). set (b2 := 128 + wc mod 64).
    assert (Hq : 0 <= q < 16) by (subst q; divs).
    assert (B1 : 128 <= b1 < 192) by (subst b1; divs).
    assert (B2 : 128 <= b2 < 192) by (subst b2; divs).
    assert (M : (225 <=? 224 + q) || (160 <=? b1) = true).
    { apply orb_true_iff. rewrite !Z.leb_le. destruct (Z.eq_dec q 0) as [Q|]; [right|left; lia]. subst q b1. divs. }
    change 0xe0 with 224 in *. cmp. cbn [Nat.ltb Nat.leb]. rewrite (ok_trail b1 B1). rewrite (ok_trail b2 B2).
    change 0xe1 with 225. change 0xa0 with 160. rewrite M. cbn [negb andb].
    destruct (ok_byte b1) as [T1 _]; [unfold byte; lia|now apply ok_trail|]. rewrite T1.
    destruct (ok_byte b2) as [T2 _]; [unfold byte; lia|now apply ok_trail|]. rewrite T2.
    change 0x0f with (Z.ones 4). rewrite mask by lia. rewrite join3 by lia. f_equal.
    replace ((224 + q) mod 2 ^ 4) with q by (change (2 ^ 4) with 16; clearbody q; divs).
    subst q b1 b2. divs. }
  destruct (Z.ltb_spec wc 0x200000) as [L4|L4].
  {
    cbn [trailing app length]. unfold utf8_mbtowc, at_. cbn [nth length].
    set (q := wc / 2 ^ 18). set (b1 := 128 + (wc / 64 / 64) mod 64). set (b2 := 128 + (wc / 64) mod 64). set (b3 := 128 + wc mod 64).
    assert (Hq : 0 <= q < 8) by (subst q; divs).
    assert (B1 : 128 <= b1 < 192) by (subst b1; divs).
    assert (B2 : 128 <= b2 < 192) by (subst b2; divs).
    assert (B3 : 128 <= b3 < 192) by (subst b3; divs).
    assert (M : (241 <=? 240 + q) || (144 <=? b1) = true).
    { apply orb_true_iff. rewrite !Z.leb_le. destruct (Z.eq_dec q 0) as [Q|]; [right|left; lia]. subst q b1. divs. }
    change 0xf0 with 240 in *. cmp. cbn [Nat.ltb Nat.leb]. rewrite (ok_trail b1 B1). rewrite (ok_trail b2 B2). rewrite (ok_trail b3 B3).
    change 0xf1 with 241. change 0x90 with 144. rewrite M. cbn [negb andb].
    destruct (ok_byte b1) as [T1 _]; [unfold byte; lia|now apply ok_trail|]. rewrite T1.
    destruct (ok_byte b2) as [T2 _]; [unfold byte; lia|now apply ok_trail|]. rewrite T2.
    destruct (ok_byte b3) as [T3 _]; [unfold byte; lia|now apply ok_trail|]. rewrite T3.
    change 0x07 with (Z.ones 3). rewrite mask by lia. rewrite join4 by lia. f_equal.
    replace ((240 + q) mod 2 ^ 3) with q by (change (2 ^ 3) with 8; clearbody q; divs).
    subst q b1 b2 b3. divs. }
  destruct (Z.ltb_spec wc 0x4000000) as [L5|L5].
  {
    cbn [trailing app length]. unfold utf8_mbtowc, at_. cbn [nth length].
    set (q := wc / 2 ^ 24). set (b1 := 128 + (wc / 64 / 64 / 64) mod 64). set (b2 := 128 + (wc / 64 / 64) mod 64). set (b3 := 128 + (wc / 64) mod 64). set (b4 := 128 + wc mod 64).
    assert (Hq : 0 <= q < 4) by (subst q; divs).
    assert (B1 : 128 <= b1 < 192) by (subst b1; divs).
    assert (B2 : 128 <= b2 < 192) by (subst b2; divs).
    assert (B3 : 128 <= b3 < 192) by (subst b3; divs).
    assert (B4 : 128 <= b4 < 192) by (subst b4; divs).
    assert (M : (249 <=? 248 + q) || (136 <=? b1) = true).
    { apply orb_true_iff. rewrite !Z.leb_le. destruct (Z.eq_dec q 0) as [Q|]; [right|left; lia]. subst q b1. divs. }
    change 0xf8 with 248 in *. cmp. cbn [Nat.ltb Nat.leb]. rewrite (ok_trail b1 B1). rewrite (ok_trail b2 B2). rewrite (ok_trail b3 B3). rewrite (ok_trail b4 B4).
    change 0xf9 with 249. change 0x88 with 136. rewrite M. cbn [negb andb].
    destruct (ok_byte b1) as [T1 _]; [unfold byte; lia|now apply ok_trail|]. rewrite T1.
    destruct (ok_byte b2) as [T2 _]; [unfold byte; lia|now apply ok_trail|]. rewrite T2.
    destruct (ok_byte b3) as [T3 _]; [unfold byte; lia|now apply ok_trail|]. rewrite T3.
    destruct (ok_byte b4) as [T4 _]; [unfold byte; lia|now apply ok_trail|]. rewrite T4.
    change 0x03 with (Z.ones 2). rewrite mask by lia. rewrite join5 by lia. f_equal.
    replace ((248 + q) mod 2 ^ 2) with q by (change (2 ^ 2) with 4; clearbody q; divs).
    subst q b1 b2 b3 b4. divs. }
    cbn [trailing app length]. unfold utf8_mbtowc, at_. cbn [nth length].
    set (q := wc / 2 ^ 30). set (b1 := 128 + (wc / 64 / 64 / 64 / 64) mod 64). set (b2 := 128 + (wc / 64 / 64 / 64) mod 64). set (b3 := 128 + (wc / 64 / 64) mod 64). set (b4 := 128 + (wc / 64) mod 64). set (b5 := 128 + wc mod 64).
    assert (Hq : 0 <= q < 2) by (subst q; divs).
    assert (B1 : 128 <= b1 < 192) by (subst b1; divs).
    assert (B2 : 128 <= b2 < 192) by (subst b2; divs).
    assert (B3 : 128 <= b3 < 192) by (subst b3; divs).
    assert (B4 : 128 <= b4 < 192) by (subst b4; divs).
    assert (B5 : 128 <= b5 < 192) by (subst b5; divs).
    assert (M : (253 <=? 252 + q) || (132 <=? b1) = true).
    { apply orb_true_iff. rewrite !Z.leb_le. destruct (Z.eq_dec q 0) as [Q|]; [right|left; lia]. subst q b1. divs. }
    change 0xfc with 252 in *. cmp. cbn [Nat.ltb Nat.leb]. rewrite (ok_trail b1 B1). rewrite (ok_trail b2 B2). rewrite (ok_trail b3 B3). rewrite (ok_trail b4 B4). rewrite (ok_trail b5 B5).
    change 0xfd with 253. change 0x84 with 132. rewrite M. cbn [negb andb].
    destruct (ok_byte b1) as [T1 _]; [unfold byte; lia|now apply ok_trail|]. rewrite T1.
    destruct (ok_byte b2) as [T2 _]; [unfold byte; lia|now apply ok_trail|]. rewrite T2.
    destruct (ok_byte b3) as [T3 _]; [unfold byte; lia|now apply ok_trail|]. rewrite T3.
    destruct (ok_byte b4) as [T4 _]; [unfold byte; lia|now apply ok_trail|]. rewrite T4.
    destruct (ok_byte b5) as [T5 _]; [unfold byte; lia|now apply ok_trail|]. rewrite T5.
    change 0x01 with (Z.ones 1). rewrite mask by lia. rewrite join6 by lia. f_equal.
    replace ((252 + q) mod 2 ^ 1) with q by (change (2 ^ 1) with 2; clearbody q; divs).
    subst q b1 b2 b3 b4 b5. divs. 
Qed.
(** What is read is what the definition writes. *)
Lemma utf8_read st s wc k st1 : Forall byte s -> s <> [] -> utf8_mbtowc st s = DOk wc k st1 ->
  st1 = st /\ 0 <= wc < 2 ^ 31 /\ (k <= length s)%nat /\ firstn k s = utf8 wc.
Proof.
  intros Hs Hne E. destruct s as [|c s]; [congruence|]. inversion Hs as [|? ? Hc Hs']; subst. unfold byte in Hc.
  unfold utf8_mbtowc in E. change (at_ (c :: s) 0) with c in E.
  destruct (Z.ltb_spec c 0x80) as [L|L].
  { injection E as <- <- <-. split; [reflexivity|]. split; [pows; lia|]. split; [cbn [length]; lia|].
    cbn [firstn]. unfold utf8. cmp. reflexivity. }
  destruct (Z.ltb_spec c 0xc2) as [L1|L1]; [discriminate E|].
  destruct (Z.ltb_spec c 0xe0) as [C2|C2].
  {
    destruct (Nat.ltb_spec (length (c :: s)) 2) as [N|N]; [discriminate E|]. cbn [length] in N.
    destruct s as [|b1 s]; [cbn [length] in N; lia|]. inversion Hs' as [|? ? H1 Hs1]; subst. clear Hs'. rename Hs1 into Hs'.
    unfold at_ in E. cbn [nth] in E.
    match type of E with (if negb ?b then _ else _) = _ => destruct b eqn:Q; cbn [negb] in E; [|discriminate E] end.
    rename Q into Q1.
    destruct (ok_byte b1 H1 Q1) as [T1 B1]. rewrite T1 in E. clear T1 Q1 H1.
    change 0x1f with (Z.ones 5) in E. rewrite mask in E by lia. rewrite join2 in E by lia.
    replace (c mod 2 ^ 5) with (c - 192) in E by (change (2 ^ 5) with 32; divs).
    injection E as E1 E2 E3. subst k st1. split; [reflexivity|].
    assert (R : 128 <= wc < 2048) by lia.
    split; [pows; lia|]. split; [cbn [length]; lia|].
    cbn [firstn]. unfold utf8. cmp. cbn [trailing app].
    assert (D : wc / 2 ^ 6 = c - 192) by (clear N; divs).
    rewrite D. clear D. f_equal; [lia|].
    f_equal. clear N; divs. }
  destruct (Z.ltb_spec c 0xf0) as [C3|C3].
  {
    destruct (Nat.ltb_spec (length (c :: s)) 3) as [N|N]; [discriminate E|]. cbn [length] in N.
    destruct s as [|b1 s]; [cbn [length] in N; lia|]. inversion Hs' as [|? ? H1 Hs1]; subst. clear Hs'. rename Hs1 into Hs'.
    destruct s as [|b2 s]; [cbn [length] in N; lia|]. inversion Hs' as [|? ? H2 Hs2]; subst. clear Hs'. rename Hs2 into Hs'.
    unfold at_ in E. cbn [nth] in E.
    match type of E with (if negb ?b then _ else _) = _ => destruct b eqn:Q; cbn [negb] in E; [|discriminate E] end.
    apply andb_prop in Q as [Q M].
    apply andb_prop in Q as [Q Q2].
    rename Q into Q1. apply orb_true_iff in M. rewrite !Z.leb_le in M.
    destruct (ok_byte b1 H1 Q1) as [T1 B1]. rewrite T1 in E. clear T1 Q1 H1.
    destruct (ok_byte b2 H2 Q2) as [T2 B2]. rewrite T2 in E. clear T2 Q2 H2.
    change 0x0f with (Z.ones 4) in E. rewrite mask in E by lia. rewrite join3 in E by lia.
    replace (c mod 2 ^ 4) with (c - 224) in E by (change (2 ^ 4) with 16; divs).
    injection E as E1 E2 E3. subst k st1. split; [reflexivity|].
    assert (R : 2048 <= wc < 65536) by lia.
    split; [pows; lia|]. split; [cbn [length]; lia|].
    cbn [firstn]. unfold utf8. cmp. cbn [trailing app].
    assert (D : wc / 2 ^ 12 = c - 224) by (clear N M; divs).
    rewrite D. clear D. f_equal; [lia|].
    f_equal; [clear N M; divs|].
    f_equal. clear N M; divs. }
  destruct (Z.ltb_spec c 0xf8) as [C4|C4].
  {
    destruct (Nat.ltb_spec (length (c :: s)) 4) as [N|N]; [discriminate E|]. cbn [length] in N.
    destruct s as [|b1 s]; [cbn [length] in N; lia|]. inversion Hs' as [|? ? H1 Hs1]; subst. clear Hs'. rename Hs1 into Hs'.
    destruct s as [|b2 s]; [cbn [length] in N; lia|]. inversion Hs' as [|? ? H2 Hs2]; subst. clear Hs'. rename Hs2 into Hs'.
    destruct s as [|b3 s]; [cbn [length] in N; lia|]. inversion Hs' as [|? ? H3 Hs3]; subst. clear Hs'. rename Hs3 into Hs'.
    unfold at_ in E. cbn [nth] in E.
    match type of E with (if negb ?b then _ else _) = _ => destruct b eqn:Q; cbn [negb] in E; [|discriminate E] end.
    apply andb_prop in Q as [Q M].
    apply andb_prop in Q as [Q Q3].
    apply andb_prop in Q as [Q Q2].
    rename Q into Q1. apply orb_true_iff in M. rewrite !Z.leb_le in M.
    destruct (ok_byte b1 H1 Q1) as [T1 B1]. rewrite T1 in E. clear T1 Q1 H1.
    destruct (ok_byte b2 H2 Q2) as [T2 B2]. rewrite T2 in E. clear T2 Q2 H2.
    destruct (ok_byte b3 H3 Q3) as [T3 B3]. rewrite T3 in E. clear T3 Q3 H3.
    change 0x07 with (Z.ones 3) in E. rewrite mask in E by lia. rewrite join4 in E by lia.
    replace (c mod 2 ^ 3) with (c - 240) in E by (change (2 ^ 3) with 8; divs).
    injection E as E1 E2 E3. subst k st1. split; [reflexivity|].
    assert (R : 65536 <= wc < 2097152) by lia.
    split; [pows; lia|]. split; [cbn [length]; lia|].
    cbn [firstn]. unfold utf8. cmp. cbn [trailing app].
    assert (D : wc / 2 ^ 18 = c - 240) by (clear N M; divs).
    rewrite D. clear D. f_equal; [lia|].
    f_equal; [clear N M; divs|].
    f_equal; [clear N M; divs|].
    f_equal. clear N M; divs. }
  destruct (Z.ltb_spec c 0xfc) as [C5|C5].
  {
    destruct (Nat.ltb_spec (length (c :: s)) 5) as [N|N]; [discriminate E|]. cbn [length] in N.
    destruct s as [|b1 s]; [cbn [length] in N; lia|]. inversion Hs' as [|? ? H1 Hs1]; subst. clear Hs'. rename Hs1 into Hs'.
    destruct s as [|b2 s]; [cbn [length] in N; lia|]. inversion Hs' as [|? ? H2 Hs2]; subst. clear Hs'. rename Hs2 into Hs'.
    destruct s as [|b3 s]; [cbn [length] in N; lia|]. inversion Hs' as [|? ? H3 Hs3]; subst. clear Hs'. rename Hs3 into Hs'.
    destruct s as [|b4 s]; [cbn [length] in N; lia|]. inversion Hs' as [|? ? H4 Hs4]; subst. clear Hs'. rename Hs4 into Hs'.
    unfold at_ in E. cbn [nth] in E.
    match type of E with (if negb ?b then _ else _) = _ => destruct b eqn:Q; cbn [negb] in E; [|discriminate E] end.
    apply andb_prop in Q as [Q M].
    apply andb_prop in Q as [Q Q4].
    apply andb_prop in Q as [Q Q3].
    apply andb_prop in Q as [Q Q2].
    rename Q into Q1. apply orb_true_iff in M. rewrite !Z.leb_le in M.
    destruct (ok_byte b1 H1 Q1) as [T1 B1]. rewrite T1 in E. clear T1 Q1 H1.
    destruct (ok_byte b2 H2 Q2) as [T2 B2]. rewrite T2 in E. clear T2 Q2 H2.
    destruct (ok_byte b3 H3 Q3) as [T3 B3]. rewrite T3 in E. clear T3 Q3 H3.
    destruct (ok_byte b4 H4 Q4) as [T4 B4]. rewrite T4 in E. clear T4 Q4 H4.
    change 0x03 with (Z.ones 2) in E. rewrite mask in E by lia. rewrite join5 in E by lia.
    replace (c mod 2 ^ 2) with (c - 248) in E by (change (2 ^ 2) with 4; divs).
    injection E as E1 E2 E3. subst k st1. split; [reflexivity|].
    assert (R : 2097152 <= wc < 67108864) by lia.
    split; [pows; lia|]. split; [cbn [length]; lia|].
    cbn [firstn]. unfold utf8. cmp. cbn [trailing app].
    assert (D : wc / 2 ^ 24 = c - 248) by (clear N M; divs).
    rewrite D. clear D. f_equal; [lia|].
    f_equal; [clear N M; divs|].
    f_equal; [clear N M; divs|].
    f_equal; [clear N M; divs|].
    f_equal. clear N M; divs. }
  destruct (Z.ltb_spec c 0xfe) as [C6|C6]; [|discriminate E].
    destruct (Nat.ltb_spec (length (c :: s)) 6) as [N|N]; [discriminate E|]. cbn [length] in N.
    destruct s as [|b1 s]; [cbn [length] in N; lia|]. inversion Hs' as [|? ? H1 Hs1]; subst. clear Hs'. rename Hs1 into Hs'.
    destruct s as [|b2 s]; [cbn [length] in N; lia|]. inversion Hs' as [|? ? H2 Hs2]; subst. clear Hs'. rename Hs2 into Hs'.
    destruct s as [|b3 s]; [cbn [length] in N; lia|]. inversion Hs' as [|? ? H3 Hs3]; subst. clear Hs'. rename Hs3 into Hs'.
    destruct s as [|b4 s]; [cbn [length] in N; lia|]. inversion Hs' as [|? ? H4 Hs4]; subst. clear Hs'. rename Hs4 into Hs'.
    destruct s as [|b5 s]; [cbn [length] in N; lia|]. inversion Hs' as [|? ? H5 Hs5]; subst. clear Hs'. rename Hs5 into Hs'.
    unfold at_ in E. cbn [nth] in E.
    match type of E with (if negb ?b then _ else _) = _ => destruct b eqn:Q; cbn [negb] in E; [|discriminate E] end.
    apply andb_prop in Q as [Q M].
    apply andb_prop in Q as [Q Q5].
    apply andb_prop in Q as [Q Q4].
    apply andb_prop in Q as [Q Q3].
    apply andb_prop in Q as [Q Q2].
    rename Q into Q1. apply orb_true_iff in M. rewrite !Z.leb_le in M.
    destruct (ok_byte b1 H1 Q1) as [T1 B1]. rewrite T1 in E. clear T1 Q1 H1.
    destruct (ok_byte b2 H2 Q2) as [T2 B2]. rewrite T2 in E. clear T2 Q2 H2.
    destruct (ok_byte b3 H3 Q3) as [T3 B3]. rewrite T3 in E. clear T3 Q3 H3.
    destruct (ok_byte b4 H4 Q4) as [T4 B4]. rewrite T4 in E. clear T4 Q4 H4.
    destruct (ok_byte b5 H5 Q5) as [T5 B5]. rewrite T5 in E. clear T5 Q5 H5.
    change 0x01 with (Z.ones 1) in E. rewrite mask in E by lia. rewrite join6 in E by lia.
    replace (c mod 2 ^ 1) with (c - 252) in E by (change (2 ^ 1) with 2; divs).
    injection E as E1 E2 E3. subst k st1. split; [reflexivity|].
    assert (R : 67108864 <= wc < 2147483648) by lia.
    split; [pows; lia|]. split; [cbn [length]; lia|].
    cbn [firstn]. unfold utf8. cmp. cbn [trailing app].
    assert (D : wc / 2 ^ 30 = c - 252) by (clear N M; divs).
    rewrite D. clear D. f_equal; [lia|].
    f_equal; [clear N M; divs|].
    f_equal; [clear N M; divs|].
    f_equal; [clear N M; divs|].
    f_equal; [clear N M; divs|].
    f_equal. clear N M; divs.
Qed.

(** A decoder answer with a character is exactly the shortest form of a character below 2^31
    at the front of the input. *)
Theorem C91_utf8_read : forall st s wc k st1, Forall byte s -> s <> [] ->
  utf8_mbtowc st s = DOk wc k st1
  <-> st1 = st /\ 0 <= wc < 2 ^ 31 /\ k = length (utf8 wc) /\ firstn k s = utf8 wc.
Proof.
  intros st s wc k st1 Hs Hne. split.
  - intros E. destruct (utf8_read st s wc k st1 Hs Hne E) as (A & B & C & D). split; [exact A|]. split; [exact B|].
    split; [|exact D]. rewrite <- D, firstn_length. lia.
  - intros (-> & B & -> & D). pose proof (utf8_read_back st wc (skipn (length (utf8 wc)) s) B) as Q.
    rewrite <- D in Q at 1. rewrite firstn_skipn in Q. exact Q.
Qed.
Print Assumptions C91_utf8_read.

Lemma few_bytes st c s :
  (0xc2 <= c < 0xe0 /\ (length s < 1)%nat) \/ (0xe0 <= c < 0xf0 /\ (length s < 2)%nat)
  \/ (0xf0 <= c < 0xf8 /\ (length s < 3)%nat) \/ (0xf8 <= c < 0xfc /\ (length s < 4)%nat)
  \/ (0xfc <= c < 0xfe /\ (length s < 5)%nat) -> utf8_mbtowc st (c :: s) = DFew 0 st.
Proof.
  intros H. unfold utf8_mbtowc. change (at_ (c :: s) 0) with c. cbn [length].
  destruct H as [[H N]|[[H N]|[[H N]|[[H N]|[H N]]]]]; cmp;
    (match goal with |- context [Nat.ltb ?a ?b] => replace (Nat.ltb a b) with true by (symmetry; apply Nat.ltb_lt; lia) end; reflexivity).
Qed.

(** A character that is cut off is not taken for a wrong one: more bytes are asked for. *)
Theorem C91_utf8_cut : forall st wc j, 0 <= wc < 2 ^ 31 -> (0 < j < length (utf8 wc))%nat ->
  utf8_mbtowc st (firstn j (utf8 wc)) = DFew 0 st.
Proof.
  intros st wc j H Hj. destruct j as [|j]; [lia|]. revert Hj. unfold utf8.
  destruct (Z.ltb_spec wc 0x80) as [L|L]; [cbn [length]; lia|].
  destruct (Z.ltb_spec wc 0x800) as [L2|L2].
  { cbn [trailing app length firstn]. intros Hj. apply few_bytes. left. split; [divs|]. rewrite firstn_length. cbn [length]. lia. }
  destruct (Z.ltb_spec wc 0x10000) as [L3|L3].
  { cbn [trailing app length firstn]. intros Hj. apply few_bytes. right; left. split; [divs|]. rewrite firstn_length. cbn [length]. lia. }
  destruct (Z.ltb_spec wc 0x200000) as [L4|L4].
  { cbn [trailing app length firstn]. intros Hj. apply few_bytes. do 2 right; left. split; [divs|]. rewrite firstn_length. cbn [length]. lia. }
  destruct (Z.ltb_spec wc 0x4000000) as [L5|L5].
  { cbn [trailing app length firstn]. intros Hj. apply few_bytes. do 3 right; left. split; [divs|]. rewrite firstn_length. cbn [length]. lia. }
  cbn [trailing app length firstn]. intros Hj. apply few_bytes. do 4 right. split; [divs|]. rewrite firstn_length. cbn [length]. lia.
Qed.
Print Assumptions C91_utf8_cut.

(** Halves of surrogate pairs and numbers above 0x10ffff are read and written like the others. *)
Theorem C91_utf8_unicode_refuted :
  utf8_mbtowc 0 [0xed; 0xa0; 0x80] = DOk 0xd800 3 0 /\ utf8_mbtowc 0 [0xf4; 0x90; 0x80; 0x80] = DOk 0x110000 4 0
  /\ utf8_wctomb 0xd800 3 = EOk [0xed; 0xa0; 0x80].
Proof. vm_compute. repeat split. Qed.
Print Assumptions C91_utf8_unicode_refuted.

(** The euro sign; an overlong form of it; the letter "a with ogonek" cut in half. *)
Example C91_utf8_case :
  utf8 0x20ac = [0xe2; 0x82; 0xac] /\ utf8_mbtowc 0 [0xe2; 0x82; 0xac; 65] = DOk 0x20ac 3 0
  /\ utf8_mbtowc 0 [0xf0; 0x82; 0x82; 0xac] = DIlseq /\ utf8_mbtowc 0 (firstn 1 (utf8 0x105)) = DFew 0 0
  /\ utf8 0x7fffffff = [0xfd; 0xbf; 0xbf; 0xbf; 0xbf; 0xbf].
Proof. vm_compute. repeat split. Qed.

(* ------------------------------------------------------------------ *)
(** * UCS-2 *)

(** What is written is read back, except for the byte order mark, which is read over. *)
Theorem C91_ucs2 : forall wc n e rest, 0 <= wc -> ucs2_wctomb wc n = EOk e ->
  e = [wc / 256; wc mod 256] /\ Forall byte e
  /\ (wc <> 0xfeff -> ucs2_mbtowc 0 (e ++ rest) = DOk wc 2 0)
  /\ (wc = 0xfeff -> ucs2_mbtowc 0 (e ++ rest) = ucs2_loop 0 rest 2).
Proof.
  intros wc n e rest H E. unfold ucs2_wctomb in E.
  destruct (Z.ltb_spec wc 0x10000) as [L|L]; [|discriminate E]. cbn [andb] in E.
  destruct (Z.eqb_spec wc 0xfffe) as [W|W]; [discriminate E|]. cbn [negb andb] in E.
  destruct ((0xd800 <=? wc) && (wc <? 0xe000)) eqn:Sg; [discriminate E|]. cbn [negb] in E.
  destruct (2 <=? n)%nat; [|discriminate E]. injection E as <-.
  change 255 with (Z.ones 8). rewrite !Z.land_ones by lia. rewrite Z.shiftr_div_pow2 by lia. change (2 ^ 8) with 256.
  rewrite (Z.mod_small (wc / 256)) by divs. split; [reflexivity|].
  split; [repeat constructor; unfold byte; divs|].
  unfold ucs2_mbtowc. cbn [app ucs2_loop Z.eqb]. rewrite Z.shiftl_mul_pow2 by lia. change (2 ^ 8) with 256.
  replace (wc / 256 * 256 + wc mod 256) with wc by divs. cbv zeta.
  split; intros F.
  - destruct (Z.eqb_spec wc 0xfeff); [contradiction|]. destruct (Z.eqb_spec wc 0xfffe); [contradiction|]. rewrite Sg. reflexivity.
  - subst wc. reflexivity.
Qed.
Print Assumptions C91_ucs2.
(** A text in the other byte order, with a mark in front: the letter A; the mark counts. *)
Example C91_ucs2_case : ucs2_mbtowc 0 [0xff; 0xfe; 0x41; 0x00] = DOk 0x41 4 1
  /\ ucs2_mbtowc 1 [0x42; 0x00] = DOk 0x42 2 1 /\ ucs2_wctomb 0x105 2 = EOk [0x01; 0x05] /\ ucs2_wctomb 0xd801 2 = EIlun.
Proof. vm_compute. repeat split. Qed.

(** The two bytes of a character, the high one first in order 0, the low one first in order 1. *)
Definition two_bytes (order wc : Z) : list Z := if order =? 0 then [wc / 256; wc mod 256] else [wc mod 256; wc / 256].
(** A character is read in the order that holds; a mark in that order is read over, and a mark in the other order turns
    the order from there on. *)
Theorem C91_ucs2_marks : forall order wc rest, order = 0 \/ order = 1 -> 0 <= wc < 0x10000 ->
  wc <> 0xfeff -> wc <> 0xfffe -> ~ (0xd800 <= wc < 0xe000) ->
  ucs2_mbtowc order (two_bytes order wc ++ rest) = DOk wc 2 order
  /\ ucs2_mbtowc order (two_bytes order 0xfeff ++ two_bytes order wc ++ rest) = DOk wc 4 order
  /\ ucs2_mbtowc order (two_bytes (1 - order) 0xfeff ++ two_bytes (1 - order) wc ++ rest) = DOk wc 4 (1 - order).
Proof.
  intros order wc rest Ho Hw N1 N2 N3.
  assert (K : forall o count, o = 0 \/ o = 1 -> ucs2_loop o (two_bytes o wc ++ rest) count = DOk wc (2 + count) o).
  { intros o count [-> | ->]; unfold two_bytes; cbn [Z.eqb app ucs2_loop]; rewrite Z.shiftl_mul_pow2 by lia; change (2 ^ 8) with 256.
    - replace (wc / 256 * 256 + wc mod 256) with wc by divs. cbv zeta.
      destruct (Z.eqb_spec wc 0xfeff); [contradiction|]. destruct (Z.eqb_spec wc 0xfffe); [contradiction|].
      destruct (Z.leb_spec 0xd800 wc); destruct (Z.ltb_spec wc 0xe000); cbn [andb]; [lia|reflexivity..].
    - replace (wc mod 256 + wc / 256 * 256) with wc by divs. cbv zeta.
      destruct (Z.eqb_spec wc 0xfeff); [contradiction|]. destruct (Z.eqb_spec wc 0xfffe); [contradiction|].
      destruct (Z.leb_spec 0xd800 wc); destruct (Z.ltb_spec wc 0xe000); cbn [andb]; [lia|reflexivity..]. }
  unfold ucs2_mbtowc. split; [exact (K order 0%nat Ho)|]. destruct Ho as [-> | ->]; split.
  - exact (K 0 2%nat (or_introl eq_refl)).
  - exact (K 1 2%nat (or_intror eq_refl)).
  - exact (K 1 2%nat (or_intror eq_refl)).
  - exact (K 0 2%nat (or_introl eq_refl)).
Qed.
Print Assumptions C91_ucs2_marks.
(** The letter "a with ogonek", low byte first, after a mark, while high bytes first were expected. *)
Example C91_ucs2_marks_case : two_bytes 1 0xfeff ++ two_bytes 1 0x105 = [0xff; 0xfe; 0x05; 0x01]
  /\ ucs2_mbtowc 0 [0xff; 0xfe; 0x05; 0x01] = DOk 0x105 4 1.
Proof. vm_compute. split; reflexivity. Qed.

(* ------------------------------------------------------------------ *)
(** * The conversion *)

(** The characters that are read from the front of [s], the number of bytes they take and the
    state after them. *)
Inductive Reads (from : codec) (ign : bool) : Z -> list Z -> list Z -> nat -> Z -> Prop :=
| R_stop st s : Reads from ign st s [] 0 st
| R_char st s wc k st1 wcs n st2 : s <> [] -> mb2wc from st s = DOk wc k st1 ->
    Reads from ign st1 (skipn k s) wcs n st2 -> Reads from ign st s (wc :: wcs) (k + n) st2
| R_shift st s k st1 wcs n st2 : s <> [] -> mb2wc from st s = DFew (S k) st1 ->
    Reads from ign st1 (skipn (S k) s) wcs n st2 -> Reads from ign st s wcs (S k + n) st2
| R_skip st s wcs n st2 : s <> [] -> ign = true -> mb2wc from st s = DIlseq ->
    Reads from ign 0 (skipn 1 s) wcs n st2 -> Reads from ign st s wcs (1 + n) st2.
(** The bytes of the characters, the room being what is left of the buffer. *)
Inductive Writes (to : codec) (o : opts) : list Z -> nat -> list Z -> Prop :=
| W_stop room : Writes to o [] room []
| W_char wc e wcs room out : (0 < room)%nat -> wc2mb to wc room = EOk e ->
    Writes to o wcs (room - length e) out -> Writes to o (wc :: wcs) room (e ++ out)
| W_other wc wcs room out : (0 < room)%nat -> ignore_out o = true -> wc2mb to wc room = EIlun ->
    Writes to o wcs (room - 1) out -> Writes to o (wc :: wcs) room (out_char o :: out).
(** Why it stops there: the code and the state that are left. *)
Inductive Ends (from to : codec) (o : opts) : Z -> list Z -> nat -> Z -> Z -> Prop :=
| E_all st room : Ends from to o st [] room CONVERT_OK st
| E_full st s : Ends from to o st s 0 CONVERT_OK st
| E_ilseq st s room : s <> [] -> (0 < room)%nat -> ignore_in o = false -> mb2wc from st s = DIlseq ->
    Ends from to o st s room IN_ILSEQ st
| E_few st s room st1 : s <> [] -> (0 < room)%nat -> mb2wc from st s = DFew 0 st1 -> Ends from to o st s room IN_TOO_SMALL st1
| E_ilun st s room wc k st1 : s <> [] -> (0 < room)%nat -> ignore_out o = false -> mb2wc from st s = DOk wc k st1 ->
    wc2mb to wc room = EIlun -> Ends from to o st s room OUT_ILSEQ st
| E_small st s room wc k st1 : s <> [] -> (0 < room)%nat -> mb2wc from st s = DOk wc k st1 ->
    wc2mb to wc room = ESmall -> Ends from to o st s room OUT_TOO_SMALL st.

(** What tiniconv.h lines 36-42 and 51-57 ask of a codec: a character takes at least one byte and
    only bytes that are there, and no more is written than there is room for. *)
Definition reads_well (c : codec) : Prop := forall st s, s <> [] ->
  match mb2wc c st s with DOk _ k _ => (1 <= k <= length s)%nat | DFew k _ => (k <= length s)%nat | DIlseq => True end.
Definition writes_well (c : codec) : Prop := forall wc room e, (0 < room)%nat -> wc2mb c wc room = EOk e -> (length e <= room)%nat.

Lemma skipn_add {A} (n m : nat) (l : list A) : skipn n (skipn m l) = skipn (m + n) l.
Proof. revert l. induction m as [|m IH]; intros l; [reflexivity|]. destruct l; [now rewrite skipn_nil|]. cbn. apply IH. Qed.

Lemma loop_spec from to o size : reads_well from -> writes_well to -> forall fuel st s read out,
  (length s <= fuel)%nat -> (length out <= size)%nat ->
  exists wcs n st1 new, let r := convert_loop fuel from to o st s read out size in
    Reads from (ignore_in o) st s wcs n st1 /\ o_out r = out ++ new /\ Writes to o wcs (size - length out) new
    /\ (length (o_out r) <= size)%nat /\ o_read r = (read + n)%nat
    /\ Ends from to o st1 (skipn n s) (size - length (o_out r)) (o_code r) (o_state r).
Proof.
  intros Hf Ht. induction fuel as [|fuel IH]; intros st s read out L Lo.
  - destruct s; [|cbn [length] in L; lia]. exists [], O, st, []. cbv zeta. cbn [convert_loop o_out o_read o_code o_state].
    split; [constructor|]. split; [now rewrite app_nil_r|]. split; [constructor|]. split; [exact Lo|]. split; [lia|]. constructor.
  - destruct s as [|b s].
    { exists [], O, st, []. cbv zeta. cbn [convert_loop o_out o_read o_code o_state].
      split; [constructor|]. split; [now rewrite app_nil_r|]. split; [constructor|]. split; [exact Lo|]. split; [lia|]. constructor. }
    cbn [convert_loop]. set (w := b :: s) in *.
    assert (Hw : w <> []) by (subst w; discriminate).
    destruct (Nat.ltb_spec (length out) size) as [R|R]; cbn [negb].
    2:{ exists [], O, st, []. cbv zeta. cbn [o_out o_read o_code o_state].
      split; [constructor|]. split; [now rewrite app_nil_r|]. split; [constructor|]. split; [exact Lo|]. split; [lia|].
      replace (size - length out)%nat with O by lia. constructor. }
    pose proof (Hf st w Hw) as Q. destruct (mb2wc from st w) as [wc k st1| |k st1] eqn:E.
    + destruct (wc2mb to wc (size - length out)) as [e| |] eqn:We.
      * assert (Hroom : (0 < size - length out)%nat) by lia. pose proof (Ht _ _ _ Hroom We) as Le.
        destruct (IH st1 (skipn k w) (read + k)%nat (out ++ e)) as (wcs & n & st2 & new & A1 & A2 & A3 & A4 & A5 & A6);
          [rewrite skipn_length; lia|rewrite app_length; lia|].
        exists (wc :: wcs), (k + n)%nat, st2, (e ++ new). cbv zeta.
        split; [eapply R_char; eassumption|]. split; [rewrite A2, app_assoc; reflexivity|].
        split; [constructor; [lia|exact We|]; rewrite app_length in A3; replace (size - length out - length e)%nat with (size - (length out + length e))%nat by lia; exact A3|].
        split; [exact A4|]. split; [rewrite A5; lia|]. rewrite <- skipn_add. exact A6.
      * destruct (ignore_out o) eqn:I.
        -- destruct (IH st1 (skipn k w) (read + k)%nat (out ++ [out_char o])) as (wcs & n & st2 & new & A1 & A2 & A3 & A4 & A5 & A6);
             [rewrite skipn_length; lia|rewrite app_length; cbn [length]; lia|].
           exists (wc :: wcs), (k + n)%nat, st2, (out_char o :: new). cbv zeta.
           split; [eapply R_char; eassumption|]. split; [rewrite A2, <- app_assoc; reflexivity|].
           split; [apply W_other; [lia|exact I|exact We|]; rewrite app_length in A3; cbn [length] in A3; replace (size - length out - 1)%nat with (size - (length out + 1))%nat by lia; exact A3|].
           split; [exact A4|]. split; [rewrite A5; lia|]. rewrite <- skipn_add. exact A6.
        -- exists [], O, st, []. cbv zeta. cbn [o_out o_read o_code o_state].
           split; [constructor|]. split; [now rewrite app_nil_r|]. split; [constructor|]. split; [exact Lo|]. split; [lia|].
           change (skipn 0 w) with w. eapply E_ilun; try eassumption. lia.
      * exists [], O, st, []. cbv zeta. cbn [o_out o_read o_code o_state].
        split; [constructor|]. split; [now rewrite app_nil_r|]. split; [constructor|]. split; [exact Lo|]. split; [lia|].
        change (skipn 0 w) with w. eapply E_small; try eassumption. lia.
    + destruct (ignore_in o) eqn:I.
      * destruct (IH 0 (skipn 1 w) (read + 1)%nat out) as (wcs & n & st2 & new & A1 & A2 & A3 & A4 & A5 & A6);
          [rewrite skipn_length; subst w; cbn [length] in *; lia|exact Lo|].
        exists wcs, (1 + n)%nat, st2, new. cbv zeta.
        split; [try rewrite I in A1; try rewrite I; apply R_skip; first [assumption | reflexivity]|]. split; [exact A2|]. split; [exact A3|]. split; [exact A4|]. split; [rewrite A5; lia|].
        rewrite <- skipn_add. exact A6.
      * exists [], O, st, []. cbv zeta. cbn [o_out o_read o_code o_state].
        split; [constructor|]. split; [now rewrite app_nil_r|]. split; [constructor|]. split; [exact Lo|]. split; [lia|].
        change (skipn 0 w) with w. apply E_ilseq; try assumption. lia.
    + destruct k as [|k].
      * exists [], O, st, []. cbv zeta. cbn [o_out o_read o_code o_state].
        split; [constructor|]. split; [now rewrite app_nil_r|]. split; [constructor|]. split; [exact Lo|]. split; [lia|].
        change (skipn 0 w) with w. apply E_few; try assumption. lia.
      * destruct (IH st1 (skipn (S k) w) (read + S k)%nat out) as (wcs & n & st2 & new & A1 & A2 & A3 & A4 & A5 & A6);
          [rewrite skipn_length; lia|exact Lo|].
        exists wcs, (S k + n)%nat, st2, new. cbv zeta.
        split; [eapply R_shift; eassumption|]. split; [exact A2|]. split; [exact A3|]. split; [exact A4|]. split; [rewrite A5; lia|].
        rewrite <- skipn_add. exact A6.
Qed.

(** The conversion writes the encodings of the characters at the front of the input, as many as
    can be read and fit, reports the bytes of exactly these, and the code says why it stopped;
    the buffer is never overrun. *)
Theorem C91_convert : forall from to o st s size, reads_well from -> writes_well to ->
  exists wcs n st1, let r := convert from to o st s size in
    Reads from (ignore_in o) st s wcs n st1 /\ Writes to o wcs size (o_out r)
    /\ (length (o_out r) <= size)%nat /\ o_read r = n
    /\ Ends from to o st1 (skipn n s) (size - length (o_out r)) (o_code r) (o_state r).
Proof.
  intros from to o st s size Hf Ht.
  destruct (loop_spec from to o size Hf Ht (length s) st s 0%nat [] (le_n _) (Nat.le_0_l _)) as (wcs & n & st1 & new & A1 & A2 & A3 & A4 & A5 & A6).
  exists wcs, n, st1. cbv zeta in *. unfold convert. cbn [app length] in A2, A3. rewrite Nat.sub_0_r in A3.
  split; [exact A1|]. split; [rewrite A2; exact A3|]. split; [exact A4|]. split; [exact A5|exact A6].
Qed.
Print Assumptions C91_convert.

Lemma ucs2_loop_len st : forall s count, (length s <= length s)%nat ->
  match ucs2_loop st s count with DOk _ k _ => (2 + count <= k <= length s + count)%nat | DFew k _ => (k <= length s + count)%nat | DIlseq => True end.
Proof.
  intros s count _. remember (length s) as n eqn:Hn. assert (L : (length s <= n)%nat) by lia. clear Hn.
  revert st s count L. induction n as [n IH] using lt_wf_ind. intros st s count L.
  destruct s as [|a [|b s]]; cbn [ucs2_loop]; [lia|lia|]. cbv zeta. cbn [length] in L.
  assert (R : forall st', match ucs2_loop st' s (2 + count) with DOk _ k _ => (2 + count <= k <= n + count)%nat | DFew k _ => (k <= n + count)%nat | DIlseq => True end).
  { intros st'. specialize (IH (n - 2)%nat ltac:(lia) st' s (2 + count)%nat ltac:(lia)).
    destruct (ucs2_loop st' s (2 + count)); [lia|exact I|lia]. }
  destruct (_ =? 0xfeff); [apply R|]. destruct (_ =? 0xfffe); [apply R|]. destruct (_ && _); [exact I|]. lia.
Qed.

Lemma utf8_reads_well : reads_well utf8_codec.
Proof.
  intros st s Hs. cbn [mb2wc utf8_codec]. destruct s as [|c s]; [congruence|]. unfold utf8_mbtowc. cbn [length].
  repeat match goal with
  | |- match (if ?a <? ?b then _ else _) with _ => _ end => destruct (a <? b)
  | |- match (if Nat.ltb ?a ?b then _ else _) with _ => _ end => destruct (Nat.ltb_spec a b)
  | |- match (if negb ?a then _ else _) with _ => _ end => destruct (negb a)
  end; try exact I; lia.
Qed.
Lemma utf8_put_length l count : forall wc acc, length (utf8_put l count wc acc)
  = (1 + length (filter (fun e : nat * Z => Nat.leb (fst e) count) l) + length acc)%nat.
Proof.
  induction l as [|[j m] l IH]; intros wc acc; cbn [utf8_put filter fst length]; [lia|].
  destruct (Nat.leb j count); rewrite IH; cbn [length]; lia.
Qed.
Lemma utf8_writes_well : writes_well utf8_codec.
Proof.
  intros wc room e Hr. cbn [wc2mb utf8_codec]. unfold utf8_wctomb. destruct (utf8_count wc) as [count|] eqn:E; [|discriminate].
  destruct (Nat.ltb_spec room count) as [L|L]; [discriminate|]. intros Q.
  pose proof (f_equal (fun r : eres => match r with EOk x => length x | _ => O end) Q) as X. cbv beta iota in X. clear Q.
  rewrite utf8_put_length in X. rewrite <- X. clear X.
  assert (C : (1 <= count <= 6)%nat).
  { unfold utf8_count in E. repeat match goal with H : (if ?b then _ else _) = _ |- _ => destruct b; [injection E as <-; lia|] end. discriminate. }
  destruct count as [|[|[|[|[|[|[|count]]]]]]]; try lia; cbn [utf8_cases filter fst Nat.leb length]; lia.
Qed.

(** The codecs that are modelled are as asked. *)
Theorem C91_codecs : forall cs, reads_well (one_byte_codec cs) /\ writes_well (one_byte_codec cs)
  /\ reads_well utf8_codec /\ writes_well utf8_codec /\ reads_well ucs2_codec /\ writes_well ucs2_codec.
Proof.
  intros cs. repeat apply conj; [| |apply utf8_reads_well|apply utf8_writes_well| |].
  - intros st s Hs. cbn [mb2wc one_byte_codec]. destruct s; [congruence|]. destruct (mbtowc cs _); [cbn [length]; lia|exact I|exact I].
  - intros wc room e Hr. cbn [wc2mb one_byte_codec]. destruct (wctomb cs wc); try discriminate. intros Q. injection Q as <-. cbn [length]. lia.
  - intros st s Hs. cbn [mb2wc ucs2_codec]. unfold ucs2_mbtowc. pose proof (ucs2_loop_len st s 0 (le_n _)) as Q.
    destruct (ucs2_loop st s 0); [lia|exact I|lia].
  - intros wc room e Hr. cbn [wc2mb ucs2_codec]. unfold ucs2_wctomb. destruct (_ && _ && _); [|discriminate].
    destruct (Nat.leb_spec 2 room); [|discriminate]. intros Q. injection Q as <-. cbn [length]. lia.
Qed.
Print Assumptions C91_codecs.

(** From ISO-8859-2 to UTF-8 with room for five bytes: the fourth letter does not fit. *)
Example C91_convert_case :
  let r := convert (one_byte_codec iso8859_2) utf8_codec plain 0 [0xb1; 65; 0xea; 0xe6; 66] 6 in
  o_code r = OUT_TOO_SMALL /\ o_read r = 3%nat /\ o_out r = [0xc4; 0x85; 65; 0xc4; 0x99].
Proof. vm_compute. repeat split. Qed.
Example C91_convert_utf8_case :
  let r := convert utf8_codec (one_byte_codec cp1250) plain 0 [0xc4; 0x85; 0xd0; 0x90; 65] 10 in
  o_code r = OUT_ILSEQ /\ o_read r = 2%nat /\ o_out r = [0xb9].
Proof. vm_compute. repeat split. Qed.
Example C91_convert_ignore_case :
  let r := convert utf8_codec (one_byte_codec cp1250) {| ignore_in := true; ignore_out := true; out_char := 63 |} 0
    [0xc4; 0x85; 0xd0; 0x90; 0xff; 65; 0xc4] 10 in
  o_code r = IN_TOO_SMALL /\ o_read r = 6%nat /\ o_out r = [0xb9; 63; 65].
Proof. vm_compute. repeat split. Qed.

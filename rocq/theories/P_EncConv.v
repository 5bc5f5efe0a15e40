(** C91, continued: EncodingConverter. *)
From Coq Require Import String Ascii.
From Coq Require Import List ZArith Bool Lia.
From Verif Require Import M_Charsets M_Tiniconv P_Tiniconv.
Import ListNotations.
Local Open Scope Z_scope.

(** What all the characters would be in UTF-8. *)
Definition utf8_text (vs : list Z) : list Z := concat (map utf8 vs).
(** The first [m] characters fit into [size] bytes and no more do. *)
Definition as_many (vs : list Z) (size m : nat) : Prop :=
  (m <= length vs)%nat /\ (length (utf8_text (firstn m vs)) <= size)%nat
  /\ (m = length vs \/ (size < length (utf8_text (firstn (S m) vs)))%nat).

Definition reads_as (cs : charset) (c v : Z) : Prop := mbtowc cs c = Value v /\ 0 < v < 2 ^ 31.

Lemma utf8_nonempty v : (0 < length (utf8 v))%nat.
Proof. unfold utf8. repeat match goal with |- context [if ?b then _ else _] => destruct b end; cbn [trailing app length]; lia. Qed.

Lemma write_utf8 v n : 0 <= v < 2 ^ 31 ->
  wc2mb utf8_codec v n = if (n <? length (utf8 v))%nat then ESmall else EOk (utf8 v).
Proof.
  intros H. cbn [wc2mb utf8_codec]. rewrite C91_utf8_write by lia.
  destruct (Z.leb_spec (2 ^ 31) v); [lia|reflexivity].
Qed.

Lemma loop_text cs size : forall t vs fuel st read out, Forall2 (reads_as cs) t vs -> (length t <= fuel)%nat ->
  (length out <= size)%nat ->
  let r := convert_loop fuel (one_byte_codec cs) utf8_codec plain st t read out size in
  exists m, as_many vs (size - length out) m /\ o_out r = out ++ utf8_text (firstn m vs)
    /\ (o_code r = CONVERT_OK \/ o_code r = OUT_TOO_SMALL) /\ o_read r = (read + m)%nat.
Proof.
  induction t as [|c t IH]; intros vs fuel st read out F L Lo.
  - inversion F; subst. cbv zeta. exists O. destruct fuel; cbn [convert_loop o_out o_code o_read firstn];
      (split; [split; [apply Nat.le_refl|split; [cbn; lia|now left]]|]; split; [unfold utf8_text; cbn; now rewrite app_nil_r|]; split; [now left|lia]).
  - inversion F as [|? v ? vs' [Hv Rv] F']; subst. destruct fuel as [|fuel]; [cbn [length] in L; lia|]. cbn [length] in L.
    cbv zeta. cbn [convert_loop].
    assert (Lv := utf8_nonempty v).
    assert (One : length (utf8_text (firstn 1 (v :: vs'))) = length (utf8 v)) by (unfold utf8_text; cbn; now rewrite app_nil_r).
    destruct (Nat.ltb_spec (length out) size) as [R|R]; cbn [negb].
    2:{ exists O. cbn [o_out o_code o_read]. split; [split; [lia|split; [cbn; lia|right; rewrite One; lia]]|].
        split; [unfold utf8_text; cbn; now rewrite app_nil_r|]. split; [now left|lia]. }
    change (mb2wc (one_byte_codec cs) st (c :: t)) with (match mbtowc cs c with Value v => DOk v 1 st | _ => DIlseq end).
    rewrite Hv. rewrite write_utf8 by lia.
    destruct (Nat.ltb_spec (size - length out) (length (utf8 v))) as [S1|S1].
    + exists O. cbn [o_out o_code o_read]. split; [split; [lia|split; [cbn; lia|right; rewrite One; lia]]|].
      split; [unfold utf8_text; cbn; now rewrite app_nil_r|]. split; [now right|lia].
    + destruct (IH vs' fuel st (read + 1)%nat (out ++ utf8 v) F') as (m & [M1 [M2 M3]] & M4 & M5 & M6); [lia|rewrite app_length; lia|].
      cbv zeta in *. change (skipn 1 (c :: t)) with t. rewrite app_length in M2, M3. exists (S m).
      assert (Cons : forall j, length (utf8_text (firstn (S j) (v :: vs'))) = (length (utf8 v) + length (utf8_text (firstn j vs')))%nat).
      { intros j. unfold utf8_text. cbn [firstn map concat]. now rewrite app_length. }
      split; [split; [cbn [length]; lia|split; [rewrite Cons; lia|destruct M3 as [M3|M3]; [left; cbn [length]; lia|right; rewrite Cons; lia]]]|].
      split; [rewrite M4; unfold utf8_text; cbn [firstn map concat]; now rewrite app_assoc|]. split; [exact M5|lia].
Qed.

Lemma loop_bad cs size : forall t vs b rest fuel st read out, Forall2 (reads_as cs) t vs -> mbtowc cs b = Refused ->
  (length (t ++ b :: rest) <= fuel)%nat -> (length out + length (utf8_text vs) < size)%nat ->
  o_code (convert_loop fuel (one_byte_codec cs) utf8_codec plain st (t ++ b :: rest) read out size) = IN_ILSEQ.
Proof.
  induction t as [|c t IH]; intros vs b rest fuel st read out F Hb L Lo.
  - inversion F; subst. destruct fuel as [|fuel]; [cbn [app length] in L; lia|]. cbn [app convert_loop]. unfold utf8_text in Lo. cbn in Lo.
    destruct (Nat.ltb_spec (length out) size) as [R|R]; [|lia]. cbn [negb].
    change (mb2wc (one_byte_codec cs) st (b :: rest)) with (match mbtowc cs b with Value v => DOk v 1 st | _ => DIlseq end).
    rewrite Hb. reflexivity.
  - inversion F as [|? v ? vs' [Hv Rv] F']; subst. destruct fuel as [|fuel]; [cbn [app length] in L; lia|]. cbn [app length] in L.
    cbn [app convert_loop]. unfold utf8_text in Lo. cbn [map concat] in Lo. rewrite app_length in Lo.
    destruct (Nat.ltb_spec (length out) size) as [R|R]; [|lia]. cbn [negb].
    change (mb2wc (one_byte_codec cs) st (c :: t ++ b :: rest)) with (match mbtowc cs c with Value v => DOk v 1 st | _ => DIlseq end).
    rewrite Hv. rewrite write_utf8 by lia.
    destruct (Nat.ltb_spec (size - length out) (length (utf8 v))) as [S1|S1]; [lia|].
    change (skipn 1 (c :: t ++ b :: rest)) with (t ++ b :: rest).
    apply (IH vs'); [exact F'|exact Hb|lia|]. rewrite app_length. unfold utf8_text. lia.
Qed.

Lemma trailing_nonzero k : forall wc, 0 <= wc -> ~ In 0 (trailing k wc).
Proof.
  induction k as [|k IH]; intros wc H; cbn [trailing]; [easy|]. intros I. apply in_app_or in I as [I|[I|[]]].
  - apply (IH (wc / 64)); [apply Z.div_pos; lia|exact I].
  - pose proof (Z.mod_pos_bound wc 64 ltac:(lia)). lia.
Qed.
Lemma utf8_nonzero v : 0 < v -> ~ In 0 (utf8 v).
Proof.
  intros H I. unfold utf8 in I.
  assert (P : forall n, 0 <= n -> 0 <= v / 2 ^ n) by (intros n Hn; apply Z.div_pos; [lia|apply Z.pow_pos_nonneg; lia]).
  pose proof (P 6 ltac:(lia)). pose proof (P 12 ltac:(lia)). pose proof (P 18 ltac:(lia)). pose proof (P 24 ltac:(lia)). pose proof (P 30 ltac:(lia)).
  repeat match type of I with In _ (if ?b then _ else _) => destruct b end;
    (destruct I as [I|I]; [lia|]); try contradiction; revert I; apply trailing_nonzero; lia.
Qed.
Lemma c_string_id s : ~ In 0 s -> c_string s = s.
Proof.
  induction s as [|b s IH]; intros H; cbn [c_string]; [reflexivity|].
  destruct (Z.eqb_spec b 0) as [->|]; [exfalso; apply H; now left|]. f_equal. apply IH. intros I. apply H. now right.
Qed.
Lemma c_string_no s : ~ In 0 (c_string s).
Proof.
  induction s as [|b s IH]; cbn [c_string]; [easy|]. destruct (Z.eqb_spec b 0); [easy|]. intros [I|I]; [lia|exact (IH I)].
Qed.

Lemma find_set_in id cs l : find_set id l = Some cs -> In (id, cs) l.
Proof.
  induction l as [|[i c] l IH]; cbn [find_set]; [discriminate|]. destruct (Z.eqb_spec i id) as [->|].
  - intros E. injection E as <-. now left.
  - intros E. right. now apply IH.
Qed.

(** A byte other than zero is read as a character other than zero. *)
Lemma read_positive id cs c v : In (id, cs) one_byte_sets -> 0 < c < 256 -> mbtowc cs c = Value v -> 0 < v < 2 ^ 31.
Proof.
  intros H Hc E. destruct (C91_sets id cs H) as (A & B & _).
  destruct (A c ltac:(lia)) as [_ A']. destruct (A' v E) as [P Wv].
  destruct (Z.eq_dec v 0) as [->|]; [|change (2 ^ 31) with 2147483648; lia]. destruct (B 0 ltac:(lia)) as [_ B']. destruct (B' c Wv) as [_ M].
  destruct (C91_sets id cs H) as (_ & _ & Low). pose proof (Low 0 ltac:(lia)) as Z0.
  destruct (A 0 ltac:(lia)) as [_ A0]. destruct (A0 0 Z0) as [_ W0]. rewrite Wv in W0. injection W0 as W0. lia.
Qed.

Lemma reads_as_all id cs : In (id, cs) one_byte_sets -> forall t vs, Forall byte t -> ~ In 0 t ->
  Forall2 (fun c v => mbtowc cs c = Value v) t vs -> Forall2 (reads_as cs) t vs.
Proof.
  intros H t vs B N F. revert B N. induction F as [|c v t vs E F IH]; intros B N; constructor.
  - split; [exact E|]. inversion B as [|? ? Bc]; subst. unfold byte in Bc. apply (read_positive id cs c v H); [|exact E].
    assert (c <> 0) by (intros ->; apply N; now left). lia.
  - apply IH; [now inversion B|]. intros I. apply N. now right.
Qed.
Lemma c_string_bytes s : Forall byte s -> Forall byte (c_string s).
Proof. induction 1 as [|b s Hb Hs IH]; cbn [c_string]; [constructor|]. destruct (b =? 0); constructor; assumption. Qed.

Section Texts.
  Variable other : Z -> codec.
  Variable buffer_size : nat.
  Notation conv := (convert_text other buffer_size).

  (** A text in a one-byte encoding that can be read, up to its first zero byte, becomes its
      characters in UTF-8: as many as fit into the buffer, the others being lost. *)
  Theorem C91_text : forall from id cs text vs,
    code_of from CHARSET_CODES = Some id -> find_set id one_byte_sets = Some cs -> from <> ASCII -> from <> "UTF-8"%string ->
    Forall byte text -> Forall2 (fun c v => mbtowc cs c = Value v) (c_string text) vs ->
    exists m, as_many vs (buffer_size - 1) m /\ conv "UTF-8" from "UTF-8" text = utf8_text (firstn m vs).
  Proof.
    intros from id cs text vs Hid Hcs Ha Hu Hb F.
    apply (reads_as_all id cs (find_set_in _ _ _ Hcs) _ _ (c_string_bytes _ Hb) (c_string_no _)) in F.
    unfold convert_text. rewrite Hid.
    change (code_of "UTF-8" CHARSET_CODES) with (Some 36).
    destruct (String.eqb_spec from ASCII); [contradiction|]. destruct (String.eqb_spec from "UTF-8"); [contradiction|]. cbn [orb].
    unfold convert_ids, convert.
    assert (C1 : codec_of other id = one_byte_codec cs) by (unfold codec_of; now rewrite Hcs).
    assert (C2 : codec_of other 36 = utf8_codec) by reflexivity.
    rewrite C1, C2.
    destruct (loop_text cs (buffer_size - 1) (c_string text) vs (length (c_string text)) 0 0%nat [] F (le_n _) (Nat.le_0_l _)) as (m & M1 & M2 & M3 & _).
    cbv zeta in *. cbn [length app] in M1, M2. rewrite Nat.sub_0_r in M1. exists m. split; [exact M1|].
    rewrite M2. replace (o_code _ <? OUT_TOO_SMALL) with false by (destruct M3 as [-> | ->]; reflexivity).
    apply c_string_id. unfold utf8_text. intros I. apply in_concat in I as (e & I1 & I2). apply in_map_iff in I1 as (v & <- & I1).
    revert I2. apply utf8_nonzero.
    assert (P : Forall (fun v => 0 < v) vs) by (clear - F; induction F as [|? ? ? ? [_ ?] ? IH]; constructor; [lia|exact IH]).
    rewrite Forall_forall in P. apply P. clear - I1. revert vs I1. induction m as [|m IH]; intros [|x vs]; cbn [firstn]; try easy.
    intros [->|I]; [now left|right; now apply IH].
  Qed.

  (** If it fits it is all there. *)
  Theorem C91_text_whole : forall from id cs text vs,
    code_of from CHARSET_CODES = Some id -> find_set id one_byte_sets = Some cs -> from <> ASCII -> from <> "UTF-8"%string ->
    Forall byte text -> ~ In 0 text -> Forall2 (fun c v => mbtowc cs c = Value v) text vs ->
    (length (utf8_text vs) < buffer_size)%nat -> conv "UTF-8" from "UTF-8" text = utf8_text vs.
  Proof.
    intros from id cs text vs Hid Hcs Ha Hu Hb Hz F Hl. rewrite <- (c_string_id text Hz) in F.
    destruct (C91_text from id cs text vs Hid Hcs Ha Hu Hb F) as (m & (M1 & M2 & M3) & ->).
    destruct M3 as [->|M3]; [now rewrite firstn_all|]. exfalso.
    assert (Le : (length (utf8_text (firstn (S m) vs)) <= length (utf8_text vs))%nat).
    { rewrite <- (firstn_skipn (S m) vs) at 2. unfold utf8_text. rewrite map_app, concat_app, app_length. lia. }
    lia.
  Qed.

  (** A byte that the encoding does not have makes the whole text come back as it was, unless the
      buffer is full before. *)
  Theorem C91_text_unreadable : forall from id cs text good b rest vs,
    code_of from CHARSET_CODES = Some id -> find_set id one_byte_sets = Some cs -> from <> ASCII -> from <> "UTF-8"%string ->
    Forall byte text -> c_string text = good ++ b :: rest -> Forall2 (fun c v => mbtowc cs c = Value v) good vs ->
    mbtowc cs b = Refused -> (length (utf8_text vs) < buffer_size - 1)%nat -> conv "UTF-8" from "UTF-8" text = text.
  Proof.
    intros from id cs text good b rest vs Hid Hcs Ha Hu By Et F Hb Hl.
    apply (reads_as_all id cs (find_set_in _ _ _ Hcs)) in F.
    2:{ apply c_string_bytes in By. rewrite Et in By. now apply Forall_app in By. }
    2:{ intros I. apply (c_string_no text). rewrite Et. apply in_or_app. now left. }
    unfold convert_text. rewrite Hid.
    change (code_of "UTF-8" CHARSET_CODES) with (Some 36).
    destruct (String.eqb_spec from ASCII); [contradiction|]. destruct (String.eqb_spec from "UTF-8"); [contradiction|]. cbn [orb].
    unfold convert_ids, convert.
    assert (C1 : codec_of other id = one_byte_codec cs) by (unfold codec_of; now rewrite Hcs).
    assert (C2 : codec_of other 36 = utf8_codec) by reflexivity.
    rewrite C1, C2, Et.
    rewrite (loop_bad cs (buffer_size - 1) good vs b rest _ 0 0%nat [] F Hb (le_n _)); [reflexivity|]. cbn [length]. lia.
  Qed.

  (** Nothing is done to a text from an encoding that is unknown, ASCII, the same as the wanted one
      or the converter's own target; nor for a wanted encoding that is unknown. *)
  Theorem C91_left : forall target from to text,
    code_of from CHARSET_CODES = None \/ code_of to CHARSET_CODES = None \/ from = ASCII \/ from = to \/ from = target ->
    conv target from to text = text.
  Proof.
    intros target from to text H. unfold convert_text.
    destruct (code_of from CHARSET_CODES) as [a|]; [|reflexivity]. destruct (code_of to CHARSET_CODES) as [b|]; [|reflexivity].
    destruct H as [H|[H|[->|[->| ->]]]]; [discriminate H|discriminate H| | |];
      rewrite ?String.eqb_refl, ?orb_true_r; try reflexivity.
  Qed.

  (** So a converter for UTF-8 converts nothing from UTF-8 to another encoding. *)
  Theorem C91_from_target_refuted : forall text, conv "UTF-8" "UTF-8" "ISO-8859-2" text = text.
  Proof. intros text. apply C91_left. do 4 right. reflexivity. Qed.

  (** A text in UCS-2 that begins with a Latin letter begins with a zero byte: nothing is left of it. *)
  Theorem C91_ucs2_text_refuted : forall rest, conv "UTF-8" "UCS-2" "UTF-8" (0 :: rest) = [].
  Proof. intros rest. reflexivity. Qed.

  (** Text is lost without notice: no text is converted to more than the buffer holds, and one of
      as many letters "a with ogonek" as the buffer has bytes is neither converted nor left alone. *)
  Theorem C91_long_refuted : (0 < buffer_size)%nat ->
    let text := repeat 0xb1 buffer_size in let whole := utf8_text (repeat 0x105 buffer_size) in
    conv "UTF-8" "ISO-8859-2" "UTF-8" text <> whole /\ conv "UTF-8" "ISO-8859-2" "UTF-8" text <> text.
  Proof.
    intros Hb text whole.
    assert (Hz : c_string text = text).
    { apply c_string_id. subst text. intros I. apply repeat_spec in I. discriminate I. }
    destruct (C91_text "ISO-8859-2" 15 iso8859_2 text (repeat 0x105 buffer_size)) as (m & (M1 & M2 & M3) & E);
      [reflexivity|reflexivity|discriminate|discriminate| | |].
    { apply Forall_forall. intros x I. apply repeat_spec in I. subst x. unfold byte. lia. }
    { rewrite Hz. subst text. clear Hb whole Hz. induction buffer_size as [|n IH]; cbn [repeat]; constructor; [|exact IH]. reflexivity. }
    rewrite E. split.
    - intros Q. apply (f_equal (@length Z)) in Q. rewrite Q in M2.
      assert (L : forall n, length (utf8_text (repeat 0x105 n)) = (2 * n)%nat).
      { induction n as [|n IH]; [reflexivity|]. unfold utf8_text in *. cbn [repeat map concat]. rewrite app_length, IH. change (length (utf8 0x105)) with 2%nat. lia. }
      subst whole. rewrite L in M2. lia.
    - intros Q. apply (f_equal (@length Z)) in Q. rewrite Q in M2. subst text. rewrite repeat_length in M2. lia.
  Qed.
End Texts.
Print Assumptions C91_text.
Print Assumptions C91_text_whole.
Print Assumptions C91_text_unreadable.
Print Assumptions C91_left.
Print Assumptions C91_from_target_refuted.
Print Assumptions C91_ucs2_text_refuted.
Print Assumptions C91_long_refuted.

(** "zażółć" in windows-1250, what is behind a zero byte, an unreadable byte, and a buffer that
    is too small for it. *)
Example C91_text_case :
  let nothing := fun _ : Z => {| mb2wc := fun _ _ => DIlseq; wc2mb := fun _ _ => EIlun |} in
  let conv n := convert_text nothing n "UTF-8" "windows-1250" "UTF-8" in
  conv 20%nat [122; 97; 0xbf; 0xf3; 0xb3; 0xe6] = [122; 97; 0xc5; 0xbc; 0xc3; 0xb3; 0xc5; 0x82; 0xc4; 0x87]
  /\ conv 20%nat [122; 0; 97] = [122] /\ conv 20%nat [0xbf; 0x81] = [0xbf; 0x81]
  /\ conv 6%nat [122; 97; 0xbf; 0xf3; 0xb3; 0xe6] = [122; 97; 0xc5; 0xbc].
Proof. vm_compute. repeat split. Qed.

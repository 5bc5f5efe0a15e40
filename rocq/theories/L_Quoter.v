From Coq Require Import List Ascii Arith Bool Lia.
From Verif Require Import M_Quoter S_Quoter.
Import ListNotations.

Ltac ascii_cases :=
  repeat match goal with
  | |- context [Ascii.eqb ?a ?b] => destruct (Ascii.eqb_spec a b); subst; try discriminate
  | H : context [Ascii.eqb ?a ?b] |- _ => destruct (Ascii.eqb_spec a b); subst; try discriminate
  end.

Lemma unescape_escape_char : forall extra c rest,
  ~ In "n"%char extra -> ~ In "t"%char extra -> ~ In "r"%char extra ->
  unescape extra (escape_char extra c ++ rest)
  = option_map (cons c) (unescape extra rest).
Proof.
  intros extra c rest Hn Ht Hr. unfold escape_char.
  destruct (Ascii.eqb_spec c ch_space) as [->|H1]; [reflexivity|].
  destruct (Ascii.eqb_spec c ch_nl) as [->|H2]; [reflexivity|].
  destruct (Ascii.eqb_spec c ch_tab) as [->|H3]; [reflexivity|].
  destruct (Ascii.eqb_spec c ch_cr) as [->|H4]; [reflexivity|].
  destruct (Ascii.eqb_spec c ch_under) as [->|H5]; [reflexivity|].
  destruct (Ascii.eqb_spec c ch_star) as [->|H6]; [reflexivity|].
  destruct (Ascii.eqb_spec c ch_bs) as [->|H7]; [reflexivity|].
  destruct (is_additional extra c) eqn:Ha.
  - assert (Hin : In c extra).
    { unfold is_additional in Ha. apply existsb_exists in Ha.
      destruct Ha as (x & Hx & He). apply Ascii.eqb_eq in He. subst. exact Hx. }
    cbn [app unescape].
    change (Ascii.eqb ch_bs ch_under) with false.
    change (Ascii.eqb ch_bs ch_bs) with true. cbn iota.
    unfold unescape_quoted.
    destruct (Ascii.eqb_spec c "n") as [->|]; [contradiction|].
    destruct (Ascii.eqb_spec c "t") as [->|]; [contradiction|].
    destruct (Ascii.eqb_spec c "r") as [->|]; [contradiction|].
    destruct (Ascii.eqb_spec c ch_under) as [->|]; [contradiction|].
    destruct (Ascii.eqb_spec c ch_star) as [->|]; [contradiction|].
    destruct (Ascii.eqb_spec c ch_bs) as [->|]; [contradiction|].
    rewrite Ha. reflexivity.
  - cbn [app unescape].
    destruct (Ascii.eqb_spec c ch_under) as [->|]; [contradiction|].
    destruct (Ascii.eqb_spec c ch_bs) as [->|]; [contradiction|].
    reflexivity.
Qed.

Lemma unescape_escape : forall extra s,
  ~ In "n"%char extra -> ~ In "t"%char extra -> ~ In "r"%char extra ->
  unescape extra (escape extra s) = Some s.
Proof.
  intros extra s Hn Ht Hr. induction s as [|c s IH]; [reflexivity|].
  cbn [escape]. rewrite unescape_escape_char by assumption.
  rewrite IH. reflexivity.
Qed.

(** ** Separators *)
Lemma escape_char_no_sep : forall extra c d,
  In d (escape_char extra c) -> ~ is_separator d.
Proof.
  intros extra c d. unfold escape_char, is_separator.
  destruct (Ascii.eqb_spec c ch_space) as [->|H1];
  [|destruct (Ascii.eqb_spec c ch_nl) as [->|H2];
  [|destruct (Ascii.eqb_spec c ch_tab) as [->|H3];
  [|destruct (Ascii.eqb_spec c ch_cr) as [->|H4];
  [|destruct (Ascii.eqb_spec c ch_under) as [->|H5];
  [|destruct (Ascii.eqb_spec c ch_star) as [->|H6];
  [|destruct (Ascii.eqb_spec c ch_bs) as [->|H7];
  [|destruct (is_additional extra c)]]]]]]]; cbn [In];
  intros Hin Hsep;
  repeat match goal with
  | H : _ \/ _ |- _ => destruct H; subst
  | H : False |- _ => destruct H
  end; try discriminate; try (subst; contradiction);
  try (apply H1; assumption); try congruence.
Qed.

Lemma escape_no_sep : forall extra s d,
  In d (escape extra s) -> ~ is_separator d.
Proof.
  intros extra s. induction s as [|c s IH]; cbn [escape]; intros d Hin.
  - destruct Hin.
  - apply in_app_or in Hin. destruct Hin as [Hin|Hin].
    + eapply escape_char_no_sep; eassumption.
    + apply IH; assumption.
Qed.

(** ** Parity of trailing backslashes as a left-to-right scan *)
Definition scan (b : bool) (l : list ascii) : bool :=
  fold_left (fun b c => if Ascii.eqb c "\"%char then negb b else false) l b.

Lemma scan_app : forall b l l', scan b (l ++ l') = scan (scan b l) l'.
Proof. intros. unfold scan. apply fold_left_app. Qed.

Lemma trailing_snoc : forall l c,
  trailing_backslashes (l ++ [c]) =
  if Ascii.eqb c "\"%char then S (trailing_backslashes l) else 0.
Proof.
  intros. unfold trailing_backslashes. rewrite rev_app_distr. reflexivity.
Qed.

Lemma scan_odd : forall l, scan false l = Nat.odd (trailing_backslashes l).
Proof.
  induction l as [|c l IH] using rev_ind; [reflexivity|].
  rewrite scan_app, trailing_snoc. cbn [scan fold_left].
  rewrite IH. destruct (Ascii.eqb c "\"%char).
  - rewrite Nat.odd_succ, <- Nat.negb_odd. reflexivity.
  - reflexivity.
Qed.

Lemma quoted_at_scan : forall l i,
  quoted_at l i <-> scan false (firstn i l) = true.
Proof.
  intros. unfold quoted_at. rewrite scan_odd. apply iff_sym, Nat.odd_spec.
Qed.

Lemma scan_escape_char : forall extra c, scan false (escape_char extra c) = false.
Proof.
  intros. unfold escape_char.
  repeat match goal with |- context[if ?x then _ else _] => destruct x eqn:? end;
  cbn [scan fold_left]; try reflexivity.
  - change (Ascii.eqb ch_bs "\") with true. cbn iota.
    destruct (Ascii.eqb_spec c "\"); [|reflexivity]. subst.
    exfalso. unfold ch_bs in *. discriminate.
  - destruct (Ascii.eqb_spec c "\"); [|reflexivity]. subst.
    exfalso. unfold ch_bs in *. discriminate.
Qed.

Lemma is_additional_In : forall extra c, is_additional extra c = true <-> In c extra.
Proof.
  intros. unfold is_additional. rewrite existsb_exists. split.
  - intros (x & Hx & He). apply Ascii.eqb_eq in He. subst. exact Hx.
  - intros. exists c. split; [assumption|apply Ascii.eqb_refl].
Qed.

(** A special character inside one escaped unit is quoted. *)
Lemma escape_char_special_quoted : forall extra c i d,
  nth_error (escape_char extra c) i = Some d ->
  (d = ch_star \/ (In d extra /\ d <> ch_under /\ d <> ch_bs)) ->
  scan false (firstn i (escape_char extra c)) = true.
Proof.
  intros extra c i d. unfold escape_char.
  destruct (Ascii.eqb_spec c ch_space) as [->|H1];
  [|destruct (Ascii.eqb_spec c ch_nl) as [->|H2];
  [|destruct (Ascii.eqb_spec c ch_tab) as [->|H3];
  [|destruct (Ascii.eqb_spec c ch_cr) as [->|H4];
  [|destruct (Ascii.eqb_spec c ch_under) as [->|H5];
  [|destruct (Ascii.eqb_spec c ch_star) as [->|H6];
  [|destruct (Ascii.eqb_spec c ch_bs) as [->|H7];
  [|destruct (is_additional extra c) eqn:Ha]]]]]]];
  intros Hn Hs; destruct i as [|[|i]]; cbn [nth_error] in Hn;
  try (destruct i; discriminate); try discriminate;
  injection Hn as <-; try reflexivity;
  try (destruct Hs as [Hs|(? & ? & ?)]; [discriminate|congruence]).
  exfalso. destruct Hs as [Hs|(Hin & _)]; [contradiction|].
  apply is_additional_In in Hin. congruence.
Qed.

Lemma escape_special_quoted : forall extra s i d,
  nth_error (escape extra s) i = Some d ->
  (d = ch_star \/ (In d extra /\ d <> ch_under /\ d <> ch_bs)) ->
  scan false (firstn i (escape extra s)) = true.
Proof.
  intros extra s. induction s as [|c s IH]; intros i d Hn Hs.
  - destruct i; discriminate.
  - cbn [escape] in *. rewrite firstn_app, scan_app.
    destruct (Nat.lt_ge_cases i (length (escape_char extra c))) as [Hlt|Hge].
    + rewrite nth_error_app1 in Hn by assumption.
      replace (i - length (escape_char extra c)) with 0 by lia.
      cbn [firstn scan fold_left].
      eapply escape_char_special_quoted; eassumption.
    + rewrite nth_error_app2 in Hn by assumption.
      rewrite firstn_all2 by assumption. rewrite scan_escape_char.
      eapply IH; eassumption.
Qed.

(** ** isEscaped *)
Lemma firstn_S_nth : forall (l : list ascii) p c,
  nth_error l p = Some c -> firstn (S p) l = firstn p l ++ [c].
Proof.
  induction l as [|a l IH]; intros p c H; destruct p; try discriminate.
  - injection H as ->. reflexivity.
  - change (firstn (S (S p)) (a :: l)) with (a :: firstn (S p) l).
    rewrite (IH p c) by exact H. reflexivity.
Qed.

Lemma find_last_not_of_spec : forall s p,
  p < length s ->
  match find_last_not_of s ch_bs p with
  | None => trailing_backslashes (firstn (S p) s) = S p
  | Some last => last <= p /\ trailing_backslashes (firstn (S p) s) = p - last
  end.
Proof.
  intros s p. induction p as [|p IH]; intros Hlt.
  - destruct s as [|c s]; [cbn in Hlt; lia|].
    cbn [find_last_not_of nth_error].
    destruct (Ascii.eqb_spec c ch_bs) as [->|Hne]; cbn [firstn].
    + reflexivity.
    + split; [lia|]. unfold trailing_backslashes. cbn.
      destruct (Ascii.eqb_spec c "\"); [contradiction|reflexivity].
  - destruct (nth_error s (S p)) as [c|] eqn:Hn.
    2:{ apply nth_error_None in Hn. lia. }
    rewrite (firstn_S_nth _ _ _ Hn), trailing_snoc.
    cbn [find_last_not_of]. rewrite Hn.
    destruct (Ascii.eqb_spec c ch_bs) as [->|Hne].
    + change (Ascii.eqb ch_bs "\") with true. cbn iota.
      specialize (IH ltac:(lia)).
      destruct (find_last_not_of s ch_bs p) as [last|]; lia.
    + destruct (Ascii.eqb_spec c "\"); [contradiction|]. lia.
Qed.

Lemma isEscaped_spec : forall s pos,
  pos <= length s -> (isEscaped s pos = true <-> quoted_at s pos).
Proof.
  intros s pos Hle. unfold quoted_at, isEscaped. destruct pos as [|p].
  - cbn. split; [discriminate|]. intros [k Hk]. lia.
  - pose proof (find_last_not_of_spec s p ltac:(lia)) as H.
    destruct (find_last_not_of s ch_bs p) as [last|].
    + destruct H as [Hle2 H]. rewrite H, Nat.eqb_eq.
      split.
      * intro Hm. apply Nat.div_exact in Hm; [|lia].
        exists ((S p - last) / 2 - 1). lia.
      * intros [k Hk]. replace (S p - last) with ((k + 1) * 2) by lia.
        apply Nat.mod_mul. lia.
    + rewrite H, Nat.eqb_eq. split.
      * intro Hm. exists (S p / 2). pose proof (Nat.div_mod (S p) 2). lia.
      * intros [k Hk]. rewrite Hk. replace (2 * k + 1) with (1 + k * 2) by lia.
        rewrite Nat.mod_add by lia. reflexivity.
Qed.

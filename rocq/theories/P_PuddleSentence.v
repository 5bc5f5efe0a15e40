(** C82: the sentence string of the puddle parser and what is read from it. *)
From Coq Require Import String Ascii.
From Coq Require Import List Arith Bool Lia.
From Coq Require Import DecimalString DecimalNat.
From Verif Require Import M_PuddleText P_PuddleText M_PuddleSentence.
Import ListNotations.
Local Open Scope nat_scope.

(** * Specification *)

(** A proper token: a known letter, and a category without the characters that
    take the string apart. *)
Record proper (t : token) : Prop := {
  p_kind : In (kind t) (lit "tsg");
  p_cat : ~ In "<"%char (cat t) /\ ~ In ">"%char (cat t)
}.

(** * Numbers *)

Lemma uint_digits u : forall c, In c (lit (NilEmpty.string_of_uint u)) -> is_digit c = true.
Proof.
  induction u; cbn; intros c H; try (destruct H as [<-|H]; [reflexivity|now apply IHu]).
  destruct H.
Qed.

Lemma to_uint_nonnil n : Nat.to_uint n <> Decimal.Nil.
Proof.
  intro H. pose proof (Unsigned.of_to n) as O. rewrite H in O. cbn in O. subst n.
  vm_compute in H. discriminate.
Qed.

Lemma nilzero_nilempty u : u <> Decimal.Nil ->
  NilZero.string_of_uint u = NilEmpty.string_of_uint u.
Proof. destruct u; [congruence|reflexivity..]. Qed.

Lemma dec_digits n c : In c (dec n) -> is_digit c = true.
Proof.
  unfold dec. rewrite nilzero_nilempty by apply to_uint_nonnil. apply uint_digits.
Qed.

Lemma dec_nonempty n : dec n <> [].
Proof.
  unfold dec. rewrite nilzero_nilempty by apply to_uint_nonnil.
  pose proof (to_uint_nonnil n) as N. destruct (Nat.to_uint n); [congruence|cbn; discriminate..].
Qed.

(** The value of the digits, against the decimal numbers of the library. *)
Lemma value_acc u : forall acc,
  fold_left (fun n c => 10 * n + (nat_of_ascii c - 48)) (lit (NilEmpty.string_of_uint u)) acc
  = Nat.of_uint_acc u acc.
Proof.
  induction u; intro acc; [reflexivity|..];
    cbn [NilEmpty.string_of_uint lit list_ascii_of_string fold_left Nat.of_uint_acc];
    fold (lit (NilEmpty.string_of_uint u)); rewrite IHu; f_equal;
    rewrite Nat.tail_mul_spec; vm_compute (nat_of_ascii _); lia.
Qed.

Lemma value_dec n : value (dec n) = n.
Proof.
  unfold value, dec. rewrite nilzero_nilempty by apply to_uint_nonnil.
  rewrite value_acc. change (Nat.of_uint_acc (Nat.to_uint n) 0) with (Nat.of_uint (Nat.to_uint n)).
  apply Unsigned.of_to.
Qed.

Lemma dec_inj a b : dec a = dec b -> a = b.
Proof. intro H. rewrite <- (value_dec a), <- (value_dec b). now rewrite H. Qed.

(** * Reading one token *)

Lemma span_app f a x b : (forall c, In c a -> f c = true) -> f x = false ->
  span f (a ++ x :: b) = (a, x :: b).
Proof.
  intros A X. induction a as [|c a IH]; cbn; [now rewrite X|].
  rewrite (A c (or_introl eq_refl)). rewrite IH; [reflexivity|]. intros d D. apply A. now right.
Qed.

(** The part of a token behind the second number. *)
Definition rest_text (t : token) : text :=
  lit "<" ++ cat t ++ lit "<" ++ escape (orth t)
  ++ flat_map (fun r => lit "<" ++ escape (fst r) ++ lit "<" ++ escape (snd r)) (readings t).

Lemma token_text_eq t s : token_text t ++ s =
  lit "<<" ++ kind t :: "<"%char :: dec (from t) ++ "<"%char ::
  (dec (upto t) ++ rest_text t) ++ ">"%char :: s.
Proof.
  unfold token_text, rest_text. cbn [lit list_ascii_of_string].
  repeat (rewrite <- ?app_assoc; cbn [app]). reflexivity.
Qed.

Lemma escape_no c s : In c (lit "<>()|+*?") -> ~ In c (escape s).
Proof. intros S H. now apply (C80_escape_plain s c H). Qed.

Lemma rest_no_gt t : proper t -> ~ In ">"%char (rest_text t).
Proof.
  intros [K (C1 & C2)] H. unfold rest_text in H.
  rewrite !in_app_iff in H. destruct H as [H|[H|[H|[H|H]]]].
  - destruct H as [H|[]]. discriminate.
  - contradiction.
  - destruct H as [H|[]]. discriminate.
  - apply (escape_no ">"%char) in H; [exact H|cbn; tauto].
  - apply in_flat_map in H as (r & _ & H). rewrite !in_app_iff in H.
    destruct H as [[H|[]]|[H|[[H|[]]|H]]]; try discriminate;
      apply (escape_no ">"%char) in H; try exact H; cbn; tauto.
Qed.

Lemma token_at_text t s : proper t ->
  token_at (token_text t ++ s) = Some (dec (from t), dec (upto t), s).
Proof.
  intro P. rewrite token_text_eq. cbn [lit list_ascii_of_string app token_at].
  replace (existsb (Ascii.eqb (kind t)) ["t"%char; "s"%char; "g"%char]) with true.
  2:{ symmetry. apply existsb_exists. exists (kind t). split; [apply P|apply Ascii.eqb_refl]. }
  rewrite Ascii.eqb_refl. cbn [andb].
  rewrite span_app; [|intros c C; now apply dec_digits in C|reflexivity].
  destruct (dec (from t)) as [|d ds] eqn:D; [now apply dec_nonempty in D|].
  rewrite Ascii.eqb_refl.
  rewrite span_app; [| |reflexivity].
  2:{ intros c C. apply negb_true_iff, Ascii.eqb_neq. intros ->. apply in_app_iff in C as [C|C].
      - apply dec_digits in C. discriminate.
      - now apply rest_no_gt in C. }
  unfold rest_text. cbn [lit list_ascii_of_string app].
  rewrite span_app; [|intros c C; now apply dec_digits in C|reflexivity].
  destruct (dec (upto t)) as [|e es] eqn:F; [now apply dec_nonempty in F|].
  now destruct es.
Qed.

Lemma token_text_len t : 1 <= length (token_text t).
Proof. unfold token_text. cbn. lia. Qed.

(** * Counting *)

Lemma count_loop_spec ts : Forall proper ts -> forall f s, length (flat_map token_text ts) <= f ->
  count_loop (f + length s) (flat_map token_text ts ++ s)
  = length ts + count_loop (f + length s - length ts) s.
Proof.
  induction 1 as [|t ts P F IH]; intros f s L.
  - cbn. now rewrite Nat.sub_0_r.
  - cbn [flat_map length] in *. rewrite app_length in L. pose proof (token_text_len t).
    destruct f as [|f]; [lia|]. cbn [Nat.add]. rewrite <- app_assoc.
    cbn [count_loop]. rewrite token_at_text by exact P.
    rewrite IH by lia. reflexivity.
Qed.

(** The number of tokens of a piece that consists of whole tokens. *)
Theorem C82_count : forall ts, Forall proper ts ->
  count_tokens (flat_map token_text ts) = length ts.
Proof.
  intros ts F. unfold count_tokens.
  pose proof (count_loop_spec ts F (length (flat_map token_text ts)) [] (le_n _)) as H.
  cbn [length] in H. rewrite Nat.add_0_r, app_nil_r in H. rewrite H.
  replace (count_loop _ []) with 0 by (now destruct (length (flat_map token_text ts) - length ts)).
  lia.
Qed.
Print Assumptions C82_count.

(** * Places *)

Theorem C82_start : forall t s, proper t -> pattern_start (token_text t ++ s) = Some (from t).
Proof.
  intros t s P. unfold pattern_start. rewrite token_at_text by exact P. now rewrite value_dec.
Qed.
Print Assumptions C82_start.

Lemma token_at_nil_gt s d1 d2 : token_at s = Some (d1, d2, []) ->
  exists a, s = a ++ [">"%char] /\ ~ In ">"%char a.
Proof.
  unfold token_at. intro H.
  destruct s as [|a [|b [|k [|c s1]]]]; try discriminate.
  destruct (Ascii.eqb_spec a "<") as [->|]; [|discriminate]. cbn [andb] in H.
  destruct (Ascii.eqb_spec b "<") as [->|]; [|discriminate]. cbn [andb] in H.
  destruct (existsb (Ascii.eqb k) (lit "tsg")) eqn:K; [|discriminate]. cbn [andb] in H.
  destruct (Ascii.eqb_spec c "<") as [->|]; [|discriminate].
  assert (KN : k <> ">"%char).
  { intros ->. vm_compute in K. discriminate. }
  assert (SP : forall f s, let (a, b) := span f s in
     s = a ++ b /\ (forall x, In x a -> f x = true)
     /\ match b with [] => True | x :: _ => f x = false end).
  { intros f s. induction s as [|x s IH]; cbn; [repeat split; intros ? []|].
    destruct (f x) eqn:FX.
    - destruct (span f s) as (a, b). destruct IH as (-> & I1 & I2). split; [reflexivity|].
      split; [|exact I2]. intros y [<-|Y]; auto.
    - cbn. split; [reflexivity|]. split; [intros ? []|exact FX]. }
  pose proof (SP is_digit s1) as S1. destruct (span is_digit s1) as (x1, s2).
  destruct S1 as (-> & D1 & _). destruct x1 as [|y1 x1]; [discriminate|].
  destruct s2 as [|e s3]; [discriminate|].
  destruct (Ascii.eqb_spec e "<") as [->|]; [|discriminate].
  pose proof (SP (fun c => negb (Ascii.eqb c ">")) s3) as S3.
  destruct (span (fun c => negb (Ascii.eqb c ">")) s3) as (body, s4).
  destruct S3 as (-> & B & G). destruct (span is_digit body) as (x2, rest).
  destruct s4 as [|g s5]; [discriminate|].
  assert (g = ">"%char).
  { apply negb_false_iff in G. now apply Ascii.eqb_eq in G. }
  subst g.
  assert (s5 = []).
  { destruct x2 as [|y2 [|z2 x2]], rest as [|w rest]; try discriminate; now injection H. }
  subst s5. exists ("<"%char :: "<"%char :: k :: "<"%char :: (y1 :: x1) ++ "<"%char :: body).
  split.
  - cbn [app]. rewrite <- app_assoc. cbn [app]. reflexivity.
  - intro I. cbn [In] in I. destruct I as [I|[I|[I|[I|I]]]]; try discriminate; [congruence|].
    change (In ">"%char ((y1 :: x1) ++ "<"%char :: body)) in I.
    apply in_app_iff in I as [I|[I|I]].
    + apply D1 in I. discriminate.
    + discriminate.
    + apply B in I. discriminate.
Qed.

(** A text in which an ">" is followed by something is no match up to its end. *)
Lemma token_at_long a b : b <> [] ->
  match token_at (a ++ ">"%char :: b) with Some (_, _, []) => False | _ => True end.
Proof.
  intro B. destruct (token_at (a ++ ">"%char :: b)) as [[[d1 d2] [|x s]]|] eqn:T; try exact Logic.I.
  apply token_at_nil_gt in T as (w & W & N).
  destruct (exists_last B) as (b' & y & ->).
  rewrite app_comm_cons, app_assoc in W. apply app_inj_tail in W as (W & _).
  apply N. rewrite <- W. apply in_app_iff. right. now left.
Qed.

Lemma pattern_end_skip a b : b <> [] -> pattern_end (a ++ ">"%char :: b) = pattern_end b.
Proof.
  intro B. induction a as [|x a IH].
  - cbn [app]. cbn [pattern_end]. pose proof (token_at_long [] b B) as L. cbn [app] in L.
    destruct (token_at (">"%char :: b)) as [[[d1 d2] [|y s]]|]; [contradiction|reflexivity|reflexivity].
  - cbn [app]. cbn [pattern_end]. pose proof (token_at_long (x :: a) b B) as L. cbn [app] in L.
    destruct (token_at (x :: a ++ ">"%char :: b)) as [[[d1 d2] [|y s]]|];
      [contradiction|exact IH|exact IH].
Qed.

Lemma token_text_gt t : exists w, token_text t = w ++ [">"%char].
Proof.
  rewrite <- (app_nil_r (token_text t)), token_text_eq.
  exists (lit "<<" ++ kind t :: "<"%char :: dec (from t) ++ "<"%char ::
     (dec (upto t) ++ rest_text t)).
  repeat (rewrite <- ?app_assoc; cbn [app]). reflexivity.
Qed.

Theorem C82_end : forall ts t, Forall proper ts -> proper t ->
  pattern_end (flat_map token_text ts ++ token_text t) = Some (upto t).
Proof.
  intros ts t F P.
  assert (NE : forall ts', flat_map token_text ts' ++ token_text t <> []).
  { intros ts' H. apply (f_equal (@length ascii)) in H. rewrite app_length in H.
    pose proof (token_text_len t). cbn in H. lia. }
  induction F as [|u ts Q F IH].
  - cbn [flat_map app]. pose proof (token_at_text t [] P) as T. rewrite app_nil_r in T.
    destruct (token_text t) as [|x s] eqn:X; [exfalso; apply (NE []); cbn; now rewrite ?X|].
    cbn [pattern_end]. rewrite T. now rewrite value_dec.
  - cbn [flat_map]. destruct (token_text_gt u) as (w & ->).
    rewrite <- !app_assoc. cbn [app]. rewrite pattern_end_skip by apply NE. exact IH.
Qed.
Print Assumptions C82_end.

(** * The parts of a match *)

Theorem C82_required : forall parts : list (list token * bool),
  Forall (fun p => Forall proper (fst p)) parts ->
  required_tokens (map (fun p => (flat_map token_text (fst p), snd p)) parts)
  = if forallb (fun p => negb (snd p) || negb (length (fst p) =? 0)) parts
       && existsb (fun p => negb (length (fst p) =? 0)) parts
    then Some (map (fun p => length (fst p)) parts)
    else None.
Proof.
  intros parts F. unfold required_tokens.
  assert (L : sizes_loop (map (fun p => (flat_map token_text (fst p), snd p)) parts)
     = if forallb (fun p : list token * bool => negb (snd p) || negb (length (fst p) =? 0)) parts
       then Some (map (fun p => length (fst p)) parts) else None).
  { induction F as [|(ts, req) parts P F IH]; [reflexivity|].
    cbn [map sizes_loop forallb fst snd] in *. rewrite C82_count by exact P.
    rewrite IH. destruct ts as [|t ts].
    - cbn. destruct req; [reflexivity|]. cbn. now destruct (forallb _ parts).
    - destruct (flat_map token_text (t :: ts)) as [|x s] eqn:X.
      { exfalso. apply (f_equal (@length ascii)) in X. cbn in X. rewrite app_length in X.
        pose proof (token_text_len t). lia. }
      cbn [length]. replace (S (length ts) =? 0) with false by reflexivity.
      rewrite andb_false_r. cbn [negb]. rewrite orb_true_r. cbn [andb].
      now destruct (forallb _ parts). }
  rewrite L. destruct (forallb _ parts); [|reflexivity]. cbn [andb].
  replace (fold_right Nat.add 0 (map (fun p => length (fst p)) parts) =? 0)
    with (negb (existsb (fun p : list token * bool => negb (length (fst p) =? 0)) parts)).
  - now destruct (existsb _ parts).
  - clear. induction parts as [|(ts, req) parts IH]; [reflexivity|]. cbn [existsb map fold_right fst].
    destruct (length ts); cbn; [exact IH|reflexivity].
Qed.
Print Assumptions C82_required.

(** * A match *)

(** The marks are tokens. *)
Lemma begin_mark_token : begin_mark = token_text (Tok "s" 0 0 (lit "sb") [] []).
Proof. reflexivity. Qed.
Lemma end_mark_token v : end_mark v = token_text (Tok "s" v v (lit "se") [] []).
Proof. reflexivity. Qed.

(** A match of whole tokens: it starts where the token before it ends, or where
    its first token starts; the search goes on at the first token behind it, and
    nowhere if there is none. *)
Theorem C82_match : forall find pre mid post,
  Forall proper pre -> Forall proper mid -> Forall proper post -> mid <> [] ->
  find (flat_map token_text (pre ++ mid ++ post))
    = Some (length (flat_map token_text pre), length (flat_map token_text mid)) ->
  match_pattern find (flat_map token_text (pre ++ mid ++ post))
  = Some (Some (match rev pre with
                | t :: _ => upto t
                | [] => match mid with t :: _ => from t | [] => 0 end
                end),
          match post with t :: _ => Some (from t) | [] => None end).
Proof.
  intros find pre mid post Fp Fm Fq N FD. unfold match_pattern. rewrite FD.
  rewrite !flat_map_app.
  set (a := flat_map token_text pre). set (m := flat_map token_text mid).
  set (z := flat_map token_text post).
  rewrite firstn_app, firstn_all, Nat.sub_diag. cbn [firstn]. rewrite app_nil_r.
  rewrite skipn_app, skipn_all, Nat.sub_diag. cbn [app skipn].
  rewrite firstn_app, firstn_all, Nat.sub_diag. cbn [firstn]. rewrite app_nil_r.
  rewrite (app_assoc a m z), <- app_length.
  rewrite skipn_app, skipn_all, Nat.sub_diag. cbn [app skipn].
  assert (MN : m <> []).
  { unfold m. destruct mid as [|t mid]; [congruence|]. cbn [flat_map]. intro X.
    apply (f_equal (@length ascii)) in X. rewrite app_length in X.
    pose proof (token_text_len t). cbn in X. lia. }
  assert (ZE : pattern_start z = match post with t :: _ => Some (from t) | [] => None end).
  { unfold z. destruct post as [|t post]; [reflexivity|]. cbn [flat_map]. apply C82_start.
    now inversion Fq. }
  rewrite ZE.
  destruct m as [|x m'] eqn:M; [congruence|]. f_equal. f_equal.
  destruct (rev pre) as [|t r] eqn:R.
  - assert (pre = []) by (rewrite <- (rev_involutive pre), R; reflexivity). subst pre. cbn in a.
    unfold a. rewrite <- M. unfold m. destruct mid as [|t mid]; [congruence|]. cbn [flat_map].
    apply C82_start. now inversion Fm.
  - assert (E : pre = rev r ++ [t]).
    { rewrite <- (rev_involutive pre), R. reflexivity. }
    assert (AE : a = flat_map token_text (rev r) ++ token_text t).
    { unfold a. rewrite E, flat_map_app. cbn [flat_map]. now rewrite app_nil_r. }
    destruct a as [|y a'] eqn:AA.
    { apply (f_equal (@length ascii)) in AE. rewrite app_length in AE.
      pose proof (token_text_len t). cbn in AE. lia. }
    rewrite AE. rewrite E in Fp. apply Forall_app in Fp as (F1 & F2). inversion F2; subst.
    now apply C82_end.
Qed.
Print Assumptions C82_match.

(** * The string says everything *)

Fixpoint split_at (d : ascii) (s : text) : list text :=
  match s with
  | [] => [[]]
  | c :: s' => if Ascii.eqb c d then [] :: split_at d s'
               else match split_at d s' with
                    | [] => [[c]]
                    | w :: ws => (c :: w) :: ws
                    end
  end.

Lemma split_no d s : ~ In d s -> split_at d s = [s].
Proof.
  induction s as [|c s IH]; intro N; [reflexivity|]. cbn.
  destruct (Ascii.eqb_spec c d) as [->|]; [exfalso; apply N; now left|].
  rewrite IH; [reflexivity|]. intro X. apply N. now right.
Qed.

Lemma split_app d a s : ~ In d a -> split_at d (a ++ d :: s) = a :: split_at d s.
Proof.
  induction a as [|c a IH]; intro N; cbn; [now rewrite Ascii.eqb_refl|].
  destruct (Ascii.eqb_spec c d) as [->|]; [exfalso; apply N; now left|].
  rewrite IH; [reflexivity|]. intro X. apply N. now right.
Qed.

(** The fields of a token between the angle brackets. *)
Definition fields (t : token) : list text :=
  dec (from t) :: dec (upto t) :: cat t :: escape (orth t)
  :: flat_map (fun r => [escape (fst r); escape (snd r)]) (readings t).

Lemma split_readings rs a : ~ In "<"%char a ->
  split_at "<" (a ++ flat_map (fun r => lit "<" ++ escape (fst r) ++ lit "<" ++ escape (snd r)) rs)
  = a :: flat_map (fun r => [escape (fst r); escape (snd r)]) rs.
Proof.
  revert a. induction rs as [|r rs IH]; intros a N; cbn [flat_map].
  - rewrite app_nil_r. now apply split_no.
  - cbn [lit list_ascii_of_string]. rewrite <- !app_assoc. cbn [app].
    rewrite split_app by exact N. f_equal.
    rewrite split_app by (apply escape_no; cbn; tauto). cbn [app]. f_equal.
    apply IH. apply escape_no; cbn; tauto.
Qed.

Lemma split_token t : proper t ->
  split_at "<" (dec (from t) ++ "<"%char :: dec (upto t) ++ rest_text t) = fields t.
Proof.
  intros [K (C1 & C2)]. unfold rest_text, fields. cbn [lit list_ascii_of_string app].
  assert (DN : forall n, ~ In "<"%char (dec n)).
  { intros n I. apply dec_digits in I. discriminate. }
  rewrite split_app by apply DN. f_equal. rewrite split_app by apply DN. f_equal.
  rewrite split_app by exact C1. f_equal. apply split_readings.
  apply escape_no; cbn; tauto.
Qed.

Lemma fields_inj t u : kind t = kind u -> fields t = fields u -> t = u.
Proof.
  unfold fields. intros K H. injection H as F U C O R.
  apply dec_inj in F, U. apply C80_escape_injective in O.
  assert (RR : readings t = readings u).
  { revert R. generalize (readings u) as b. induction (readings t) as [|r a IH]; intros [|s b] H;
      try reflexivity; try discriminate.
    cbn in H. injection H as H1 H2 H3. apply C80_escape_injective in H1, H2.
    destruct r, s. cbn in *. subst. f_equal. now apply IH. }
  destruct t, u. cbn in *. now subst.
Qed.

Theorem C82_unique : forall ts us,
  Forall proper ts -> Forall proper us ->
  flat_map token_text ts = flat_map token_text us -> ts = us.
Proof.
  intros ts us F. revert us. induction F as [|t ts P F IH]; intros us G H.
  - destruct us as [|u us]; [reflexivity|]. cbn [flat_map] in H.
    apply (f_equal (@length ascii)) in H. rewrite app_length in H.
    pose proof (token_text_len u). cbn in H. lia.
  - destruct us as [|u us].
    { cbn [flat_map] in H. apply (f_equal (@length ascii)) in H. rewrite app_length in H.
      pose proof (token_text_len t). cbn in H. lia. }
    inversion G as [|? ? Q G']; subst. cbn [flat_map] in H.
    rewrite !token_text_eq in H. cbn [lit list_ascii_of_string app] in H.
    injection H as K H.
    assert (BODY : forall v, proper v ->
      ~ In ">"%char (dec (from v) ++ "<"%char :: dec (upto v) ++ rest_text v)).
    { intros v V I. apply in_app_iff in I as [I|[I|I]].
      - apply dec_digits in I. discriminate.
      - discriminate.
      - apply in_app_iff in I as [I|I].
        + apply dec_digits in I. discriminate.
        + now apply rest_no_gt in I. }
    assert (AS : forall v s, dec (from v) ++ "<"%char :: (dec (upto v) ++ rest_text v) ++ ">"%char :: s
      = (dec (from v) ++ "<"%char :: dec (upto v) ++ rest_text v) ++ ">"%char :: s).
    { intros v s. repeat (rewrite <- ?app_assoc; cbn [app]). reflexivity. }
    rewrite !AS in H.
    assert (CUT : forall (a b : text) s r, ~ In ">"%char a -> ~ In ">"%char b ->
      a ++ ">"%char :: s = b ++ ">"%char :: r -> a = b /\ s = r).
    { induction a as [|x a IHa]; intros [|y b] s r NA NB X; cbn in X.
      - injection X as ->. auto.
      - injection X as <- _. exfalso. apply NB. now left.
      - injection X as -> _. exfalso. apply NA. now left.
      - injection X as -> X. destruct (IHa b s r) as (-> & ->); auto.
        + intro I. apply NA. now right.
        + intro I. apply NB. now right. }
    apply CUT in H as (H1 & H2); [|now apply BODY|now apply BODY].
    f_equal.
    + apply fields_inj; [exact K|]. rewrite <- (split_token t P), <- (split_token u Q). now rewrite H1.
    + now apply IH.
Qed.
Print Assumptions C82_unique.

(** The whole sentence: the tokens with the marks at its ends, from which the
    tokens can be told. *)
Theorem C82_sentence : forall start ts v start' ts' v',
  Forall proper ts -> Forall proper ts' ->
  Forall (fun t => kind t <> "s"%char) ts -> Forall (fun t => kind t <> "s"%char) ts' ->
  count_tokens (sentence_text start ts v)
    = (if start =? 0 then 1 else 0) + length ts + 1
  /\ (sentence_text start ts v = sentence_text start' ts' v' ->
      (start = 0 <-> start' = 0) /\ ts = ts' /\ v = v').
Proof.
  intros start ts v start' ts' v' P P' K K'.
  assert (E : forall st us w, sentence_text st us w
    = flat_map token_text ((if st =? 0 then [Tok "s" 0 0 (lit "sb") [] []] else [])
                           ++ us ++ [Tok "s" w w (lit "se") [] []])).
  { intros st us w. unfold sentence_text. rewrite !flat_map_app, end_mark_token.
    cbn [flat_map]. rewrite app_nil_r. now destruct (st =? 0). }
  assert (PB : proper (Tok "s" 0 0 (lit "sb") [] [])).
  { split; [cbn; tauto|]. cbn. split; intuition discriminate. }
  assert (PE : forall w, proper (Tok "s" w w (lit "se") [] [])).
  { intro w. split; [cbn; tauto|]. cbn. split; intuition discriminate. }
  assert (PA : forall st us w, Forall proper us -> Forall proper
     ((if st =? 0 then [Tok "s" 0 0 (lit "sb") [] []] else [])
      ++ us ++ [Tok "s" w w (lit "se") [] []])).
  { intros st us w U. apply Forall_app. split; [|apply Forall_app; split; auto].
    destruct (st =? 0); auto. }
  rewrite !E. split.
  - rewrite C82_count by now apply PA. rewrite !app_length. destruct (start =? 0); cbn; lia.
  - intro H. apply C82_unique in H; [|now apply PA|now apply PA].
    assert (T : forall us us' w w', us ++ [Tok "s" w w (lit "se") [] []]
        = us' ++ [Tok "s" w' w' (lit "se") [] []] -> us = us' /\ w = w').
    { intros us us' w w' X. apply app_inj_tail in X as (X1 & X2). injection X2 as X2. auto. }
    assert (N : forall us us' w w', Forall (fun t => kind t <> "s"%char) us' ->
      Tok "s" 0 0 (lit "sb") [] [] :: us ++ [Tok "s" w w (lit "se") [] []]
        <> us' ++ [Tok "s" w' w' (lit "se") [] []]).
    { intros us us' w w' U X. destruct us' as [|u us']; cbn in X.
      - injection X as _ _ X. now destruct us.
      - injection X as X _. subst u. inversion U. now cbn in *. }
    destruct (Nat.eqb_spec start 0) as [->|S0], (Nat.eqb_spec start' 0) as [->|S1]; cbn [app] in H.
    + injection H as H. apply T in H as (-> & ->). tauto.
    + now apply N in H.
    + symmetry in H. now apply N in H.
    + apply T in H as (-> & ->). tauto.
Qed.
Print Assumptions C82_sentence.

(** * Cases *)

Definition ex1 := Tok "t" 0 3 (lit "TOKEN") (lit "Ala") [(lit "Ala", lit "subst:sg:nom")].
Definition ex2 := Tok "t" 4 6 (lit "TOKEN") (lit "<3") [(lit "<3", lit "ign")].
Definition exE := Tok "s" 6 6 (lit "se") [] [].
Definition exB := Tok "s" 0 0 (lit "sb") [] [].

Example ex_proper : Forall proper [exB; ex1; ex2; exE].
Proof.
  repeat (first [apply Forall_nil|apply Forall_cons]);
    (split; [vm_compute; tauto|split; vm_compute; intuition discriminate]).
Qed.

Example ex_text : sentence_text 0 [ex1; ex2] 6 =
  lit "<<s<0<0<sb<><<t<0<3<TOKEN<Ala<Ala<subst:sg:nom><<t<4<6<TOKEN<&lt;3<&lt;3<ign><<s<6<6<se<>".
Proof. vm_compute. reflexivity. Qed.

Example ex_count : count_tokens (sentence_text 0 [ex1; ex2] 6) = 4.
Proof. vm_compute. reflexivity. Qed.

(** The second token matched. *)
Example ex_match :
  match_pattern (fun _ => Some (length (flat_map token_text [exB; ex1]), length (token_text ex2)))
                (flat_map token_text [exB; ex1; ex2; exE]) = Some (Some 3, Some 6).
Proof. vm_compute. reflexivity. Qed.

Example ex_required :
  required_tokens [(flat_map token_text [ex1], true); ([], false)] = Some [1; 0]
  /\ required_tokens [(flat_map token_text [ex1], true); ([], true)] = None.
Proof. vm_compute. auto. Qed.

(** * What is not true *)

(** A match that takes in the end of the sentence leaves no place to go on: the
    index is -1, with which the rest of the sentence is then asked for. *)
Theorem C82_after_refuted :
  match_pattern (fun _ => Some (length (flat_map token_text [exB; ex1]),
                                length (flat_map token_text [ex2; exE])))
                (flat_map token_text [exB; ex1; ex2; exE]) = Some (Some 3, None).
Proof. vm_compute. reflexivity. Qed.
Print Assumptions C82_after_refuted.

(** A category with ">" in it is cut off. *)
Theorem C82_category_refuted :
  count_tokens (token_text (Tok "g" 0 3 (lit "N>") (lit "Ala") []) ++ token_text ex2) = 1.
Proof. vm_compute. reflexivity. Qed.
Print Assumptions C82_category_refuted.

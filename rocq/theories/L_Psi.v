(** Lemmas on the parsers and the printers of a PSI line. *)
From Coq Require Import String Ascii List NArith ZArith Bool Arith Lia.
From Verif Require Import M_Quoter S_Quoter L_Quoter M_Psi.
From Verif Require M_Utf8.
Import ListNotations.
Local Open Scope char_scope.
Local Open Scope nat_scope.
Ltac forall_app := rewrite ?forallb_app, ?andb_true_iff in *.

Definition starts (f : ascii -> bool) (s : str) : bool := match s with c :: _ => f c | [] => false end.

Lemma span_app f a r : forallb f a = true -> starts f r = false -> span f (a ++ r) = (a, r).
Proof.
  induction a as [|c a IH]; cbn; intros H K.
  - destruct r as [|c r]; [reflexivity|]. cbn in K. cbn. now rewrite K.
  - apply andb_true_iff in H as [H1 H2]. rewrite H1, IH by assumption. reflexivity.
Qed.
Lemma plus_app l a r : a <> [] -> forallb (other l) a = true -> starts (other l) r = false -> plus l (a ++ r) = Some (a, r).
Proof. intros Ha H K. unfold plus. rewrite span_app by assumption. now destruct a. Qed.
Lemma plus_fails l r : starts (other l) r = false -> plus l r = None.
Proof. intros K. unfold plus. change r with ([] ++ r) at 1. now rewrite span_app. Qed.
Definition gap (n : nat) : str := repeat " " (S n).
Lemma whitespaces_gap n r : starts is_space r = false -> whitespaces (gap n ++ r) = Some (tt, r).
Proof.
  intros K. unfold whitespaces. rewrite span_app; [reflexivity| |assumption]. unfold gap. induction (S n) as [|k IH]; [reflexivity|]. cbn [repeat forallb]. now rewrite IH.
Qed.
Lemma char_cons c r : char_ c (c :: r) = Some (tt, r).
Proof. cbn. now rewrite Ascii.eqb_refl. Qed.
Lemma char_fails c r : starts (Ascii.eqb c) r = false -> char_ c r = None.
Proof. destruct r as [|d r]; [reflexivity|]. cbn. rewrite Ascii.eqb_sym. now intros ->. Qed.
Lemma flag_cons c r : flag c (c :: r) = Some (true, r).
Proof. unfold flag. now rewrite char_cons. Qed.
Lemma flag_fails c r : starts (Ascii.eqb c) r = false -> flag c r = Some (false, r).
Proof. intros H. unfold flag. now rewrite char_fails. Qed.

(** ** Numbers *)
Lemma digit_spec n : (n < 10)%N -> is_digit (digit n) = true /\ Z.of_nat (nat_of_ascii (digit n)) = (48 + Z.of_N n)%Z.
Proof.
  intros H. assert (K : (n = 0 \/ n = 1 \/ n = 2 \/ n = 3 \/ n = 4 \/ n = 5 \/ n = 6 \/ n = 7 \/ n = 8 \/ n = 9)%N) by lia.
  repeat (destruct K as [->|K]; [split; vm_compute; reflexivity|]). subst n. split; vm_compute; reflexivity.
Qed.
Definition value (s : str) (a : Z) : Z := fold_left (fun a c => 10 * a + (Z.of_nat (nat_of_ascii c) - 48))%Z s a.
Lemma value_app a b x : value (a ++ b) x = value b (value a x).
Proof. unfold value. apply fold_left_app. Qed.
Lemma digits_spec f : forall n, (n < 10 ^ N.of_nat f)%N ->
  forallb is_digit (digits f n) = true /\ value (digits f n) 0 = Z.of_N n /\ (f <> 0 -> digits f n <> []).
Proof.
  induction f as [|f IH]; intros n H.
  - cbn in H. assert (n = 0%N) by lia. subst. cbn. repeat split. congruence.
  - cbn [digits]. destruct (digit_spec (n mod 10)) as [D1 D2]; [apply N.mod_lt; discriminate|]. pose proof (N.div_mod n 10 ltac:(discriminate)) as Dm.
    assert (Hr : forallb is_digit (if (n <? 10)%N then [] else digits f (n / 10)) = true /\ value (if (n <? 10)%N then [] else digits f (n / 10)) 0 = Z.of_N (n / 10)).
    { destruct (n <? 10)%N eqn:E.
      - apply N.ltb_lt in E. rewrite N.div_small by assumption. split; reflexivity.
      - destruct (IH (n / 10)%N) as [A1 [A2 _]]; [|split; assumption]. apply N.div_lt_upper_bound; [discriminate|]. rewrite Nat2N.inj_succ, N.pow_succ_r' in H. exact H. }
    destruct Hr as [R1 R2]. unfold str in *. rewrite forallb_app, R1, value_app. rewrite R2. cbn [forallb]. rewrite D1. split; [reflexivity|]. split.
    + unfold value. cbn [fold_left]. rewrite D2. apply (f_equal Z.of_N) in Dm. rewrite N2Z.inj_add, N2Z.inj_mul in Dm. cbn [Z.of_N] in Dm. lia.
    + intros _ K. apply app_eq_nil in K as [_ K]. discriminate.
Qed.
Lemma size_nat_spec n : N.of_nat (N.size_nat n) = N.size n.
Proof. destruct n as [|p]; [reflexivity|]. cbn. induction p as [p IH|p IH|]; cbn [Pos.size_nat Pos.size]; [rewrite Nat2N.inj_succ, IH; lia|rewrite Nat2N.inj_succ, IH; lia|reflexivity]. Qed.
Lemma size_bound n : (n < 10 ^ N.of_nat (S (N.size_nat n)))%N.
Proof.
  assert (H : (n < 2 ^ N.size n)%N) by apply N.size_gt. rewrite Nat2N.inj_succ, size_nat_spec.
  eapply N.lt_le_trans; [exact H|]. etransitivity; [apply (N.pow_le_mono_l 2 10); lia|]. apply N.pow_le_mono_r; lia.
Qed.
Lemma decimal_spec n : forallb is_digit (decimal n) = true /\ value (decimal n) 0 = Z.of_N n /\ decimal n <> [].
Proof. destruct (digits_spec (S (N.size_nat n)) n (size_bound n)) as [A [B C]]. split; [assumption|]. split; [assumption|]. apply C. discriminate. Qed.
Lemma wide_spec w n : forallb is_digit (decimal_wide w n) = true /\ value (decimal_wide w n) 0 = Z.of_N n /\ decimal_wide w n <> [].
Proof.
  destruct (decimal_spec n) as [A [B C]]. unfold decimal_wide. cbv zeta. induction (w - List.length (decimal n)) as [|k [A' [B' C']]]; cbn [repeat app]; [auto|].
  split; [cbn [forallb]; now rewrite A'|]. split; [exact B'|discriminate].
Qed.
Definition fits (n : N) : Prop := (Z.of_N n < 2 ^ 31)%Z.
Lemma int_digits ds n r : forallb is_digit ds = true -> value ds 0 = Z.of_N n -> ds <> [] -> fits n -> starts is_digit r = false -> int_ (ds ++ r) = Some (Z.of_N n, r).
Proof.
  intros A B C F K. unfold int_. destruct ds as [|c ds]; [congruence|]. pose proof A as A'. cbn [forallb] in A'. apply andb_true_iff in A' as [Ac _].
  cbn [app]. assert (E1 : Ascii.eqb c "-" = false). { destruct (Ascii.eqb_spec c "-"); [subst; discriminate Ac|reflexivity]. }
  assert (E2 : Ascii.eqb c "+" = false). { destruct (Ascii.eqb_spec c "+"); [subst; discriminate Ac|reflexivity]. }
  rewrite E1, E2. change (c :: ds ++ r) with ((c :: ds) ++ r). rewrite span_app by assumption. unfold number. fold (value (c :: ds) 0). rewrite B.
  unfold fits in F. replace (- 2 ^ 31 <=? Z.of_N n)%Z with true by (symmetry; apply Z.leb_le; lia). replace (Z.of_N n <? 2 ^ 31)%Z with true by (symmetry; apply Z.ltb_lt; lia). reflexivity.
Qed.
Lemma int_decimal n r : fits n -> starts is_digit r = false -> int_ (decimal n ++ r) = Some (Z.of_N n, r).
Proof. intros. destruct (decimal_spec n) as [A [B C]]. now apply int_digits. Qed.
Lemma int_wide w n r : fits n -> starts is_digit r = false -> int_ (decimal_wide w n ++ r) = Some (Z.of_N n, r).
Proof. intros. destruct (wide_spec w n) as [A [B C]]. now apply int_digits. Qed.

(** ** Lists *)
Definition tail_text {A} (sep : ascii) (pr : A -> str) (l : list A) (r : str) : str := List.concat (map (fun y => sep :: pr y) l) ++ r.
Lemma join_tail {A} (sep : ascii) (pr : A -> str) x l r : join [sep] (map pr (x :: l)) ++ r = pr x ++ tail_text sep pr l r.
Proof. cbn. unfold tail_text. now rewrite map_map, <- app_assoc. Qed.
(** Every element is read off what is in front. *)
Fixpoint reads {A B} (sep : ascii) (pr : A -> str) (p : parser B) (val : A -> B) (l : list A) (r : str) : Prop :=
  match l with
  | [] => True
  | x :: l' => p (pr x ++ tail_text sep pr l' r) = Some (val x, tail_text sep pr l' r) /\ reads sep pr p val l' r
  end.
Lemma more_reads {A B} sep (pr : A -> str) (p : parser B) val r : starts (Ascii.eqb sep) r = false -> forall l n, reads sep pr p val l r ->
  List.length l <= n -> more n sep p (tail_text sep pr l r) = (map val l, r).
Proof.
  intros K. induction l as [|x l IH]; intros n H Hn.
  - cbn. destruct n; [reflexivity|]. cbn. now rewrite char_fails.
  - destruct n as [|n]; [cbn in Hn; lia|]. destruct H as [H1 H2]. unfold tail_text at 1. cbn [map List.concat app more].
    rewrite char_cons. rewrite <- app_assoc. fold (tail_text sep pr l r). rewrite H1, (IH n H2) by (cbn in Hn; lia). reflexivity.
Qed.
Lemma tail_length {A} sep (pr : A -> str) l r : List.length l <= List.length (tail_text sep pr l r).
Proof. unfold tail_text. rewrite app_length. induction l as [|x l IH]; cbn; [lia|]. rewrite app_length. lia. Qed.
Lemma list_reads {A B} sep (pr : A -> str) (p : parser B) val x l r : starts (Ascii.eqb sep) r = false -> reads sep pr p val (x :: l) r ->
  list_of sep p (join [sep] (map pr (x :: l)) ++ r) = Some (map val (x :: l), r).
Proof.
  intros K [H1 H2]. rewrite join_tail. unfold list_of. rewrite H1. rewrite (more_reads sep pr p val r K l) by (try assumption; apply tail_length). reflexivity.
Qed.
Lemma starts_tail {A} (f : ascii -> bool) sep (pr : A -> str) l r : f sep = false -> starts f r = false -> starts f (tail_text sep pr l r) = false.
Proof. intros H K. destruct l; [exact K|]. cbn. exact H. Qed.
(** Names without the separator and the end. *)
Lemma reads_plus sep ex l r : In sep ex -> starts (other ex) r = false -> (forall x, In x l -> x <> [] /\ forallb (other ex) x = true) ->
  reads sep (fun x => x) (plus ex) (fun x => x) l r.
Proof.
  intros Hs K. induction l as [|x l IH]; intros H; [exact I|]. split; [|apply IH; intros y Hy; apply H; now right].
  destruct (H x (or_introl eq_refl)) as [H1 H2]. apply plus_app; [assumption|assumption|]. apply starts_tail; [|assumption].
  unfold other. apply negb_false_iff, existsb_exists. exists sep. split; [assumption|apply Ascii.eqb_refl].
Qed.

(** ** Quoting *)
Lemma quote_app a b : quote (a ++ b) = quote a ++ quote b.
Proof. unfold quote. induction a as [|c a IH]; cbn; [reflexivity|]. now rewrite IH, app_assoc. Qed.
Lemma unquote_quote s : unquote (quote s) = Some s.
Proof. apply unescape_escape; intros [H|[]]; discriminate. Qed.
Lemma unquote_app n : forall a a' b, List.length a <= n -> unquote a = Some a' -> unquote (a ++ b) = option_map (app a') (unquote b).
Proof.
  unfold unquote. induction n as [|n IH]; intros a a' b Hn H.
  - destruct a; [|cbn in Hn; lia]. cbn in H. injection H as <-. cbn. now destruct (unescape _ b).
  - destruct a as [|c a]; [cbn in H; injection H as <-; cbn; now destruct (unescape _ b)|]. cbn in Hn. cbn [unescape app] in *.
    destruct (Ascii.eqb c ch_under).
    + destruct (unescape ["#"] a) as [x|] eqn:E; [|discriminate]. cbn in H. injection H as <-. rewrite (IH a x b) by (try lia; assumption). now destruct (unescape _ b).
    + destruct (Ascii.eqb c ch_bs).
      * destruct a as [|d a]; [discriminate|]. cbn [app]. destruct (unescape_quoted ["#"] d); [|discriminate].
        destruct (unescape ["#"] a) as [x|] eqn:E; [|discriminate]. cbn in H. injection H as <-. cbn in Hn. rewrite (IH a x b) by (try lia; assumption). now destruct (unescape _ b).
      * destruct (unescape ["#"] a) as [x|] eqn:E; [|discriminate]. cbn in H. injection H as <-. rewrite (IH a x b) by (try lia; assumption). now destruct (unescape _ b).
Qed.
Lemma unquote_two a a' b b' : unquote a = Some a' -> unquote b = Some b' -> unquote (a ++ b) = Some (a' ++ b').
Proof. intros Ha Hb. rewrite (unquote_app _ a a' b (le_n _) Ha), Hb. reflexivity. Qed.
Lemma quoted_in c s : In c (quote s) -> In c s \/ In c ["\"; "n"; "t"; "r"; "_"].
Proof.
  unfold quote. induction s as [|d s IH]; cbn [escape]; [intros []|]. rewrite in_app_iff. intros [H|H]; [|destruct (IH H); [left; now right|now right]].
  assert (K : c = d \/ In c ["\"; "n"; "t"; "r"; "_"]); [|destruct K as [->|K]; [left; now left|now right]].
  unfold escape_char, ch_bs, ch_under in H.
  repeat match goal with |- _ => match type of H with context [if Ascii.eqb ?a ?b then _ else _] => destruct (Ascii.eqb_spec a b); [subst; cbn in H |- *; intuition (subst; auto)|] end end.
  destruct (is_additional ["#"] d); cbn in H |- *; intuition (subst; auto).
Qed.
Lemma other_in l s : forallb (other l) s = true <-> forall c, In c s -> ~ In c l.
Proof.
  rewrite forallb_forall. unfold other. split; intros H c Hc.
  - specialize (H c Hc). apply negb_true_iff in H. intros K. assert (X : existsb (Ascii.eqb c) l = true) by (apply existsb_exists; exists c; split; [assumption|apply Ascii.eqb_refl]). congruence.
  - apply negb_true_iff. destruct (existsb (Ascii.eqb c) l) eqn:E; [|reflexivity]. apply existsb_exists in E as [x [Hx E]]. apply Ascii.eqb_eq in E. subst x. now destruct (H c Hc).
Qed.
Lemma quote_other l s : (forall c, In c l -> ~ In c ["\"; "n"; "t"; "r"; "_"]) -> forallb (other l) s = true -> forallb (other l) (quote s) = true.
Proof. intros Hl H. apply other_in. intros c Hc K. apply quoted_in in Hc as [Hc|Hc]; [|now apply (Hl c)]. revert K. now apply (proj1 (other_in l s)). Qed.
Lemma quote_no_space s : forallb (other [" "]) (quote s) = true.
Proof.
  apply other_in. intros c Hc [<-|[]]. apply escape_no_sep in Hc. apply Hc. now left.
Qed.
Lemma quote_nil s : quote s = [] -> s = [].
Proof. intros H. pose proof (unquote_quote s) as K. rewrite H in K. cbn in K. congruence. Qed.
Lemma quote_start s : starts is_space (quote s) = match s with c :: _ => (Ascii.eqb c "011" || Ascii.eqb c "012") | [] => false end.
Proof.
  destruct s as [|c s]; [reflexivity|]. unfold quote. cbn [escape]. unfold escape_char.
  repeat match goal with |- context [if Ascii.eqb ?a ?b then _ else _] => destruct (Ascii.eqb_spec a b); [subst; reflexivity|] end.
  destruct (is_additional ["#"] c) eqn:E; cbn [app starts].
  - unfold is_additional in E. cbn in E. rewrite orb_false_r in E. apply Ascii.eqb_eq in E. subst c. reflexivity.
  - unfold ch_space, ch_nl, ch_tab, ch_cr in *. destruct c as [[] [] [] [] [] [] [] []]; try reflexivity; congruence.
Qed.

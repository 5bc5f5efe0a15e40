(** C87: the dictionary of the LamerLemma lemmatizer. *)
From Coq Require Import List ZArith Bool Sorted Lia PeanoNat.
From Verif Require Import M_OrdSet L_OrdSet M_Fsa M_MultiStore P_MultiStore M_Lamer.
Import ListNotations.
Local Open Scope nat_scope.

(** * What is meant *)

(** The longest part from the beginning of the lemma that is somewhere in the form,
    at its first place: the form is a m b and the lemma is m e. *)
Definition longest (form lemma a m b e : word) : Prop :=
  form = a ++ m ++ b /\ lemma = m ++ e /\
  forall a' m' b' e', form = a' ++ m' ++ b' -> lemma = m' ++ e' ->
    length m' <= length m /\ (length m' = length m -> length a <= length a').
(** The fields of a line between the separators. *)
Inductive fields (sep : Z -> Prop) : word -> list word -> Prop :=
| fields_last : forall w, (forall c, In c w -> ~ sep c) -> fields sep w [w]
| fields_more : forall w c r fs, (forall c, In c w -> ~ sep c) -> sep c -> fields sep r fs ->
    fields sep (w ++ c :: r) (w :: fs).
Definition blank (c : Z) : Prop := c = 9%Z \/ c = 32%Z.
Definition tab (c : Z) : Prop := c = 9%Z.
Definition comma (c : Z) : Prop := c = 44%Z.
(** What one field says: key=value, or else what a bare field stands for. *)
Definition says (bare : word -> word * word) (f k v : word) : Prop :=
  (~ In 61%Z k /\ f = k ++ 61%Z :: v) \/ (~ In 61%Z f /\ bare f = (k, v)).
(** The last field about a key counts. *)
Definition last_says (bare : word -> word * word) (s k v : word) : Prop :=
  exists l1 f l2, fields comma s (l1 ++ f :: l2) /\ says bare f k v /\
    forall f' v', In f' l2 -> ~ says bare f' k v'.
Definition bare_pos (f : word) : word * word := ([112; 111; 115]%Z, f).
Definition bare_morpho (f : word) : word * word := (f, [49]%Z).

(** * The code *)

Lemma run_split : forall s l, exists m s' l', s = m ++ s' /\ l = m ++ l' /\ length m = run s l.
Proof.
  induction s as [|c s IH]; intros l; [now exists [], [], l|]. destruct l as [|d l]; [now exists [], (c :: s), []|].
  cbn [run]. destruct (Z.eqb_spec c d) as [->|N]; [|now exists [], (c :: s), (d :: l)].
  destruct (IH l) as (m & s' & l' & -> & -> & E). exists (d :: m), s', l'. cbn [app length]. now rewrite E.
Qed.
Lemma run_most : forall m s' l', length m <= run (m ++ s') (m ++ l').
Proof. induction m as [|c m IH]; intros s' l'; cbn [app run length]; [lia|]. rewrite Z.eqb_refl. specialize (IH s' l'). lia. Qed.
Lemma run_le s l : run s l <= length s /\ run s l <= length l.
Proof. destruct (run_split s l) as (m & s' & l' & -> & -> & <-). rewrite !app_length. lia. Qed.
Lemma run_at_run s l : (l = [] -> ~ In 0%Z s) -> run_at s l = run s l.
Proof.
  destruct l as [|d l]; [|reflexivity]. intros H. destruct s as [|c s]; [reflexivity|]. cbn.
  destruct (Z.eqb_spec c 0) as [->|]; [|reflexivity]. exfalso. apply H; [reflexivity|now left].
Qed.
Lemma skipn_le {A} n (l : list A) : length (skipn n l) <= length l.
Proof. rewrite skipn_length. lia. Qed.
Lemma scan_spec l : forall s i best at_ b a, (l = [] -> ~ In 0%Z s) -> scan s l i best at_ = (b, a) ->
  (b = best /\ a = at_ /\ forall j, run (skipn j s) l <= best) \/
  (best < b /\ exists j, a = i + j /\ j < length s /\ run (skipn j s) l = b /\
     forall j', run (skipn j' s) l <= b /\ (run (skipn j' s) l = b -> j <= j')).
Proof.
  induction s as [|c s IH]; intros i best at_ b a Hz.
  { cbn [scan]. intros E. injection E as <- <-. left. split; [reflexivity|split; [reflexivity|]]. intros j. rewrite skipn_nil. cbn. lia. }
  cbn [scan]. rewrite (run_at_run (c :: s) l Hz). set (n := run (c :: s) l).
  assert (Hz' : l = [] -> ~ In 0%Z s) by (intros E K; apply (Hz E); now right).
  assert (Sh : forall k j, k = 0 \/ length (c :: s) < k -> run (skipn (S j) (c :: s)) l < k \/ k = 0).
  { intros k j [->|L]; [now right|]. left. cbn [skipn]. pose proof (run_le (skipn j s) l). pose proof (skipn_le j s). cbn [length] in L. lia. }
  destruct (Nat.ltb_spec best n) as [L|L].
  - destruct (Nat.ltb_spec (length (c :: s)) n) as [L'|L'].
    { pose proof (run_le (c :: s) l). fold n in H. lia. }
    intros E. apply IH in E; [|exact Hz']. destruct E as [(-> & -> & K)|(K & j & -> & Lj & Er & Kj)].
    + right. split; [assumption|]. exists 0. rewrite Nat.add_0_r. split; [reflexivity|split; [cbn; lia|split; [reflexivity|]]].
      intros [|j']; [cbn [skipn]; fold n; lia|]. cbn [skipn]. specialize (K j'). lia.
    + right. split; [lia|]. exists (S j). split; [lia|split; [cbn [length]; lia|split; [exact Er|]]].
      intros [|j']; [cbn [skipn]; fold n; lia|]. cbn [skipn]. specialize (Kj j'). lia.
  - destruct (Nat.ltb_spec (length (c :: s)) best) as [L'|L'].
    { intros E. injection E as <- <-. left. split; [reflexivity|split; [reflexivity|]]. intros j.
      pose proof (run_le (skipn j (c :: s)) l). pose proof (skipn_le j (c :: s)). lia. }
    intros E. apply IH in E; [|exact Hz']. destruct E as [(-> & -> & K)|(K & j & -> & Lj & Er & Kj)].
    + left. split; [reflexivity|split; [reflexivity|]]. intros [|j]; [exact L|apply K].
    + right. split; [lia|]. exists (S j). split; [lia|split; [cbn [length]; lia|split; [exact Er|]]].
      intros [|j']; [cbn [skipn]; fold n; lia|]. cbn [skipn]. specialize (Kj j'). lia.
Qed.
Lemma skipn_app_len {A} (a b : list A) : skipn (length a) (a ++ b) = b.
Proof. rewrite skipn_app, skipn_all, Nat.sub_diag. reflexivity. Qed.
Lemma firstn_app_len {A} (a b : list A) : firstn (length a) (a ++ b) = a.
Proof. rewrite firstn_app, firstn_all, Nat.sub_diag, firstn_O. apply app_nil_r. Qed.

(** The code of a lemma is two bytes, with the numbers of bytes of the form before and
    behind the longest beginning of the lemma that the form has, and the rest of the
    lemma. *)
Theorem C87_code : forall form lemma, (lemma = [] -> ~ In 0%Z form) ->
  exists a m b e, longest form lemma a m b e /\
    encode form lemma = Some (((65 + Z.of_nat (length a)) mod 256)%Z :: ((65 + Z.of_nat (length b)) mod 256)%Z :: e).
Proof.
  intros form lemma Hz. destruct (scan form lemma 0 0 0) as [best at_] eqn:E.
  pose proof (scan_spec lemma form 0 0 0 best at_ Hz E) as S.
  assert (K : at_ <= length form /\ run (skipn at_ form) lemma = best /\ forall j', run (skipn j' form) lemma <= best /\ (run (skipn j' form) lemma = best -> at_ <= j')).
  { destruct S as [(-> & -> & K)|(_ & j & -> & L & K1 & K2)].
    - split; [lia|]. split; [specialize (K 0); lia|]. intros j. specialize (K j). lia.
    - cbn. split; [lia|]. now split. }
  clear S. destruct K as (L & K1 & K2). destruct (run_split (skipn at_ form) lemma) as (m & b & e & E1 & E2 & E3). rewrite K1 in E3.
  exists (firstn at_ form), m, b, e.
  assert (Ef : form = firstn at_ form ++ m ++ b) by (rewrite <- E1; symmetry; apply firstn_skipn).
  assert (Ea : length (firstn at_ form) = at_) by (rewrite firstn_length; lia). split.
  - split; [exact Ef|split; [exact E2|]]. intros a' m' b' e' F1 F2. rewrite Ea, E3.
    assert (R : length m' <= run (skipn (length a') form) lemma) by (rewrite F1, F2, skipn_app_len; apply run_most).
    destruct (K2 (length a')) as [K3 K4]. split; [lia|]. intros F3. apply K4. lia.
  - unfold encode. rewrite E. rewrite E2 at 1. rewrite app_length, E3. destruct (Nat.ltb_spec (best + length e) best); [lia|].
    replace (skipn best lemma) with e by (rewrite E2, <- E3, skipn_app_len; reflexivity). unfold to_char. rewrite Ea.
    replace (65 + length form - (at_ + best)) with (65 + length b).
    + rewrite !Nat2Z.inj_add. reflexivity.
    + rewrite Ef at 1. rewrite !app_length, Ea. lia.
Qed.
Print Assumptions C87_code.
(** For an empty lemma of a form with a zero byte there is no code. *)
Theorem C87_code_fails : forall form, In 0%Z form -> encode form [] = None.
Proof.
  assert (G : forall s i, In 0%Z s -> exists a, scan s [] i 0 0 = (1, a)).
  { assert (D : forall s i a, exists a', scan s [] i 1 a = (1, a')).
    { induction s as [|c s IH]; intros i a; [now exists a|]. cbn [scan run_at]. destruct (Z.eqb_spec c 0); cbn; apply IH. }
    induction s as [|c s IH]; intros i K; [destruct K|]. cbn [scan run_at]. destruct (Z.eqb_spec c 0) as [E|N].
    - cbn [Nat.ltb Nat.leb]. cbn [length Nat.ltb Nat.leb]. apply D.
    - cbn [Nat.ltb Nat.leb]. destruct K as [K|K]; [congruence|]. apply IH, K. }
  intros form K. destruct (G form 0 K) as (a & E). unfold encode. rewrite E. reflexivity.
Qed.
Print Assumptions C87_code_fails.

Lemma char_small n : n <= 62 -> (of_char ((65 + Z.of_nat n) mod 256) - 65)%Z = Z.of_nat n.
Proof. intros L. unfold of_char. rewrite Z.mod_small by lia. destruct (Z.ltb_spec (65 + Z.of_nat n) 128); lia. Qed.
Lemma char_less n : 62 < n -> (of_char ((65 + Z.of_nat n) mod 256) - 65 < Z.of_nat n)%Z.
Proof.
  intros L. unfold of_char. pose proof (Z.mod_pos_bound (65 + Z.of_nat n) 256 ltac:(lia)). destruct (Z.ltb_spec ((65 + Z.of_nat n) mod 256) 128); lia.
Qed.
(** A code is read back as its lemma exactly if not more than 62 bytes are cut off the
    front and not more than 62 off the back. *)
Theorem C87_decode : forall a m b e,
  decode (a ++ m ++ b) (((65 + Z.of_nat (length a)) mod 256)%Z :: ((65 + Z.of_nat (length b)) mod 256)%Z :: e) = Some (m ++ e)
  <-> length a <= 62 /\ length b <= 62.
Proof.
  intros a m b e. unfold decode. set (form := a ++ m ++ b). set (k := ((65 + Z.of_nat (length a)) mod 256)%Z).
  set (l := ((65 + Z.of_nat (length b)) mod 256)%Z). assert (Ef : length form = length a + length m + length b) by (unfold form; rewrite !app_length; lia).
  split.
  - intros H. destruct ((of_char k - 65 <? 0)%Z || (Z.of_nat (length form) <? of_char k - 65)%Z) eqn:F; [discriminate|].
    apply orb_false_iff in F as [F1 F2]. apply Z.ltb_ge in F1, F2. set (f := (of_char k - 65)%Z) in *. set (g := (of_char l - 65)%Z) in *.
    injection H as H. apply (f_equal (@length Z)) in H. rewrite !app_length in H.
    assert (Hf : length a <= 62 \/ (f < Z.of_nat (length a))%Z).
    { destruct (Nat.le_gt_cases (length a) 62) as [L|L]; [now left|]. right. now apply char_less. }
    assert (Hg : length b <= 62 \/ (g < Z.of_nat (length b))%Z).
    { destruct (Nat.le_gt_cases (length b) 62) as [L|L]; [now left|]. right. now apply char_less. }
    assert (Ha : length a <= 62 -> f = Z.of_nat (length a)) by apply char_small.
    assert (Hb : length b <= 62 -> g = Z.of_nat (length b)) by apply char_small.
    assert (La : (f <= Z.of_nat (length a))%Z) by (destruct Hf as [Hf|Hf]; [apply Ha in Hf|]; lia).
    assert (Lb : (g <= Z.of_nat (length b))%Z) by (destruct Hg as [Hg|Hg]; [apply Hb in Hg|]; lia).
    destruct (Z.ltb_spec (Z.of_nat (length form) - f - g) 0) as [N|N]; [lia|].
    rewrite firstn_length, skipn_length in H. lia.
  - intros [L1 L2]. unfold k, l. rewrite (char_small _ L1), (char_small _ L2).
    destruct (Z.ltb_spec (Z.of_nat (length a)) 0) as [N|_]; [lia|]. destruct (Z.ltb_spec (Z.of_nat (length form)) (Z.of_nat (length a))) as [N|_]; [lia|].
    cbn [orb]. destruct (Z.ltb_spec (Z.of_nat (length form) - Z.of_nat (length a) - Z.of_nat (length b)) 0) as [N|_]; [lia|].
    rewrite Nat2Z.id. unfold form at 2. rewrite skipn_app_len. replace (Z.to_nat _) with (length m) by lia. now rewrite firstn_app_len.
Qed.
Print Assumptions C87_decode.
(** So every lemma of a form of not more than 62 bytes is kept. *)
Theorem C87_kept : forall form lemma, (lemma = [] -> ~ In 0%Z form) -> length form <= 62 ->
  exists code, encode form lemma = Some code /\ decode form code = Some lemma.
Proof.
  intros form lemma Hz L. destruct (C87_code form lemma Hz) as (a & m & b & e & (E1 & E2 & _) & E3).
  eexists. split; [exact E3|]. rewrite E1, E2. apply C87_decode. rewrite E1, !app_length in L. lia.
Qed.
Print Assumptions C87_kept.
(** A form of 64 bytes whose lemma has nothing in common with it: reading the code back
    gives the whole form before the lemma. *)
Theorem C87_long_form_refuted : exists form lemma code, encode form lemma = Some code /\
  decode form code = Some (form ++ lemma).
Proof. exists (repeat 97%Z 64), [98%Z]. eexists. split; vm_compute; reflexivity. Qed.
Print Assumptions C87_long_form_refuted.

(** * Lines *)

Lemma fields_split (sep : Z -> Prop) f : (forall c, f c = true <-> sep c) -> forall s, fields sep s (split_any f s).
Proof.
  intros Hf. induction s as [|c s IH]; cbn [split_any]; [constructor; intros c []|].
  destruct (f c) eqn:E.
  - apply (fields_more sep [] c s); [intros d []|now apply Hf|exact IH].
  - assert (N : ~ sep c) by (intros K; apply Hf in K; congruence). inversion IH as [w Hw E1 E2|w d r fs Hw Hd Hr E1 E2]; subst.
    + constructor. intros d [<-|K]; [exact N|now apply Hw].
    + apply (fields_more sep (c :: w) d r fs); [|exact Hd|exact Hr]. intros d' [<-|K]; [exact N|now apply Hw].
Qed.
Lemma split_fields (sep : Z -> Prop) f : (forall c, f c = true <-> sep c) -> forall s fs, fields sep s fs -> split_any f s = fs.
Proof.
  intros Hf. assert (W : forall w, (forall c, In c w -> ~ sep c) -> split_any f w = [w]).
  { induction w as [|c w IH]; intros Hw; [reflexivity|]. cbn [split_any]. destruct (f c) eqn:E; [exfalso; apply (Hw c); [now left|now apply Hf]|].
    rewrite IH; [reflexivity|]. intros d Hd. apply Hw. now right. }
  intros s fs F. induction F as [w Hw|w c r fs Hw Hc F IH]; [now apply W|].
  revert Hw. induction w as [|d w IHw]; intros Hw; cbn [app split_any].
  - apply Hf in Hc. rewrite Hc, IH. reflexivity.
  - destruct (f d) eqn:E; [exfalso; apply (Hw d); [now left|now apply Hf]|]. rewrite IHw; [reflexivity|]. intros d' Hd. apply Hw. now right.
Qed.
Lemma is_tab_spec c : is_tab c = true <-> tab c.
Proof. apply Z.eqb_eq. Qed.
Lemma is_tab_space_spec c : is_tab_space c = true <-> blank c.
Proof. unfold is_tab_space, blank. rewrite orb_true_iff, !Z.eqb_eq. reflexivity. Qed.
Lemma is_comma_spec c : is_comma c = true <-> comma c.
Proof. apply Z.eqb_eq. Qed.
(** Every line has fields, and only one list of them. *)
Lemma fields_some s : exists fs, fields blank s fs.
Proof. exists (split_any is_tab_space s). apply fields_split, is_tab_space_spec. Qed.
Lemma fields_fun s fs fs' : fields blank s fs -> fields blank s fs' -> fs = fs'.
Proof. intros H1 H2. apply (split_fields blank is_tab_space is_tab_space_spec) in H1, H2. congruence. Qed.
Lemma fields_clean sep s fs : fields sep s fs -> forall w c, In w fs -> In c w -> ~ sep c /\ In c s.
Proof.
  intros F. induction F as [w Hw|w c r fs Hw Hc F IH]; intros w' d K1 K2.
  - destruct K1 as [<-|[]]. split; [now apply Hw|assumption].
  - rewrite in_app_iff. destruct K1 as [<-|K1]; [split; [now apply Hw|now left]|]. destruct (IH w' d K1 K2). split; [assumption|right; now right].
Qed.
(** A line of the text dictionary is stored with the code in the place of the lemma and
    tabs between the fields; fields after the fourth are dropped. *)
Definition record (form code : word) (rest : list word) : word :=
  form ++ 9%Z :: code ++ concat (map (cons 9%Z) (firstn 2 rest)).
Theorem C87_line : forall line form lemma rest code, fields blank line (form :: lemma :: rest) ->
  encode form lemma = Some code -> parse_input line = Some (record form code rest).
Proof.
  intros line form lemma rest code F E. unfold parse_input. rewrite (split_fields blank is_tab_space is_tab_space_spec _ _ F), E.
  unfold record. f_equal. f_equal. cbn [app]. f_equal. f_equal. destruct rest as [|p [|q rest]]; cbn; rewrite ?app_nil_r; reflexivity.
Qed.
Print Assumptions C87_line.
Theorem C87_line_fails : forall line w, fields blank line [w] -> parse_input line = None.
Proof. intros line w F. unfold parse_input. now rewrite (split_fields blank is_tab_space is_tab_space_spec _ _ F). Qed.
Print Assumptions C87_line_fails.

(** * Maps *)

Lemma word_eqb_eq u : forall v, word_eqb u v = true <-> u = v.
Proof.
  induction u as [|a u IH]; intros [|b v]; cbn [word_eqb]; split; intros H; try reflexivity; try discriminate.
  - apply andb_true_iff in H as [H1 H2]. apply Z.eqb_eq in H1. apply IH in H2. congruence.
  - injection H as -> ->. rewrite Z.eqb_refl. now apply IH.
Qed.
Lemma word_eqb_neq u v : word_eqb u v = false <-> u <> v.
Proof. rewrite <- (word_eqb_eq u v). destruct (word_eqb u v); split; congruence. Qed.
Section Maps.
Context {V : Type}.
Implicit Types (m : list (word * V)).
Definition sorted m : Prop := StronglySorted (fun x y => str_ltb (fst x) (fst y) = true) m.
Lemma look_in k v m : look_up k m = Some v -> In (k, v) m.
Proof.
  induction m as [|[k' v'] m IH]; cbn [look_up]; [discriminate|]. destruct (word_eqb k' k) eqn:E; [|intros H; right; now apply IH].
  intros H. injection H as ->. apply word_eqb_eq in E. subst. now left.
Qed.
Lemma look_none k m : (forall v, ~ In (k, v) m) -> look_up k m = None.
Proof. intros H. destruct (look_up k m) as [v|] eqn:E; [|reflexivity]. apply look_in in E. now apply H in E. Qed.
Lemma in_look m : sorted m -> forall k v, In (k, v) m <-> look_up k m = Some v.
Proof.
  intros So k v. split; [|apply look_in]. induction So as [|[k' v'] m So IH Hk]; intros K; [destruct K|]. cbn [look_up].
  destruct K as [K|K]; [injection K as -> ->; now rewrite word_eqb_refl|]. destruct (word_eqb k' k) eqn:E; [|now apply IH].
  apply word_eqb_eq in E. subst k'. rewrite Forall_forall in Hk. apply Hk in K. cbn [fst] in K. destruct str_ltb_strict as [Ir _ _]. rewrite Ir in K. discriminate.
Qed.
Lemma look_alter k d f m : sorted m -> forall k', look_up k' (alter k d f m) =
  if word_eqb k k' then Some (f (match look_up k m with Some v => v | None => d end)) else look_up k' m.
Proof.
  destruct str_ltb_strict as [Ir Tr To]. intros So. induction So as [|[k0 v0] m So IH Hk]; intros k'; cbn [alter].
  - cbn. destruct (word_eqb k k'); reflexivity.
  - destruct (str_ltb k k0) eqn:E1; [|destruct (str_ltb k0 k) eqn:E2].
    + assert (N : look_up k ((k0, v0) :: m) = None).
      { apply look_none. intros v [K|K]; [injection K as -> ->; rewrite Ir in E1; discriminate|].
        rewrite Forall_forall in Hk. apply Hk in K. cbn [fst] in K. pose proof (Tr _ _ _ E1 K) as T. rewrite Ir in T. discriminate. }
      rewrite N. reflexivity.
    + cbn [look_up]. assert (N : word_eqb k0 k = false) by (apply word_eqb_neq; intros ->; rewrite Ir in E2; discriminate). rewrite N, IH.
      destruct (word_eqb k0 k') eqn:E3; [|reflexivity]. apply word_eqb_eq in E3. subst k'.
      assert (N' : word_eqb k k0 = false) by (apply word_eqb_neq; intros ->; rewrite Ir in E2; discriminate). now rewrite N'.
    + assert (k = k0) as -> by (now apply To). cbn [look_up]. rewrite word_eqb_refl. destruct (word_eqb k0 k'); reflexivity.
Qed.
Lemma alter_keys k d f m x : In x (alter k d f m) -> fst x = k \/ exists v, In (fst x, v) m.
Proof.
  induction m as [|[k0 v0] m IH]; cbn [alter]; [intros [<-|[]]; now left|].
  destruct (str_ltb k k0); [|destruct (str_ltb k0 k)]; cbn [In].
  - intros [<-|[<-|K]]; [now left| |]; right; [exists v0; now left|]. destruct x as [a b]. exists b. now right.
  - intros [<-|K]; [right; exists v0; now left|]. destruct (IH K) as [E|(v & K')]; [now left|]. right. exists v. now right.
  - intros [<-|K]; right; [exists v0; now left|]. destruct x as [a b]. exists b. now right.
Qed.
Lemma alter_sorted k d f m : sorted m -> sorted (alter k d f m).
Proof.
  destruct str_ltb_strict as [Ir Tr To]. intros So. induction So as [|[k0 v0] m So IH Hk]; cbn [alter]; [repeat constructor|].
  destruct (str_ltb k k0) eqn:E1; [|destruct (str_ltb k0 k) eqn:E2].
  - constructor; [now constructor|]. constructor; [exact E1|]. eapply Forall_impl; [|exact Hk]. intros x Hx. cbn [fst] in *. now apply (Tr _ k0).
  - constructor; [exact IH|]. rewrite Forall_forall in *. intros x Hx. apply alter_keys in Hx as [E|(v & K)]; [cbn [fst]; now rewrite E|].
    exact (Hk _ K).
  - constructor; [exact So|exact Hk].
Qed.
End Maps.
Arguments sorted {V} m.

(** * Fields with keys and values *)

Definition pair_of (bare : word -> word * word) (s : word) : word * word :=
  match find_byte EQUALS s with
  | Some p => (firstn p s, skipn (p + 1) s)
  | None => bare s
  end.
Lemma find_byte_none c s : find_byte c s = None <-> ~ In c s.
Proof.
  induction s as [|d s IH]; cbn [find_byte In]; [tauto|]. destruct (Z.eqb_spec d c) as [->|N]; [split; [discriminate|tauto]|].
  destruct (find_byte c s); cbn; [|tauto]. split; [discriminate|]. intros K. assert (Some n = None) by tauto. discriminate.
Qed.
Lemma find_byte_some c s p : find_byte c s = Some p <-> exists a b, s = a ++ c :: b /\ length a = p /\ ~ In c a.
Proof.
  split.
  - revert p. induction s as [|d s IH]; intros p; cbn [find_byte]; [discriminate|]. destruct (Z.eqb_spec d c) as [->|N].
    + intros H. injection H as <-. exists [], s. now split.
    + destruct (find_byte c s) as [q|]; [|discriminate]. cbn. intros H. injection H as <-. destruct (IH q eq_refl) as (a & b & -> & <- & K).
      exists (d :: a), b. split; [reflexivity|split; [reflexivity|]]. intros [E|E]; [congruence|now apply K].
  - intros (a & b & -> & <- & K). induction a as [|d a IH]; cbn [find_byte app]; [now rewrite Z.eqb_refl|].
    destruct (Z.eqb_spec d c) as [->|N]; [exfalso; apply K; now left|]. rewrite IH; [reflexivity|]. intros E. apply K. now right.
Qed.
Lemma says_pair bare s k v : says bare s k v <-> pair_of bare s = (k, v).
Proof.
  unfold says, pair_of. destruct (find_byte EQUALS s) as [p|] eqn:E.
  - apply find_byte_some in E as (a & b & -> & <- & K). rewrite firstn_app_len.
    replace (skipn (length a + 1) (a ++ EQUALS :: b)) with b
      by (change (EQUALS :: b) with ([EQUALS] ++ b); rewrite app_assoc; replace (length a + 1) with (length (a ++ [EQUALS])) by (rewrite app_length; reflexivity); now rewrite skipn_app_len).
    split.
    + intros [[N H]|[N _]]; [|exfalso; apply N, in_app_iff; right; now left].
      assert (F : find_byte EQUALS (a ++ EQUALS :: b) = Some (length a)) by (apply find_byte_some; now exists a, b).
      assert (F' : find_byte EQUALS (a ++ EQUALS :: b) = Some (length k)) by (apply find_byte_some; now exists k, v).
      assert (length a = length k) by congruence. apply (f_equal (fun s => (firstn (length a) s, skipn (length a) s))) in H.
      rewrite firstn_app_len, skipn_app_len in H. rewrite H0, firstn_app_len, skipn_app_len in H. congruence.
    + intros H. injection H as <- <-. left. now split.
  - apply find_byte_none in E. split; [intros [[N ->]|[_ H]]; [exfalso; apply E, in_app_iff; right; now left|exact H]|]. intros H. right. now split.
Qed.
Lemma look_put bare m s k : sorted m ->
  look_up k (put_field bare m s) = if word_eqb (fst (pair_of bare s)) k then Some (snd (pair_of bare s)) else look_up k m.
Proof.
  intros So. unfold put_field. fold (pair_of bare s). destruct (pair_of bare s) as [k' v']. cbn [fst snd]. rewrite look_alter by exact So. reflexivity.
Qed.
Lemma put_sorted bare fs : forall m, sorted m -> sorted (fold_left (put_field bare) fs m).
Proof.
  induction fs as [|f fs IH]; intros m So; [exact So|]. cbn [fold_left]. apply IH. unfold put_field. fold (pair_of bare f).
  destruct (pair_of bare f). now apply alter_sorted.
Qed.
Definition last_in (bare : word -> word * word) (fs : list word) (k v : word) : Prop :=
  exists l1 f l2, fs = l1 ++ f :: l2 /\ says bare f k v /\ forall f' v', In f' l2 -> ~ says bare f' k v'.
Lemma look_puts bare fs : forall m, sorted m -> forall k v, look_up k (fold_left (put_field bare) fs m) = Some v <->
  last_in bare fs k v \/ ((forall f v', In f fs -> ~ says bare f k v') /\ look_up k m = Some v).
Proof.
  induction fs as [|f fs IH] using rev_ind; intros m So k v.
  - cbn. split; [intros H; right; split; [tauto|exact H]|]. intros [(l1 & f & l2 & E & _)|[_ H]]; [now destruct l1|exact H].
  - rewrite fold_left_app. cbn [fold_left]. rewrite look_put by (now apply put_sorted). destruct (pair_of bare f) as [k0 v0] eqn:Ep. cbn [fst snd].
    destruct (word_eqb k0 k) eqn:E.
    + apply word_eqb_eq in E. subst k0. split.
      * intros H. injection H as ->. left. exists fs, f, []. split; [reflexivity|split; [now apply says_pair|]]. intros f' v' [].
      * intros [(l1 & f1 & l2 & H1 & H2 & H3)|[H _]].
        -- destruct l2 as [|f2 l2] using rev_ind.
           ++ apply app_inj_tail in H1 as [_ <-]. apply says_pair in H2. congruence.
           ++ exfalso. rewrite app_comm_cons, app_assoc in H1. apply app_inj_tail in H1 as [_ <-]. apply (H3 f v0); [apply in_app_iff; right; now left|now apply says_pair].
        -- exfalso. apply (H f v0); [apply in_app_iff; right; now left|now apply says_pair].
    + apply word_eqb_neq in E. rewrite IH by exact So. assert (Nf : forall v', ~ says bare f k v') by (intros v' K; apply says_pair in K; congruence). split.
      * intros [(l1 & f1 & l2 & -> & H2 & H3)|[H1 H2]].
        -- left. exists l1, f1, (l2 ++ [f]). split; [now rewrite <- app_assoc|split; [exact H2|]]. intros f' v' K. apply in_app_iff in K as [K|[<-|[]]]; [now apply H3|apply Nf].
        -- right. split; [|exact H2]. intros f' v' K. apply in_app_iff in K as [K|[<-|[]]]; [now apply H1|apply Nf].
      * intros [(l1 & f1 & l2 & H1 & H2 & H3)|[H1 H2]].
        -- left. destruct l2 as [|f2 l2] using rev_ind.
           ++ apply app_inj_tail in H1 as [_ <-]. now apply Nf in H2.
           ++ clear IHl2. rewrite app_comm_cons, app_assoc in H1. apply app_inj_tail in H1 as [-> <-]. exists l1, f1, l2. split; [reflexivity|split; [exact H2|]].
              intros f' v' K. apply H3. apply in_app_iff. now left.
        -- right. split; [|exact H2]. intros f' v' K. apply H1. apply in_app_iff. now left.
Qed.
Lemma last_in_says bare s k v : last_in bare (split_any is_comma s) k v <-> last_says bare s k v.
Proof.
  pose proof (fields_split comma is_comma is_comma_spec s) as F. split.
  - intros (l1 & f & l2 & E & H). exists l1, f, l2. now rewrite <- E.
  - intros (l1 & f & l2 & E & H). exists l1, f, l2. split; [now apply (split_fields comma is_comma is_comma_spec)|exact H].
Qed.
Lemma put_fresh bare s k v : look_up k (fold_left (put_field bare) (split_any is_comma s) []) = Some v <-> last_says bare s k v.
Proof. rewrite look_puts by constructor. rewrite last_in_says. cbn. intuition discriminate. Qed.
Lemma put_again bare s m : sorted m -> (forall k v, look_up k m = Some v -> last_says bare s k v) -> forall k v,
  look_up k (fold_left (put_field bare) (split_any is_comma s) m) = Some v <-> last_says bare s k v.
Proof.
  intros So H k v. rewrite look_puts by exact So. rewrite last_in_says. split; [|now left]. intros [K|[K1 K2]]; [exact K|]. now apply H.
Qed.

(** * The dictionary *)

(** The third field after the form and the lemma, for the features of the form. *)
Definition features (rest : list word) (k v : word) : Prop :=
  match rest with s :: _ => last_says bare_morpho s k v | [] => False end.

Section Answers.
Context (token : word).
(** A value of the store that stands for a lemma and not more than two further fields. *)
Definition val (v lemma : word) (r : list word) : Prop :=
  exists code, decode token code = Some lemma /\ v = code ++ concat (map (cons 9%Z) r) /\ length r <= 2 /\
    ~ In 9%Z code /\ forall w, In w r -> ~ In 9%Z w.
Lemma val_split v r code : v = code ++ concat (map (cons 9%Z) r) -> ~ In 9%Z code -> (forall w, In w r -> ~ In 9%Z w) ->
  split_any is_tab v = code :: r.
Proof.
  intros -> Hc Hr. apply (split_fields tab is_tab is_tab_spec). revert code Hc. induction r as [|w r IH]; intros code Hc; cbn [map concat].
  - rewrite app_nil_r. constructor. intros c K ->. now apply Hc.
  - rewrite <- app_comm_cons. apply fields_more; [intros c K ->; now apply Hc|reflexivity|]. apply IH; [intros w' K; apply Hr; now right|apply Hr; now left].
Qed.
Definition morpho_of (r : list word) : feature_map := match r with [s] => fold_left put_morpho (split_any is_comma s) [] | _ => [] end.
Record Inv (m : lemma_map) (E : word -> list word -> Prop) : Prop := {
  i_sorted : sorted m;
  i_lemma : forall lemma, look_up lemma m <> None <-> exists r, E lemma r;
  i_tags : forall lemma t, look_up lemma m = Some t -> sorted t /\ forall tag, look_up tag t <> None <-> exists r, E lemma (tag :: r);
  i_tag : forall lemma t tag attrs forms, look_up lemma m = Some t -> look_up tag t = Some (attrs, forms) ->
    sorted attrs /\ (forall k v, look_up k attrs = Some v <-> last_says bare_pos tag k v) /\
    forall fm, In fm forms <-> exists r, E lemma (tag :: r) /\ fm = morpho_of r }.
Lemma step m E v lemma r : Inv m E -> val v lemma r -> exists m', parse_result token v m = Some m' /\
  Inv m' (fun l r' => E l r' \/ (l = lemma /\ r' = r)).
Proof.
  intros I (code & D & Ev & L & Hc & Hr). unfold parse_result. rewrite (val_split v r code Ev Hc Hr), D.
  set (m1 := alter lemma [] (fun t => t) m). pose proof (i_sorted m E I) as So.
  assert (So1 : sorted m1) by (now apply alter_sorted).
  assert (L1 : forall l, look_up l m1 = if word_eqb lemma l then Some (match look_up lemma m with Some t => t | None => [] end) else look_up l m)
    by (intros l; exact (look_alter lemma [] (fun t => t) m So l)).
  set (old := match look_up lemma m with Some t => t | None => [] end) in *.
  assert (So2 : sorted old /\ forall tag, look_up tag old <> None <-> exists r', E lemma (tag :: r')).
  { unfold old. destruct (look_up lemma m) as [t|] eqn:El; [exact (i_tags m E I lemma t El)|]. split; [constructor|]. intros tag. cbn. split; [congruence|].
    intros (r' & K). exfalso. apply (proj2 (i_lemma m E I lemma)); [now exists (tag :: r')|exact El]. }
  destruct So2 as [So2 T2].
  assert (T3 : forall tag attrs forms, look_up tag old = Some (attrs, forms) -> sorted attrs /\ (forall k v, look_up k attrs = Some v <-> last_says bare_pos tag k v) /\
    forall fm, In fm forms <-> exists r, E lemma (tag :: r) /\ fm = morpho_of r).
  { unfold old. destruct (look_up lemma m) as [t|] eqn:El; [intros tag a f; exact (i_tag m E I lemma t tag a f El)|]. intros tag a f K. discriminate K. }
  destruct r as [|tag r'].
  - exists m1. split; [reflexivity|]. constructor.
    + exact So1.
    + intros l. rewrite L1. destruct (word_eqb lemma l) eqn:El.
      * apply word_eqb_eq in El. subst l. split; [intros _; exists []; now right|discriminate].
      * apply word_eqb_neq in El. rewrite (i_lemma m E I l). split; [intros (r' & K); exists r'; now left|]. intros (r' & [K|[K _]]); [now exists r'|congruence].
    + intros l t. rewrite L1. destruct (word_eqb lemma l) eqn:El.
      * apply word_eqb_eq in El. subst l. intros K. injection K as <-. split; [exact So2|]. intros tag. rewrite T2.
        split; [intros (r' & K); exists r'; now left|]. intros (r' & [K|[_ K]]); [now exists r'|discriminate].
      * intros K. destruct (i_tags m E I l t K) as [S1 S2]. split; [exact S1|]. intros tag. rewrite S2.
        split; [intros (r' & K'); exists r'; now left|]. intros (r' & [K'|[_ K']]); [now exists r'|discriminate].
    + intros l t tag attrs forms. rewrite L1. destruct (word_eqb lemma l) eqn:El.
      * apply word_eqb_eq in El. subst l. intros K. injection K as <-. intros K. destruct (T3 tag attrs forms K) as (S1 & S2 & S3).
        split; [exact S1|split; [exact S2|]]. intros fm. rewrite S3.
        split; [intros (r' & K' & K2); exists r'; split; [now left|exact K2]|]. intros (r' & [K'|[_ K']] & K2); [now exists r'|discriminate].
      * intros K K0. destruct (i_tag m E I l t tag attrs forms K K0) as (S1 & S2 & S3). split; [exact S1|split; [exact S2|]]. intros fm. rewrite S3.
        split; [intros (r' & K' & K2); exists r'; split; [now left|exact K2]|]. intros (r' & [K'|[_ K']] & K2); [now exists r'|discriminate].
  - set (mo := match r' with [s] => fold_left put_morpho (split_any is_comma s) [] | _ => [] end).
    set (upd := alter tag ([], []) (fun e : feature_map * list feature_map => (fold_left put_pos (split_any is_comma tag) (fst e), snd e ++ [mo]))).
    exists (alter lemma [] upd m1). split; [reflexivity|].
    assert (L2 : forall l, look_up l (alter lemma [] upd m1) = if word_eqb lemma l then Some (upd old) else look_up l m).
    { intros l. rewrite look_alter by exact So1. rewrite !L1, word_eqb_refl. destruct (word_eqb lemma l); reflexivity. }
    assert (Lu : forall tg, look_up tg (upd old) = if word_eqb tag tg then
      Some (let e := match look_up tag old with Some e => e | None => ([], []) end in (fold_left put_pos (split_any is_comma tag) (fst e), snd e ++ [mo])) else look_up tg old).
    { intros tg. unfold upd. now rewrite look_alter by exact So2. }
    constructor.
    + now apply alter_sorted.
    + intros l. rewrite L2. destruct (word_eqb lemma l) eqn:El.
      * apply word_eqb_eq in El. subst l. split; [intros _; exists (tag :: r'); now right|discriminate].
      * apply word_eqb_neq in El. rewrite (i_lemma m E I l). split; [intros (r0 & K); exists r0; now left|]. intros (r0 & [K|[K _]]); [now exists r0|congruence].
    + intros l t. rewrite L2. destruct (word_eqb lemma l) eqn:El.
      * apply word_eqb_eq in El. subst l. intros K. injection K as <-. split; [now apply alter_sorted|]. intros tg. rewrite Lu.
        destruct (word_eqb tag tg) eqn:Et.
        -- apply word_eqb_eq in Et. subst tg. split; [intros _; exists r'; now right|discriminate].
        -- apply word_eqb_neq in Et. rewrite T2. split; [intros (r0 & K); exists r0; now left|]. intros (r0 & [K|[_ K]]); [now exists r0|congruence].
      * apply word_eqb_neq in El. intros K. destruct (i_tags m E I l t K) as [S1 S2]. split; [exact S1|]. intros tg. rewrite S2.
        split; [intros (r0 & K'); exists r0; now left|]. intros (r0 & [K'|[K' _]]); [now exists r0|congruence].
    + intros l t tg attrs forms. rewrite L2. destruct (word_eqb lemma l) eqn:El.
      * apply word_eqb_eq in El. subst l. intros K. injection K as <-. rewrite Lu. destruct (word_eqb tag tg) eqn:Et.
        -- apply word_eqb_eq in Et. subst tg.
           set (e := match look_up tag old with Some e => e | None => ([], []) end).
           assert (Se : sorted (fst e) /\ (forall k v, look_up k (fst e) = Some v -> last_says bare_pos tag k v) /\
                        forall fm, In fm (snd e) <-> exists r, E lemma (tag :: r) /\ fm = morpho_of r).
           { unfold e. destruct (look_up tag old) as [[a f]|] eqn:Eo.
             - destruct (T3 tag a f Eo) as (S1 & S2 & S3). cbn [fst snd]. split; [exact S1|split; [|exact S3]]. intros k v0. apply S2.
             - split; [constructor|split; [discriminate|]]. intros fm. split; [intros []|]. intros (r0 & K & _). exfalso. apply (proj2 (T2 tag)); [now exists r0|exact Eo]. }
           destruct Se as (S1 & S2 & S3). intros K. injection K as <- <-.
           split; [now apply put_sorted|split; [now apply put_again|]]. intros fm. rewrite in_app_iff, S3. split.
           ++ intros [(r0 & K & K2)|[<-|[]]]; [exists r0; split; [now left|exact K2]|]. exists r'. split; [now right|reflexivity].
           ++ intros (r0 & [K|[_ K]] & K2); [left; now exists r0|]. right. left. injection K as ->. now rewrite K2.
        -- apply word_eqb_neq in Et. intros K. destruct (T3 tg attrs forms K) as (S1 & S2 & S3). split; [exact S1|split; [exact S2|]]. intros fm. rewrite S3.
           split; [intros (r0 & K' & K2); exists r0; split; [now left|exact K2]|]. intros (r0 & [K'|[_ K']] & K2); [now exists r0|congruence].
      * apply word_eqb_neq in El. intros K K0. destruct (i_tag m E I l t tg attrs forms K K0) as (S1 & S2 & S3). split; [exact S1|split; [exact S2|]]. intros fm. rewrite S3.
        split; [intros (r0 & K' & K2); exists r0; split; [now left|exact K2]|]. intros (r0 & [K'|[K' _]] & K2); [now exists r0|congruence].
Qed.
Lemma Inv_nil : Inv [] (fun _ _ => False).
Proof.
  constructor; [constructor| |intros lemma t K; discriminate K|intros lemma t tag a f K; discriminate K].
  intros lemma. split; [intros K; destruct (K eq_refl)|intros (r & [])].
Qed.
Lemma Inv_ext m E E' : (forall l r, E l r <-> E' l r) -> Inv m E -> Inv m E'.
Proof.
  intros H I. constructor.
  - exact (i_sorted m E I).
  - intros l. rewrite (i_lemma m E I l). split; intros (r & K); exists r; now apply H.
  - intros l t K. destruct (i_tags m E I l t K) as [S1 S2]. split; [exact S1|]. intros tag. rewrite S2. split; intros (r & K'); exists r; now apply H.
  - intros l t tag a f K1 K2. destruct (i_tag m E I l t tag a f K1 K2) as (S1 & S2 & S3). split; [exact S1|split; [exact S2|]]. intros fm. rewrite S3.
    split; intros (r & K' & K3); exists r; (split; [now apply H|exact K3]).
Qed.
Lemma val_fun v l1 r1 l2 r2 : val v l1 r1 -> val v l2 r2 -> l1 = l2 /\ r1 = r2.
Proof.
  intros (c1 & D1 & E1 & _ & H1 & H2) (c2 & D2 & E2 & _ & H3 & H4). pose proof (val_split v r1 c1 E1 H1 H2) as S1.
  pose proof (val_split v r2 c2 E2 H3 H4) as S2. rewrite S1 in S2. injection S2 as -> ->. split; [congruence|reflexivity].
Qed.
Lemma steps vs : forall m E, Inv m E -> (forall v, In v vs -> exists lemma r, val v lemma r) ->
  exists m', parse_results token vs m = Some m' /\ Inv m' (fun l r => E l r \/ exists v, In v vs /\ val v l r).
Proof.
  induction vs as [|v vs IH]; intros m E I H.
  - exists m. split; [reflexivity|]. apply (Inv_ext m E); [|exact I]. intros l r. split; [now left|]. intros [K|(v & [] & _)]. exact K.
  - destruct (H v (or_introl eq_refl)) as (lemma & r & Hv). destruct (step m E v lemma r I Hv) as (m1 & E1 & I1).
    destruct (IH m1 _ I1) as (m2 & E2 & I2); [intros v' K; apply H; now right|]. exists m2. cbn [parse_results]. rewrite E1. split; [exact E2|].
    eapply Inv_ext; [|exact I2]. intros l r'. cbn beta. split.
    + intros [[K|[-> ->]]|(v' & K1 & K2)]; [now left| |]; right; [exists v; split; [now left|exact Hv]|]. exists v'. split; [now right|exact K2].
    + intros [K|(v' & [<-|K1] & K2)]; [left; now left| |].
      * left. right. destruct (val_fun v l r' lemma r K2 Hv). now subst.
      * right. exists v'. now split.
Qed.
End Answers.

(** ** Lines and records *)

(** A line of the text dictionary that is read without loss. *)
Definition sound_line (line : word) : Prop :=
  line = [] \/ exists form lemma rest, fields blank line (form :: lemma :: rest) /\ (lemma = [] -> ~ In 0%Z form) /\ length form <= 62.
Definition size_of (fs : list word) : nat := fold_right (fun w n => length w + 1 + n) 0 fs.
Lemma fields_size sep s fs : fields sep s fs -> length s + 1 = size_of fs.
Proof. intros F. induction F as [w _|w c r fs _ _ F IH]; cbn [size_of fold_right]; [lia|]. unfold size_of in IH. rewrite app_length. cbn [length]. lia. Qed.
Lemma concat_size r : length (concat (map (cons 9%Z) r)) = size_of r.
Proof. induction r as [|w r IH]; cbn [map concat size_of fold_right]; [reflexivity|]. unfold size_of in IH. rewrite app_length, IH. cbn [length]. lia. Qed.
Lemma size_firstn n : forall r, size_of (firstn n r) <= size_of r.
Proof. induction n as [|n IH]; intros [|w r]; cbn; try lia. specialize (IH r). unfold size_of in IH. lia. Qed.
Lemma line_read line form lemma rest : fields blank line (form :: lemma :: rest) -> (lemma = [] -> ~ In 0%Z form) -> length form <= 62 ->
  exists code, read_line line = Some (record form code rest) /\ decode form code = Some lemma /\ ~ In 9%Z code /\
    length (record form code rest) <= length line + 2 /\ (plain line -> plain (record form code rest)).
Proof.
  intros F Hz L. destruct (C87_code form lemma Hz) as (a & m & b & e & (E1 & E2 & _) & E3).
  set (k := ((65 + Z.of_nat (length a)) mod 256)%Z) in *. set (l := ((65 + Z.of_nat (length b)) mod 256)%Z) in *.
  assert (Lab : length a <= 62 /\ length b <= 62) by (rewrite E1, !app_length in L; lia).
  assert (Hk : (65 <= k <= 127)%Z) by (unfold k; rewrite Z.mod_small; lia). assert (Hl : (65 <= l <= 127)%Z) by (unfold l; rewrite Z.mod_small; lia).
  assert (He : forall c, In c e -> In c lemma) by (intros c K; rewrite E2; apply in_app_iff; now right).
  exists (k :: l :: e). split; [|split; [|split; [|split]]].
  - unfold read_line. destruct line as [|c line]; [|now apply (C87_line _ form lemma)]. exfalso. pose proof (fields_size _ _ _ F) as S. cbn in S. lia.
  - rewrite E1, E2. apply C87_decode. exact Lab.
  - intros [K|[K|K]]; [lia|lia|]. apply (fields_clean _ _ _ F lemma 9%Z); [right; now left|now apply He|now left].
  - unfold record. pose proof (fields_size _ _ _ F) as S. pose proof (size_firstn 2 rest) as S2. rewrite app_length. cbn [length]. rewrite app_length, concat_size. cbn [length].
    cbn [size_of fold_right] in S. unfold size_of in S2. rewrite E2, app_length in S. unfold size_of. lia.
  - intros P c K. assert (Pl : forall w, In w (form :: lemma :: rest) -> In c w -> c <> EPS /\ c <> ANY).
    { intros w K1 K2. apply P. now apply (fields_clean _ _ _ F w c). }
    unfold EPS, ANY in *. unfold record in K. apply in_app_iff in K as [K|K]; [apply (Pl form); [now left|exact K]|].
    destruct K as [<-|K]; [lia|]. apply in_app_iff in K as [[<-|[<-|K]]|K]; [lia|lia|apply (Pl lemma); [right; now left|now apply He]|].
    apply in_concat in K as (w & K1 & K2). apply in_map_iff in K1 as (w' & <- & K1). destruct K2 as [<-|K2]; [lia|].
    apply (Pl w'); [|exact K2]. right. right. rewrite <- (firstn_skipn 2 rest). apply in_app_iff. now left.
Qed.
Lemma tab_unique (a a' b b' : word) : ~ In 9%Z a -> ~ In 9%Z a' -> a ++ 9%Z :: b = a' ++ 9%Z :: b' -> a = a' /\ b = b'.
Proof.
  revert a'. induction a as [|c a IH]; intros [|c' a'] H1 H2 E; cbn [app] in E.
  - now injection E as ->.
  - injection E as <- _. exfalso. apply H2. now left.
  - injection E as -> _. exfalso. apply H1. now left.
  - injection E as -> E. destruct (IH a') as [-> ->]; [intros K; apply H1; now right|intros K; apply H2; now right|exact E|now split].
Qed.

Lemma read_all lines : (forall l, In l lines -> sound_line l) -> (forall l, In l lines -> plain l) -> exists rs,
  all_some (map read_line lines) = Some rs /\ (forall r, In r rs <-> exists l, In l lines /\ read_line l = Some r) /\
  (forall r, In r rs -> plain r) /\ length (concat rs) <= length (concat lines) + 2 * length lines.
Proof.
  induction lines as [|l lines IH]; intros Hs Hp.
  - exists []. split; [reflexivity|split; [|split; [intros r []|cbn; lia]]]. intros r. split; [intros []|intros (l & [] & _)].
  - destruct IH as (rs & E & H1 & H2 & H3); [intros x K; apply Hs; now right|intros x K; apply Hp; now right|].
    assert (R : exists r, read_line l = Some r /\ plain r /\ length r <= length l + 2).
    { destruct (Hs l (or_introl eq_refl)) as [->|(form & lemma & rest & F & Hz & L)]; [exists []; split; [reflexivity|split; [intros c []|lia]]|].
      destruct (line_read l form lemma rest F Hz L) as (code & R1 & _ & _ & R2 & R3). eexists. split; [exact R1|split; [|exact R2]]. apply R3, Hp. now left. }
    destruct R as (r & R1 & R2 & R3). exists (r :: rs). cbn [map all_some]. rewrite R1, E. split; [reflexivity|split; [|split]].
    + intros x. split.
      * intros [<-|K]; [exists l; split; [now left|exact R1]|]. apply H1 in K as (l' & K1 & K2). exists l'. split; [now right|exact K2].
      * intros (l' & [<-|K1] & K2); [left; congruence|]. right. apply H1. now exists l'.
    + intros x [<-|K]; [exact R2|now apply H2].
    + cbn [concat length]. rewrite !app_length. lia.
Qed.

(** What the dictionary answers for a token, in terms of the lines of the text it was
    read from: the lemmas of the lines with this form; under a lemma the tags of its
    lines; under a tag its own keys and values, and a set of features for every line
    with this form, lemma and tag. *)
Definition told (lines : list word) (token : word) (m : lemma_map) : Prop :=
  sorted m /\
  (forall lemma, (exists t, In (lemma, t) m) <-> exists line rest, In line lines /\ fields blank line (token :: lemma :: rest)) /\
  forall lemma t, In (lemma, t) m -> sorted t /\
    (forall tag, (exists e, In (tag, e) t) <-> exists line rest, In line lines /\ fields blank line (token :: lemma :: tag :: rest)) /\
    forall tag attrs forms, In (tag, (attrs, forms)) t ->
      sorted attrs /\ (forall k v, In (k, v) attrs <-> last_says bare_pos tag k v) /\
      (forall fm, In fm forms -> sorted fm /\ exists line rest, In line lines /\ fields blank line (token :: lemma :: tag :: rest) /\
         forall k v, In (k, v) fm <-> features rest k v) /\
      (forall line rest, In line lines -> fields blank line (token :: lemma :: tag :: rest) ->
         exists fm, In fm forms /\ forall k v, In (k, v) fm <-> features rest k v).
Lemma morpho_sorted r : sorted (morpho_of r).
Proof. destruct r as [|s [|s' r]]; cbn [morpho_of]; [constructor| |constructor]. apply put_sorted. constructor. Qed.
Lemma morpho_says rest k v : In (k, v) (morpho_of (firstn 1 rest)) <-> features rest k v.
Proof.
  destruct rest as [|s rest]; [reflexivity|]. change (firstn 1 (s :: rest)) with [s]. rewrite (in_look _ (morpho_sorted [s])). apply put_fresh.
Qed.
Theorem C87_dictionary : forall lines token,
  (forall l, In l lines -> sound_line l) -> (forall l, In l lines -> plain l) -> (exists l, In l lines /\ l <> []) ->
  (Z.of_nat (length (concat lines) + 2 * length lines) < 2 ^ 31)%Z -> (forall l, In l lines -> length l + 2 <= max_depth) ->
  plain token -> ~ In 9%Z token ->
  exists store m, read_dictionary lines = Some store /\ dict_get store token = Some m /\ told lines token m.
Proof.
  intros lines token Hs Hp (l0 & Hl0 & Hn0) Hz Hd Pt Nt. destruct (read_all lines Hs Hp) as (rs & E & R1 & R2 & R3).
  destruct (C31_get_returns_the_values rs token R2 Pt) as (store & vs & Ec & Eg & (_ & Ha)).
  { destruct (Hs l0 Hl0) as [->|(form & lemma & rest & F & Hz0 & L)]; [congruence|].
    destruct (line_read l0 form lemma rest F Hz0 L) as (code & K & _). exists (record form code rest). split; [apply R1; exists l0; now split|]. unfold record. destruct form; discriminate. }
  { eapply Z.le_lt_trans; [|exact Hz]. apply Nat2Z.inj_le. exact R3. }
  clear Hz. revert Ha Hd. generalize max_depth. intros depth Ha Hd.
  assert (V : forall v, In v vs -> exists lemma rest line, In line lines /\ fields blank line (token :: lemma :: rest) /\ val token v lemma (firstn 2 rest)).
  { intros v K. apply Ha in K as (_ & K & _). apply R1 in K as (line & K1 & K2).
    destruct (Hs line K1) as [->|(form & lemma & rest & F & Hz0 & L)].
    { cbn in K2. injection K2 as K2. destruct token; discriminate. }
    destruct (line_read line form lemma rest F Hz0 L) as (code & Er & D & Nc & _). rewrite Er in K2. injection K2 as K2. unfold record in K2.
    change ([TAB] ++ v) with (9%Z :: v) in K2. apply tab_unique in K2 as [-> <-]; [|intros K; apply (fields_clean _ _ _ F form 9%Z); [now left|exact K|now left]|exact Nt].
    exists lemma, rest, line. split; [exact K1|split; [exact F|]]. exists code. split; [exact D|split; [reflexivity|split; [rewrite firstn_length; lia|split; [exact Nc|]]]].
    intros w K K'. apply (fields_clean _ _ _ F w 9%Z); [|exact K'|now left]. right. right. rewrite <- (firstn_skipn 2 rest). apply in_app_iff. now left. }
  assert (V' : forall lemma rest line, In line lines -> fields blank line (token :: lemma :: rest) -> exists v, In v vs /\ val token v lemma (firstn 2 rest)).
  { intros lemma rest line K F. destruct (Hs line K) as [->|(form & lemma' & rest' & F' & Hz0 & L)].
    { pose proof (fields_size _ _ _ F) as S. cbn in S. lia. }
    pose proof (fields_fun _ _ _ F F') as EF. injection EF as <- <- <-.
    destruct (line_read line token lemma rest F Hz0 L) as (code & Er & D & Nc & Ln & _). exists (code ++ concat (map (cons 9%Z) (firstn 2 rest))). split.
    - apply Ha. split; [destruct code; [discriminate D|discriminate]|]. change (token ++ [TAB] ++ code ++ concat (map (cons 9%Z) (firstn 2 rest))) with (record token code rest).
      split; [apply R1; exists line; split; [exact K|exact Er]|]. specialize (Hd line K). eapply Nat.le_trans; [exact Ln|exact Hd].
    - exists code. split; [exact D|split; [reflexivity|split; [rewrite firstn_length; lia|split; [exact Nc|]]]].
      intros w K1 K'. apply (fields_clean _ _ _ F w 9%Z); [|exact K'|now left]. right. right. rewrite <- (firstn_skipn 2 rest). apply in_app_iff. now left. }
  destruct (steps token vs [] (fun _ _ => False)) as (m & Em & I).
  { exact (Inv_nil). }
  { intros v K. destruct (V v K) as (lemma & rest & _ & _ & _ & Hv). exists lemma, (firstn 2 rest). exact Hv. }
  exists store, m. split; [unfold read_dictionary; rewrite E; exact Ec|]. split; [unfold dict_get; rewrite Eg; exact Em|].
  set (E0 := fun l r => False \/ exists v, In v vs /\ val token v l r) in I.
  assert (HE : forall lemma r, E0 lemma r <-> exists line rest, In line lines /\ fields blank line (token :: lemma :: rest) /\ r = firstn 2 rest).
  { intros lemma r. unfold E0. split.
    - intros [[]|(v & K & Hv)]. destruct (V v K) as (lemma' & rest & line & K1 & K2 & K3). destruct (val_fun token v _ _ _ _ Hv K3) as [-> ->]. exists line, rest. split; [exact K1|split; [exact K2|reflexivity]].
    - intros (line & rest & K1 & K2 & ->). right. exact (V' lemma rest line K1 K2). }
  pose proof (i_sorted m E0 I) as So. split; [exact So|split].
  - intros lemma. transitivity (look_up lemma m <> None).
    { split; [intros (t & K); apply (in_look m So) in K; congruence|]. destruct (look_up lemma m) as [t|] eqn:El; [|congruence]. intros _. exists t. apply (in_look m So). exact El. }
    rewrite (i_lemma m E0 I). split.
    + intros (r & K). apply HE in K as (line & rest & K1 & K2 & _). exists line, rest. split; [exact K1|exact K2].
    + intros (line & rest & K1 & K2). exists (firstn 2 rest). apply HE. exists line, rest. split; [exact K1|split; [exact K2|reflexivity]].
  - intros lemma t K. apply (in_look m So) in K. destruct (i_tags m E0 I lemma t K) as [St Ht]. split; [exact St|split].
    + intros tag. transitivity (look_up tag t <> None).
      { split; [intros (e & K'); apply (in_look t St) in K'; congruence|]. destruct (look_up tag t) as [e|] eqn:El; [|congruence]. intros _. exists e. apply (in_look t St). exact El. }
      rewrite Ht. split.
      * intros (r & K'). apply HE in K' as (line & rest & K1 & K2 & E'). destruct rest as [|tag' rest]; [discriminate|]. cbn [firstn] in E'. injection E' as -> _. exists line, rest. split; [exact K1|exact K2].
      * intros (line & rest & K1 & K2). exists (firstn 1 rest). apply HE. exists line, (tag :: rest). split; [exact K1|split; [exact K2|reflexivity]].
    + intros tag attrs forms K'. apply (in_look t St) in K'. destruct (i_tag m E0 I lemma t tag attrs forms K K') as (Sa & A1 & A2).
      split; [exact Sa|split; [intros k v; rewrite (in_look attrs Sa); apply A1|split]].
      * intros fm Kf. apply A2 in Kf as (r & Kr & ->). split; [apply morpho_sorted|]. apply HE in Kr as (line & rest & K1 & K2 & E').
        destruct rest as [|tag' rest]; [discriminate|]. cbn [firstn] in E'. injection E' as -> ->. exists line, rest. split; [exact K1|split; [exact K2|]].
        intros k v. change (match rest with [] => [] | a :: _ => [a] end) with (firstn 1 rest). apply morpho_says.
      * intros line rest K1 K2. exists (morpho_of (firstn 1 rest)). split; [|intros k v; apply morpho_says]. apply A2. exists (firstn 1 rest). split; [|reflexivity].
        apply HE. exists line, (tag :: rest). split; [exact K1|split; [exact K2|reflexivity]].
Qed.
Print Assumptions C87_dictionary.

(** * What is put into the lattice *)

(** The part of a lemma before the first colon. *)
Definition before_colon (lemma s : word) : Prop :=
  ~ In 58%Z s /\ (lemma = s \/ exists r, lemma = s ++ 58%Z :: r).
Definition written (ids : bool) (lemma s : word) : Prop := if ids then s = lemma else before_colon lemma s.
Lemma shown_spec ids lemma s : shown ids lemma = s <-> written ids lemma s.
Proof.
  unfold shown, written. destruct ids; [split; congruence|]. unfold before_colon. destruct (find_byte COLON lemma) as [p|] eqn:E.
  - apply find_byte_some in E as (a & b & -> & <- & K). rewrite firstn_app_len. split.
    + intros <-. split; [exact K|]. right. exists b. reflexivity.
    + intros [N [<-|(r & H)]]; [exfalso; apply N, in_app_iff; right; left; reflexivity|].
      assert (F : find_byte COLON (a ++ COLON :: b) = Some (length a)) by (apply find_byte_some; exists a, b; repeat split; exact K).
      assert (F' : find_byte COLON (a ++ COLON :: b) = Some (length s)) by (apply find_byte_some; exists s, r; split; [exact H|split; [reflexivity|exact N]]).
      assert (El : length a = length s) by congruence. apply (f_equal (firstn (length a))) in H. rewrite firstn_app_len in H. rewrite El, firstn_app_len in H. exact H.
  - apply find_byte_none in E. split; [intros <-; split; [exact E|now left]|]. intros [N [H|(r & ->)]]; [exact H|]. exfalso. apply E, in_app_iff. right. now left.
Qed.
(** The lowest level at which something is written: the normalized text and the lemmas at
    1, the lexemes at 2, the forms at 3. *)
Definition rank (e : event) : nat :=
  match e with ENorm _ | ELemma _ => 1 | ELexeme _ _ _ => 2 | EForm _ _ _ => 3 end.
Lemma filter_none {A} (f : A -> bool) l : (forall x, In x l -> f x = false) -> filter f l = [].
Proof. induction l as [|x l IH]; intros H; [reflexivity|]. cbn. rewrite (H x) by (now left). apply IH. intros y K. apply H. now right. Qed.
Lemma filter_flat {A B} (f : B -> bool) (g : A -> list B) l : filter f (flat_map g l) = flat_map (fun x => filter f (g x)) l.
Proof. induction l as [|x l IH]; [reflexivity|]. cbn [flat_map]. now rewrite filter_app, IH. Qed.
Lemma filter_id {A} (f : A -> bool) l : (forall x, In x l -> f x = true) -> filter f l = l.
Proof. induction l as [|x l IH]; intros H; [reflexivity|]. cbn. rewrite (H x) by (now left). f_equal. apply IH. intros y K. apply H. now right. Qed.
(** A lower level writes the same in the same order and leaves out what is of a higher
    rank; there is an answer exactly if the level is not 0 and the dictionary knows the
    token. *)
Theorem C87_levels : forall level ids token m,
  snd (lemmatize level ids token m) = filter (fun e => rank e <=? level) (snd (lemmatize 3 ids token m)) /\
  (fst (lemmatize level ids token m) = true <-> level <> 0 /\ m <> []).
Proof.
  intros level ids token m. destruct m as [|e m].
  { split; [destruct level; reflexivity|]. split; [destruct level; discriminate|]. intros [_ K]. congruence. }
  destruct level as [|level].
  { split; [|split; [discriminate|intros [K _]; congruence]]. cbn [lemmatize snd]. symmetry. apply filter_none. intros x _. destruct x; reflexivity. }
  split; [|split; [intros _; split; discriminate|reflexivity]]. cbn [lemmatize snd filter]. change (rank (ENorm token) <=? S level) with true. cbv iota. f_equal.
  rewrite filter_flat. apply flat_map_ext. intros [lemma t]. unfold lemma_events. cbn [fst snd filter]. change (rank (ELemma (shown ids lemma)) <=? S level) with true. cbv iota. f_equal.
  change (1 <? 3) with true. cbv iota. rewrite filter_flat. destruct (1 <? S level) eqn:L.
  - apply flat_map_ext. intros [tag [attrs forms]]. unfold tag_events. cbn [snd filter]. cbn [rank]. apply Nat.ltb_lt in L.
    replace (2 <=? S level) with true by (symmetry; apply Nat.leb_le; lia). f_equal. change (2 <? 3) with true. cbv iota. destruct (2 <? S level) eqn:L2.
    + symmetry. apply filter_id. intros x K. apply in_map_iff in K as (fm & <- & _). cbn [rank]. apply Nat.ltb_lt in L2. apply Nat.leb_le. lia.
    + symmetry. apply filter_none. intros x K. apply in_map_iff in K as (fm & <- & _). cbn [rank]. apply Nat.ltb_ge in L2. apply Nat.leb_gt. lia.
  - apply Nat.ltb_ge in L. induction t as [|[tag [attrs forms]] t IH]; [reflexivity|]. cbn [flat_map]. rewrite <- IH. unfold tag_events. cbn [snd filter rank].
    replace (2 <=? S level) with false by (symmetry; apply Nat.leb_gt; lia). change (2 <? 3) with true. cbv iota. symmetry. rewrite app_nil_r. apply filter_none.
    intros x K. apply in_map_iff in K as (fm & <- & _). cbn [rank]. apply Nat.leb_gt. lia.
Qed.
Print Assumptions C87_levels.
(** The part of speech of a tag: what it says about "pos", or nothing. *)
Definition speech (tag pos : word) : Prop :=
  last_says bare_pos tag [112; 111; 115]%Z pos \/ ((forall v, ~ last_says bare_pos tag [112; 111; 115]%Z v) /\ pos = []).
Lemma value_speech tag attrs : sorted attrs -> (forall k v, In (k, v) attrs <-> last_says bare_pos tag k v) -> forall pos, value_of POS attrs = pos <-> speech tag pos.
Proof.
  intros So H pos. unfold value_of, speech. destruct (look_up POS attrs) as [v|] eqn:E.
  - apply (in_look attrs So), H in E. split; [intros <-; now left|]. intros [K|[K _]]; [|now apply K in E].
    apply H, (in_look attrs So) in E. apply H, (in_look attrs So) in K. unfold POS in E. congruence.
  - assert (N : forall v, ~ last_says bare_pos tag [112; 111; 115]%Z v) by (intros v K; apply H, (in_look attrs So) in K; unfold POS in E; congruence).
    split; [intros <-; right; now split|]. intros [K|[_ ->]]; [now apply N in K|reflexivity].
Qed.
Lemma in_events ids token m e : In e (snd (lemmatize 3 ids token m)) <-> (m <> [] /\ e = ENorm token) \/
  exists lemma t, In (lemma, t) m /\ (e = ELemma (shown ids lemma) \/ exists tag attrs forms, In (tag, (attrs, forms)) t /\
    (e = ELexeme (value_of POS attrs) (shown ids lemma ++ [PLUS] ++ value_of POS attrs) (filter (fun f => negb (word_eqb (fst f) POS)) attrs) \/
     exists fm, In fm forms /\ e = EForm (value_of POS attrs) token fm)).
Proof.
  destruct m as [|x m]; [cbn; split; [intros []|intros [[K _]|(lemma & t & [] & _)]; congruence]|].
  cbn [lemmatize snd In]. rewrite in_flat_map. split.
  - intros [<-|(( lemma & t) & K1 & K2)]; [left; split; [discriminate|reflexivity]|]. right. exists lemma, t. split; [exact K1|].
    unfold lemma_events in K2. cbn [fst snd In] in K2. destruct K2 as [<-|K2]; [now left|]. right. change (1 <? 3) with true in K2. cbv iota in K2.
    apply in_flat_map in K2 as ((tag & attrs & forms) & K2 & K3). exists tag, attrs, forms. split; [exact K2|]. unfold tag_events in K3. cbn [snd In] in K3.
    destruct K3 as [<-|K3]; [now left|]. right. change (2 <? 3) with true in K3. cbv iota in K3. apply in_map_iff in K3 as (fm & <- & K3). now exists fm.
  - intros [[_ ->]|(lemma & t & K1 & K2)]; [now left|]. right. exists (lemma, t). split; [exact K1|]. unfold lemma_events. cbn [fst snd In].
    destruct K2 as [->|(tag & attrs & forms & K2 & K3)]; [now left|]. right. change (1 <? 3) with true. cbv iota. apply in_flat_map. exists (tag, (attrs, forms)).
    split; [exact K2|]. unfold tag_events. cbn [snd In]. destruct K3 as [->|(fm & K3 & ->)]; [now left|]. right. change (2 <? 3) with true. cbv iota. now apply in_map.
Qed.
(** At level 3, for a dictionary read from lines: the lemmas are those of the lines with
    this form; a lexeme is the lemma, a plus sign and the part of speech, with the other
    keys of the tag as values; a form is the token with its features.  There is one of
    each for every line, and no other. *)
Theorem C87_written : forall lines token m ids, told lines token m -> let events := snd (lemmatize 3 ids token m) in
  (forall s, In (ELemma s) events <-> exists line lemma rest, In line lines /\ fields blank line (token :: lemma :: rest) /\ written ids lemma s) /\
  (forall pos lexeme vals, In (ELexeme pos lexeme vals) events -> exists line lemma tag rest s,
     In line lines /\ fields blank line (token :: lemma :: tag :: rest) /\ written ids lemma s /\ speech tag pos /\
     lexeme = s ++ 43%Z :: pos /\ forall k v, In (k, v) vals <-> k <> [112; 111; 115]%Z /\ last_says bare_pos tag k v) /\
  (forall pos tok vals, In (EForm pos tok vals) events -> tok = token /\ exists line lemma tag rest,
     In line lines /\ fields blank line (token :: lemma :: tag :: rest) /\ speech tag pos /\ forall k v, In (k, v) vals <-> features rest k v) /\
  (forall line lemma tag rest s pos, In line lines -> fields blank line (token :: lemma :: tag :: rest) -> written ids lemma s -> speech tag pos ->
     (exists vals, In (ELexeme pos (s ++ 43%Z :: pos) vals) events /\ forall k v, In (k, v) vals <-> k <> [112; 111; 115]%Z /\ last_says bare_pos tag k v) /\
     exists vals, In (EForm pos token vals) events /\ forall k v, In (k, v) vals <-> features rest k v).
Proof.
  intros lines token m ids (_ & T1 & T2) events.
  assert (Fl : forall (attrs : feature_map) k v, In (k, v) (filter (fun f => negb (word_eqb (fst f) POS)) attrs) <-> k <> [112; 111; 115]%Z /\ In (k, v) attrs).
  { intros attrs k v. rewrite filter_In. cbn [fst]. rewrite negb_true_iff, word_eqb_neq. unfold POS. tauto. }
  split; [|split; [|split]].
  - intros s. unfold events. rewrite in_events. split.
    + intros [[_ K]|(lemma & t & K1 & [K2|(tag & a & f & _ & [K2|(fm & _ & K2)])])]; try discriminate K2; [discriminate K|].
      injection K2 as K2. destruct (proj1 (T1 lemma)) as (line & rest & L1 & L2); [now exists t|]. exists line, lemma, rest. split; [exact L1|split; [exact L2|]]. now apply shown_spec.
    + intros (line & lemma & rest & L1 & L2 & W). right. destruct (proj2 (T1 lemma)) as (t & K); [now exists line, rest|]. exists lemma, t. split; [exact K|]. left.
      apply shown_spec in W. now rewrite W.
  - intros pos lexeme vals. unfold events. rewrite in_events.
    intros [[_ K]|(lemma & t & K1 & [K2|(tag & a & f & K3 & [K2|(fm & _ & K2)])])]; try discriminate K2; [discriminate K|]. injection K2 as -> -> ->.
    destruct (T2 lemma t K1) as (_ & T3 & T4). destruct (T4 tag a f K3) as (Sa & A1 & _). destruct (proj1 (T3 tag)) as (line & rest & L1 & L2); [now exists (a, f)|].
    exists line, lemma, tag, rest, (shown ids lemma). split; [exact L1|split; [exact L2|split; [now apply shown_spec|split; [now apply (value_speech tag a Sa A1)|split; [reflexivity|]]]]].
    intros k v. rewrite Fl, A1. reflexivity.
  - intros pos tok vals. unfold events. rewrite in_events.
    intros [[_ K]|(lemma & t & K1 & [K2|(tag & a & f & K3 & [K2|(fm & K4 & K2)])])]; try discriminate K2; [discriminate K|]. injection K2 as -> -> ->.
    split; [reflexivity|]. destruct (T2 lemma t K1) as (_ & T3 & T4). destruct (T4 tag a f K3) as (Sa & A1 & A2 & _). destruct (A2 fm K4) as (_ & line & rest & L1 & L2 & L3).
    exists line, lemma, tag, rest. split; [exact L1|split; [exact L2|split; [now apply (value_speech tag a Sa A1)|exact L3]]].
  - intros line lemma tag rest s pos L1 L2 W P. destruct (proj2 (T1 lemma)) as (t & K); [now exists line, (tag :: rest)|]. destruct (T2 lemma t K) as (_ & T3 & T4).
    destruct (proj2 (T3 tag)) as ([a f] & Kt); [now exists line, rest|]. destruct (T4 tag a f Kt) as (Sa & A1 & _ & A3). apply (value_speech tag a Sa A1) in P. apply shown_spec in W. split.
    + exists (filter (fun f => negb (word_eqb (fst f) POS)) a). split.
      * unfold events. rewrite in_events. right. exists lemma, t. split; [exact K|]. right. exists tag, a, f. split; [exact Kt|]. left. rewrite W, P. reflexivity.
      * intros k v. rewrite Fl, A1. reflexivity.
    + destruct (A3 line rest L1 L2) as (fm & F1 & F2). exists fm. split; [|exact F2]. unfold events. rewrite in_events. right. exists lemma, t. split; [exact K|]. right.
      exists tag, a, f. split; [exact Kt|]. right. exists fm. split; [exact F1|]. now rewrite P.
Qed.
Print Assumptions C87_written.

(** * Examples *)

(** "koty kot:1 N,gender=m case=nom,num=pl", "koty kotek N", and "psy pies N case=nom";
    the code of "kot:1" for "koty" is A, B, ":1". *)
Definition koty : word := [107; 111; 116; 121]%Z.
Definition kot1 : word := [107; 111; 116; 58; 49]%Z.
Definition kotek : word := [107; 111; 116; 101; 107]%Z.
Definition line_1 : word := koty ++ [32]%Z ++ kot1 ++ [32; 78; 44; 103; 61; 109; 9; 99; 61; 110; 44; 112; 108]%Z.
Definition line_2 : word := koty ++ [9]%Z ++ kotek ++ [32; 78]%Z.
Definition line_3 : word := [112; 115; 121; 32; 112; 105; 101; 115; 32; 78]%Z.
Example C87_code_example : encode koty kot1 = Some [65; 66; 58; 49]%Z /\ encode [110; 97; 106; 97; 97; 98]%Z [97; 97; 99]%Z = Some [68; 66; 99]%Z.
Proof. split; reflexivity. Qed.
Example C87_dictionary_example :
  (forall l, In l [line_1; line_2; line_3] -> sound_line l /\ plain l) /\ plain koty /\ ~ In 9%Z koty /\
  match read_dictionary [line_1; line_2; line_3] with
  | Some store => dict_get store koty = Some
      [(kot1, [([78; 44; 103; 61; 109]%Z, ([([103]%Z, [109]%Z); (POS, [78]%Z)], [[([99]%Z, [110]%Z); ([112; 108]%Z, [49]%Z)]]))]);
       (kotek, [([78]%Z, ([(POS, [78]%Z)], [[]]))])]
  | None => False
  end.
Proof.
  assert (P : forall l, plain l <-> Forall (fun c => c <> EPS /\ c <> ANY) l) by (intros l; rewrite Forall_forall; reflexivity).
  split; [|split; [|split; [|vm_compute; reflexivity]]].
  - intros l [<-|[<-|[<-|[]]]]; (split; [|apply P; repeat (constructor; [split; discriminate|]); constructor]); right;
      pose proof (fields_split blank is_tab_space is_tab_space_spec) as F.
    + exists koty, kot1, [[78; 44; 103; 61; 109]; [99; 61; 110; 44; 112; 108]]%Z. split; [exact (F line_1)|split; [discriminate|cbn; lia]].
    + exists koty, kotek, [[78]]%Z. split; [exact (F line_2)|split; [discriminate|cbn; lia]].
    + exists [112; 115; 121]%Z, [112; 105; 101; 115]%Z, [[78]]%Z. split; [exact (F line_3)|split; [discriminate|cbn; lia]].
  - apply P. repeat (constructor; [split; discriminate|]). constructor.
  - intros K. cbn in K. decompose [or] K; congruence || contradiction.
Qed.
Example C87_written_example :
  match read_dictionary [line_1; line_2; line_3] with
  | Some store => option_map (lemmatize 3 false koty) (dict_get store koty) = Some (true,
      [ENorm koty; ELemma [107; 111; 116]%Z; ELexeme [78]%Z [107; 111; 116; 43; 78]%Z [([103]%Z, [109]%Z)];
       EForm [78]%Z koty [([99]%Z, [110]%Z); ([112; 108]%Z, [49]%Z)]; ELemma kotek; ELexeme [78]%Z (kotek ++ [43; 78]%Z) []; EForm [78]%Z koty []])
  | None => False
  end.
Proof. vm_compute. reflexivity. Qed.
(** The two lemmas "kot:1" and "kot:2" of one form are written as the same lemma twice. *)
Theorem C87_lemma_twice_refuted : exists lines token store m s, read_dictionary lines = Some store /\ dict_get store token = Some m /\
  snd (lemmatize 1 false token m) = [ENorm token; ELemma s; ELemma s].
Proof.
  exists [[97; 32; 97; 58; 49]; [97; 32; 97; 58; 50]]%Z, [97]%Z. eexists. eexists. exists [97]%Z. split; [vm_compute; reflexivity|]. split; vm_compute; reflexivity.
Qed.
Print Assumptions C87_lemma_twice_refuted.

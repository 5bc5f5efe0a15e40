(** C62: the bracketing writer. *)
From Coq Require Import String Ascii List ZArith NArith Bool Arith Lia Permutation.
From Verif Require Import M_Quoter M_Cutter M_Bracketing L_Bracketing L_BracketPlaces L_BracketPattern.
Import ListNotations.
Local Open Scope nat_scope.
Local Open Scope char_scope.

(** ** Options *)
(** The quoter of the options: what was quoted is read back. *)
Theorem C62_quoter s : unquote (quote s) = Some s.
Proof.
  induction s as [|c s IH]; [reflexivity|]. unfold quote in *. cbn [flat_map]. revert IH. generalize (flat_map quote_char s) as q. intros q IH. unfold quote_char.
  destruct (Ascii.eqb_spec c ch_nl) as [->|]; [cbn; now rewrite IH|]. destruct (Ascii.eqb_spec c ch_tab) as [->|]; [cbn; now rewrite IH|].
  destruct (Ascii.eqb_spec c ch_cr) as [->|]; [cbn; now rewrite IH|]. destruct (Ascii.eqb_spec c ch_bs) as [->|N]; [cbn; now rewrite IH|].
  cbn [app unquote]. destruct (Ascii.eqb_spec c ch_bs); [contradiction|]. now rewrite IH.
Qed.
Print Assumptions C62_quoter.

Lemma same_iff a : forall b, str_same a b = true <-> a = b.
Proof.
  induction a as [|x a IH]; intros [|y b]; cbn [str_same]; try (split; [discriminate|discriminate || congruence]); [tauto|].
  rewrite andb_true_iff, IH, Ascii.eqb_eq. split; [intros [-> ->]; reflexivity|]. intros H. injection H as -> ->. auto.
Qed.
Lemma same_exists t l : existsb (str_same t) l = true <-> In t l.
Proof.
  rewrite existsb_exists. split.
  - intros (x & I & H). apply same_iff in H. now subst.
  - intros I. exists t. split; [exact I|]. now apply same_iff.
Qed.
(** An edge is skipped if and only if it is discarded, or blank where blanks are to be skipped, or
    a mere symbol where symbols are not to be shown, or has none of the tags of a filter. *)
Theorem C62_skipped : forall discarded blank tags show_symbols skip_blank filter,
  skipped discarded blank tags show_symbols skip_blank filter = true <->
  discarded = true \/ (skip_blank = true /\ blank = true)
  \/ (show_symbols = false /\ tags = [list_ascii_of_string "symbol"])
  \/ (filter <> [] /\ forall t, In t tags -> ~ In t filter).
Proof.
  intros d b tags ss sb flt. unfold skipped. rewrite !orb_true_iff, andb_true_iff.
  assert (S1 : (match tags with [t] => str_same t SYMBOL && negb ss | _ => false end) = true
    <-> ss = false /\ tags = [list_ascii_of_string "symbol"]).
  { destruct tags as [|t [|u l]]; [split; [discriminate|intros (_ & H); discriminate H]| |split; [discriminate|intros (_ & H); discriminate H]].
    rewrite andb_true_iff, same_iff, negb_true_iff. change SYMBOL with (list_ascii_of_string "symbol"). split.
    - intros (-> & ->). auto.
    - intros (-> & H). injection H as H. auto. }
  assert (S2 : negb (some_in_filter flt tags) = true <-> flt <> [] /\ forall t, In t tags -> ~ In t flt).
  { unfold some_in_filter. destruct flt as [|f fs]; [split; [discriminate|intros (H & _); congruence]|].
    rewrite negb_true_iff, <- not_true_iff_false, existsb_exists. split.
    - intros N. split; [discriminate|]. intros t I J. apply N. exists t. split; [exact I|]. now apply same_exists.
    - intros (_ & H) (t & I & J). apply same_exists in J. now apply H in J. }
  rewrite S1, S2. tauto.
Qed.
Print Assumptions C62_skipped.
Example C62_example_skipped : skipped false false [list_ascii_of_string "symbol"] false false [] = true
  /\ skipped false false [list_ascii_of_string "token"; list_ascii_of_string "symbol"] false true [list_ascii_of_string "token"] = false.
Proof. vm_compute. auto. Qed.
(** What the options leave of tags and attributes. *)
Theorem C62_only : forall only tags (m : av_map),
  (forall t, In t (only_tags only tags) <-> In t tags /\ (only = [] \/ In t only))
  /\ (forall kv, In kv (only_attributes only m) <-> In kv m /\ (only = [] \/ In (fst kv) only)).
Proof.
  intros only tags m. split.
  - intros t. unfold only_tags. destruct only as [|o os]; [tauto|]. rewrite filter_In, same_exists. split; [tauto|].
    intros (H1 & [H2|H2]); [discriminate|tauto].
  - intros kv. unfold only_attributes. destruct only as [|o os]; [tauto|]. rewrite filter_In, same_exists. split; [tauto|].
    intros (H1 & [H2|H2]); [discriminate|tauto].
Qed.
Print Assumptions C62_only.
(** The delimiters: each of the four pairs of brackets closes the other way round, any other
    character closes itself. *)
Theorem C62_close : forall c,
  In (c, close c) [("(", ")"); (")", "("); ("[", "]"); ("]", "["); ("{", "}"); ("}", "{"); ("<", ">"); (">", "<")]
  \/ (~ In c (list_ascii_of_string "()[]{}<>") /\ close c = c).
Proof.
  intros c. unfold close.
  repeat match goal with |- context [Ascii.eqb c ?d] => destruct (Ascii.eqb_spec c d) as [->|?]; [left; cbn; tauto|] end.
  right. split; [|reflexivity]. cbn. intuition congruence.
Qed.
Print Assumptions C62_close.

(** ** Patterns *)
Section Patterns.
Context {score edge : Type}.
Variable show : score -> str.
Variable zero : score.
Variable same : score -> score -> bool.
Variable tag_separator pair_separator av_separator : str.
Hypothesis zero_same : same zero zero = true.
Notation edge_data := (edge_data score edge).
Notation render_token := (render_token show tag_separator pair_separator av_separator).
Notation render_tokens := (render_tokens show tag_separator pair_separator av_separator).
Notation render := (render show zero same tag_separator pair_separator av_separator).
Notation step := (step show tag_separator pair_separator av_separator).
Notation steps := (steps show tag_separator pair_separator av_separator).
Notation after := (after show tag_separator pair_separator av_separator).
Notation shares := (shares zero same).
Notation friends := (friends zero same).
Notation quiet := (quiet show tag_separator pair_separator av_separator).
Notation quiet_pattern := (quiet_pattern show tag_separator pair_separator av_separator).
Notation print := (print score edge show zero same tag_separator pair_separator av_separator).
Notation scan_all := (scan_all score edge show tag_separator pair_separator av_separator).
Notation agreeing := (agreeing score edge zero same).
Notation printing := (printing score).

Definition is_cat (t : token) := match t with Category => true | _ => false end.
Definition is_text (t : token) := match t with Text => true | _ => false end.
Definition is_tags (t : token) := match t with Tags => true | _ => false end.
Definition is_score (t : token) := match t with Score => true | _ => false end.
Definition is_all (t : token) := match t with Attributes => true | _ => false end.
Record saw (e : edge_data) (ts : list token) (st : printing) : Prop := {
  sw_map : map_ _ st = avs _ _ e;
  sw_cat : this_category _ st = if existsb is_cat ts then category _ _ e else [];
  sw_text : this_text _ st = if existsb is_text ts then text _ _ e else [];
  sw_tags : this_tags _ st = if existsb is_tags ts then tags _ _ e else [];
  sw_points : this_points _ st = if existsb is_score ts then points _ _ e else zero;
  sw_keys : forall k, In k (map fst (this_avs _ st)) <-> In k (named ts) \/ (existsb is_all ts = true /\ In k (map fst (avs _ _ e)));
  sw_values : forall k, In k (map fst (this_avs _ st)) -> av_value (this_avs _ st) k = value_in (avs _ _ e) k }.
Lemma saw_fresh e : saw e [] (fresh _ _ zero e).
Proof. constructor; cbn; try reflexivity; [intros k; split; [intros []|intros [[]|[D _]]; discriminate D]|intros k []]. Qed.
Lemma saw_same e ts st st' : saw e ts st -> map_ _ st' = map_ _ st -> this_category _ st' = this_category _ st -> this_text _ st' = this_text _ st -> this_tags _ st' = this_tags _ st ->
  this_points _ st' = this_points _ st -> this_avs _ st' = this_avs _ st -> saw e ts st'.
Proof. intros [H1 H2 H3 H4 H5 H6 H7] E1 E2 E3 E4 E5 E6. constructor; congruence || (rewrite E6; assumption). Qed.
Lemma saw_step e ts st t : (forall n, In n (named (ts ++ [t])) -> In n (map fst (avs _ _ e))) -> saw e ts st -> saw e (ts ++ [t]) (step e st t).
Proof.
  intros C [H1 H2 H3 H4 H5 H6 H7].
  assert (Nm : forall k, In k (named (ts ++ [t])) <-> In k (named ts) \/ In k (named [t])) by (intros k; unfold named; rewrite flat_map_app; rewrite in_app_iff; tauto).
  constructor; rewrite ?existsb_app; try (now apply step_map).
  - destruct t; cbn; rewrite ?orb_false_r, ?orb_true_r; try assumption; reflexivity.
  - destruct t; cbn; rewrite ?orb_false_r, ?orb_true_r; try assumption; reflexivity.
  - destruct t; cbn; rewrite ?orb_false_r, ?orb_true_r; try assumption; reflexivity.
  - destruct t; cbn; rewrite ?orb_false_r, ?orb_true_r; try assumption; reflexivity.
  - intros k. rewrite Nm. assert (H6k := H6 k). destruct t; cbn [L_BracketPattern.step existsb is_all orb put with_category with_text with_tags with_points with_maps this_avs]; rewrite ?orb_false_r, ?orb_true_r; try (cbn; tauto); cbn [named flat_map app In].
    + rewrite H1. split; [tauto|]. intros [[H|[]]|[_ H]]; [|assumption]. apply C, Nm. now left.
    + rewrite insert_keys, H6. split; [intros [->|H]; tauto|]. intros [[H|[->|[]]]|H]; tauto.
  - intros k. destruct t; cbn; try (apply H7).
    + intros _. rewrite H1. apply value_get.
    + rewrite insert_keys, insert_value. destruct (equal name k) eqn:E; [apply equal_spec in E; now subst|]. intros [->|H]; [|now apply H7]. exfalso. enough (equal name name = true) by congruence. now apply equal_spec.
Qed.
Lemma saw_steps e ts' : forall ts st, (forall n, In n (named (ts ++ ts')) -> In n (map fst (avs _ _ e))) -> saw e ts st -> saw e (ts ++ ts') (steps e ts' st).
Proof.
  induction ts' as [|t ts' IH]; intros ts st C H; [now rewrite app_nil_r|]. cbn. replace (ts ++ t :: ts') with ((ts ++ [t]) ++ ts') in * by (now rewrite <- app_assoc).
  apply IH; [assumption|]. apply saw_step; [|assumption]. intros n Hn. apply C. unfold named in *. rewrite flat_map_app. apply in_or_app. now left.
Qed.
Lemma named_app a b n : In n (named (a ++ b)) <-> In n (named a) \/ In n (named b).
Proof. unfold named. rewrite flat_map_app, in_app_iff. tauto. Qed.
Lemma saw_after e p ts st : (forall n, In n (named (ts ++ tokens_of p)) -> In n (map fst (avs _ _ e))) -> saw e ts st -> saw e (ts ++ tokens_of p) (after p e st).
Proof.
  destruct p as [l|pre o sep sub post]; cbn [tokens_of L_BracketPattern.after]; intros C H; [now apply saw_steps|]. rewrite app_assoc in *. apply saw_steps; [assumption|].
  eapply saw_same; [apply saw_steps; [|exact H]|reflexivity ..]. intros n Hn. apply C, named_app. now left.
Qed.
Lemma steps_out (e : edge_data) ts : forall st, out _ (steps e ts st) = out _ st ++ render_tokens e ts.
Proof.
  induction ts as [|t ts IH]; intros st; [cbn; now rewrite app_nil_r|]. change (steps e (t :: ts) st) with (steps e ts (step e st t)). change (render_tokens e (t :: ts)) with (render_token e t ++ render_tokens e ts). rewrite IH. replace (out _ (step e st t)) with (out _ st ++ render_token e t) by (destruct t; reflexivity). now rewrite <- app_assoc.
Qed.
Lemma steps_sub (e : edge_data) ts : forall st, subpattern _ (steps e ts st) = subpattern _ st /\ separator _ (steps e ts st) = separator _ st.
Proof. induction ts as [|t ts IH]; intros st; [auto|]. change (steps e (t :: ts) st) with (steps e ts (step e st t)). destruct (IH (step e st t)) as [-> ->]. destruct t; auto. Qed.
(** What stands for a pattern before the list is put in. *)
Definition raw (e : edge_data) (p : pattern) : str :=
  match p with Flat ts => render_tokens e ts | Joining pre _ _ _ post => render_tokens e pre ++ STAR ++ render_tokens e post end.
Definition last_sub (ps : list pattern) (st : printing) : str * str :=
  fold_left (fun r p => match p with Flat _ => r | Joining _ _ sep sub _ => (spell sub, sep) end) ps (subpattern _ st, separator _ st).
Lemma scan_patterns fuel e ps : Forall fine_pattern ps -> Forall (fun p => length (spell p) < fuel) ps -> (forall n, In n (named (flat_map tokens_of ps)) -> In n (map fst (avs _ _ e))) ->
  forall ts st, saw e ts st -> (forall n, In n (named ts) -> In n (map fst (avs _ _ e))) ->
  exists st', scan_all fuel e (map spell ps) st = Some (map (raw e) ps, st') /\ saw e (ts ++ flat_map tokens_of ps) st' /\ (subpattern _ st', separator _ st') = last_sub ps st.
Proof.
  induction 1 as [|p ps F Fs IH]; intros L N ts st S C.
  - exists st. cbn. rewrite app_nil_r. auto.
  - inversion L as [|? ? L1 L2]; subst. cbn [map M_Bracketing.scan_all flat_map] in *.
    assert (N1 : forall n, In n (named (tokens_of p)) -> In n (map fst (avs _ _ e))) by (intros n Hn; apply N, named_app; now left).
    assert (S0 : saw e ts (new_out _ st)) by (eapply saw_same; [exact S|reflexivity ..]).
    rewrite (scan_pattern show zero same tag_separator pair_separator av_separator fuel e p (new_out _ st) F (sw_map _ _ _ S0) N1 L1).
    destruct (IH L2 ltac:(intros n Hn; apply N, named_app; now right) (ts ++ tokens_of p) (after p e (new_out _ st))) as [st' [E1 [E2 E3]]].
    + apply saw_after; [|assumption]. intros n Hn. apply named_app in Hn as [Hn|Hn]; auto.
    + intros n Hn. apply named_app in Hn as [Hn|Hn]; auto.
    + exists st'. rewrite E1, app_assoc. split; [|split; [exact E2|]].
      * f_equal. f_equal. f_equal. destruct p as [l|pre o sep sub post]; cbn [L_BracketPattern.after raw]; rewrite steps_out; [reflexivity|]. cbn. rewrite steps_out. cbn. now rewrite <- app_assoc.
      * rewrite E3. unfold last_sub. cbn [fold_left]. f_equal. destruct p as [l|pre o sep sub post]; cbn [L_BracketPattern.after].
        -- destruct (steps_sub e l (new_out _ st)) as [-> ->]. reflexivity.
        -- match goal with |- (subpattern _ (steps e post ?s), _) = _ => destruct (steps_sub e post s) as [-> ->] end. reflexivity.
Qed.

(** *** The edges that agree *)
Lemma av_agree_spec keys mine theirs : (forall k, In k (map fst keys) -> In k (map fst theirs) \/ av_value mine k <> []) ->
  av_agree keys mine theirs = if forallb (fun kv => equal (value_in theirs (fst kv)) (av_value mine (fst kv))) keys then Some theirs else None.
Proof.
  induction keys as [|[k v] keys IH]; intros H; [reflexivity|]. cbn [av_agree forallb fst]. destruct (in_dec (list_eq_dec ascii_dec) k (map fst theirs)) as [I|I].
  - rewrite (touch_in theirs k I), str_same_equal, value_get. destruct (equal (value_in theirs k) (av_value mine k)); [|reflexivity]. cbn [andb]. apply IH. intros k' Hk. apply H. now right.
  - destruct (H k (or_introl eq_refl)) as [K|K]; [contradiction|]. assert (G : av_get theirs k = None) by (destruct (av_get theirs k) eqn:E; [exfalso; apply I, get_in; eauto|reflexivity]).
    unfold av_touch. rewrite G, insert_value. replace (equal k k) with true by (symmetry; now apply equal_spec). rewrite str_same_equal.
    assert (E0 : value_in theirs k = []) by (rewrite <- value_get; unfold av_value; now rewrite G). rewrite E0. replace (equal [] (av_value mine k)) with false; [reflexivity|].
    symmetry. apply not_true_iff_false. rewrite equal_spec. congruence.
Qed.
Lemma forallb_shares (e e2 : edge_data) ts : forallb (shares e e2) ts = true <->
  (existsb is_cat ts = true -> shares e e2 Category = true) /\ (existsb is_text ts = true -> shares e e2 Text = true) /\ (existsb is_tags ts = true -> shares e e2 Tags = true) /\
  (existsb is_score ts = true -> shares e e2 Score = true) /\ (existsb is_all ts = true -> shares e e2 Attributes = true) /\
  (forall n, In n (named ts) -> equal (value_in (avs _ _ e2) n) (value_in (avs _ _ e) n) = true).
Proof.
  induction ts as [|t ts IH]; [cbn; split; [intros _; repeat split; intros; discriminate || contradiction|reflexivity]|]. cbn [forallb existsb]. rewrite andb_true_iff, IH.
  destruct t; cbn [is_cat is_text is_tags is_score is_all orb named flat_map app In]; try (cbn; tauto); split.
  - intros [A [B1 [B2 [B3 [B4 [B5 B6]]]]]]. repeat split; auto. intros n [<-|Hn]; auto.
  - intros [B1 [B2 [B3 [B4 [B5 B6]]]]]. split; [apply (B6 name); now left|]. repeat split; auto.
Qed.
Lemma with_avs_same (e : edge_data) : with_avs _ _ (avs _ _ e) e = e.
Proof. now destruct e. Qed.
Lemma agreeing_spec e ts st e2 : saw e ts st -> (forall k v, In (k, v) (avs _ _ e) -> v <> []) -> (forall n, In n (named ts) -> In n (map fst (avs _ _ e2))) ->
  agreeing st e2 = if forallb (shares e e2) ts then [e2] else [].
Proof.
  intros [H1 H2 H3 H4 H5 H6 H7] Ne N. unfold M_Bracketing.agreeing. rewrite !str_empty_equal, !str_same_equal.
  assert (Ks : forall k, In k (map fst (avs _ _ e)) -> value_in (avs _ _ e) k <> []).
  { intros k Hk. destruct (proj1 (get_in _ _) Hk) as [v Ev]. rewrite <- value_get. unfold av_value. rewrite Ev. clear -Ev Ne. induction (avs _ _ e) as [|[x w] m IH]; [discriminate Ev|].
    cbn in Ev. destruct (str_same x k); [injection Ev as ->; apply (Ne x); now left|]. apply IH; [|assumption]. intros k' v' Hi. apply (Ne k'). now right. }
  rewrite av_agree_spec.
  2:{ intros k Hk. rewrite H7 by assumption. apply H6 in Hk as [Hk|[_ Hk]]; [left; now apply N|right; now apply Ks]. }
  assert (Av : forallb (fun kv : str * str => equal (value_in (avs _ _ e2) (fst kv)) (av_value (this_avs _ st) (fst kv))) (this_avs _ st) = true <->
    (existsb is_all ts = true -> shares e e2 Attributes = true) /\ (forall n, In n (named ts) -> equal (value_in (avs _ _ e2) n) (value_in (avs _ _ e) n) = true)).
  { rewrite forallb_forall. split.
    - intros F. assert (G : forall k, In k (map fst (this_avs _ st)) -> equal (value_in (avs _ _ e2) k) (value_in (avs _ _ e) k) = true).
      { intros k Hk. apply in_map_iff in Hk as [[k' v] [E Hk]]. cbn in E. subst k'. pose proof (F _ Hk) as F1. cbn [fst] in F1. rewrite H7 in F1 by (apply in_map_iff; now exists (k, v)). exact F1. }
      split.
      + intros Ha. cbn. apply forallb_forall. intros [k v] Hk. cbn. apply G, H6. right. split; [assumption|]. apply in_map_iff. now exists (k, v).
      + intros n Hn. apply G, H6. now left.
    - intros [G1 G2] [k v] Hk. cbn [fst]. assert (Hi : In k (map fst (this_avs _ st))) by (apply in_map_iff; now exists (k, v)). rewrite H7 by assumption.
      apply H6 in Hi as [Hi|[Ha Hi]]; [now apply G2|]. specialize (G1 Ha). cbn in G1. rewrite forallb_forall in G1. apply in_map_iff in Hi as [[k' w] [E Hi]]. cbn in E. subst k'. exact (G1 _ Hi). }
  assert (A1 : (negb (equal (this_category _ st) []) && negb (equal (category _ _ e2) (this_category _ st)) = true) <-> ~ (existsb is_cat ts = true -> shares e e2 Category = true)).
  { rewrite H2. destruct (existsb is_cat ts); cbn; [|split; [discriminate|intros K; exfalso; apply K; discriminate]]. destruct (equal (category _ _ e) []); cbn; [split; [discriminate|tauto]|].
    destruct (equal (category _ _ e2) (category _ _ e)); cbn; split; try discriminate; try tauto. intros _ K. now specialize (K eq_refl). }
  assert (A2 : (negb (equal (this_text _ st) []) && negb (equal (text _ _ e2) (this_text _ st)) = true) <-> ~ (existsb is_text ts = true -> shares e e2 Text = true)).
  { rewrite H3. destruct (existsb is_text ts); cbn; [|split; [discriminate|intros K; exfalso; apply K; discriminate]]. destruct (equal (text _ _ e) []); cbn; [split; [discriminate|tauto]|].
    destruct (equal (text _ _ e2) (text _ _ e)); cbn; split; try discriminate; try tauto. intros _ K. now specialize (K eq_refl). }
  assert (A3 : (negb (match this_tags _ st with [] => true | _ => false end) && negb (strs_same (tags _ _ e2) (this_tags _ st)) = true) <-> ~ (existsb is_tags ts = true -> shares e e2 Tags = true)).
  { rewrite H4. destruct (existsb is_tags ts); cbn; [|split; [discriminate|intros K; exfalso; apply K; discriminate]]. destruct (tags _ _ e) as [|t l]; cbn [negb andb]; [split; [discriminate|tauto]|].
    destruct (list_eq_dec (list_eq_dec ascii_dec) (tags _ _ e2) (t :: l)) as [E|E].
    - replace (strs_same (tags _ _ e2) (t :: l)) with true by (symmetry; now apply strs_same_spec). cbn. split; [discriminate|tauto].
    - replace (strs_same (tags _ _ e2) (t :: l)) with false by (symmetry; apply not_true_iff_false; now rewrite strs_same_spec). cbn. split; [|reflexivity]. intros _ K. now specialize (K eq_refl). }
  assert (A4 : (negb (same (this_points _ st) zero) && negb (same (points _ _ e2) (this_points _ st)) = true) <-> ~ (existsb is_score ts = true -> shares e e2 Score = true)).
  { rewrite H5. destruct (existsb is_score ts); cbn; [|rewrite zero_same; cbn; split; [discriminate|intros K; exfalso; apply K; discriminate]]. destruct (same (points _ _ e) zero); cbn; [split; [discriminate|tauto]|].
    destruct (same (points _ _ e2) (points _ _ e)); cbn; split; try discriminate; try tauto. intros _ K. now specialize (K eq_refl). }
  pose proof (forallb_shares e e2 ts) as FS.
  destruct (negb (equal (this_category _ st) []) && _); [destruct (forallb (shares e e2) ts); [|reflexivity]; exfalso; apply A1; [reflexivity|]; now apply FS|].
  destruct (negb (equal (this_text _ st) []) && _); [destruct (forallb (shares e e2) ts); [|reflexivity]; exfalso; apply A2; [reflexivity|]; now apply FS|].
  destruct (negb (match this_tags _ st with [] => true | _ => false end) && _); [destruct (forallb (shares e e2) ts); [|reflexivity]; exfalso; apply A3; [reflexivity|]; now apply FS|].
  destruct (negb (same (this_points _ st) zero) && _); [destruct (forallb (shares e e2) ts); [|reflexivity]; exfalso; apply A4; [reflexivity|]; now apply FS|].
  assert (B : forall (b : bool) (P : Prop), (false = true <-> ~ (b = true -> P)) -> (forall x y : bool, P = (x = y) -> (b = true -> P))).
  { intros b P K x y -> Hb. destruct (Bool.bool_dec x y); [assumption|]. exfalso. enough (false = true) by discriminate. apply K. intros L. now apply n, L. }
  assert (Eq : forallb (shares e e2) ts = forallb (fun kv : str * str => equal (value_in (avs _ _ e2) (fst kv)) (av_value (this_avs _ st) (fst kv))) (this_avs _ st)).
  { apply eq_true_iff_eq. rewrite FS, Av. split; [tauto|]. intros [K1 K2].
    split; [exact (B _ _ A1 _ _ eq_refl)|]. split; [exact (B _ _ A2 _ _ eq_refl)|]. split; [exact (B _ _ A3 _ _ eq_refl)|]. split; [exact (B _ _ A4 _ _ eq_refl)|]. auto. }
  rewrite Eq. destruct (forallb (fun kv => _) (this_avs _ st)); [|reflexivity]. now rewrite with_avs_same.
Qed.
Lemma agreeing_all e ts st es : saw e ts st -> (forall k v, In (k, v) (avs _ _ e) -> v <> []) -> (forall e2 n, In e2 es -> In n (named ts) -> In n (map fst (avs _ _ e2))) ->
  flat_map (agreeing st) es = friends ts es e.
Proof.
  intros S Ne N. induction es as [|e2 es IH]; [reflexivity|]. cbn [flat_map L_BracketPattern.friends filter]. rewrite (agreeing_spec e ts st e2 S Ne); [|intros n Hn; apply N; [now left|assumption]].
  rewrite IH by (intros e3 n H; apply N; now right). unfold L_BracketPattern.friends. now destruct (forallb (shares e e2) ts).
Qed.

(** *** Putting the list in *)
Lemma star_step c s by_ : c <> "%" -> replace_star by_ (c :: s) = c :: replace_star by_ s.
Proof. intros H. cbn [replace_star]. replace (prefix_of STAR (c :: s)) with false; [reflexivity|]. cbn [prefix_of STAR]. destruct (Ascii.eqb_spec "%" c) as [<-|_]; [contradiction|reflexivity]. Qed.
Lemma star_not s : ~ In "%" s -> forall by_, replace_star by_ s = s.
Proof.
  induction s as [|c s IH]; intros H by_; [reflexivity|]. rewrite star_step by (intros ->; apply H; now left). rewrite IH; [reflexivity|]. intros K. apply H. now right.
Qed.
Lemma star_at s r by_ : ~ In "%" s -> replace_star by_ (s ++ STAR ++ r) = s ++ by_ ++ r.
Proof.
  induction s as [|c s IH]; intros H; [cbn; reflexivity|]. rewrite <- !app_comm_cons. rewrite star_step by (intros ->; apply H; now left). rewrite IH; [reflexivity|]. intros K. apply H. now right.
Qed.
Lemma quiet_tokens ts (e : edge_data) : quiet ts e -> ~ In "%" (render_tokens e ts).
Proof. intros Q H. apply in_flat_map in H as [t [Ht H]]. exact (Q t Ht H). Qed.

(** A printer of patterns of which at most one has a list. *)
Inductive one_list : list pattern -> Prop :=
| O_flat l : Forall (fun p => exists ts, p = Flat ts) l -> one_list l
| O_join a pre o sep sub post b : Forall (fun p => exists ts, p = Flat ts) (a ++ b) -> one_list (a ++ Joining pre o sep sub post :: b).
(** If there is a list, no other pattern prints a per cent sign. *)
Definition quiet_patterns (ps : list pattern) (e : edge_data) : Prop :=
  (exists pre o sep sub post, In (Joining pre o sep sub post) ps) -> forall p, In p ps -> match p with Flat ts => quiet ts e | Joining _ _ _ _ _ => quiet_pattern p e end.
Fixpoint depth (p : pattern) : nat := match p with Flat _ => 1 | Joining _ _ _ sub _ => S (depth sub) end.
Lemma last_flat l st : Forall (fun p => exists ts, p = Flat ts) l -> last_sub l st = (subpattern _ st, separator _ st).
Proof. unfold last_sub. generalize (subpattern _ st, separator _ st). intros r F. induction F as [|p l [ts ->] F IH]; [reflexivity|exact IH]. Qed.
Lemma last_join a pre o sep sub post b st : Forall (fun p => exists ts, p = Flat ts) (a ++ b) -> last_sub (a ++ Joining pre o sep sub post :: b) st = (spell sub, sep).
Proof.
  intros F. apply Forall_app in F as [_ F]. unfold last_sub. rewrite fold_left_app. cbn [fold_left]. induction F as [|p l [ts ->] F IH]; [reflexivity|exact IH].
Qed.
Lemma raw_flat e l ts es : Forall (fun p => exists ts, p = Flat ts) l -> map (raw e) l = map (fun p => render p ts es e) l.
Proof. induction 1 as [|p l [t ->] F IH]; [reflexivity|]. cbn [map]. now rewrite IH. Qed.
Lemma named_names p n : In n (named (tokens_of p)) -> In n (names p).
Proof. destruct p; cbn [tokens_of names]; [auto|]. intros H. apply in_or_app. now left. Qed.
Lemma named_all ps n : In n (named (flat_map tokens_of ps)) -> In n (flat_map names ps).
Proof. induction ps as [|p ps IH]; cbn; [auto|]. intros H. apply named_app in H as [H|H]; apply in_or_app; [left; now apply named_names|right; auto]. Qed.
(** Every edge is printed, as its patterns mean. *)
Theorem C62_patterns : forall d fuel ps es, one_list ps -> Forall fine_pattern ps -> Forall (fun p => length (spell p) < fuel) ps -> Forall (fun p => depth p <= d) ps -> 1 <= d ->
  Forall (complete (flat_map names ps)) es -> Forall (quiet_patterns ps) es ->
  print d fuel (map spell ps) es = Some (map (fun e => {| p_source := source _ _ e; p_parent := parent _ _ e; elements := map (fun p => render p (flat_map tokens_of ps) es e) ps |}) es).
Proof.
  induction d as [|d IH]; intros fuel ps es O F L D Hd C Q; [lia|]. cbn [M_Bracketing.print].
  match goal with |- ?f es = _ => set (each := f) end.
  assert (Each : forall e l, each (e :: l) = match scan_all fuel e (map spell ps) (fresh _ _ zero e) with
        | None => None
        | Some (r, st) =>
          match (if str_empty (subpattern _ st) then Some r
                 else match print d fuel [subpattern _ st] (flat_map (agreeing st) es) with
                      | None => None
                      | Some sub => Some (map (replace_star (joined (separator _ st) (map (fun x => hd [] (elements x)) sub))) r)
                      end) with
          | None => None
          | Some r' => match each l with None => None | Some rest => Some ({| p_source := source _ _ e; p_parent := parent _ _ e; elements := r' |} :: rest) end
          end
        end) by reflexivity.
  enough (G : forall l, (forall e, In e l -> In e es) -> each l = Some (map (fun e => {| p_source := source _ _ e; p_parent := parent _ _ e; elements := map (fun p => render p (flat_map tokens_of ps) es e) ps |}) l)) by (apply G; auto).
  induction l as [|e l IHl]; intros I; [reflexivity|]. pose proof (proj1 (Forall_forall _ _) C e (I e (or_introl eq_refl))) as [Ce Ne].
  pose proof (proj1 (Forall_forall _ _) Q e (I e (or_introl eq_refl))) as Qe.
  rewrite Each. rewrite IHl by (intros x Hx; apply I; now right).
  destruct (scan_patterns fuel e ps F L) with (ts := @nil token) (st := fresh score edge zero e) as [st [E1 [E2 E3]]].
  { intros n Hn. apply Ce, named_all, Hn. } { apply saw_fresh. } { intros n []. }
  rewrite E1. cbn [app] in E2. cbn [map].
  assert (K : (if str_empty (subpattern _ st) then Some (map (raw e) ps)
      else match print d fuel [subpattern _ st] (flat_map (agreeing st) es) with
           | None => None
           | Some sub => Some (map (replace_star (joined (separator _ st) (map (fun x => hd [] (elements x)) sub))) (map (raw e) ps))
           end) = Some (map (fun p => render p (flat_map tokens_of ps) es e) ps)).
  { destruct O as [ps Fl|a pre o sep sub post b Fl].
    - rewrite last_flat in E3 by assumption. injection E3 as -> ->. cbn [str_empty fresh subpattern]. f_equal. now apply raw_flat.
    - rewrite last_join in E3 by assumption. injection E3 as -> ->. assert (Fj : fine_pattern (Joining pre o sep sub post)) by (eapply Forall_forall; [exact F|]; apply in_or_app; right; now left).
      destruct Fj as [_ [_ [_ [_ [Fn Fs]]]]]. rewrite str_empty_equal. unfold equal at 1. destruct (list_eq_dec ascii_dec (spell sub) []) as [E|_]; [contradiction|].
      rewrite (agreeing_all e _ st es E2 Ne).
      2:{ intros e2 n He Hn. apply (proj1 (Forall_forall _ _) C e2 He), named_all, Hn. }
      set (ts := flat_map tokens_of (a ++ Joining pre o sep sub post :: b)) in *. assert (Ff : forall e2, In e2 (friends ts es e) -> In e2 es) by (intros e2 H; apply filter_In in H; tauto).
      assert (Hj : In (Joining pre o sep sub post) (a ++ Joining pre o sep sub post :: b)) by (apply in_or_app; right; now left).
      assert (Lj : length (spell sub) < fuel).
      { pose proof (proj1 (Forall_forall _ _) L _ Hj) as K. cbn [spell] in K. rewrite !app_length in K. cbn [length] in K. rewrite app_length in K. cbn [length] in K. rewrite app_length in K. lia. }
      pose proof (proj1 (Forall_forall _ _) D _ Hj) as Dj. cbn [depth] in Dj.
      specialize (IH fuel [sub] (friends ts es e)). cbn [map] in IH. rewrite IH.
      + f_equal. rewrite map_map. cbn [elements hd map]. rewrite map_map. apply map_ext_in. intros p Hp. rewrite joined_spec.
        assert (Ef : flat_map tokens_of [sub] = tokens_of sub) by (cbn; apply app_nil_r). rewrite Ef. pose proof (Qe (ex_intro _ pre (ex_intro _ o (ex_intro _ sep (ex_intro _ sub (ex_intro _ post Hj))))) p Hp) as Qp. clear Q.
        destruct p as [l'|pre' o' sep' sub' post'].
        * cbn [raw L_BracketPattern.render]. apply star_not, quiet_tokens, Qp.
        * assert (Ej : Joining pre' o' sep' sub' post' = Joining pre o sep sub post).
          { apply in_app_or in Hp as [Hp|[Hp|Hp]]; [|now symmetry|]; exfalso; (assert (Hx : In (Joining pre' o' sep' sub' post') (a ++ b)) by (apply in_or_app; auto)); apply (proj1 (Forall_forall _ _) Fl) in Hx as [t Hx]; discriminate. }
          rewrite Ej in Qp |- *. cbn [raw L_BracketPattern.render]. apply star_at, quiet_tokens. exact (proj1 Qp).
      + destruct sub as [ts'|pre' o' sep' sub' post']; [apply O_flat; constructor; [eauto|constructor]|]. apply (O_join [] _ _ _ _ _ []). constructor.
      + now constructor.
      + now constructor.
      + constructor; [lia|constructor].
      + destruct sub; cbn [depth] in Dj; lia.
      + apply Forall_forall. intros e2 He. pose proof (proj1 (Forall_forall _ _) C e2 (Ff _ He)) as [C1 C2]. split; [|assumption]. intros n Hn. apply C1, in_flat_map. exists (Joining pre o sep sub post). split; [assumption|].
        cbn in Hn. rewrite app_nil_r in Hn. cbn [names]. apply in_or_app. now right.
      + apply Forall_forall. intros e2 He [pre' [o' [sep' [sub' [post' [Ei|[]]]]]]] p [<-|[]]. rewrite Ei.
        pose proof (proj1 (Forall_forall _ _) Q e2 (Ff _ He) (ex_intro _ pre (ex_intro _ o (ex_intro _ sep (ex_intro _ sub (ex_intro _ post Hj))))) _ Hj) as K. cbn in K. rewrite Ei in K. exact (proj2 K). }
  rewrite K. reflexivity.
Qed.
End Patterns.
Print Assumptions C62_patterns.

(** ** The order of brackets of one place *)
Section Order.
Context {edge : Type}.
Variable same_edge : edge -> edge -> bool.
Notation printed := (printed edge).
Notation linked := (linked edge same_edge).
Notation order := (order edge same_edge).
(** The brackets of a place are put in an order where none is inside that of an edge that it is the
    parent of (that was made of it), except perhaps the second one, in the first. *)
Theorem C62_order fuel v w : order fuel 0 1 v = Some w ->
  Permutation w v /\ forall i j x y, i < j -> (i, j) <> (0, 1) -> nth_error w i = Some x -> nth_error w j = Some y -> linked x y = false.
Proof.
  intros H. split; [eapply order_perm; [|exact H]; lia|]. eapply order_looked; [| |exact H]; [lia|]. intros i j x y Hij [K|[K1 K2]]; lia.
Qed.
(** The loops end if edges rank above their parents. *)
Theorem C62_order_ends (rank : printed -> nat) v : (forall x y, In x v -> In y v -> linked x y = true -> rank x < rank y) ->
  exists fuel w, order fuel 0 1 v = Some w.
Proof.
  intros R. set (B := S (fold_right (fun x m => rank x + m) 0 v)). assert (F : Forall (fun x => rank x < B) v).
  { subst B. clear R. induction v as [|x v IH]; constructor; cbn; [lia|]. eapply Forall_impl; [|exact IH]. cbn. lia. }
  exists (S (left_over edge rank B 0 1 v)). apply (order_ends edge same_edge rank B); try lia; assumption.
Qed.
Lemma order_more f : forall a b v w k, order f a b v = Some w -> order (f + k) a b v = Some w.
Proof.
  induction f as [|f IH]; intros a b v w k H; [discriminate H|]. cbn [plus M_Bracketing.order] in *.
  destruct (Nat.ltb a (length v)); [|assumption]. destruct (Nat.ltb b (length v)); [|now apply IH]. destruct (nth_error v a); [|discriminate H]. destruct (nth_error v b); [|discriminate H].
  destruct (linked _ _); now apply IH.
Qed.
End Order.
Print Assumptions C62_order.
Print Assumptions C62_order_ends.

(** ** The whole writer *)
Lemma some_eq {A} (x y : A) : Some x = Some y -> x = y.
Proof. congruence. Qed.
Lemma swap_sums {B} (g : nat -> nat -> list B) (I J : list nat) : Permutation (flat_map (fun j => flat_map (fun i => g i j) I) J) (flat_map (fun i => flat_map (fun j => g i j) J) I).
Proof.
  induction J as [|j J IH]; cbn [flat_map].
  - induction I as [|i I IH]; [constructor|exact IH].
  - rewrite IH. clear IH. induction I as [|i I IH]; [constructor|]. cbn [flat_map]. rewrite <- IH, <- !app_assoc. apply Permutation_app_head. rewrite !app_assoc. apply Permutation_app_tail, Permutation_app_comm.
Qed.
Lemma perm_eq {A} (l l' : list A) : l = l' -> Permutation l l'.
Proof. intros ->. reflexivity. Qed.
(** Edges between places where characters begin, of one character at least, are drawn. *)
Definition drawn {score edge} (T : list Z) (e : edge_data score edge) : bool :=
  match begin _ _ e, end_ _ _ e with Some b, Some t => is_mark T b && is_mark T t && Nat.ltb b t | _, _ => false end.
Definition from {score edge} (e : edge_data score edge) : nat := match begin _ _ e with Some b => b | None => 0 end.
Definition upto {score edge} (e : edge_data score edge) : nat := match end_ _ _ e with Some b => b | None => 0 end.
Section Whole.
Context {score edge : Type}.
Variable show : score -> str.
Variable zero : score.
Variable same : score -> score -> bool.
Variable same_edge : edge -> edge -> bool.
Variable tag_separator pair_separator av_separator : str.
Hypothesis zero_same : same zero zero = true.
Variables o c : pattern.
Notation edge_data := (edge_data score edge).
Notation ts := (flat_map tokens_of [o; c]).
Notation render := (render show zero same tag_separator pair_separator av_separator).
Notation quiet_patterns := (quiet_patterns show tag_separator pair_separator av_separator).
Notation write d fuel := (write score edge show zero same same_edge tag_separator pair_separator av_separator (spell o) (spell c) d fuel).
Notation place_brackets d fuel := (place_brackets score edge show zero same same_edge tag_separator pair_separator av_separator (spell o) (spell c) d fuel).
Hypothesis one : one_list [o; c].
Hypothesis all_fine : Forall fine_pattern [o; c].
(** The edges of the same place. *)
Definition mates (es : list edge_data) (e : edge_data) : list edge_data := filter (at_place _ _ (from e) (upto e)) es.
Definition bracket_of (es : list edge_data) (e : edge_data) : printed edge :=
  {| p_source := source _ _ e; p_parent := parent _ _ e; elements := [render o ts (mates es e) e; render c ts (mates es e) e] |}.
Lemma at_place_is i j (e : edge_data) : at_place _ _ i j e = true -> from e = i /\ upto e = j /\ begin _ _ e = Some i /\ end_ _ _ e = Some j.
Proof.
  unfold at_place, from, upto. destruct (begin _ _ e) as [b|]; [|discriminate]. destruct (end_ _ _ e) as [t|]; [|discriminate]. rewrite andb_true_iff, !Nat.eqb_eq. intros [-> ->]. auto.
Qed.
Section Edges.
Variable T : list Z.
Variable es : list edge_data.
Hypothesis all_complete : Forall (complete (flat_map names [o; c])) es.
Hypothesis all_quiet : Forall (quiet_patterns [o; c]) es.
Lemma print_place d fuel i j : depth o <= d -> depth c <= d -> length (spell o) < fuel -> length (spell c) < fuel ->
  M_Bracketing.print score edge show zero same tag_separator pair_separator av_separator d fuel [spell o; spell c] (filter (at_place _ _ i j) es) =
  Some (map (bracket_of es) (filter (at_place _ _ i j) es)).
Proof.
  intros D1 D2 L1 L2. assert (Hd : 1 <= d) by (destruct o; cbn in D1; lia).
  rewrite (C62_patterns show zero same tag_separator pair_separator av_separator zero_same d fuel [o; c]); try assumption.
  - f_equal. apply map_ext_in. intros e He. apply filter_In in He as [_ He]. apply at_place_is in He as [E1 [E2 _]]. unfold bracket_of, mates. rewrite E1, E2. reflexivity.
  - repeat constructor; assumption.
  - repeat constructor; assumption.
  - apply Forall_forall. intros e He. apply filter_In in He as [He _]. now apply (proj1 (Forall_forall _ _) all_complete).
  - apply Forall_forall. intros e He. apply filter_In in He as [He _]. now apply (proj1 (Forall_forall _ _) all_quiet).
Qed.
Lemma row_nth {A} (f : nat -> option A) js r d : row_of f js = Some r -> forall k j, nth_error js k = Some j -> f j = Some (nth k r d).
Proof.
  revert r. induction js as [|x js IH]; intros r H k j Hk; [now destruct k|]. cbn in H. destruct (f x) as [y|] eqn:E; [|discriminate H]. destruct (row_of f js) as [r'|]; [|discriminate H]. injection H as <-.
  destruct k as [|k]; cbn in *; [congruence|]. now apply IH.
Qed.
Lemma seq_nth_error n k : k < n -> nth_error (seq 0 n) k = Some k.
Proof. intros H. rewrite (nth_error_nth' _ 0) by (now rewrite seq_length). now rewrite seq_nth. Qed.
(** What is written is the text, with the brackets of the drawn edges at their ends; they are well nested if no drawn edges cross. *)
Theorem C62_written d fuel l : depth o <= d -> depth c <= d -> length (spell o) < fuel -> length (spell c) < fuel -> write d fuel T es = Some l ->
  flat_map bytes_of l = T /\
  Permutation (opened 0 l) (map (fun e => (from e, bracket_of es e)) (filter (drawn T) es)) /\
  Permutation (closed 0 l) (map (fun e => (upto e, bracket_of es e)) (filter (drawn T) es)) /\
  ((forall e e2, In e es -> In e2 es -> drawn T e = true -> drawn T e2 = true -> ~ (from e < from e2 /\ from e2 < upto e /\ upto e < upto e2)) -> nested l).
Proof.
  intros D1 D2 L1 L2. unfold M_Bracketing.write. cbv zeta. destruct (forallb _ es) eqn:Hp; cbn [negb]; [|discriminate]. set (n := length T).
  destruct (row_of _ (seq 0 (n + 1))) as [table|] eqn:Et; [|discriminate]. intros H. apply some_eq in H. subst l.
  set (cell := fun i j => nth j (nth i table []) []).
  assert (Cell : forall i j, i <= n -> j <= n -> Permutation (shown T cell i j) (if is_mark T i && is_mark T j && Nat.ltb i j then map (bracket_of es) (filter (at_place _ _ i j) es) else [])).
  { intros i j Hi Hj. unfold shown. destruct (is_mark T i && is_mark T j && Nat.ltb i j) eqn:Ok; [|constructor]. rewrite !andb_true_iff in Ok. destruct Ok as [[Ok1 Ok2] Ok3].
    pose proof (row_nth _ _ _ [] Et i i (seq_nth_error (n + 1) i ltac:(lia))) as R1. cbv beta in R1. pose proof (row_nth _ _ _ [] R1 j j (seq_nth_error (n + 1) j ltac:(lia))) as R2. cbv beta in R2.
    rewrite Ok1, Ok2, Ok3 in R2. cbn [andb] in R2. unfold M_Bracketing.place_brackets in R2. rewrite print_place in R2 by assumption. exact (order_perm _ _ _ 0 1 _ _ (le_n 1) R2). }
  assert (Cell0 : forall i j, ~ (i <= n /\ j <= n) -> shown T cell i j = []).
  { intros i j Hn. destruct (Nat.leb_spec i n); destruct (Nat.leb_spec j n); try lia; try (apply shown_out; subst n; lia). apply shown_mark1. destruct (is_mark T i) eqn:E; [|reflexivity]. apply is_mark_spec, marks_le in E. subst n. lia. }
  assert (At : forall i j i' j' (e : edge_data), at_place _ _ i j e = true -> at_place _ _ i' j' e = true -> i = i' /\ j = j').
  { intros i j i' j' e H1 H2. apply at_place_is in H1 as [A1 [A2 _]]. apply at_place_is in H2 as [B1 [B2 _]]. split; congruence. }
  set (ok := fun i j => is_mark T i && is_mark T j && Nat.ltb i j).
  assert (Seen : forall e, seen (at_place score edge) ok (seq 0 (n + 1)) e = drawn T e).
  { intros e. apply eq_true_iff_eq. unfold seen. rewrite existsb_exists. split.
    - intros [i [Hi H]]. apply existsb_exists in H as [j [Hj H]]. apply andb_true_iff in H as [H1 H2]. apply at_place_is in H2 as [_ [_ [E1 E2]]]. unfold drawn. rewrite E1, E2. exact H1.
    - intros H. unfold drawn in H. destruct (begin _ _ e) as [b|] eqn:Eb; [|discriminate H]. destruct (end_ _ _ e) as [t|] eqn:Ee; [|discriminate H].
      pose proof H as H'. rewrite !andb_true_iff in H'. destruct H' as [[H1 H2] _]. apply is_mark_spec, marks_le in H1, H2. exists b. split; [apply in_seq; subst n; lia|].
      apply existsb_exists. exists t. split; [apply in_seq; subst n; lia|]. unfold ok. rewrite H. unfold at_place. rewrite Eb, Ee, !Nat.eqb_refl. reflexivity. }
  split; [|split; [|split]].
  - exact (pieces_bytes T cell (length T + 1) 0 (le_n _)).
  - rewrite opened_sum. fold n. rewrite <- (filter_ext _ _ Seen). rewrite <- (table_sum (at_place score edge) ok (fun e => (from e, bracket_of es e)) (seq 0 (n + 1)) (seq_NoDup _ _) At).
    apply flat_map_perms. intros i Hi. apply flat_map_perms. intros j Hj. apply in_seq in Hi, Hj. rewrite (Cell i j) by lia. fold (ok i j). destruct (ok i j); [|constructor].
    rewrite map_map. apply perm_eq. apply map_ext_in. intros e He. apply filter_In in He as [_ He]. apply at_place_is in He as [-> _]. reflexivity.
  - rewrite closed_sum. fold n. rewrite <- (filter_ext _ _ Seen). rewrite <- (table_sum (at_place score edge) ok (fun e => (upto e, bracket_of es e)) (seq 0 (n + 1)) (seq_NoDup _ _) At).
    rewrite (swap_sums (fun i j => map (pair j) (shown T cell i j))).
    apply flat_map_perms. intros i Hi. apply flat_map_perms. intros j Hj. apply in_seq in Hi, Hj. rewrite (Cell i j) by lia. fold (ok i j). destruct (ok i j); [|constructor].
    rewrite map_map. apply perm_eq. apply map_ext_in. intros e He. apply filter_In in He as [_ He]. apply at_place_is in He as [_ [-> _]]. reflexivity.
  - intros Ap. apply runs_nested, pieces_nested.
    assert (W : forall i j, shown T cell i j <> [] -> exists e, In e es /\ drawn T e = true /\ from e = i /\ upto e = j).
    { intros i j Hs. assert (Hn : i <= n /\ j <= n) by (destruct (Nat.leb_spec i n); destruct (Nat.leb_spec j n); try lia; exfalso; apply Hs, Cell0; lia).
      pose proof (Cell i j (proj1 Hn) (proj2 Hn)) as P. fold (ok i j) in P. destruct (ok i j) eqn:Ok; [|exfalso; apply Hs, Permutation_nil; now symmetry].
      destruct (filter (at_place _ _ i j) es) as [|e r] eqn:Ef; [exfalso; apply Hs, Permutation_nil; now symmetry|].
      assert (He : In e (filter (at_place _ _ i j) es)) by (rewrite Ef; now left). apply filter_In in He as [He1 He2]. pose proof (at_place_is _ _ _ He2) as [F1 [F2 [F3 F4]]].
      exists e. repeat split; try assumption. unfold drawn. rewrite F3, F4. exact Ok. }
    intros i j i' j' H1 H2. destruct (W _ _ H1) as [e [I1 [A1 [<- <-]]]]. destruct (W _ _ H2) as [e2 [I2 [A2 [<- <-]]]]. now apply Ap.
Qed.
(** It is written, if all ends are known and edges rank above their parents. *)
Theorem C62_total d (rank : printed edge -> nat) : depth o <= d -> depth c <= d -> Forall (fun e => exists b t, begin _ _ e = Some b /\ end_ _ _ e = Some t /\ b <= length T /\ t <= length T) es ->
  (forall e e2, In e es -> In e2 es -> linked edge same_edge (bracket_of es e) (bracket_of es e2) = true -> rank (bracket_of es e) < rank (bracket_of es e2)) ->
  exists fuel l, write d fuel T es = Some l.
Proof.
  intros D1 D2 Pl R. assert (Hp : forallb (placed _ _ (length T)) es = true).
  { apply forallb_forall. intros e He. destruct (proj1 (Forall_forall _ _) Pl e He) as [b [t [E1 [E2 [H1 H2]]]]]. unfold placed. rewrite E1, E2. apply andb_true_iff. split; now apply Nat.leb_le. }
  assert (Row : forall A (g : nat -> nat -> option A) js, (forall j, In j js -> exists f0, forall f, f0 <= f -> exists x, g f j = Some x) -> exists f0, forall f, f0 <= f -> exists r, row_of (g f) js = Some r).
  { intros A g js. induction js as [|j js IH]; intros H; [exists 0; cbn; eauto|]. destruct (H j (or_introl eq_refl)) as [f1 H1]. destruct IH as [f2 H2]; [intros k Hk; apply H; now right|].
    exists (f1 + f2). intros f Hf. cbn. destruct (H1 f ltac:(lia)) as [x ->]. destruct (H2 f ltac:(lia)) as [r ->]. eauto. }
  destruct (Row _ (fun f i => row_of (fun j => if (Nat.ltb i j && is_mark T i && is_mark T j)%bool then place_brackets d f es i j else Some []) (seq 0 (length T + 1))) (seq 0 (length T + 1))) as [f0 Hf].
  - intros i _. apply (Row _ (fun f j => if (Nat.ltb i j && is_mark T i && is_mark T j)%bool then place_brackets d f es i j else Some [])). intros j _.
    destruct (C62_order_ends same_edge rank (map (bracket_of es) (filter (at_place _ _ i j) es))) as [f1 [w Hw]].
    + intros x y Hx Hy. apply in_map_iff in Hx as [e [<- He]]. apply in_map_iff in Hy as [e2 [<- He2]]. apply filter_In in He, He2. apply R; tauto.
    + exists (f1 + length (spell o) + length (spell c) + 1). intros f Hf. destruct (Nat.ltb i j && is_mark T i && is_mark T j)%bool; [|eauto]. exists w. unfold M_Bracketing.place_brackets. rewrite print_place by (assumption || lia).
      replace f with (f1 + (f - f1)) by lia. now apply order_more.
  - destruct (Hf f0 (le_n _)) as [table E]. exists f0. unfold M_Bracketing.write. cbv zeta. rewrite Hp. cbn [negb]. rewrite E. eauto.
Qed.
End Edges.
End Whole.
Print Assumptions C62_written.
Print Assumptions C62_total.

(** ** Cases *)
Local Notation "! s" := (list_ascii_of_string s) (at level 0).
Definition ed (c t : string) (b n : nat) (src : nat) (par : option nat) : edge_data Z nat :=
  {| source := Some src; parent := par; tags := [!"segment"; !"symbol"; !"token"]; category := !c; text := !t; avs := [(!"case", !"Nominative"); (!"number", !"singular")];
     points := (-1)%Z; role := !"#"; begin := Some b; end_ := Some n |}.
Definition pr (p : string) : option (list (list string)) :=
  option_map (map (fun x => map string_of_list_ascii (elements x))) (print Z nat (fun _ => !"-1.5") 0%Z Z.eqb !"," !"," !"=" 5 100 [!p] [ed "NP" "zj" 0 1 0 None]).
Definition T_of (s : string) : list Z := map (fun c => Z.of_N (N_of_ascii c)) !s.
Definition wr (T : list Z) (es : list (edge_data Z nat)) : option string :=
  option_map (fun l => string_of_list_ascii (map (fun z => ascii_of_N (Z.to_N z)) l))
    (written Z nat (fun _ => !"-1.5") 0%Z Z.eqb Nat.eqb !"," !"," !"=" !"%c[" !"]%c" 5 100 T es).
(** Those of bracketing-writer/t/bracket_printer_tests.cpp (the quotation marks are left out). *)
Example C62_example_tags : pr "<%c tags=%T score=%s>%t</%c> % %" = Some [["<NP tags=segment,symbol,token score=-1.5>zj</NP> % %"%string]]. Proof. vm_compute. reflexivity. Qed.
Example C62_example_all : pr "<%c attr=%A>%t</%c> %" = Some [["<NP attr=case=Nominative,number=singular>zj</NP> %"%string]]. Proof. vm_compute. reflexivity. Qed.
Example C62_example_attributes : pr "<%c case=%a[case] number=%a`number`>%t</%c %a> %a" = Some [["<NP case=Nominative number=singular>zj</NP %a> %a"%string]]. Proof. vm_compute. reflexivity. Qed.
Example C62_example_list : pr "%c(%*[,][%a{number}(%*<:><%a{case}>)])|" = Some [["NP(singular(Nominative))|"%string]]. Proof. vm_compute. reflexivity. Qed.
(** The pattern of the list, as the theorems see it. *)
Definition list_pattern : pattern :=
  Joining [Category; Plain "("] "[" [","] (Joining [Attribute "{" !"number"; Plain "("] "<" [":"] (Flat [Attribute "{" !"case"]) [Plain ")"]) [Plain ")"; Plain "|"].
Example C62_example_spell : spell list_pattern = !"%c(%*[,][%a{number}(%*<:><%a{case}>)])|". Proof. reflexivity. Qed.
Example C62_example_hypotheses : one_list [list_pattern] /\ fine_pattern list_pattern /\ depth list_pattern = 3 /\ complete (names list_pattern) (ed "NP" "zj" 0 1 0 None) /\
  quiet_patterns (fun _ : Z => !"-1.5") !"," !"," !"=" [list_pattern] (ed "NP" "zj" 0 1 0 None).
Proof.
  split; [apply (O_join [] _ _ _ _ _ []); constructor|]. split; [|split; [reflexivity|split]].
  - cbn. repeat split; try discriminate; intros H; repeat (destruct H as [H|H]; [discriminate H|]); exact H.
  - split; [intros n; cbn; intros H; repeat (destruct H as [<-|H]; [auto|]); destruct H|]. cbn. intros k v H. repeat (destruct H as [H|H]; [injection H as <- <-; discriminate|]). destruct H.
  - intros _ p [<-|[]]. cbn. split; [|split; [|exact I]]; intros t Ht; repeat (destruct Ht as [<-|Ht]; [cbn; intros K; repeat (destruct K as [K|K]; [discriminate K|]); exact K|]); destruct Ht.
Qed.
(** Three friends of one category, two numbers: the list has one entry for each of the edges with the same category. *)
Definition an (c n : string) (src : nat) : edge_data Z nat :=
  {| source := Some src; parent := None; tags := []; category := !c; text := []; avs := [(!"case", !"x"); (!"number", !n)]; points := 0%Z; role := []; begin := Some 0; end_ := Some 1 |}.
Example C62_example_friends : option_map (map (fun x => map string_of_list_ascii (elements x)))
  (print Z nat (fun _ => []) 0%Z Z.eqb [] [] [] 5 100 [!"%c(%*[,][%a{number}])"] [an "N" "sg" 0; an "V" "sg" 1; an "N" "pl" 2]) =
  Some [["N(sg,pl)"]; ["V(sg)"]; ["N(sg,pl)"]]%string. Proof. vm_compute. reflexivity. Qed.
(** Nested edges, two of one place: D was made of A. *)
Definition four : list (edge_data Z nat) := [ed "A" "" 0 3 0 None; ed "B" "" 0 1 1 None; ed "C" "" 1 3 2 None; ed "D" "" 0 3 3 (Some 0)].
Example C62_example_nested : wr (T_of "abc") four = Some "D[A[B[a]BC[bc]C]A]D"%string. Proof. vm_compute. reflexivity. Qed.
Example C62_example_drawn : map (drawn (T_of "abc")) four = [true; true; true; true]. Proof. reflexivity. Qed.
Example C62_example_whole : exists l, write Z nat (fun _ => !"-1.5") 0%Z Z.eqb Nat.eqb !"," !"," !"=" !"%c[" !"]%c" 5 100 (T_of "abc") four = Some l /\ nested l /\
  opened 0 l = map (fun e => (from e, bracket_of (fun _ => !"-1.5") 0%Z Z.eqb !"," !"," !"=" (Flat [Category; Plain "["]) (Flat [Plain "]"; Category]) four e)) [ed "D" "" 0 3 3 (Some 0); ed "A" "" 0 3 0 None; ed "B" "" 0 1 1 None; ed "C" "" 1 3 2 None].
Proof.
  eexists. split; [vm_compute; reflexivity|]. split; [|vm_compute; reflexivity].
  eapply (C62_written (fun _ => !"-1.5") 0%Z Z.eqb Nat.eqb !"," !"," !"=" eq_refl (Flat [Category; Plain "["]) (Flat [Plain "]"; Category])) with (T := T_of "abc") (es := four) (d := 5) (fuel := 100).
  - apply O_flat. constructor; [eauto|]. constructor; [eauto|constructor].
  - constructor; [|constructor; [|constructor]]; cbn; repeat split; discriminate.
  - apply Forall_forall. intros e He. split; [intros n []|]. intros k v Hk. repeat (destruct He as [<-|He]; [cbn in Hk; repeat (destruct Hk as [Hk|Hk]; [injection Hk as <- <-; discriminate|]); destruct Hk|]). destruct He.
  - apply Forall_forall. intros e _ [pre [o' [sep [sub [post [H|[H|[]]]]]]]]; discriminate H.
  - cbn; lia.
  - cbn; lia.
  - cbn; lia.
  - cbn; lia.
  - vm_compute; reflexivity.
  - intros e e2 He He2 _ _. repeat (destruct He as [<-|He]; [repeat (destruct He2 as [<-|He2]; [cbn; lia|]); destruct He2|]). destruct He.
Qed.
Example C62_example_quoter : unquote !"a\nb\\" = Some ["a"; ch_nl; "b"; ch_bs]. Proof. reflexivity. Qed.

(** Edges that cross are written, but not nested. *)
Theorem C62_crossing_refuted : wr (T_of "abc") [ed "X" "" 0 2 0 None; ed "Y" "" 1 3 1 None] = Some "X[aY[b]Xc]Y"%string.
Proof. vm_compute. reflexivity. Qed.
Print Assumptions C62_crossing_refuted.
(** Three brackets of one place, 0 of 2 of 1: that of 2 is outside that of 1, which was made of it. *)
Definition br (src : nat) (par : option nat) : printed nat := {| p_source := Some src; p_parent := par; elements := [] |}.
Theorem C62_first_two_refuted :
  option_map (map p_source) (order nat Nat.eqb 100 0 1 [br 0 None; br 1 (Some 2); br 2 (Some 0)]) = Some [Some 2; Some 1; Some 0].
Proof. vm_compute. reflexivity. Qed.
Print Assumptions C62_first_two_refuted.
(** Edges that are parents of each other (the first and the third of a place): the loops do not end. *)
Definition mutual1 : list (printed nat) := [br 0 (Some 2); br 1 None; br 2 (Some 0)].
Definition mutual2 : list (printed nat) := [br 2 (Some 0); br 1 None; br 0 (Some 2)].
Theorem C62_mutual_refuted : forall fuel, order nat Nat.eqb fuel 0 1 mutual1 = None.
Proof.
  assert (H : forall fuel, order nat Nat.eqb fuel 0 2 mutual1 = None /\ order nat Nat.eqb fuel 0 2 mutual2 = None).
  { induction fuel as [|f [IH1 IH2]]; [auto|]. split; cbn; [exact IH2|exact IH1]. }
  intros [|f]; [reflexivity|]. cbn. apply H.
Qed.
Print Assumptions C62_mutual_refuted.
(** A list whose first part is not closed: the search wraps around, and the pattern is read again and again. *)
Theorem C62_unclosed_refuted : forall fuel (e : edge_data Z nat), scan Z nat (fun _ => []) [] [] [] fuel e !"()%*(x" 0 (fresh Z nat 0%Z e) = None.
Proof.
  intros fuel e. generalize (fresh Z nat 0%Z e) as st.
  assert (H : forall f, (forall st, scan Z nat (fun _ => []) [] [] [] f e !"()%*(x" 2 st = None)).
  { induction f as [|f IH]; intros st; [reflexivity|]. cbn. apply IH. }
  intros st. destruct fuel as [|f]; [reflexivity|]. cbn. destruct f as [|f]; [reflexivity|]. cbn. apply H.
Qed.
Print Assumptions C62_unclosed_refuted.
(** An empty list is not put in; a missing attribute appears with an empty value; a category like the mark of a list takes its place. *)
Theorem C62_stars_refuted : pr "%*()()" = Some [["%*****"%string]].
Proof. vm_compute. reflexivity. Qed.
Print Assumptions C62_stars_refuted.
Theorem C62_missing_refuted : pr "%a(x) %A" = Some [[" case=Nominative,number=singular,x="%string]].
Proof. vm_compute. reflexivity. Qed.
Print Assumptions C62_missing_refuted.
Theorem C62_mark_refuted : option_map (map (fun x => map string_of_list_ascii (elements x)))
  (print Z nat (fun _ => []) 0%Z Z.eqb [] [] [] 5 100 [!"%c:%*[,][%t]"] [ed "%*****" "zj" 0 1 0 None]) = Some [["zj:%*****"%string]].
Proof. vm_compute. reflexivity. Qed.
Print Assumptions C62_mark_refuted.
(** operator< of EdgeData, the order of the std::set of the default mode: both of two edges may be less than the other. *)
Theorem C62_less_refuted : let a := ed "A" "z" 0 1 0 None in let b := ed "B" "y" 0 1 1 None in
  data_less Z nat Z.ltb a b = true /\ data_less Z nat Z.ltb b a = true.
Proof. vm_compute. auto. Qed.
Print Assumptions C62_less_refuted.
(** An edge of loose vertices without a parent: an empty boost::optional is dereferenced. *)
Theorem C62_loose_refuted : wr (T_of "abc") [{| source := Some 0; parent := None; tags := []; category := []; text := []; avs := []; points := 0%Z; role := []; begin := None; end_ := None |}] = None.
Proof. vm_compute. reflexivity. Qed.
Print Assumptions C62_loose_refuted.
(** Edges of no characters, and those that end within one, are not drawn. *)
Theorem C62_undrawn_refuted : wr (T_of "abc") [ed "E" "" 1 1 0 None] = Some "abc"%string /\
  option_map (@length Z) (written Z nat (fun _ => []) 0%Z Z.eqb Nat.eqb [] [] [] !"[" !"]" 5 100 [196; 133; 97]%Z [ed "E" "" 0 1 0 None]) = Some 3.
Proof. vm_compute. auto. Qed.
Print Assumptions C62_undrawn_refuted.

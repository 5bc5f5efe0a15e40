(** C93: attributes, tags and whole annotated sentences. *)
From Coq Require Import String Ascii List Arith Bool Lia.
From Verif Require Import M_XmlTree P_XmlTree.
Import ListNotations.
Open Scope nat_scope.

(** Attributes *)
Definition opening_of (name : str) : str := name ++ lit "=" ++ [quote_c].

Lemma starts_app t s : starts t (t ++ s) = true.
Proof. induction t as [|c t IH]; [reflexivity|]. cbn [app starts]. now rewrite (proj2 (is_true c c) eq_refl). Qed.
Lemma starts_true t s : starts t s = true -> exists y, s = t ++ y.
Proof.
  revert s. induction t as [|c t IH]; intros s H; [exists s; reflexivity|]. destruct s as [|d s]; [discriminate H|].
  cbn [starts] in H. apply andb_prop in H as [E H]. apply is_true in E. subst d. destruct (IH s H) as [y ->]. exists y. reflexivity.
Qed.
Lemma find_str_some t s n : find_str t s = Some n -> exists x y, s = x ++ t ++ y /\ length x = n.
Proof.
  revert n. induction s as [|c s IH]; intros n H; cbn [find_str] in H.
  - destruct (starts t []) eqn:E; [|discriminate H]. apply starts_true in E as [y E]. injection H as <-. exists [], y. split; [exact E|reflexivity].
  - destruct (starts t (c :: s)) eqn:E.
    + apply starts_true in E as [y E]. injection H as <-. exists [], y. split; [exact E|reflexivity].
    + destruct (find_str t s) as [m|]; [|discriminate H]. injection H as <-. destruct (IH m eq_refl) as (x & y & -> & <-).
      exists (c :: x), y. split; reflexivity.
Qed.
Lemma find_str_first t y : forall x, (forall x' y', x ++ t ++ y = x' ++ t ++ y' -> length x <= length x') ->
  find_str t (x ++ t ++ y) = Some (length x).
Proof.
  induction x as [|c x IH]; intros H.
  - cbn [app length]. destruct (t ++ y) as [|d s] eqn:E.
    + destruct t; [reflexivity|discriminate E].
    + cbn [find_str]. rewrite <- E, starts_app. reflexivity.
  - cbn [app find_str length]. destruct (starts t (c :: x ++ t ++ y)) eqn:E.
    + apply starts_true in E as [y' E]. specialize (H [] y' E). cbn in H. lia.
    + rewrite IH; [reflexivity|]. intros x' y' E'. specialize (H (c :: x') y'). cbn [app length] in H. rewrite E' in H. specialize (H eq_refl). lia.
Qed.
Lemma find_str_none t s : (forall x y, s <> x ++ t ++ y) -> find_str t s = None.
Proof. intros H. destruct (find_str t s) as [n|] eqn:E; [|reflexivity]. apply find_str_some in E as (x & y & E & _). now elim (H x y). Qed.

Lemma nth_last {A} (d : A) l : forall x, nth (length l) (x :: l) d = last (x :: l) d.
Proof. induction l as [|c l IH]; intros x; [reflexivity|]. exact (IH c). Qed.

(** The value of an attribute is what is between its quotes where its name first stands before an
    equals sign and a quote; it must not be empty. *)
Theorem C93_attribute : forall name before value after,
  (forall x y, before ++ opening_of name ++ value ++ quote_c :: after = x ++ opening_of name ++ y -> length before <= length x) ->
  value <> [] -> ~ In quote_c value -> last value space_c <> back_c ->
  attribute (before ++ opening_of name ++ value ++ quote_c :: after) name = value.
Proof.
  intros name before value after First Hv Hq Hb. unfold attribute. fold (opening_of name). cbv zeta.
  rewrite (find_str_first (opening_of name) (value ++ quote_c :: after) before First).
  set (tag := before ++ opening_of name ++ value ++ quote_c :: after).
  assert (E0 : skipn (length before + length (opening_of name)) tag = value ++ quote_c :: after).
  { unfold tag. rewrite app_assoc, <- app_length. apply skipn_at. }
  destruct value as [|v0 value]; [now elim Hv|].
  assert (E1 : skipn (length before + length (opening_of name) + 1) tag = value ++ quote_c :: after).
  { unfold tag. replace (before ++ opening_of name ++ (v0 :: value) ++ quote_c :: after) with ((before ++ opening_of name ++ [v0]) ++ value ++ quote_c :: after)
      by (rewrite <- !app_assoc; reflexivity).
    replace (length before + length (opening_of name) + 1) with (length (before ++ opening_of name ++ [v0])) by (rewrite !app_length; cbn [length]; lia).
    apply skipn_at. }
  rewrite E1. assert (Fv : free (is quote_c) value) by (apply notin_free; intros I; apply Hq; now right).
  rewrite (find_at _ value quote_c after Fv eq_refl).
  assert (Nb : is (nth (length before + length (opening_of name) + 1 + length value - 1) tag space_c) back_c = false).
  { apply is_false. replace (length before + length (opening_of name) + 1 + length value - 1) with (length (before ++ opening_of name) + length value)
      by (rewrite app_length; lia).
    unfold tag. rewrite app_assoc. rewrite app_nth2_plus. rewrite app_nth1 by (cbn [length]; lia).
    intros E. apply Hb. rewrite <- E. symmetry. apply nth_last. }
  assert (C : forall fuel, closing_quote fuel tag (length before + length (opening_of name) + 1 + length value) = length before + length (opening_of name) + 1 + length value).
  { intros [|f]; [reflexivity|]. cbn [closing_quote]. now rewrite Nb. }
  rewrite C, E0. replace (length before + length (opening_of name) + 1 + length value - (length before + length (opening_of name))) with (length (v0 :: value))
    by (cbn [length]; lia). apply firstn_at.
Qed.
Print Assumptions C93_attribute.
Theorem C93_no_attribute : forall tag name, (forall x y, tag <> x ++ opening_of name ++ y) -> attribute tag name = [].
Proof. intros tag name H. unfold attribute. fold (opening_of name). cbv zeta. now rewrite find_str_none. Qed.
Print Assumptions C93_no_attribute.

(** Tags *)
Definition edge_ok (c : ascii) : Prop := droppable c = false.
Lemma trim_front_ok w s : Forall (fun c => droppable c = true) w -> (forall c s', s = c :: s' -> edge_ok c) -> trim_front (w ++ s) = s.
Proof.
  intros Hw Hs. induction Hw as [|c w Hc Hw IH]; cbn [app trim_front].
  - destruct s as [|c s]; [reflexivity|]. cbn [trim_front]. now rewrite (Hs c s eq_refl).
  - now rewrite Hc.
Qed.
Lemma trim_ok w1 w2 s : Forall (fun c => droppable c = true) w1 -> Forall (fun c => droppable c = true) w2 -> s <> [] ->
  edge_ok (hd space_c s) -> edge_ok (last s space_c) -> trim (w1 ++ s ++ w2) = s.
Proof.
  intros H1 H2 Hs Hh Hl. unfold trim. rewrite !rev_app_distr. rewrite <- app_assoc. rewrite trim_front_ok.
  - rewrite rev_app_distr, !rev_involutive. apply trim_front_ok; [exact H1|]. intros c s' ->. exact Hh.
  - apply Forall_rev. exact H2.
  - intros c s' E. destruct (exists_last Hs) as (s0 & l & ->). rewrite last_last in Hl. rewrite rev_app_distr in E. cbn in E. injection E as <- _. exact Hl.
Qed.
Lemma trim_xml_ok inner : trim_xml (lt_c :: inner ++ [gt_c]) = inner.
Proof.
  unfold trim_xml. cbn [length]. rewrite app_length. cbn [length].
  destruct (Nat.ltb_spec (S (length inner + 1)) 2) as [L|L]; [lia|]. cbn [hd tl].
  replace (last (lt_c :: inner ++ [gt_c]) space_c) with gt_c; [apply removelast_last|].
  change (lt_c :: inner ++ [gt_c]) with ((lt_c :: inner) ++ [gt_c]). now rewrite last_last.
Qed.
Definition blanks (w : str) : Prop := Forall (fun c => droppable c = true) w.
(** the end of a tag that is neither a blank nor a slash *)
Definition plain_end (s : str) : Prop := edge_ok (last s space_c) /\ last s space_c <> slash_c.
Definition tag_name (name : str) : Prop := name <> [] /\ ~ In space_c name /\ edge_ok (hd space_c name) /\ hd space_c name <> slash_c.
Definition with_content (name content : str) : str := match content with [] => name | _ => name ++ space_c :: content end.

Lemma name_split name content : tag_name name -> content <> [] ->
  find_first (is space_c) (name ++ space_c :: content) = Some (length name)
  /\ firstn (length name) (name ++ space_c :: content) = name /\ skipn (length name + 1) (name ++ space_c :: content) = content.
Proof.
  intros (_ & Hn & _) _. split; [apply find_at; [now apply notin_free|reflexivity]|]. split; [apply firstn_at|].
  replace (name ++ space_c :: content) with ((name ++ [space_c]) ++ content) by (rewrite <- app_assoc; reflexivity).
  replace (length name + 1) with (length (name ++ [space_c])) by (rewrite app_length; reflexivity). apply skipn_at.
Qed.
Lemma split_ok name content : tag_name name ->
  match find_first (is space_c) (with_content name content) with
  | Some n => (firstn n (with_content name content), skipn (n + 1) (with_content name content))
  | None => (with_content name content, [])
  end = (name, content).
Proof.
  intros H. destruct content as [|c content].
  - cbn [with_content]. rewrite find_free; [reflexivity|]. apply notin_free. apply H.
  - cbn [with_content]. destruct (name_split name (c :: content) H ltac:(discriminate)) as (E1 & E2 & E3). now rewrite E1, E2, E3.
Qed.

Lemma with_content_hd name content : tag_name name -> exists c r, with_content name content = c :: r /\ edge_ok c /\ c <> slash_c.
Proof.
  intros (Hn & _ & He & Hs). destruct name as [|c name]; [now elim Hn|]. destruct content as [|d content].
  - exists c, name. split; [reflexivity|]. split; [exact He|exact Hs].
  - exists c, (name ++ space_c :: d :: content). split; [reflexivity|]. split; [exact He|exact Hs].
Qed.
Lemma last_cons_ne {A} (x : A) l d : l <> [] -> last (x :: l) d = last l d.
Proof. intros H. destruct l; [now elim H|reflexivity]. Qed.

(** What the tags with a name and a content are. *)
Theorem C93_tags : forall w1 w2 name content, blanks w1 -> blanks w2 -> tag_name name ->
  (plain_end (with_content name content) ->
     read_tag (lt_c :: (w1 ++ with_content name content ++ w2) ++ [gt_c]) = Some (Opening, name, content)
     /\ read_tag (lt_c :: (w1 ++ (slash_c :: with_content name content) ++ w2) ++ [gt_c]) = Some (Closing, name, content))
  /\ read_tag (lt_c :: (w1 ++ (with_content name content ++ [slash_c]) ++ w2) ++ [gt_c]) = Some (Unary, name, content).
Proof.
  intros w1 w2 name content H1 H2 Hn. destruct (with_content_hd name content Hn) as (c & r & E & He & Hs).
  apply is_false in Hs. pose proof (split_ok name content Hn) as Sp. rewrite E in *. clear E. split.
  - intros [P1 P2]. apply is_false in P2. split.
    + unfold read_tag. rewrite trim_xml_ok, trim_ok; [|exact H1|exact H2|discriminate|exact He|exact P1]. rewrite P2, Hs. cbn [andb]. cbv zeta.
      destruct (find_first (is space_c) (c :: r)); injection Sp as E1 E2; rewrite E1, E2; reflexivity.
    + unfold read_tag. rewrite trim_xml_ok, trim_ok; [|exact H1|exact H2|discriminate|reflexivity|rewrite last_cons_ne by discriminate; exact P1].
      rewrite last_cons_ne by discriminate. rewrite P2. change (is slash_c slash_c) with true. cbn [andb tl]. cbv zeta. destruct (find_first (is space_c) (c :: r)); injection Sp as E1 E2; rewrite E1, E2; reflexivity.
  - unfold read_tag. rewrite trim_xml_ok, trim_ok; [|exact H1|exact H2|discriminate|exact He|rewrite last_last; reflexivity].
    cbn [app]. rewrite Hs. change (c :: r ++ [slash_c]) with ((c :: r) ++ [slash_c]). rewrite last_last. change (is slash_c slash_c) with true. cbn [andb]. cbv zeta.
    rewrite removelast_last. destruct (find_first (is space_c) (c :: r)); injection Sp as E1 E2; rewrite E1, E2; reflexivity.
Qed.
Print Assumptions C93_tags.

(** What a text means. *)
Definition Meaning (esc : bool) (t u : str) : Prop :=
  if esc then exists ps tail, t = escaped ps tail /\ pieces ps /\ ~ In amp_c tail /\ Means ps tail u else u = t.

Lemma decompose n : forall s, length s <= n -> exists ps tail, s = escaped ps tail /\ pieces ps
  /\ (~ In amp_c tail \/ exists plain r, tail = plain ++ amp_c :: r /\ ~ In amp_c plain /\ ~ In semi_c r).
Proof.
  induction n as [n IH] using lt_wf_ind. intros s L. destruct (find_first (is amp_c) s) as [k|] eqn:F.
  - apply find_some in F as (plain & c & b & -> & <- & Hp & Hc). apply is_true in Hc. subst c. apply notin_free in Hp.
    destruct (find_first (is semi_c) b) as [e|] eqn:G.
    + apply find_some in G as (name & c & rest & -> & <- & Hn & Hc). apply is_true in Hc. subst c. apply notin_free in Hn.
      rewrite app_length in L. cbn [length] in L. rewrite app_length in L. cbn [length] in L.
      destruct (IH (length rest) ltac:(lia) rest (Nat.le_refl _)) as (ps & tail & -> & Hps & T). exists ((plain, name) :: ps), tail.
      split; [reflexivity|]. split; [constructor; [split; assumption|exact Hps]|exact T].
    + apply find_none in G. apply notin_free in G. exists [], (plain ++ amp_c :: b). split; [reflexivity|]. split; [constructor|]. right. exists plain, b. auto.
  - apply find_none in F. apply notin_free in F. exists [], s. split; [reflexivity|]. split; [constructor|]. now left.
Qed.
Lemma never_done ps plain r : pieces ps -> ~ In amp_c plain -> ~ In semi_c r ->
  forall m fuel, fuel <= m -> forall qs front acc u, escaped ps (plain ++ amp_c :: r) = front ++ escaped qs (plain ++ amp_c :: r) -> pieces qs ->
  unescape_loop fuel (escaped ps (plain ++ amp_c :: r)) (length front) acc <> UDone u.
Proof.
  intros H Hp Hr. set (tail := plain ++ amp_c :: r). set (s := escaped ps tail).
  induction m as [|m IHm]; intros [|f] Lf qs front acc u E Hq; try discriminate; [lia|]. destruct qs as [|[p q] qs].
  - cbn [escaped] in E. cbn [unescape_loop]. rewrite E at 1. rewrite skipn_at. unfold tail at 1. pose proof Hp as Hp'. apply notin_free in Hp'.
    rewrite (find_at _ plain amp_c _ Hp' eq_refl). cbv zeta.
    assert (S1 : skipn (length front + length plain) s = amp_c :: r).
    { rewrite E. unfold tail. rewrite app_assoc. rewrite <- app_length. apply skipn_at. }
    rewrite S1. rewrite find_free by (constructor; [reflexivity|now apply notin_free]).
    destruct (entity _); [|discriminate]. apply (IHm f ltac:(lia) ps []); [reflexivity|exact H].
  - cbn [escaped] in E. rewrite E at 1. inversion Hq as [|? ? [Q1 Q2] Q3]; subst. cbn [fst snd] in Q1, Q2.
    rewrite unescape_step by assumption. destruct (entity q) as [c|]; [|discriminate].
    destruct (escaped qs tail) as [|x t] eqn:Er.
    + destruct qs as [|[p' q'] qs]; cbn [escaped] in Er; [unfold tail in Er; destruct plain; discriminate Er|destruct p'; discriminate Er].
    + rewrite <- Er in *. rewrite <- E. apply (IHm f ltac:(lia) qs); [|exact Q3].
      rewrite E. rewrite <- !app_assoc. cbn [app]. rewrite <- !app_assoc. reflexivity.
Qed.
Lemma means_dec ps tail : (exists u, Means ps tail u) \/ forall u, ~ Means ps tail u.
Proof.
  induction ps as [|[p q] ps [[u IH]|IH]]; [left; exists tail; reflexivity| |].
  - destruct (entity q) as [c|] eqn:E.
    + apply known_entity in E as (n & -> & K). left. exists (p ++ c :: u), n, c, u. auto.
    + right. intros v (n & c & u' & -> & K & _). rewrite (entity_known n c K) in E. discriminate E.
  - right. intros v (n & c & u' & _ & _ & M & _). exact (IH u' M).
Qed.
Lemma meaning_ok (esc : bool) t u : (if esc then unescape t else UDone t) = UDone u <-> Meaning esc t u.
Proof.
  destruct esc; cbn [Meaning].
  - split.
    + intros H. destruct (decompose (length t) t (Nat.le_refl _)) as (ps & tail & -> & Hps & [T|(plain & r & -> & Hp & Hr)]).
      * exists ps, tail. destruct (C93_unescape ps tail Hps T) as [A B]. destruct (means_dec ps tail) as [[v M]|N].
        -- rewrite (A v M) in H. injection H as <-. auto.
        -- rewrite (B N) in H. discriminate H.
      * exfalso. unfold unescape in H. revert H. apply (never_done ps plain r Hps Hp Hr _ _ (Nat.le_refl _) ps []); [reflexivity|exact Hps].
    + intros (ps & tail & -> & Hps & T & M). now apply C93_unescape.
  - unfold Meaning. split; [intros H; injection H as <-; reflexivity|intros ->; reflexivity].
Qed.
Lemma unescape_grows fuel : forall s start acc u, unescape_loop fuel s start acc = UDone u -> exists z, u = acc ++ z.
Proof.
  induction fuel as [|f IH]; intros s start acc u H; [discriminate H|]. cbn [unescape_loop] in H.
  destruct (find_first (is amp_c) (skipn start s)) as [k|].
  - cbv zeta in H. destruct (find_first (is semi_c) _) as [e|].
    + destruct (entity _) as [c|]; [|discriminate H]. destruct (_ =? _).
      * injection H as <-. rewrite <- app_assoc. eexists. reflexivity.
      * apply IH in H as [z ->]. rewrite <- !app_assoc. eexists. reflexivity.
    + destruct (entity _) as [c|]; [|discriminate H]. apply IH in H as [z ->]. rewrite <- !app_assoc. eexists. reflexivity.
  - injection H as <-. eexists. reflexivity.
Qed.
Lemma meaning_space (esc : bool) t u : (if esc then unescape (space_c :: t) else UDone (space_c :: t)) = UDone u -> exists u', u = space_c :: u'.
Proof.
  destruct esc; [|intros H; injection H as <-; eauto]. unfold unescape. generalize (length (space_c :: t)) as fuel. intros fuel.
  cbn [unescape_loop skipn find_first].
  change (is amp_c space_c) with false. cbv iota. destruct (find_first (is amp_c) t) as [k|]; [|intros H; injection H as <-; eexists; reflexivity].
  cbv zeta. cbn [firstn]. intros H.
  destruct (find_first (is semi_c) _) as [e|].
  - destruct (entity _) as [c|]; [|discriminate H]. destruct (_ =? _); [injection H as <-; eexists; reflexivity|].
    apply unescape_grows in H as [z ->]. eexists. reflexivity.
  - destruct (entity _) as [c|]; [|discriminate H]. apply unescape_grows in H as [z ->]. eexists. reflexivity.
Qed.

Lemma words_app_delim d a b : blank d = true -> words blank (a ++ d :: b) = words blank a ++ words blank b.
Proof. intros H. unfold words. now rewrite words_delim. Qed.
(** The words of the line go on with the words of the text. *)
Lemma words_boundary (esc : bool) clean t u : (if esc then unescape t else UDone t) = UDone u ->
  words blank (boundary clean t ++ u) = words blank clean ++ words blank u.
Proof.
  intros H. unfold boundary. destruct clean as [|c0 clean0] eqn:Ec; [reflexivity|]. rewrite <- Ec. clear c0 clean0 Ec.
  destruct (is (last clean space_c) space_c) eqn:El; cbn [negb andb].
  - apply is_true in El. destruct clean as [|x clean'] using rev_ind; [reflexivity|]. rewrite last_last in El. subst x.
    rewrite <- app_assoc. cbn [app]. rewrite !words_app_delim by reflexivity. rewrite app_nil_r. reflexivity.
  - destruct t as [|c t].
    + cbn [hd]. change (is space_c space_c) with true. cbn [negb]. assert (u = []) as -> by (destruct esc; injection H as <-; reflexivity).
      cbn. now rewrite !app_nil_r.
    + cbn [hd]. destruct (is c space_c) eqn:E; cbn [negb].
      * apply is_true in E. subst c. apply meaning_space in H as [u' ->]. rewrite words_app_delim by reflexivity. reflexivity.
      * rewrite <- app_assoc. cbn [app]. now rewrite words_app_delim.
Qed.

(** The node of an element between two numbers of words, unless its content says otherwise. *)
Definition Node (content : str) (i j : nat) (n : node) : Prop :=
  n_label n = attribute content (lit "label") /\ n_pcfg n = attribute content (lit "pcfg") /\
  let span := attribute content (lit "span") in
  (span = [] /\ i < j /\ n_start n = i /\ S (n_end n) = j)
  \/ (span <> [] /\ ((exists a, words (is "-"%char) span = [a] /\ n_start n = atoi a /\ n_end n = atoi a)
      \/ (exists a b, words (is "-"%char) span = [a; b] /\ atoi a <= atoi b /\ n_start n = atoi a /\ n_end n = atoi b))).
Lemma complete_ok content i j n : complete content i j = Some n <-> Node content i j n.
Proof.
  unfold complete, Node. cbv zeta. rewrite C93_words. generalize (attribute content (lit "span")) as sp. intros [|c sp].
  - destruct (Nat.leb_spec j i) as [L|L].
    + split; [discriminate|]. intros (_ & _ & [(_ & H & _)|[H _]]); [lia|now elim H].
    + split.
      * intros H. injection H as <-. cbn. split; [reflexivity|]. split; [reflexivity|]. left. repeat split; lia.
      * intros (H1 & H2 & [(_ & _ & H3 & H4)|[H _]]); [|now elim H]. destruct n as [a b l p]. cbn in *. subst. f_equal. f_equal. lia.
  - set (span := c :: sp). assert (Ns : span <> []) by discriminate. clearbody span. destruct (words (is "-"%char) span) as [|a [|b [|d l]]] eqn:W.
    + split; [discriminate|]. intros (_ & _ & [(H & _)|[_ [(a & H & _)|(a & b & H & _)]]]); [congruence|discriminate H|discriminate H].
    + destruct (Nat.leb_spec (S (atoi a)) (atoi a)) as [L|L]; [lia|]. split.
      * intros H. injection H as <-. cbn [n_label n_pcfg n_start n_end]. split; [reflexivity|]. split; [reflexivity|]. right. split; [exact Ns|]. left. exists a. repeat split; lia.
      * intros (H1 & H2 & [(H & _)|[_ [(a' & H & H3 & H4)|(a' & b & H & _)]]]); [congruence| |discriminate H].
        injection H as <-. destruct n as [x y z p]. cbn [n_label n_pcfg n_start n_end] in *. subst. f_equal. f_equal. lia.
    + destruct (Nat.leb_spec (S (atoi b)) (atoi a)) as [L|L]; split.
      * discriminate.
      * intros (_ & _ & [(H & _)|[_ [(a' & H & _)|(a' & b' & H & H' & _)]]]); [congruence|discriminate H|]. injection H as <- <-. lia.
      * intros H. injection H as <-. cbn [n_label n_pcfg n_start n_end]. split; [reflexivity|]. split; [reflexivity|]. right. split; [exact Ns|]. right. exists a, b. repeat split; lia.
      * intros (H1 & H2 & [(H & _)|[_ [(a' & H & _)|(a' & b' & H & H' & H3 & H4)]]]); [congruence|discriminate H|]. injection H as <- <-.
        destruct n as [x y z p]. cbn [n_label n_pcfg n_start n_end] in *. subst. f_equal. f_equal. lia.
    + split; [discriminate|]. intros (_ & _ & [(H & _)|[_ [(a' & H & _)|(a' & b' & H & _)]]]); [congruence|discriminate H|discriminate H].
Qed.

(** Documents: texts and elements; the nodes come in the order of the ends of their elements. *)
Inductive Doc (esc : bool) : nat -> list str -> nat -> list str -> list node -> Prop :=
| D_nil w : Doc esc w [] w [] []
| D_text w t u r w' ws ns : Text t -> Meaning esc t u -> Doc esc (w + length (words blank u)) r w' ws ns ->
    Doc esc w (t :: r) w' (words blank u ++ ws) ns
| D_elem w o name content body w1 ws1 ns1 c any n r w2 ws2 ns2 :
    Tag o -> read_tag o = Some (Opening, name, content) -> Doc esc w body w1 ws1 ns1 ->
    Tag c -> read_tag c = Some (Closing, name, any) -> Node content w w1 n ->
    Doc esc w1 r w2 ws2 ns2 -> Doc esc w (o :: body ++ c :: r) w2 (ws1 ++ ws2) (ns1 ++ n :: ns2)
| D_unary w t name content n r w' ws ns : Tag t -> read_tag t = Some (Unary, name, content) -> Node content w w n ->
    Doc esc w r w' ws ns -> Doc esc w (t :: r) w' ws (n :: ns).

Lemma tag_is t : Tag t -> is_tag t = true.
Proof. intros (i & -> & _). reflexivity. Qed.
Lemma text_is t : Text t -> is_tag t = false.
Proof. intros [H1 H2]. destruct t as [|c t]; [reflexivity|]. cbn. apply is_false. intros ->. apply H2. now left. Qed.

Lemma doc_runs esc w toks w' ws ns : Doc esc w toks w' ws ns -> forall st rest clean nodes, length (words blank clean) = w ->
  exists clean', words blank clean' = words blank clean ++ ws /\ length (words blank clean') = w'
    /\ process esc (toks ++ rest) clean w st nodes = process esc rest clean' w' st (nodes ++ ns).
Proof.
  induction 1 as [w|w t u r w' ws ns Ht Hm Hd IH|w o name content body w1 ws1 ns1 c any n r w2 ws2 ns2 To Ro Hb IHb Tc Rc Hn Hr IHr|w t name content n r w' ws ns Ht Rt Hn Hr IH];
    intros st rest clean nodes Hw.
  - exists clean. rewrite !app_nil_r. auto.
  - apply meaning_ok in Hm. pose proof (words_boundary esc clean t u Hm) as B. cbn [app process]. rewrite (text_is t Ht), Hm. cbv zeta.
    rewrite C93_words, B, app_length, Hw.
    destruct (IH st rest (boundary clean t ++ u) nodes) as (clean' & E1 & E2 & E3); [rewrite B, app_length; lia|].
    exists clean'. rewrite E1, B, app_assoc. split; [reflexivity|]. split; [|exact E3]. rewrite <- E2, E1, B. reflexivity.
  - cbn [app process]. rewrite (tag_is o To), Ro. rewrite <- app_assoc. cbn [app].
    destruct (IHb ((name, w, content) :: st) (c :: r ++ rest) clean nodes Hw) as (c1 & E1 & E2 & E3). rewrite E3. cbn [process].
    rewrite (tag_is c Tc), Rc. rewrite (proj2 (str_eqb_true name name) eq_refl). rewrite (proj2 (complete_ok content w w1 n) Hn).
    destruct (IHr st rest c1 ((nodes ++ ns1) ++ [n]) E2) as (c2 & F1 & F2 & F3). exists c2. rewrite F1, E1, <- app_assoc. split; [reflexivity|]. split.
    + rewrite <- F2, F1, E1. now rewrite <- app_assoc.
    + rewrite F3. now rewrite <- !app_assoc.
  - cbn [app process]. rewrite (tag_is t Ht), Rt, (proj2 (complete_ok content w w n) Hn).
    destruct (IH st rest clean (nodes ++ [n]) Hw) as (c1 & E1 & E2 & E3). exists c1. split; [exact E1|]. split; [exact E2|]. rewrite E3. now rewrite <- app_assoc.
Qed.

(** What is left to be read when some elements are open. *)
Inductive Docs (esc : bool) : list (str * nat * str) -> nat -> list str -> nat -> list str -> list node -> Prop :=
| Ds_nil w toks w' ws ns : Doc esc w toks w' ws ns -> Docs esc [] w toks w' ws ns
| Ds_cons name from content st w d w1 ws1 ns1 c any n r w' ws ns : Doc esc w d w1 ws1 ns1 -> Tag c -> read_tag c = Some (Closing, name, any) ->
    Node content from w1 n -> Docs esc st w1 r w' ws ns -> Docs esc ((name, from, content) :: st) w (d ++ c :: r) w' (ws1 ++ ws) (ns1 ++ n :: ns).

Lemma docs_text esc st w t u r w' ws ns : Text t -> Meaning esc t u -> Docs esc st (w + length (words blank u)) r w' ws ns ->
  Docs esc st w (t :: r) w' (words blank u ++ ws) ns.
Proof.
  intros Ht Hm H. inversion H as [? ? ? ? ? D|name from content st' ? d w1 ws1 ns1 c any n r' ? ws' ns' D Tc Rc Hn Hs]; subst.
  - constructor. now apply D_text.
  - rewrite app_assoc. apply (Ds_cons esc name from content st' w (t :: d) w1 (words blank u ++ ws1) ns1 c any); [now apply D_text|assumption..].
Qed.
Lemma docs_unary esc st w t name content n r w' ws ns : Tag t -> read_tag t = Some (Unary, name, content) -> Node content w w n ->
  Docs esc st w r w' ws ns -> Docs esc st w (t :: r) w' ws (n :: ns).
Proof.
  intros Ht Rt Hn H. inversion H as [? ? ? ? ? D|name' from content' st' ? d w1 ws1 ns1 c any n' r' ? ws' ns' D Tc Rc Hn' Hs]; subst.
  - constructor. now apply (D_unary esc w t name content).
  - apply (Ds_cons esc name' from content' st' w (t :: d) w1 ws1 (n :: ns1) c any); [now apply (D_unary esc w t name content)|assumption..].
Qed.
Lemma docs_elem esc st w o name content r w' ws ns : Tag o -> read_tag o = Some (Opening, name, content) ->
  Docs esc ((name, w, content) :: st) w r w' ws ns -> Docs esc st w (o :: r) w' ws ns.
Proof.
  intros To Ro H. inversion H as [|? ? ? ? ? d w1 ws1 ns1 c any n r' ? ws' ns' D Tc Rc Hn Hs]; subst.
  inversion Hs as [? ? ? ? ? D'|name2 from2 content2 st2 ? d2 w2 ws2 ns2 c2 any2 n2 r2 ? ws3 ns3 D2 Tc2 Rc2 Hn2 Hs2]; subst.
  - constructor. now apply (D_elem esc w o name content d w1 ws1 ns1 c any n).
  - rewrite app_comm_cons, app_assoc, app_comm_cons. rewrite app_assoc. rewrite (app_comm_cons _ (n2 :: ns3)), app_assoc.
    apply (Ds_cons esc name2 from2 content2 st2 w ((o :: d) ++ c :: d2) w2 (ws1 ++ ws2) (ns1 ++ n :: ns2) c2 any2); [|assumption..].
    now apply (D_elem esc w o name content d w1 ws1 ns1 c any n).
Qed.

Lemma runs_doc esc toks : Forall (fun t => Text t \/ Tag t) toks -> forall clean w st nodes clean' w' nodes', length (words blank clean) = w ->
  process esc toks clean w st nodes = ROk clean' w' nodes' ->
  exists ws ns, Docs esc st w toks w' ws ns /\ words blank clean' = words blank clean ++ ws /\ nodes' = nodes ++ ns /\ w' = length (words blank clean').
Proof.
  induction 1 as [|t toks Ht Hts IH]; intros clean w st nodes clean' w' nodes' Hw H; cbn [process] in H.
  - destruct st; [|discriminate H]. injection H as <- <- <-. exists [], []. rewrite !app_nil_r. repeat split; [constructor; constructor|now symmetry].
  - destruct Ht as [Ht|Ht].
    + rewrite (text_is t Ht) in H. destruct (if esc then unescape t else UDone t) as [u| |] eqn:M; [|discriminate H|discriminate H].
      cbv zeta in H. pose proof (words_boundary esc clean t u M) as B. rewrite C93_words, B, app_length, Hw in H.
      apply IH in H; [|rewrite B, app_length; lia]. destruct H as (ws & ns & D & E1 & E2 & E3). exists (words blank u ++ ws), ns.
      split; [apply docs_text; [exact Ht|now apply meaning_ok|exact D]|]. rewrite E1, B, <- app_assoc. split; [reflexivity|]. split; [exact E2|].
      rewrite E3, E1, B. now rewrite <- app_assoc.
    + rewrite (tag_is t Ht) in H. destruct (read_tag t) as [[[[| |] name] content]|] eqn:R; [| | |discriminate H].
      * apply IH in H; [|exact Hw]. destruct H as (ws & ns & D & E). exists ws, ns. split; [|exact E]. now apply (docs_elem esc st w t name content).
      * destruct st as [|[[name' from] content'] st]; [discriminate H|]. destruct (str_eqb name' name) eqn:En; [|discriminate H]. apply str_eqb_true in En. subst name'.
        destruct (complete content' from w) as [n|] eqn:C; [|discriminate H]. apply complete_ok in C. apply IH in H; [|exact Hw].
        destruct H as (ws & ns & D & E1 & E2 & E3). exists ws, (n :: ns). rewrite E2, <- app_assoc.
        split; [apply (Ds_cons esc name from content' st w [] w [] [] t content n toks w' ws ns); [constructor|assumption..]|]. repeat split; assumption.
      * destruct (complete content w w) as [n|] eqn:C; [|discriminate H]. apply complete_ok in C. apply IH in H; [|exact Hw].
        destruct H as (ws & ns & D & E1 & E2 & E3). exists ws, (n :: ns). rewrite E2, <- app_assoc. split; [now apply (docs_unary esc st w t name content)|].
        repeat split; assumption.
Qed.
Lemma tokens_all toks : Tokens toks -> Forall (fun t => Text t \/ Tag t) toks.
Proof. induction 1; constructor; auto. Qed.

(** A line without a tag stays as it is.  Another line is read exactly if what it is cut into is a
    document; then the words of the new line are those of the texts, the nodes those of the
    elements, and the labels at the top those of the nodes over all words. *)
Theorem C93_line : forall esc line,
  (~ In lt_c line -> process_line esc line = AOk line [] [])
  /\ (In lt_c line ->
      (forall ns tops clean, process_line esc line = AOk clean ns tops ->
        exists w, Doc esc 0 (fst (tokenize_xml line)) w (words blank clean) ns /\ w = length (words blank clean)
          /\ tops = map n_label (filter (fun n => (n_start n =? 0) && (S (n_end n) =? w)) ns))
      /\ (forall w ws ns, Doc esc 0 (fst (tokenize_xml line)) w ws ns ->
        exists clean, words blank clean = ws /\ w = length ws
          /\ process_line esc line = AOk clean ns (map n_label (filter (fun n => (n_start n =? 0) && (S (n_end n) =? w)) ns)))).
Proof.
  intros esc line. split.
  - intros H. unfold process_line. now rewrite find_free by now apply notin_free.
  - intros H. unfold process_line. destruct (find_first (is lt_c) line) eqn:F; [|apply find_none, notin_free in F; contradiction].
    assert (Tk : Tokens (fst (tokenize_xml line))) by (pose proof (C93_tokens line) as T; destruct (tokenize_xml line); apply T).
    apply tokens_all in Tk. set (toks := fst (tokenize_xml line)) in *. clearbody toks.
    assert (Top : forall w nodes, match w with O => [] | S e => map n_label (get_nodes nodes 0 e) end
      = map n_label (filter (fun n => (n_start n =? 0) && (S (n_end n) =? w)) nodes)).
    { intros w nodes. destruct w as [|e]; [|reflexivity]. induction nodes as [|nd nodes IH]; [reflexivity|]. cbn [filter].
      rewrite andb_comm. exact IH. }
    split.
    + intros ns tops clean. destruct (process esc toks [] 0 [] []) as [c w nodes| | |] eqn:P; try discriminate. rewrite Top. intros E.
      pose proof (f_equal (fun a => match a with AOk l _ _ => l | _ => [] end) E) as E1. pose proof (f_equal (fun a => match a with AOk _ l _ => l | _ => [] end) E) as E2.
      pose proof (f_equal (fun a => match a with AOk _ _ l => l | _ => [] end) E) as E3. cbv beta iota in E1, E2, E3. subst c nodes tops. clear E.
      destruct (runs_doc esc toks Tk _ _ _ _ _ _ _ eq_refl P) as (ws & ns' & D & W & N & L). cbn [app] in N. subst ns'. change (words blank [] ++ ws) with ws in W.
      inversion D; subst. exists (length (words blank clean)). split; [assumption|]. split; reflexivity.
    + intros w ws ns D. destruct (doc_runs esc 0 toks w ws ns D [] [] [] [] eq_refl) as (c & W & L & P). rewrite app_nil_r in P. cbn [process app] in P.
      change (words blank [] ++ ws) with ws in W. exists c. split; [exact W|]. split; [rewrite <- L, W; reflexivity|]. rewrite P, Top. reflexivity.
Qed.
Print Assumptions C93_line.

(** Every document is read. *)
Theorem C93_document : forall esc toks w ws ns, Tokens toks -> (exists t, In t toks /\ Tag t) -> Doc esc 0 toks w ws ns ->
  exists clean, words blank clean = ws /\ w = length ws
    /\ process_line esc (concat toks) = AOk clean ns (map n_label (filter (fun n => (n_start n =? 0) && (S (n_end n) =? w)) ns)).
Proof.
  intros esc toks w ws ns Tk (t & It & Tt) D.
  assert (In lt_c (concat toks)). { apply in_concat. exists t. split; [exact It|]. destruct Tt as (i & -> & _). now left. }
  apply (proj2 (proj2 (C93_line esc (concat toks)) H)). rewrite (C93_tokens_back toks Tk). exact D.
Qed.
Print Assumptions C93_document.

Definition q (s : string) : str := map (fun c => if is c "'"%char then quote_c else c) (lit s).
(** An attribute that is empty, or that ends like another one, is read wrongly; a text before a tag
    without an end is dropped and the answer is still true; a line without tags keeps its escapes. *)
Theorem C93_line_refuted :
  attribute (q "label='' pcfg='0.5'") (lit "label") = q "' pcfg="
  /\ attribute (q "sublabel='A' label='B'") (lit "label") = lit "A"
  /\ process_line true (q "<s label='S'>a</s> b c <") = AOk (lit "a") [mkNode 0 0 (lit "S") []] [lit "S"]
  /\ process_line true (lit "R&amp;D") = AOk (lit "R&amp;D") [] [].
Proof. vm_compute. repeat split. Qed.
Print Assumptions C93_line_refuted.

Example C93_line_case :
  process_line true (q "<s label='S'><np label='NP'>the dog</np> <v label='VP' pcfg='-0.5'>R&amp;D</v></s>")
    = AOk (lit "the dog R&D") [mkNode 0 1 (lit "NP") []; mkNode 2 2 (lit "VP") (lit "-0.5"); mkNode 0 2 (lit "S") []] [lit "S"]
  /\ process_line true (q "<a span='1-2' label='X'/>b c d") = AOk (lit "b c d") [mkNode 1 2 (lit "X") []] []
  /\ process_line true (q "<a>b</c>") = AFalse /\ process_line true (q "<a>b") = AFalse /\ process_line true (q "<a></a>") = AFalse
  /\ process_line true (q "<a>b &x; c</a>") = AThrow.
Proof. vm_compute. repeat split. Qed.

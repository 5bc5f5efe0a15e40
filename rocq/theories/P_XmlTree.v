(** C93: what is read from an annotated sentence: words, tokens, escapes and attributes. *)
From Coq Require Import String Ascii List Arith Bool Lia.
From Verif Require Import M_XmlTree.
Import ListNotations.
Open Scope nat_scope.

(** Spec of words: a text is cut at every delimiter and empty pieces are dropped. *)
Definition flush (cur : str) : list str := match cur with [] => [] | _ => [cur] end.
Fixpoint cut_words (dl : ascii -> bool) (s cur : str) : list str :=
  match s with
  | [] => flush cur
  | c :: s' => if dl c then flush cur ++ cut_words dl s' [] else cut_words dl s' (cur ++ [c])
  end.
Definition words (dl : ascii -> bool) (s : str) : list str := cut_words dl s [].

Lemma is_true c d : is c d = true <-> c = d.
Proof. apply Ascii.eqb_eq. Qed.
Lemma is_false c d : is c d = false <-> c <> d.
Proof. apply Ascii.eqb_neq. Qed.
Lemma str_eqb_true a b : str_eqb a b = true <-> a = b.
Proof. unfold str_eqb. destruct (list_eq_dec ascii_dec a b); split; congruence. Qed.

Definition free (p : ascii -> bool) (s : str) : Prop := Forall (fun c => p c = false) s.
Lemma find_none p s : find_first p s = None -> free p s.
Proof.
  induction s as [|c s IH]; intros H; [constructor|]. cbn [find_first] in H. destruct (p c) eqn:E; [discriminate H|].
  destruct (find_first p s) eqn:F; [discriminate H|]. constructor; [exact E|now apply IH].
Qed.
Lemma find_free p s : free p s -> find_first p s = None.
Proof. induction 1 as [|c s Hc Hs IH]; [reflexivity|]. cbn [find_first]. now rewrite Hc, IH. Qed.
Lemma find_at p a c b : free p a -> p c = true -> find_first p (a ++ c :: b) = Some (length a).
Proof. intros H Hc. induction H as [|x a Hx Ha IH]; cbn [app find_first length]; [now rewrite Hc|]. now rewrite Hx, IH. Qed.
Lemma find_some p s n : find_first p s = Some n -> exists a c b, s = a ++ c :: b /\ length a = n /\ free p a /\ p c = true.
Proof.
  revert n. induction s as [|c s IH]; intros n H; [discriminate H|]. cbn [find_first] in H. destruct (p c) eqn:E.
  - injection H as <-. exists [], c, s. repeat split; [constructor|exact E].
  - destruct (find_first p s) as [m|] eqn:F; [|discriminate H]. injection H as <-.
    destruct (IH m eq_refl) as (a & d & b & -> & <- & Ha & Hd). exists (c :: a), d, b. repeat split; [|exact Hd].
    constructor; assumption.
Qed.
Lemma skipn_at {A} (a b : list A) : skipn (length a) (a ++ b) = b.
Proof. rewrite skipn_app, skipn_all, Nat.sub_diag. reflexivity. Qed.
Lemma firstn_at {A} (a b : list A) : firstn (length a) (a ++ b) = a.
Proof. rewrite firstn_app, firstn_all, Nat.sub_diag. apply app_nil_r. Qed.

Lemma cut_free dl a s : free dl a -> forall cur, cut_words dl (a ++ s) cur = cut_words dl s (cur ++ a).
Proof.
  induction 1 as [|c a Hc Ha IH]; intros cur; [now rewrite app_nil_r|]. cbn [app cut_words]. rewrite Hc, IH.
  now rewrite <- app_assoc.
Qed.
Lemma words_front dl a s : Forall (fun c => dl c = true) a -> words dl (a ++ s) = words dl s.
Proof. induction 1 as [|c a Hc Ha IH]; [reflexivity|]. unfold words in *. cbn [app cut_words]. now rewrite Hc. Qed.
Lemma words_delim dl d b : dl d = true -> forall a cur, cut_words dl (a ++ d :: b) cur = cut_words dl a cur ++ words dl b.
Proof.
  intros Hd. induction a as [|c a IH]; intros cur; cbn [app cut_words]; [now rewrite Hd|].
  destruct (dl c); [|apply IH]. rewrite IH. now rewrite app_assoc.
Qed.

Theorem C93_words : forall dl s, tokenize dl s = words dl s.
Proof.
  intros dl s. unfold tokenize. assert (L : length s < S (length s)) by lia. revert L. generalize (S (length s)) as fuel. intros fuel. revert s.
  induction fuel as [|fuel IH]; intros s L; [lia|]. cbn [tokenize_loop].
  destruct (find_first (fun c => negb (dl c)) s) as [l|] eqn:F.
  - apply find_some in F as (a & c & b & -> & <- & Ha & Hc). cbv zeta. rewrite skipn_at. apply negb_true_iff in Hc.
    rewrite words_front. 2:{ apply Forall_impl with (2 := Ha). intros x Hx. now apply negb_false_iff in Hx. }
    destruct (find_first dl (c :: b)) as [n|] eqn:G.
    + apply find_some in G as (a' & d & b' & E & <- & Ha' & Hd). rewrite E, firstn_at, skipn_at.
      rewrite app_length in L. rewrite E in L. rewrite app_length in L. cbn [length] in L.
      destruct a' as [|x a']; [cbn in E; injection E as -> ->; congruence|].
      rewrite IH by (cbn [length] in *; lia). unfold words. rewrite (cut_free dl (x :: a')) by exact Ha'. cbn [app cut_words]. rewrite Hd. reflexivity.
    + apply find_none in G. rewrite <- (app_nil_r (c :: b)) at 2. unfold words. rewrite (cut_free dl (c :: b)) by exact G. reflexivity.
  - apply find_none in F. rewrite <- (app_nil_r s). symmetry. apply words_front.
    apply Forall_impl with (2 := F). intros x Hx. now apply negb_false_iff in Hx.
Qed.
Print Assumptions C93_words.

(** The tokens of a line: tags, and between them texts. *)
Definition Text (t : str) : Prop := t <> [] /\ ~ In lt_c t.
Definition Tag (t : str) : Prop := exists inner, t = lt_c :: inner ++ [gt_c] /\ ~ In gt_c inner.
Definition no_text_first (toks : list str) : Prop := match toks with [] => True | t :: _ => Tag t end.
Inductive Tokens : list str -> Prop :=
| T_nil : Tokens []
| T_tag t r : Tag t -> Tokens r -> Tokens (t :: r)
| T_text t r : Text t -> no_text_first r -> Tokens r -> Tokens (t :: r).

Lemma notin_free c s : ~ In c s <-> free (is c) s.
Proof.
  split.
  - intros H. apply Forall_forall. intros x I. apply is_false. intros <-. now apply H.
  - intros H I. apply (proj1 (Forall_forall _ _) H) in I. apply is_false in I. now apply I.
Qed.
Lemma tok_step fuel a inner s : ~ In lt_c a -> ~ In gt_c inner ->
  tokenize_xml_loop (S fuel) (a ++ (lt_c :: inner ++ [gt_c]) ++ s)
  = (let '(toks, ok) := tokenize_xml_loop fuel s in
     ((if 0 <? length a then [a] else []) ++ (lt_c :: inner ++ [gt_c]) :: toks, ok)).
Proof.
  intros Ha Hi. apply notin_free in Ha, Hi.
  assert (N : forall A (z : list A) x y (X Y : list str * bool), z = x ++ y -> y <> [] -> match z with [] => X | _ => Y end = Y).
  { intros A z x y X Y -> H. destruct x, y; [now elim H|reflexivity|reflexivity|reflexivity]. }
  cbn [tokenize_xml_loop]. erewrite N; [|reflexivity|discriminate].
  change ((lt_c :: inner ++ [gt_c]) ++ s) with (lt_c :: (inner ++ [gt_c]) ++ s).
  rewrite (find_at _ a lt_c _ Ha eq_refl). cbv zeta. rewrite skipn_at, firstn_at. rewrite <- app_assoc.
  change (lt_c :: inner ++ [gt_c] ++ s) with ((lt_c :: inner) ++ gt_c :: s).
  rewrite (find_at (is gt_c) (lt_c :: inner) gt_c s); [|constructor; [reflexivity|exact Hi]|reflexivity].
  change ((lt_c :: inner) ++ gt_c :: s) with ((lt_c :: inner) ++ [gt_c] ++ s). rewrite app_assoc.
  replace (S (length (lt_c :: inner))) with (length ((lt_c :: inner) ++ [gt_c])) by (rewrite app_length; cbn [length]; lia).
  rewrite skipn_at, firstn_at. reflexivity.
Qed.
Lemma tok_last fuel a : ~ In lt_c a -> tokenize_xml_loop (S fuel) a = (if 0 <? length a then [a] else [], true).
Proof.
  intros H. apply notin_free in H. cbn [tokenize_xml_loop]. destruct a as [|c a]; [reflexivity|]. now rewrite (find_free _ _ H).
Qed.

(** A list of such tokens is what its line is cut into. *)
Theorem C93_tokens_back : forall toks, Tokens toks -> tokenize_xml (concat toks) = (toks, true).
Proof.
  assert (M : forall toks, Tokens toks ->
    (no_text_first toks -> forall fuel a, ~ In lt_c a -> length (concat toks) < fuel ->
      tokenize_xml_loop fuel (a ++ concat toks) = ((if 0 <? length a then [a] else []) ++ toks, true))
    /\ (forall fuel, length (concat toks) < fuel -> tokenize_xml_loop fuel (concat toks) = (toks, true))).
  { induction 1 as [|t r Ht Hr [IH1 IH2]|t r Ht Hn Hr [IH1 IH2]].
    - split; [|intros [|fuel] L; [cbn in L; lia|reflexivity]].
      intros _ [|fuel] a Ha L; [cbn in L; lia|]. cbn [concat]. rewrite !app_nil_r. apply tok_last. exact Ha.
    - assert (Q : forall fuel a, ~ In lt_c a -> length (concat (t :: r)) < fuel ->
        tokenize_xml_loop fuel (a ++ concat (t :: r)) = ((if 0 <? length a then [a] else []) ++ t :: r, true)).
      { destruct Ht as (inner & -> & Hi). intros [|fuel] a Ha L; [lia|]. cbn [concat] in *. rewrite tok_step by assumption.
        rewrite IH2; [reflexivity|]. rewrite app_length in L. cbn [length] in L. lia. }
      split; [intros _; exact Q|]. intros fuel L. apply (Q fuel []); [intros []|exact L].
    - split.
      + intros [inner [E _]]. destruct Ht as [_ Ht]. elim Ht. rewrite E. now left.
      + intros fuel L. cbn [concat] in *. destruct Ht as [Ht0 Ht]. rewrite IH1; [|exact Hn|exact Ht|rewrite app_length in L; lia].
        destruct t as [|c t]; [now elim Ht0|reflexivity]. }
  intros toks H. apply (proj2 (M toks H)). lia.
Qed.
Print Assumptions C93_tokens_back.

(** Every line is cut so; if a tag has no end, the text before it, back to the last whole tag, is lost. *)
Theorem C93_tokens : forall s, let '(toks, ok) := tokenize_xml s in Tokens toks
  /\ (if ok then concat toks = s
      else exists text rest, s = concat toks ++ text ++ lt_c :: rest /\ ~ In lt_c text /\ ~ In gt_c rest
           /\ (toks = [] \/ exists t, Tag t /\ last toks [] = t)).
Proof.
  intros s. unfold tokenize_xml. assert (L : length s < S (length s)) by lia. revert L. generalize (S (length s)) as fuel. intros fuel. revert s.
  induction fuel as [|fuel IH]; intros s L; [lia|].
  destruct (find_first (is lt_c) s) as [l|] eqn:F.
  - apply find_some in F as (a & c & b & -> & <- & Ha & Hc). apply is_true in Hc. subst c.
    destruct (find_first (is gt_c) b) as [r|] eqn:G.
    + apply find_some in G as (inner & c & b' & -> & <- & Hi & Hc). apply is_true in Hc. subst c.
      apply notin_free in Ha, Hi. replace (a ++ lt_c :: inner ++ gt_c :: b') with (a ++ (lt_c :: inner ++ [gt_c]) ++ b') in *
        by (cbn [app]; rewrite <- app_assoc; reflexivity).
      rewrite tok_step by assumption. specialize (IH b'). destruct (tokenize_xml_loop fuel b') as [toks ok].
      destruct IH as [T E]; [rewrite !app_length in L; cbn [length] in L; lia|].
      assert (Tt : Tokens ((lt_c :: inner ++ [gt_c]) :: toks)) by (apply T_tag; [exists inner; split; [reflexivity|exact Hi]|exact T]).
      assert (P : concat ((if 0 <? length a then [a] else []) ++ (lt_c :: inner ++ [gt_c]) :: toks) = a ++ (lt_c :: inner ++ [gt_c]) ++ concat toks).
      { destruct a as [|x a]; reflexivity. }
      split.
      * destruct a as [|x a]; [exact Tt|]. cbn [length Nat.ltb Nat.leb app]. apply T_text; [split; [discriminate|exact Ha]| |exact Tt].
        exists inner. split; [reflexivity|exact Hi].
      * destruct ok; [rewrite P, E; reflexivity|]. destruct E as (text & rest & E & H1 & H2 & H3). exists text, rest.
        rewrite P, E. repeat split; [now rewrite !app_assoc|exact H1|exact H2|]. right.
        destruct H3 as [->|(t & Tg & Et)].
        -- exists (lt_c :: inner ++ [gt_c]). split; [exists inner; split; [reflexivity|exact Hi]|]. destruct (0 <? length a); reflexivity.
        -- exists t. split; [exact Tg|]. destruct toks as [|t0 toks]; [destruct Tg as (i & -> & _); discriminate Et|].
           rewrite <- Et. destruct (0 <? length a); reflexivity.
    + apply find_none in G. cbn [tokenize_xml_loop]. destruct (a ++ lt_c :: b) as [|c0 s0] eqn:Es; [destruct a; discriminate Es|].
      rewrite <- Es. rewrite (find_at _ a lt_c b Ha eq_refl). cbv zeta. rewrite skipn_at.
      rewrite find_free by (constructor; [reflexivity|exact G]). split; [constructor|]. exists a, b. apply notin_free in Ha, G.
      repeat split; [exact Ha|exact G|now left].
  - apply find_none in F. apply notin_free in F. rewrite tok_last by exact F. destruct s as [|c s]; [split; [constructor|reflexivity]|].
    cbn [length Nat.ltb Nat.leb]. split; [|apply app_nil_r]. apply T_text; [split; [discriminate|exact F]|exact I|constructor].
Qed.
Print Assumptions C93_tokens.

(** Escapes: plain texts, each followed by "&name;", and a plain text. *)
Fixpoint escaped (ps : list (str * str)) (tail : str) : str :=
  match ps with
  | [] => tail
  | (plain, name) :: ps' => plain ++ amp_c :: name ++ semi_c :: escaped ps' tail
  end.
Definition known (name : string) (c : ascii) : Prop :=
  In (name, c) [("lt", "<"%char); ("gt", ">"%char); ("#91", "["%char); ("#93", "]"%char); ("bra", "["%char); ("ket", "]"%char);
    ("bar", "|"%char); ("amp", "&"%char); ("apos", "'"%char); ("quot", "034"%char)]%string.
Fixpoint Means (ps : list (str * str)) (tail u : str) : Prop :=
  match ps with
  | [] => u = tail
  | (plain, name) :: ps' => exists n c u', name = lit n /\ known n c /\ Means ps' tail u' /\ u = plain ++ c :: u'
  end.
Definition pieces (ps : list (str * str)) : Prop := Forall (fun p => ~ In amp_c (fst p) /\ ~ In semi_c (snd p)) ps.

Lemma entity_known n c : known n c -> entity (lit n) = Some c.
Proof. unfold known. cbn [In]. intros H. repeat destruct H as [H|H]; try (injection H as <- <-; reflexivity). destruct H. Qed.
Lemma known_entity name c : entity name = Some c -> exists n, name = lit n /\ known n c.
Proof.
  unfold entity. intros H.
  repeat match type of H with
  | (if str_eqb name (lit ?x) then _ else _) = _ => destruct (str_eqb name (lit x)) eqn:E;
      [apply str_eqb_true in E; injection H as <-; exists x; split; [exact E|unfold known; cbn; tauto]|clear E]
  end. discriminate H.
Qed.

Lemma unescape_step fuel front plain name rest acc : ~ In amp_c plain -> ~ In semi_c name ->
  unescape_loop (S fuel) (front ++ plain ++ amp_c :: name ++ semi_c :: rest) (length front) acc
  = match entity name with
    | None => UThrow
    | Some c => match rest with
                | [] => UDone (acc ++ plain ++ [c])
                | _ => unescape_loop fuel (front ++ plain ++ amp_c :: name ++ semi_c :: rest)
                         (length (front ++ plain ++ amp_c :: name ++ [semi_c])) (acc ++ plain ++ [c])
                end
    end.
Proof.
  intros Hp Hn. apply notin_free in Hp, Hn. cbn [unescape_loop]. rewrite skipn_at. rewrite (find_at _ plain amp_c _ Hp eq_refl). cbv zeta.
  rewrite firstn_at. set (s := front ++ plain ++ amp_c :: name ++ semi_c :: rest).
  assert (S1 : skipn (length front + length plain) s = amp_c :: name ++ semi_c :: rest).
  { unfold s. rewrite app_assoc. rewrite <- app_length. apply skipn_at. }
  assert (S2 : skipn (length front + length plain + 1) s = name ++ semi_c :: rest).
  { unfold s. replace (front ++ plain ++ amp_c :: name ++ semi_c :: rest) with ((front ++ plain ++ [amp_c]) ++ name ++ semi_c :: rest)
      by (rewrite <- !app_assoc; reflexivity).
    replace (length front + length plain + 1) with (length (front ++ plain ++ [amp_c])) by (rewrite !app_length; cbn [length]; lia). apply skipn_at. }
  rewrite S1, S2. rewrite (find_at _ (amp_c :: name) semi_c rest); [|constructor; [reflexivity|exact Hn]|reflexivity].
  cbn [length]. replace (S (length name) - 1) with (length name) by lia. rewrite firstn_at.
  destruct (entity name) as [c|]; [|reflexivity].
  assert (Ls : length s = length front + length plain + length name + 2 + length rest).
  { unfold s. rewrite !app_length. cbn [length]. rewrite app_length. cbn [length]. lia. }
  rewrite <- (app_assoc acc). destruct (Nat.eqb_spec (length front + length plain + S (length name)) (length s - 1)) as [E|E].
  - destruct rest as [|x rest]; [reflexivity|cbn [length] in Ls; lia].
  - destruct rest as [|x rest]; [cbn [length] in Ls; lia|].
    f_equal. rewrite !app_length. cbn [length]. rewrite app_length. cbn [length]. lia.
Qed.

Lemma unescape_pieces ps tail : pieces ps -> ~ In amp_c tail -> forall fuel front acc, length ps < fuel ->
  (forall u, Means ps tail u -> unescape_loop fuel (front ++ escaped ps tail) (length front) acc = UDone (acc ++ u))
  /\ ((forall u, ~ Means ps tail u) -> unescape_loop fuel (front ++ escaped ps tail) (length front) acc = UThrow).
Proof.
  intros H Ht. apply notin_free in Ht. induction H as [|[plain name] ps [Hp Hn] Hps IH]; intros [|fuel] front acc L; try (cbn in L; lia).
  - split.
    + intros u ->. cbn [escaped unescape_loop]. rewrite skipn_at, (find_free _ _ Ht). reflexivity.
    + intros N. elim (N tail). reflexivity.
  - cbn [fst snd] in Hp, Hn. cbn [escaped length] in *. rewrite (unescape_step fuel front plain name (escaped ps tail) acc Hp Hn).
    set (front' := front ++ plain ++ amp_c :: name ++ [semi_c]).
    assert (E : front ++ plain ++ amp_c :: name ++ semi_c :: escaped ps tail = front' ++ escaped ps tail).
    { unfold front'. rewrite <- !app_assoc. cbn [app]. rewrite <- !app_assoc. reflexivity. }
    rewrite E. split.
    + intros u (n & c & u' & -> & K & M & ->). rewrite (entity_known n c K). destruct (IH fuel front' (acc ++ plain ++ [c]) ltac:(lia)) as [I1 _].
      specialize (I1 u' M). rewrite <- !app_assoc in I1. cbn [app] in I1. destruct (escaped ps tail) eqn:Es; [|exact I1].
      assert (u' = []) as ->; [|now rewrite <- ?app_assoc].
      destruct ps as [|[p q] ps]; [cbn in M, Es; congruence|]. cbn [escaped] in Es. destruct p; discriminate Es.
    + intros N. destruct (entity name) as [c|] eqn:En; [|reflexivity]. apply known_entity in En as (n & -> & K).
      assert (N' : forall u, ~ Means ps tail u). { intros u M. apply (N (plain ++ c :: u)). exists n, c, u. split; [reflexivity|]. split; [exact K|]. split; [exact M|reflexivity]. }
      destruct (IH fuel front' (acc ++ plain ++ [c]) ltac:(lia)) as [_ I2]. specialize (I2 N').
      destruct (escaped ps tail) eqn:Es; [|exact I2]. destruct ps as [|[p q] ps]; [elim (N' tail); reflexivity|]. cbn [escaped] in Es. destruct p; discriminate Es.
Qed.
Lemma pieces_length ps tail : length ps <= length (escaped ps tail).
Proof. induction ps as [|[p q] ps IH]; [cbn; lia|]. cbn [escaped length]. rewrite app_length. cbn [length]. rewrite app_length. cbn [length]. lia. Qed.

(** Escapes are replaced by what they mean; an unknown name is an exception. *)
Theorem C93_unescape : forall ps tail, pieces ps -> ~ In amp_c tail ->
  (forall u, Means ps tail u -> unescape (escaped ps tail) = UDone u)
  /\ ((forall u, ~ Means ps tail u) -> unescape (escaped ps tail) = UThrow).
Proof.
  intros ps tail H Ht. pose proof (pieces_length ps tail) as L.
  destruct (unescape_pieces ps tail H Ht (S (length (escaped ps tail))) [] [] ltac:(lia)) as [A B]. split; [exact A|exact B].
Qed.
Print Assumptions C93_unescape.

(** A known name that has no semicolon behind it makes the loop go on for ever. *)
Theorem C93_unescape_hangs : forall ps plain n c u, pieces ps -> Means ps plain u -> ~ In amp_c plain -> known n c ->
  forall fuel, unescape_loop fuel (escaped ps (plain ++ amp_c :: lit n)) 0 [] = UMore.
Proof.
  intros ps plain n c u H M Hp K fuel. set (tail := plain ++ amp_c :: lit n). set (s := escaped ps tail).
  assert (Hs : ~ In semi_c (lit n)).
  { unfold known in K. cbn [In] in K. repeat destruct K as [K|K]; try (injection K as <- _; cbn; intuition discriminate). destruct K. }
  assert (Main : forall m fuel, fuel <= m -> forall qs front acc, s = front ++ escaped qs tail -> pieces qs -> (exists v, Means qs plain v) ->
    unescape_loop fuel s (length front) acc = UMore).
  { induction m as [|m IHm]; intros [|f] Lf qs front acc E Hq Hm; try reflexivity; [lia|].
    destruct qs as [|[p q] qs].
    - cbn [escaped] in E. cbn [unescape_loop]. rewrite E at 1. rewrite skipn_at. unfold tail at 1. pose proof Hp as Hp'. apply notin_free in Hp'.
      rewrite (find_at _ plain amp_c _ Hp' eq_refl). cbv zeta.
      assert (S1 : skipn (length front + length plain) s = amp_c :: lit n).
      { rewrite E. unfold tail. rewrite app_assoc. rewrite <- app_length. apply skipn_at. }
      assert (S2 : skipn (length front + length plain + 1) s = lit n).
      { rewrite E. unfold tail. replace (front ++ plain ++ amp_c :: lit n) with ((front ++ plain ++ [amp_c]) ++ lit n) by (rewrite <- !app_assoc; reflexivity).
        replace (length front + length plain + 1) with (length (front ++ plain ++ [amp_c])) by (rewrite !app_length; cbn [length]; lia). apply skipn_at. }
      rewrite S1, S2. rewrite find_free by (constructor; [reflexivity|now apply notin_free]). rewrite (entity_known n c K).
      apply (IHm f ltac:(lia) ps []); [reflexivity|exact H|now exists u].
    - cbn [escaped] in E. rewrite E at 1. inversion Hq as [|? ? [Q1 Q2] Q3]; subst. cbn [fst snd] in Q1, Q2.
      rewrite unescape_step by assumption. destruct Hm as (v & n' & c' & v' & -> & K' & M' & _). rewrite (entity_known n' c' K').
      destruct (escaped qs tail) as [|x r] eqn:Er.
      + destruct qs as [|[p' q'] qs]; cbn [escaped] in Er; [unfold tail in Er; destruct plain; discriminate Er|destruct p'; discriminate Er].
      + rewrite <- Er in *. rewrite <- E.
        apply (IHm f ltac:(lia) qs); [|exact Q3|now exists v'].
        rewrite E. rewrite <- !app_assoc. cbn [app]. rewrite <- !app_assoc. reflexivity. }
  apply (Main fuel fuel (Nat.le_refl _) ps []); [reflexivity|exact H|now exists u].
Qed.
Print Assumptions C93_unescape_hangs.

Example C93_pieces_case : let l := lit "The <b>big</b> dog" in
  tokenize_xml l = ([lit "The "; lit "<b>"; lit "big"; lit "</b>"; lit " dog"], true)
  /\ words blank (lit "The  big dog ") = [lit "The"; lit "big"; lit "dog"]
  /\ unescape (lit "A&amp;B &lt;1&gt;") = UDone (lit "A&B <1>") /\ unescape (lit "caf&eacute;") = UThrow
  /\ unescape (lit "a &lt b") = UThrow /\ unescape (lit "a &lt") = UMore.
Proof. vm_compute. repeat split. Qed.

(** A tag that begins and ends with a slash, or has nothing but blanks in it, is refused, and so is every line with such a
    token, wherever it stands. *)
Definition bad_tag (tok : str) : Prop :=
  exists b, tok = lt_c :: b ++ [gt_c]
    /\ ((exists x, b = slash_c :: x) /\ (exists y, b = y ++ [slash_c]) \/ Forall (fun c => droppable c = true) b).
Lemma trim_xml_tag b : trim_xml (lt_c :: b ++ [gt_c]) = b.
Proof.
  unfold trim_xml. destruct (Nat.ltb_spec (length (lt_c :: b ++ [gt_c])) 2) as [L|L]; [cbn [length] in L; rewrite app_length in L; cbn in L; lia|].
  assert (E : last (lt_c :: b ++ [gt_c]) space_c = gt_c) by (rewrite app_comm_cons; apply last_last). rewrite E.
  cbn [hd tl]. replace (is lt_c lt_c && is gt_c gt_c) with true by reflexivity. apply removelast_last.
Qed.
Lemma trim_front_all b : Forall (fun c => droppable c = true) b -> trim_front b = [].
Proof. induction 1 as [|c b H _ IH]; [reflexivity|]. cbn [trim_front]. now rewrite H. Qed.
Lemma bad_tag_none tok : bad_tag tok -> is_tag tok = true /\ read_tag tok = None.
Proof.
  intros (b & -> & H). split; [reflexivity|]. unfold read_tag. rewrite trim_xml_tag. destruct H as [[[x Hx] [y Hy]]|F].
  - assert (T : trim b = b).
    { unfold trim. rewrite Hy at 1. rewrite rev_app_distr. cbn [rev app].
      replace (trim_front (slash_c :: rev y)) with (slash_c :: rev y) by reflexivity. cbn [rev]. rewrite rev_involutive, <- Hy, Hx. reflexivity. }
    rewrite T. assert (L : last b space_c = slash_c) by (rewrite Hy; apply last_last). rewrite L, Hx. reflexivity.
  - unfold trim. rewrite (trim_front_all (rev b)) by (apply Forall_rev; exact F). reflexivity.
Qed.
Theorem C93_refused : forall esc toks tok clean w stack nodes, In tok toks -> bad_tag tok ->
  forall line words found, process esc toks clean w stack nodes <> ROk line words found.
Proof.
  intros esc toks tok. induction toks as [|t toks IH]; intros clean w stack nodes I B line words found; [destruct I|]. cbn [process].
  destruct I as [->|I].
  - destruct (bad_tag_none tok B) as [-> ->]. discriminate.
  - destruct (is_tag t).
    + destruct (read_tag t) as [[[[| |] name] content]|]; [apply (IH _ _ _ _ I B)| | |discriminate].
      * destruct stack as [|[[name' from] content'] stack]; [discriminate|]. destruct (str_eqb name' name); [|discriminate].
        destruct (complete content' from w); [apply (IH _ _ _ _ I B)|discriminate].
      * destruct (complete content w w); [apply (IH _ _ _ _ I B)|discriminate].
    + destruct (if esc then unescape t else UDone t); first [apply (IH _ _ _ _ I B)|discriminate].
Qed.
Print Assumptions C93_refused.
Example C93_refused_case : bad_tag (lit "</np/>") /\ bad_tag (lit "<  >") /\ process_line false (lit "a </np/> b") = AFalse
  /\ process_line false (lit "a <np></np/>") = AFalse /\ process_line false (lit "a < > b") = AFalse.
Proof.
  split; [exists (lit "/np/"); split; [reflexivity|]; left; split; [now exists (lit "np/")|now exists (lit "/np")]|].
  split; [exists (lit "  "); split; [reflexivity|]; right; repeat constructor|]. vm_compute. repeat split.
Qed.

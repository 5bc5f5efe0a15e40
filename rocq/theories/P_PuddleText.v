(** C80: the escaped text of the puddle parser, and the positions of tokens in
    a match. *)
From Coq Require Import String Ascii.
From Coq Require Import List Arith ZArith Bool Lia.
From Verif Require Import M_PuddleText.
Import ListNotations.
Local Open Scope nat_scope.

(** * Specification *)

(** The code written for a character. *)
Definition code (c : ascii) : text :=
  if Ascii.eqb c "&" then lit "&amp;"
  else if Ascii.eqb c "<" then lit "&lt;"
  else if Ascii.eqb c ">" then lit "&gt;"
  else if Ascii.eqb c "(" then lit "&#40;"
  else if Ascii.eqb c ")" then lit "&#41;"
  else if Ascii.eqb c "|" then lit "&#124;"
  else if Ascii.eqb c "+" then lit "&#42;"
  else if Ascii.eqb c "*" then lit "&#43;"
  else if Ascii.eqb c "?" then lit "&#63;"
  else [c].

(** What reading a table of codes from left to right means: a code is replaced
    by its character, every other character stays. *)
Inductive reads (D : list (text * ascii)) : text -> text -> Prop :=
| R_nil : reads D [] []
| R_code p c s t : In (p, c) D -> reads D s t -> reads D (p ++ s) (c :: t)
| R_char x s t :
    (forall p c w, In (p, c) D -> x :: s <> p ++ w) ->
    reads D s t -> reads D (x :: s) (x :: t).

(** The codes read first, and those read in a second pass. *)
Definition first_codes : list (text * ascii) :=
  [(lit "&#40;", "("%char); (lit "&#41;", ")"%char); (lit "&#42;", "*"%char);
   (lit "&#43;", "+"%char); (lit "&amp;", "&"%char)].
Definition second_codes : list (text * ascii) :=
  [(lit "&lt;", "<"%char); (lit "&gt;", ">"%char); (lit "&#63;", "?"%char);
   (lit "&#124;", "|"%char)].

(** Plus and asterisk exchanged. *)
Definition exchange (c : ascii) : ascii :=
  if Ascii.eqb c "+" then "*"%char else if Ascii.eqb c "*" then "+"%char else c.

Definition contains (p s : text) : Prop := exists a b, s = a ++ p ++ b.

(** * The escaped text *)

Lemma global_replace_app c w a b :
  global_replace c w (a ++ b) = global_replace c w a ++ global_replace c w b.
Proof.
  induction a as [|x a IH]; cbn; [reflexivity|].
  destruct (Ascii.eqb x c); rewrite IH; [now rewrite app_assoc|reflexivity].
Qed.

Lemma escape_app a b : escape (a ++ b) = escape a ++ escape b.
Proof. unfold escape. now rewrite !global_replace_app. Qed.

Lemma global_replace_one c w x :
  global_replace c w [x] = if Ascii.eqb x c then w else [x].
Proof. cbn. destruct (Ascii.eqb x c); [now rewrite app_nil_r|reflexivity]. Qed.

Lemma escape_one x : escape [x] = code x.
Proof.
  destruct x as [[] [] [] [] [] [] [] []]; vm_compute; reflexivity.
Qed.

Theorem C80_escape : forall s, escape s = flat_map code s.
Proof.
  induction s as [|x s IH]; [reflexivity|].
  change (x :: s) with ([x] ++ s). rewrite escape_app, escape_one, IH. reflexivity.
Qed.
Print Assumptions C80_escape.

Example escape_case :
  escape (lit "a<b>&(c|d)+*?") =
  lit "a&lt;b&gt;&amp;&#40;c&#124;d&#41;&#42;&#43;&#63;".
Proof. vm_compute. reflexivity. Qed.

Definition special (c : ascii) : Prop :=
  In c (lit "<>()|+*?").

Lemma code_plain x y : In y (code x) -> ~ special y.
Proof.
  unfold special. intros H S.
  destruct x as [[] [] [] [] [] [] [] []]; vm_compute in H, S;
    repeat match goal with
           | H : _ \/ _ |- _ => destruct H
           | H : False |- _ => destruct H
           end; subst; discriminate.
Qed.

Theorem C80_escape_plain : forall s y, In y (escape s) -> ~ special y.
Proof.
  intros s y H. rewrite C80_escape in H. apply in_flat_map in H as (x & _ & H).
  now apply (code_plain x).
Qed.
Print Assumptions C80_escape_plain.

(** The codes can be told apart. *)
Lemma code_nonempty x : code x <> [].
Proof. destruct x as [[] [] [] [] [] [] [] []]; vm_compute; discriminate. Qed.

(** Every ampersand of an escaped text begins a code. *)
Definition is_special (c : ascii) : bool :=
  existsb (Ascii.eqb c) (lit "&<>()|+*?").

Lemma is_special_in x : is_special x = true -> In x (lit "&<>()|+*?").
Proof.
  unfold is_special. intro H. apply existsb_exists in H as (y & I & E).
  apply Ascii.eqb_eq in E. now subst.
Qed.

Lemma code_not_special x : is_special x = false -> code x = [x].
Proof. destruct x as [[] [] [] [] [] [] [] []]; vm_compute; congruence. Qed.

Lemma code_special x : is_special x = true -> exists w, code x = "&"%char :: w.
Proof.
  intro H. apply is_special_in in H. cbn in H.
  repeat destruct H as [<-|H]; try (eexists; vm_compute; reflexivity). destruct H.
Qed.

Lemma code_prefix x y a b : code x ++ a = code y ++ b -> x = y.
Proof.
  intro H.
  destruct (is_special x) eqn:X; destruct (is_special y) eqn:Y.
  - apply is_special_in in X, Y. cbn in X, Y.
    repeat destruct X as [<-|X]; repeat destruct Y as [<-|Y];
      try reflexivity; try contradiction; vm_compute in H; discriminate.
  - destruct (code_special _ X) as (w & E). rewrite E, (code_not_special _ Y) in H.
    cbn in H. injection H as <- _. vm_compute in Y. discriminate.
  - destruct (code_special _ Y) as (w & E). rewrite E, (code_not_special _ X) in H.
    cbn in H. injection H as -> _. vm_compute in X. discriminate.
  - rewrite (code_not_special _ X), (code_not_special _ Y) in H. cbn in H.
    now injection H.
Qed.

Theorem C80_escape_injective : forall s t, escape s = escape t -> s = t.
Proof.
  intros s t. rewrite !C80_escape. revert t.
  induction s as [|x s IH]; intros [|y t] H; [reflexivity| | |].
  - cbn in H. destruct (code y) eqn:E; [now apply code_nonempty in E|discriminate].
  - cbn in H. destruct (code x) eqn:E; [now apply code_nonempty in E|discriminate].
  - cbn in H. assert (x = y) by now apply (code_prefix x y _ _ H). subst y.
    apply app_inv_head in H. now rewrite (IH t).
Qed.
Print Assumptions C80_escape_injective.

(** * Reading the codes back *)

(** A table of codes, read by a function. *)
Fixpoint matching (D : list (text * ascii)) (s : text) : option (text * ascii) :=
  match D with
  | [] => None
  | (p, c) :: D' => if starts p s then Some (p, c) else matching D' s
  end.

Fixpoint decode (fuel : nat) (D : list (text * ascii)) (s : text) : text :=
  match fuel with
  | 0 => s
  | S k =>
      match s with
      | [] => []
      | x :: s' => match matching D s with
                   | Some (p, c) => c :: decode k D (skipn (length p) s)
                   | None => x :: decode k D s'
                   end
      end
  end.

Lemma starts_app p s : starts p (p ++ s) = true.
Proof. induction p as [|x p IH]; cbn; [reflexivity|]. now rewrite Ascii.eqb_refl. Qed.

Lemma starts_iff p s : starts p s = true <-> exists w, s = p ++ w.
Proof.
  split.
  - revert s; induction p as [|x p IH]; intros s H; [now exists s|].
    destruct s as [|y s]; [discriminate|]. cbn in H.
    apply andb_true_iff in H as (E & H). apply Ascii.eqb_eq in E. subst y.
    destruct (IH _ H) as (w & ->). now exists w.
  - intros (w & ->). apply starts_app.
Qed.

(** A good table: every code begins with an ampersand, which is the only one in
    it, no code begins another. *)
Record good (D : list (text * ascii)) : Prop := {
  g_amp : forall p c, In (p, c) D -> exists w, p = "&"%char :: w /\ ~ In "&"%char w;
  g_free : forall p c p' c' a b, In (p, c) D -> In (p', c') D ->
             p ++ a = p' ++ b -> (p, c) = (p', c')
}.

(** The characters stand in none of the codes that come later. *)
Fixpoint apart (D : list (text * ascii)) : Prop :=
  match D with
  | [] => True
  | (p, c) :: D' => (forall p' c', In (p', c') D' -> ~ In c p') /\ apart D'
  end.

Lemma decode_fuel D : (forall p c, In (p, c) D -> p <> []) ->
  forall k j s, length s <= k -> length s <= j -> decode k D s = decode j D s.
Proof.
  intro N. induction k as [|k IH]; intros j s K J.
  - destruct s; [now destruct j|cbn in K; lia].
  - destruct j as [|j]; [destruct s; [reflexivity|cbn in J; lia]|].
    destruct s as [|x s]; [reflexivity|]. cbn [decode].
    assert (M : forall D', (forall p c, In (p, c) D' -> p <> []) -> forall p c,
              matching D' (x :: s) = Some (p, c) ->
              length (skipn (length p) (x :: s)) <= length s).
    { intros D'. induction D' as [|(p', c') D' IHD]; intros N' p c M; [discriminate|].
      cbn [matching] in M. destruct (starts p' (x :: s)).
      - injection M as <- <-. pose proof (N' p' c' (or_introl eq_refl)).
        destruct p' as [|y p']; [congruence|]. cbn [length skipn].
        rewrite skipn_length. lia.
      - apply (IHD (fun p c I => N' p c (or_intror I)) p c M). }
    cbn [length] in K, J.
    destruct (matching D (x :: s)) as [(p, c)|] eqn:E.
    + f_equal. specialize (M D N p c E). apply IH; lia.
    + f_equal. apply IH; lia.
Qed.

(** [find] finds the first place. *)
Lemma find_at_spec p s : forall i,
  (find_at p s i = None /\ (forall a b, s <> a ++ p ++ b))
  \/ (exists q a b, find_at p s i = Some q /\ q = i + length a /\ s = a ++ p ++ b
      /\ forall a' b', s = a' ++ p ++ b' -> length a <= length a').
Proof.
  induction s as [|x s IH]; intro i.
  - cbn. destruct p as [|y p]; cbn.
    + right. exists i, [], []. cbn. split; [reflexivity|]. split; [lia|].
      split; [reflexivity|]. intros. lia.
    + left. split; [reflexivity|]. intros [|] b; discriminate.
  - cbn [find_at]. destruct (starts p (x :: s)) eqn:E.
    + right. apply starts_iff in E as (w & E). exists i, [], w. cbn.
      split; [reflexivity|]. split; [lia|]. split; [exact E|]. intros. lia.
    + destruct (IH (S i)) as [(F & N)|(q & a & b & F & Q & Es & M)].
      * left. split; [exact F|]. intros a b H. destruct a as [|y a].
        -- cbn in H. rewrite H, starts_app in E. discriminate.
        -- cbn in H. injection H as -> H. now apply (N a b).
      * right. exists q, (x :: a), b. split; [exact F|]. cbn. split; [lia|].
        split; [now rewrite Es|]. intros a' b' H. destruct a' as [|y a'].
        -- cbn in H. rewrite H, starts_app in E. discriminate.
        -- cbn in H. injection H as -> H. cbn. specialize (M a' b' H). lia.
Qed.

Lemma decode1_none p c s k : length s <= k -> p <> [] ->
  (forall a b, s <> a ++ p ++ b) -> decode k [(p, c)] s = s.
Proof.
  revert s. induction k as [|k IH]; intros s K P N; [reflexivity|].
  destruct s as [|x s]; [reflexivity|]. cbn [decode matching].
  destruct (starts p (x :: s)) eqn:E.
  - apply starts_iff in E as (w & E). now apply (N [] w) in E.
  - f_equal. apply IH; [cbn in K; lia|exact P|]. intros a b H.
    apply (N (x :: a) b). now rewrite H.
Qed.

Lemma decode1_found p c a b k : length (a ++ p ++ b) <= k -> p <> [] ->
  (forall a' b', a ++ p ++ b = a' ++ p ++ b' -> length a <= length a') ->
  decode k [(p, c)] (a ++ p ++ b) = a ++ c :: decode k [(p, c)] b.
Proof.
  intros K P. revert k K.
  assert (ND : forall p' c', In (p', c') [(p, c)] -> p' <> []).
  { intros p' c' [E|[]]. now injection E as <- <-. }
  induction a as [|x a IH]; intros k K M.
  - cbn [app] in *. destruct k as [|k].
    { destruct p; [congruence|cbn in K; lia]. }
    destruct (p ++ b) as [|y t] eqn:E.
    { destruct p; [congruence|discriminate]. }
    assert (L : length b <= k).
    { rewrite <- E in K. rewrite app_length in K. destruct p; [congruence|cbn in K; lia]. }
    transitivity (c :: decode k [(p, c)] b).
    + cbn [decode matching]. rewrite <- E, starts_app. f_equal.
      rewrite skipn_app, skipn_all, Nat.sub_diag. reflexivity.
    + f_equal. apply (decode_fuel _ ND); lia.
  - destruct k as [|k]; [cbn in K; lia|].
    destruct (starts p (x :: a ++ p ++ b)) eqn:E.
    + apply starts_iff in E as (w & E). specialize (M [] w E). cbn in M. lia.
    + transitivity (x :: decode k [(p, c)] (a ++ p ++ b)).
      { cbn [app decode matching]. now rewrite E. }
      cbn [app length] in K |- *. f_equal. rewrite (IH k); [|lia|].
      * f_equal. f_equal.
        rewrite !app_length in K. apply (decode_fuel _ ND); lia.
      * intros a' b' H. specialize (M (x :: a') b'). cbn in M.
        assert (S (length a) <= S (length a')) by (apply M; now rewrite H). lia.
Qed.

Lemma find_from (p r : text) (d : text) (s : text) : r = d ++ s ->
  (find p r (length d) = None /\ (forall a b, s <> a ++ p ++ b))
  \/ (exists a b, find p r (length d) = Some (length (d ++ a)) /\ s = a ++ p ++ b
      /\ forall a' b', s = a' ++ p ++ b' -> length a <= length a').
Proof.
  intros ->. unfold find. rewrite app_length.
  replace (Nat.ltb (length d + length s) (length d)) with false
    by (symmetry; apply Nat.ltb_ge; lia).
  rewrite skipn_app, skipn_all, Nat.sub_diag. cbn [app skipn].
  destruct (find_at_spec p s (length d)) as [H|(q & a & b & F & Q & E & M)]; [now left|].
  right. exists a, b. rewrite app_length, <- Q. auto.
Qed.

Lemma put_back_loop_spec p c : p <> [] -> forall k d s,
  length s < k ->
  put_back_loop k p c (d ++ s) (find p (d ++ s) (length d)) =
  d ++ decode (length s) [(p, c)] s.
Proof.
  intro P. induction k as [|k IH]; intros d s K; [lia|].
  cbn [put_back_loop].
  destruct (find_from p (d ++ s) d s eq_refl) as [(F & N)|(a & b & F & E & M)]; rewrite F.
  - rewrite decode1_none; [reflexivity|lia|exact P|exact N].
  - subst s. rewrite decode1_found; [|lia|exact P|exact M].
    set (r' := firstn _ _ ++ _).
    assert (R : r' = (d ++ a ++ [c]) ++ b).
    { unfold r'. rewrite (app_assoc d a (p ++ b)).
      rewrite firstn_app, firstn_all, Nat.sub_diag. cbn [firstn]. rewrite app_nil_r.
      rewrite skipn_app, skipn_all2 by lia. cbn [app].
      replace (length (d ++ a) + length p - length (d ++ a)) with (length p) by lia.
      rewrite skipn_app, skipn_all, Nat.sub_diag. cbn [app skipn].
      now rewrite <- !app_assoc. }
    rewrite R.
    replace (length (d ++ a) + 1) with (length (d ++ a ++ [c]))
      by (rewrite !app_length; cbn; lia).
    rewrite IH.
    + rewrite <- !app_assoc. cbn [app]. f_equal. f_equal. f_equal.
      apply decode_fuel.
      * intros p' c' [X|[]]. now injection X as <- <-.
      * lia.
      * rewrite !app_length. lia.
    + rewrite !app_length in K. destruct p; [congruence|cbn in K; lia].
Qed.

Lemma put_back_spec p c s : p <> [] -> put_back p c s = decode (length s) [(p, c)] s.
Proof.
  intro P. unfold put_back.
  pose proof (put_back_loop_spec p c P (S (length s)) [] s (Nat.lt_succ_diag_r _)) as H.
  exact H.
Qed.

(** ** One code after the other is all codes at once *)

Definition dec D s := decode (length s) D s.

Lemma dec_nil D : dec D [] = [].
Proof. reflexivity. Qed.

Lemma matching_in D s p c : matching D s = Some (p, c) -> In (p, c) D /\ starts p s = true.
Proof.
  induction D as [|(p', c') D IH]; [discriminate|]. cbn [matching].
  destruct (starts p' s) eqn:E; intro H.
  - injection H as <- <-. split; [now left|exact E].
  - destruct (IH H). split; [now right|assumption].
Qed.

Lemma matching_none D s : matching D s = None <-> forall p c, In (p, c) D -> starts p s = false.
Proof.
  induction D as [|(p', c') D IH]; cbn [matching].
  - split; [intros _ p c []|reflexivity].
  - destruct (starts p' s) eqn:E.
    + split; [discriminate|]. intro H. rewrite (H p' c' (or_introl eq_refl)) in E. discriminate.
    + rewrite IH. split.
      * intros H p c [X|I]; [now injection X as <- <-|now apply (H p c)].
      * intros H p c I. apply (H p c). now right.
Qed.

Lemma dec_code D p c s : good D -> In (p, c) D -> dec D (p ++ s) = c :: dec D s.
Proof.
  intros G I. unfold dec.
  destruct (g_amp D G _ _ I) as (w & P & NW).
  assert (ND : forall p' c', In (p', c') D -> p' <> []).
  { intros p' c' I'. destruct (g_amp D G _ _ I') as (w' & -> & _). discriminate. }
  destruct (p ++ s) as [|x t] eqn:E; [rewrite P in E; discriminate|].
  cbn [length decode].
  destruct (matching D (x :: t)) as [(p', c')|] eqn:M.
  - apply matching_in in M as (I' & S'). apply starts_iff in S' as (b & S').
    rewrite S' in E. pose proof (g_free D G _ _ _ _ _ _ I I' E) as X.
    injection X as <- <-. f_equal. rewrite S', <- E.
    rewrite skipn_app, skipn_all, Nat.sub_diag. cbn [app skipn].
    apply decode_fuel; [exact ND| |lia].
    apply (f_equal (@length ascii)) in S'. cbn in S'. rewrite app_length in S'.
    apply app_inv_head in E. subst b. rewrite P in S'. cbn in S'. lia.
  - pose proof (proj1 (matching_none _ _) M _ _ I) as F.
    rewrite <- E, starts_app in F. discriminate.
Qed.

Lemma dec_char D x s : good D -> matching D (x :: s) = None ->
  dec D (x :: s) = x :: dec D s.
Proof. intros G M. unfold dec. cbn [length decode]. now rewrite M. Qed.

Lemma good_single D p c : good D -> In (p, c) D -> good [(p, c)].
Proof.
  intros G I. constructor.
  - intros p' c' [X|[]]. injection X as <- <-. now apply (g_amp D G p c).
  - intros p1 c1 p2 c2 a b [X|[]] [Y|[]] _. congruence.
Qed.

Lemma good_tail D p c : good ((p, c) :: D) -> good D.
Proof.
  intro G. constructor.
  - intros p' c' I. apply (g_amp _ G p' c'). now right.
  - intros p1 c1 p2 c2 a b I1 I2. apply (g_free _ G p1 c1 p2 c2 a b); now right.
Qed.

(** A piece without the character and without ampersand is not changed. *)
Lemma dec_pass D w s : good D -> ~ In "&"%char w -> dec D (w ++ s) = w ++ dec D s.
Proof.
  intros G N. induction w as [|x w IH]; [reflexivity|]. cbn [app].
  rewrite dec_char; [|exact G|].
  - rewrite IH; [reflexivity|]. intro X. apply N. now right.
  - apply matching_none. intros p c I. destruct (g_amp D G _ _ I) as (w' & -> & _).
    cbn [starts]. replace (Ascii.eqb "&" x) with false; [reflexivity|].
    symmetry. apply Ascii.eqb_neq. intro X. apply N. now left.
Qed.

Lemma dec1_prefix p c w : good [(p, c)] -> ~ In c w -> forall s b,
  dec [(p, c)] s = w ++ b -> exists b', s = w ++ b'.
Proof.
  intros G N. revert N. induction w as [|y w IH]; intros N s b H; [now exists s|].
  destruct s as [|x s]; [discriminate|].
  destruct (matching [(p, c)] (x :: s)) as [(p', c')|] eqn:M.
  - apply matching_in in M as ([X|[]] & S'). injection X as <- <-.
    apply starts_iff in S' as (t & S'). rewrite S' in H.
    rewrite (dec_code _ p c) in H; [|exact G|now left].
    cbn [app] in H. injection H as E1 E2. exfalso. apply N. left. now symmetry.
  - rewrite dec_char in H; [|exact G|exact M]. cbn [app] in H. injection H as E1 H. subst y.
    destruct (IH (fun X => N (or_intror X)) s b H) as (b' & ->). now exists b'.
Qed.

Lemma dec_step p c D : good ((p, c) :: D) -> apart ((p, c) :: D) -> forall n s, length s <= n ->
  dec ((p, c) :: D) s = dec D (dec [(p, c)] s).
Proof.
  intros G (OUT & _). pose proof (good_tail _ _ _ G) as GD.
  pose proof (good_single _ _ _ G (or_introl eq_refl)) as G1.
  induction n as [|n IH]; intros s L.
  { destruct s; [reflexivity|cbn in L; lia]. }
  destruct s as [|x s]; [reflexivity|].
  destruct (matching ((p, c) :: D) (x :: s)) as [(p', c')|] eqn:M.
  - apply matching_in in M as (I & S'). apply starts_iff in S' as (t & E). rewrite E.
    assert (T : length t <= n).
    { apply (f_equal (@length ascii)) in E. rewrite app_length in E.
      destruct (g_amp _ G _ _ I) as (w & -> & _). cbn in E, L. lia. }
    rewrite (dec_code _ p' c'); [|exact G|exact I]. destruct I as [X|I].
    + injection X as <- <-. rewrite (dec_code _ p c); [|exact G1|now left].
      rewrite dec_char; [now rewrite <- IH|exact GD|].
      apply matching_none. intros p' c' I'.
      pose proof (OUT p' c' I') as O.
      destruct p' as [|y p'].
      { destruct (g_amp _ G _ _ (or_intror I')) as (w & X & _). discriminate. }
      cbn [starts]. replace (Ascii.eqb y c) with false; [reflexivity|].
      symmetry. apply Ascii.eqb_neq. intro X. apply O. now left.
    + destruct (starts p (p' ++ t)) eqn:SP.
      * apply starts_iff in SP as (b & SP).
        pose proof (g_free _ G _ _ _ _ _ _ (or_intror I) (or_introl eq_refl) SP) as X.
        injection X as -> ->. rewrite (dec_code _ p c); [|exact G1|now left].
        rewrite dec_char; [now rewrite <- IH|exact GD|].
        apply matching_none. intros p' c' I'.
        pose proof (OUT p' c' I') as O.
        destruct p' as [|y p'].
        { destruct (g_amp _ G _ _ (or_intror I')) as (w & X & _). discriminate. }
        cbn [starts]. replace (Ascii.eqb y c) with false; [reflexivity|].
        symmetry. apply Ascii.eqb_neq. intro X. apply O. now left.
      * destruct (g_amp _ G _ _ (or_intror I)) as (w & P' & NW). rewrite P' in SP |- *.
        cbn [app] in SP |- *. rewrite (dec_char [(p, c)]); [|exact G1|].
        -- rewrite dec_pass; [|exact G1|exact NW].
           change ("&"%char :: w ++ dec [(p, c)] t) with (("&"%char :: w) ++ dec [(p, c)] t).
           rewrite <- P'. rewrite (dec_code _ p' c'); [|exact GD|exact I]. now rewrite <- IH.
        -- cbn [matching]. now rewrite SP.
  - rewrite dec_char; [|exact G|exact M].
    pose proof (proj1 (matching_none _ _) M) as F.
    rewrite (dec_char [(p, c)]); [|exact G1|].
    + rewrite dec_char; [|exact GD|].
      * rewrite <- IH; [reflexivity|cbn in L; lia].
      * apply matching_none. intros p' c' I.
        destruct (starts p' (x :: dec [(p, c)] s)) eqn:SP; [|reflexivity].
        apply starts_iff in SP as (b & SP).
        pose proof (OUT p' c' I) as O.
        destruct p' as [|y p'].
        { destruct (g_amp _ G _ _ (or_intror I)) as (w & X & _). discriminate. }
        cbn [app] in SP. injection SP as -> SP.
        destruct (dec1_prefix p c p' G1 (fun X => O (or_intror X)) s b SP) as (b' & ->).
        specialize (F (y :: p') c' (or_intror I)).
        change (y :: p' ++ b') with ((y :: p') ++ b') in F. rewrite starts_app in F.
        discriminate.
    + cbn [matching]. now rewrite (F p c (or_introl eq_refl)).
Qed.

Lemma dec_reads D s : good D -> reads D s (dec D s).
Proof.
  intro G. remember (length s) as n eqn:L. assert (L' : length s <= n) by lia. clear L.
  revert s L'. induction n as [|n IH]; intros s L.
  { destruct s; [constructor|cbn in L; lia]. }
  destruct s as [|x s]; [constructor|].
  destruct (matching D (x :: s)) as [(p, c)|] eqn:M.
  - apply matching_in in M as (I & S'). apply starts_iff in S' as (t & E). rewrite E.
    rewrite (dec_code _ p c); [|exact G|exact I]. constructor; [exact I|]. apply IH.
    apply (f_equal (@length ascii)) in E. rewrite app_length in E.
    destruct (g_amp _ G _ _ I) as (w & -> & _). cbn in E, L. lia.
  - rewrite dec_char; [|exact G|exact M]. constructor.
    + intros p c w I E. pose proof (proj1 (matching_none _ _) M p c I) as F.
      rewrite E, starts_app in F. discriminate.
    + apply IH. cbn in L. lia.
Qed.

Lemma reads_dec D s t : good D -> reads D s t -> t = dec D s.
Proof.
  intros G R. induction R as [|p c s t I R IH|x s t N R IH].
  - reflexivity.
  - rewrite (dec_code _ p c); [now rewrite <- IH|exact G|exact I].
  - rewrite dec_char; [now rewrite <- IH|exact G|].
    apply matching_none. intros p c I. destruct (starts p (x :: s)) eqn:E; [|reflexivity].
    apply starts_iff in E as (w & E). now apply (N p c w I) in E.
Qed.

Ltac in_cases H := cbn in H; repeat destruct H as [H|H]; try contradiction.

Definition goodb (D : list (text * ascii)) : bool :=
  forallb (fun pc => match fst pc with
                     | [] => false
                     | x :: w => Ascii.eqb x "&" && negb (existsb (Ascii.eqb "&") w)
                     end) D
  && forallb (fun pc => forallb (fun pc' =>
       negb (starts (fst pc) (fst pc')) || (text_eqb (fst pc) (fst pc')
       && Ascii.eqb (snd pc) (snd pc'))) D) D.

Lemma not_in_existsb x w : existsb (Ascii.eqb x) w = false -> ~ In x w.
Proof.
  intros E I. assert (existsb (Ascii.eqb x) w = true).
  { apply existsb_exists. exists x. split; [exact I|apply Ascii.eqb_refl]. }
  congruence.
Qed.

Lemma app_prefix (p q a b : text) : p ++ a = q ++ b ->
  starts p q = true \/ starts q p = true.
Proof.
  revert q. induction p as [|x p IH]; intros [|y q] H; cbn; auto.
  cbn in H. injection H as -> H. rewrite Ascii.eqb_refl. cbn. now apply IH.
Qed.

Lemma goodb_good D : goodb D = true -> good D.
Proof.
  unfold goodb. intro H. apply andb_true_iff in H as (H1 & H3).
  rewrite forallb_forall in H1, H3.
  constructor.
  - intros p c I. specialize (H1 _ I). cbn in H1. destruct p as [|x w]; [discriminate|].
    apply andb_true_iff in H1 as (E & N). apply Ascii.eqb_eq in E. subst x.
    exists w. split; [reflexivity|]. apply not_in_existsb. now apply negb_true_iff.
  - intros p c p' c' a b I I' E.
    assert (K : forall p1 c1 p2 c2, In (p1, c1) D -> In (p2, c2) D ->
              starts p1 p2 = true -> (p1, c1) = (p2, c2)).
    { intros p1 c1 p2 c2 I1 I2 S'. specialize (H3 _ I1). rewrite forallb_forall in H3.
      specialize (H3 _ I2). cbn in H3. rewrite S' in H3. cbn in H3.
      apply andb_true_iff in H3 as (E1 & E2). apply Ascii.eqb_eq in E2. subst c2.
      unfold text_eqb in E1. destruct (list_eq_dec ascii_dec p1 p2); [now subst|discriminate]. }
    destruct (app_prefix _ _ _ _ E) as [S'|S']; [now apply K|symmetry; now apply K].
Qed.

Fixpoint apartb (D : list (text * ascii)) : bool :=
  match D with
  | [] => true
  | pc :: D' => forallb (fun pc' => negb (existsb (Ascii.eqb (snd pc)) (fst pc'))) D'
                && apartb D'
  end.

Lemma apartb_apart D : apartb D = true -> apart D.
Proof.
  induction D as [|(p, c) D IH]; cbn; intro H; [exact Logic.I|].
  apply andb_true_iff in H as (H1 & H2). split; [|now apply IH].
  rewrite forallb_forall in H1. intros p' c' I. specialize (H1 _ I). cbn in H1.
  apply not_in_existsb. now apply negb_true_iff.
Qed.

Lemma first_good : good first_codes.
Proof. apply goodb_good. vm_compute. reflexivity. Qed.
Lemma second_good : good second_codes.
Proof. apply goodb_good. vm_compute. reflexivity. Qed.
Lemma first_apart : apart first_codes.
Proof. apply apartb_apart. vm_compute. reflexivity. Qed.
Lemma second_apart : apart second_codes.
Proof. apply apartb_apart. vm_compute. reflexivity. Qed.

Lemma dec_none s : dec [] s = s.
Proof.
  unfold dec. induction s as [|x s IH]; [reflexivity|]. cbn [length decode matching].
  now rewrite IH.
Qed.

Lemma dec_fold D s : good D -> apart D ->
  dec D s = fold_left (fun r pc => dec [pc] r) D s.
Proof.
  revert s. induction D as [|(p, c) D IH]; intros s G A; [apply dec_none|].
  rewrite (dec_step p c D G A _ _ (le_n _)). cbn [fold_left].
  apply IH; [now apply good_tail in G|now destruct A].
Qed.

Lemma unescape_dec s : unescape s = dec second_codes (dec first_codes s).
Proof.
  rewrite (dec_fold first_codes s first_good first_apart).
  rewrite (dec_fold second_codes _ second_good second_apart).
  unfold unescape. rewrite !put_back_spec by (vm_compute; discriminate). reflexivity.
Qed.

(** The five codes are read at once, then the four others. *)
Theorem C80_unescape : forall s,
  exists t, reads first_codes s t /\ reads second_codes t (unescape s).
Proof.
  intro s. exists (dec first_codes s). rewrite unescape_dec. split.
  - apply dec_reads, first_good.
  - apply dec_reads, second_good.
Qed.
Print Assumptions C80_unescape.

(** Reading has one result. *)
Theorem C80_reads_unique : forall s t u,
  (reads first_codes s t -> reads first_codes s u -> t = u)
  /\ (reads second_codes s t -> reads second_codes s u -> t = u).
Proof.
  intros s t u. split; intros A B.
  - now rewrite (reads_dec _ _ _ first_good A), (reads_dec _ _ _ first_good B).
  - now rewrite (reads_dec _ _ _ second_good A), (reads_dec _ _ _ second_good B).
Qed.
Print Assumptions C80_reads_unique.

(** * There and back *)

(** The text after the first pass over an escaped text. *)
Definition half (c : ascii) : text :=
  if Ascii.eqb c "<" then lit "&lt;"
  else if Ascii.eqb c ">" then lit "&gt;"
  else if Ascii.eqb c "|" then lit "&#124;"
  else if Ascii.eqb c "?" then lit "&#63;"
  else [exchange c].

Definition cls (c : ascii) : bool := existsb (Ascii.eqb c) (lit "&<>()|+*?").

Lemma cls_false x : cls x = false ->
  code x = [x] /\ half x = [x] /\ exchange x = x /\ x <> "&"%char.
Proof.
  destruct x as [[] [] [] [] [] [] [] []]; vm_compute;
    try discriminate; intros _; repeat split; discriminate.
Qed.

Lemma dec_noamp D x s : good D -> x <> "&"%char -> dec D (x :: s) = x :: dec D s.
Proof.
  intros G N. apply (dec_pass D [x] s G). intros [H|[]]. congruence.
Qed.

Lemma first_half s : dec first_codes (flat_map code s) = flat_map half s.
Proof.
  induction s as [|x s IH]; [reflexivity|]. cbn [flat_map].
  destruct (cls x) eqn:C.
  - apply is_special_in in C. cbn in C.
    assert (DC : forall p c r, In (p, c) first_codes ->
              dec first_codes (p ++ r) = c :: dec first_codes r)
      by (intros; apply dec_code; [exact first_good|assumption]).
    repeat destruct C as [<-|C]; try contradiction.
    + change (code "&") with (lit "&amp;"). rewrite (DC _ "&"%char); [now rewrite IH|].
      cbn; tauto.
    + change (code "<") with ("&"%char :: lit "lt;"). cbn [app].
      rewrite dec_char; [|exact first_good|reflexivity].
      rewrite (dec_pass _ (lit "lt;")); [now rewrite IH|exact first_good|].
      vm_compute. intuition discriminate.
    + change (code ">") with ("&"%char :: lit "gt;"). cbn [app].
      rewrite dec_char; [|exact first_good|reflexivity].
      rewrite (dec_pass _ (lit "gt;")); [now rewrite IH|exact first_good|].
      vm_compute. intuition discriminate.
    + change (code "(") with (lit "&#40;"). rewrite (DC _ "("%char); [now rewrite IH|].
      cbn; tauto.
    + change (code ")") with (lit "&#41;"). rewrite (DC _ ")"%char); [now rewrite IH|].
      cbn; tauto.
    + change (code "|") with ("&"%char :: lit "#124;"). cbn [app].
      rewrite dec_char; [|exact first_good|reflexivity].
      rewrite (dec_pass _ (lit "#124;")); [now rewrite IH|exact first_good|].
      vm_compute. intuition discriminate.
    + change (code "+") with (lit "&#42;"). rewrite (DC _ "*"%char); [now rewrite IH|].
      cbn; tauto.
    + change (code "*") with (lit "&#43;"). rewrite (DC _ "+"%char); [now rewrite IH|].
      cbn; tauto.
    + change (code "?") with ("&"%char :: lit "#63;"). cbn [app].
      rewrite dec_char; [|exact first_good|reflexivity].
      rewrite (dec_pass _ (lit "#63;")); [now rewrite IH|exact first_good|].
      vm_compute. intuition discriminate.
  - destruct (cls_false x C) as (-> & -> & _ & N). cbn [app].
    rewrite dec_noamp; [now rewrite IH|exact first_good|exact N].
Qed.

(** A prefix of plain characters is one before and after. *)
Definition plain_char (y : ascii) : Prop :=
  y <> "&"%char /\ y <> "*"%char /\ y <> "+"%char.

Lemma half_one x : (exists w, half x = "&"%char :: w) \/ half x = [exchange x].
Proof.
  unfold half. destruct (Ascii.eqb x "<"); [left; eexists; reflexivity|].
  destruct (Ascii.eqb x ">"); [left; eexists; reflexivity|].
  destruct (Ascii.eqb x "|"); [left; eexists; reflexivity|].
  destruct (Ascii.eqb x "?"); [left; eexists; reflexivity|]. now right.
Qed.

Lemma half_prefix w : ~ In "&"%char w ->
  forall s, starts w (flat_map half s) = true -> starts w (map exchange s) = true.
Proof.
  induction w as [|y w IH]; intros N s H; [reflexivity|].
  destruct s as [|x s]; [exact H|]. cbn [flat_map map] in *.
  destruct (half_one x) as [(v & E)|E]; rewrite E in H; cbn [app starts] in H |- *.
  - apply andb_true_iff in H as (H & _). apply Ascii.eqb_eq in H. exfalso. apply N. now left.
  - apply andb_true_iff in H as (H1 & H2). rewrite H1. cbn. apply IH; [|exact H2].
    intro X. apply N. now right.
Qed.

Lemma half_prefix_back w : (forall y, In y w -> ~ In y (lit "<>|?")) ->
  forall s, starts w (map exchange s) = true -> starts w (flat_map half s) = true.
Proof.
  induction w as [|y w IH]; intros N s H; [reflexivity|].
  destruct s as [|x s]; [discriminate|]. cbn [flat_map map] in *.
  cbn [starts] in H. apply andb_true_iff in H as (H1 & H2).
  apply Ascii.eqb_eq in H1.
  assert (E : half x = [exchange x]).
  { unfold half.
    assert (NX : forall z, In z (lit "<>|?") -> Ascii.eqb x z = false).
    { intros z Z. apply Ascii.eqb_neq. intros ->. apply (N y (or_introl eq_refl)).
      rewrite H1. cbn in Z. repeat destruct Z as [<-|Z]; try contradiction; vm_compute; tauto. }
    rewrite !NX by (vm_compute; tauto). reflexivity. }
  rewrite E. cbn [app starts]. rewrite H1, Ascii.eqb_refl. cbn. apply IH; [|exact H2].
  intros z Z. apply N. now right.
Qed.

Lemma skip_plain w : (forall y, In y w -> ~ In y (lit "<>|?")) ->
  forall s, starts w (map exchange s) = true ->
  flat_map half s = w ++ flat_map half (skipn (length w) s)
  /\ map exchange s = w ++ map exchange (skipn (length w) s).
Proof.
  induction w as [|y w IH]; intros N s H; [split; reflexivity|].
  destruct s as [|x s]; [discriminate|]. cbn [flat_map map] in *.
  cbn [starts] in H. apply andb_true_iff in H as (H1 & H2).
  apply Ascii.eqb_eq in H1.
  assert (E : half x = [exchange x]).
  { unfold half.
    assert (NX : forall z, In z (lit "<>|?") -> Ascii.eqb x z = false).
    { intros z Z. apply Ascii.eqb_neq. intros ->. apply (N y (or_introl eq_refl)).
      rewrite H1. cbn in Z. repeat destruct Z as [<-|Z]; try contradiction; vm_compute; tauto. }
    rewrite !NX by (vm_compute; tauto). reflexivity. }
  destruct (IH (fun z Z => N z (or_intror Z)) s H2) as (F & M).
  cbn [length skipn]. rewrite E, F, H1, M. split; reflexivity.
Qed.

Lemma second_half : forall n s, length s <= n ->
  dec second_codes (flat_map half s) = dec second_codes (map exchange s).
Proof.
  induction n as [|n IH]; intros s L; [destruct s; [reflexivity|cbn in L; lia]|].
  destruct s as [|x s]; [reflexivity|]. cbn [flat_map map].
  cbn in L.
  assert (DC : forall p c r, In (p, c) second_codes ->
            dec second_codes (p ++ r) = c :: dec second_codes r)
    by (intros; apply dec_code; [exact second_good|assumption]).
  assert (NA : forall c r, c <> "&"%char -> dec second_codes (c :: r) = c :: dec second_codes r)
    by (intros; apply dec_noamp; [exact second_good|assumption]).
  destruct (Ascii.eqb_spec x "&") as [->|NX].
  - change (half "&") with ["&"%char]. change (exchange "&") with "&"%char. cbn [app].
    destruct (matching second_codes ("&"%char :: map exchange s)) as [(p, c)|] eqn:M.
    + apply matching_in in M as (I & S').
      assert (W : exists w, p = "&"%char :: w /\ starts w (map exchange s) = true
                  /\ forall y, In y w -> ~ In y (lit "<>|?")).
      { destruct (g_amp _ second_good _ _ I) as (w & -> & _). exists w.
        split; [reflexivity|]. split; [exact S'|].
        cbn in I. repeat destruct I as [I|I]; try contradiction;
          injection I as <- _; vm_compute; intuition (subst; discriminate). }
      destruct W as (w & -> & SW & PW).
      destruct (skip_plain w PW s SW) as (-> & ->).
      change ("&"%char :: w ++ ?r) with (("&"%char :: w) ++ r).
      rewrite !(DC _ _ _ I). f_equal. apply IH. rewrite skipn_length. lia.
    + pose proof (proj1 (matching_none _ _) M) as F.
      rewrite !dec_char; [|exact second_good|exact M|exact second_good|].
      * f_equal. apply IH. lia.
      * apply matching_none. intros p c I.
        destruct (starts p ("&"%char :: flat_map half s)) eqn:E; [|reflexivity].
        destruct (g_amp _ second_good _ _ I) as (w & -> & NW).
        cbn [starts] in E. cbn in E. apply half_prefix in E; [|exact NW].
        specialize (F _ _ I). cbn [starts] in F. cbn in F. congruence.
  - destruct (Ascii.eqb_spec x "<") as [->|N1].
    { change (half "<") with (lit "&lt;"). change (exchange "<") with "<"%char.
      rewrite (DC _ "<"%char); [|cbn; tauto]. rewrite NA by discriminate.
      f_equal. apply IH. lia. }
    destruct (Ascii.eqb_spec x ">") as [->|N2].
    { change (half ">") with (lit "&gt;"). change (exchange ">") with ">"%char.
      rewrite (DC _ ">"%char); [|cbn; tauto]. rewrite NA by discriminate.
      f_equal. apply IH. lia. }
    destruct (Ascii.eqb_spec x "|") as [->|N3].
    { change (half "|") with (lit "&#124;"). change (exchange "|") with "|"%char.
      rewrite (DC _ "|"%char); [|cbn; tauto]. rewrite NA by discriminate.
      f_equal. apply IH. lia. }
    destruct (Ascii.eqb_spec x "?") as [->|N4].
    { change (half "?") with (lit "&#63;"). change (exchange "?") with "?"%char.
      rewrite (DC _ "?"%char); [|cbn; tauto]. rewrite NA by discriminate.
      f_equal. apply IH. lia. }
    assert (H : half x = [exchange x]).
    { unfold half. apply Ascii.eqb_neq in N1, N2, N3, N4. now rewrite N1, N2, N3, N4. }
    rewrite H. cbn [app].
    assert (X : exchange x <> "&"%char).
    { unfold exchange. destruct (Ascii.eqb x "+"); [discriminate|].
      destruct (Ascii.eqb x "*"); [discriminate|exact NX]. }
    rewrite !NA by exact X. f_equal. apply IH. lia.
Qed.

(** Unescaping an escaped text exchanges plus and asterisk and reads the four
    codes of the second pass where they stood in the text itself. *)
Theorem C80_there_and_back : forall s,
  reads second_codes (map exchange s) (unescape (escape s)).
Proof.
  intro s. rewrite unescape_dec, C80_escape, first_half.
  rewrite (second_half _ _ (le_n _)). apply dec_reads, second_good.
Qed.
Print Assumptions C80_there_and_back.

Lemma reads_none D s : (forall p c, In (p, c) D -> ~ contains p s) -> reads D s s.
Proof.
  induction s as [|x s IH]; intro N; [constructor|]. constructor.
  - intros p c w I E. apply (N p c I). exists [], w. exact E.
  - apply IH. intros p c I (a & b & E). apply (N p c I). exists (x :: a), b. now rewrite E.
Qed.

(** So a text without plus, asterisk and those four codes comes back. *)
Theorem C80_round_trip : forall s,
  ~ In "+"%char s -> ~ In "*"%char s ->
  (forall p, In p [lit "&lt;"; lit "&gt;"; lit "&#63;"; lit "&#124;"] -> ~ contains p s) ->
  unescape (escape s) = s.
Proof.
  intros s P A C.
  assert (E : map exchange s = s).
  { clear C. induction s as [|x s IH]; [reflexivity|]. cbn.
    rewrite IH; [|intro X; apply P; now right|intro X; apply A; now right].
    f_equal. unfold exchange.
    destruct (Ascii.eqb_spec x "+") as [->|]; [exfalso; apply P; now left|].
    destruct (Ascii.eqb_spec x "*") as [->|]; [exfalso; apply A; now left|reflexivity]. }
  pose proof (C80_there_and_back s) as R. rewrite E in R.
  apply (proj2 (C80_reads_unique s (unescape (escape s)) s) R).
  apply reads_none. intros p c I. apply C. cbn in I |- *.
  repeat destruct I as [I|I]; try contradiction; injection I as <- _; tauto.
Qed.
Print Assumptions C80_round_trip.

Example round_trip_case : unescape (escape (lit "a<b>&(c|d)? &#40;")) = lit "a<b>&(c|d)? &#40;".
Proof.
  apply C80_round_trip.
  - vm_compute. intuition discriminate.
  - vm_compute. intuition discriminate.
  - intros p I (a & b & E).
    assert (F : forall p, In p [lit "&lt;"; lit "&gt;"; lit "&#63;"; lit "&#124;"] ->
              find_at p (lit "a<b>&(c|d)? &#40;") 0 = None).
    { intros q Q. cbn in Q. repeat destruct Q as [<-|Q]; try contradiction; reflexivity. }
    destruct (find_at_spec p (lit "a<b>&(c|d)? &#40;") 0) as [(_ & N)|(q & a' & b' & G & _)].
    + now apply (N a b).
    + rewrite (F p I) in G. discriminate.
Qed.

(** Not every text comes back. *)
Theorem C80_round_trip_refuted :
  unescape (escape (lit "C++")) = lit "C**"
  /\ unescape (escape (lit "a*b")) = lit "a+b"
  /\ unescape (escape (lit "a &lt; b")) = lit "a < b".
Proof. repeat split; vm_compute; reflexivity. Qed.
Print Assumptions C80_round_trip_refuted.

(** * The morphology *)

(** The values, the part of speech first, joined by colons. *)
Fixpoint join (l : list text) : text :=
  match l with
  | [] => []
  | [v] => v
  | v :: l' => v ++ lit ":" ++ join l'
  end.

Definition others (m : list (text * text)) : list text :=
  map snd (filter (fun av => negb (text_eqb (fst av) (lit "pos"))) m).

Lemma join_cons2 v w l : join (v :: w :: l) = v ++ lit ":" ++ join (w :: l).
Proof. reflexivity. Qed.

Lemma join_merge a b l : join ((a ++ lit ":" ++ b) :: l) = a ++ lit ":" ++ join (b :: l).
Proof.
  destruct l as [|c l]; [reflexivity|]. rewrite !join_cons2. now rewrite <- !app_assoc.
Qed.

Lemma morpho_loop_spec m : forall s, s <> [] -> morpho_loop m s = join (s :: others m).
Proof.
  induction m as [|(a, v) m IH]; intros s N; [reflexivity|].
  cbn [morpho_loop]. unfold others. cbn [filter fst].
  destruct (text_eqb a (lit "pos")); cbn [negb]; [now apply IH|].
  cbn [map snd]. fold (others m).
  destruct s as [|x s]; [congruence|]. rewrite IH.
  - rewrite join_cons2, <- app_assoc. rewrite join_merge. reflexivity.
  - discriminate.
Qed.

Theorem C80_morphology : forall m,
  lookup (lit "pos") m <> [] ->
  morphology_string m = join (lookup (lit "pos") m :: others m).
Proof. intros m N. now apply morpho_loop_spec. Qed.
Print Assumptions C80_morphology.

Example morphology_case :
  morphology_string [(lit "case", lit "nom"); (lit "number", lit "sg");
                     (lit "pos", lit "subst"); (lit "x", [])] = lit "subst:nom:sg:".
Proof. vm_compute. reflexivity. Qed.

(** Without a part of speech leading empty values leave no colon. *)
Theorem C80_morphology_refuted :
  morphology_string [(lit "case", []); (lit "number", lit "sg")] = lit "sg"
  /\ join ([] :: others [(lit "case", []); (lit "number", lit "sg")]) = lit "::sg".
Proof. split; vm_compute; reflexivity. Qed.
Print Assumptions C80_morphology_refuted.

(** * Positions *)

Local Open Scope Z_scope.

Definition total (l : list Z) : Z := fold_right Z.add 0 l.
(** The number of tokens matched by the elements from [a] up to but not
    including [b]. *)
Definition tokens (sizes : list Z) (a b : Z) : Z :=
  total (firstn (Z.to_nat (b - a)) (skipn (Z.to_nat a) sizes)).

Lemma tokens_nil a b : tokens [] a b = 0.
Proof. unfold tokens. now rewrite skipn_nil, firstn_nil. Qed.

(** Sum of the elements whose index satisfies a condition. *)
Fixpoint sum_if (f : Z -> bool) (i : Z) (l : list Z) : Z :=
  match l with
  | [] => 0
  | n :: l' => (if f i then n else 0) + sum_if f (i + 1) l'
  end.

Lemma sum_if_ext f g l : forall i, (forall j, i <= j -> f j = g j) -> sum_if f i l = sum_if g i l.
Proof.
  induction l as [|n l IH]; intros i H; [reflexivity|]. cbn. rewrite (H i) by lia.
  rewrite (IH (i + 1)); [reflexivity|]. intros j J. apply H. lia.
Qed.

Lemma sum_if_none f l : forall i, (forall j, i <= j -> f j = false) -> sum_if f i l = 0.
Proof.
  induction l as [|n l IH]; intros i H; [reflexivity|]. cbn. rewrite (H i) by lia.
  rewrite (IH (i + 1)); [reflexivity|]. intros j J. apply H. lia.
Qed.

Lemma sum_if_range l : forall a b i, 0 <= i ->
  sum_if (fun j => (a <=? j) && (j <? b)) i l =
  total (firstn (Z.to_nat (b - Z.max a i)) (skipn (Z.to_nat (a - i)) l)).
Proof.
  induction l as [|n l IH]; intros a b i I.
  - cbn. now rewrite skipn_nil, firstn_nil.
  - cbn [sum_if]. rewrite IH by lia.
    destruct (Z.leb_spec a i) as [A|A]; cbn [andb].
    + replace (Z.to_nat (a - i)) with 0%nat by lia.
      replace (Z.to_nat (a - (i + 1))) with 0%nat by lia. cbn [skipn].
      destruct (Z.ltb_spec i b) as [B|B].
      * replace (Z.to_nat (b - Z.max a i)) with (S (Z.to_nat (b - Z.max a (i + 1)))) by lia.
        reflexivity.
      * replace (Z.to_nat (b - Z.max a i)) with 0%nat by lia.
        replace (Z.to_nat (b - Z.max a (i + 1))) with 0%nat by lia. reflexivity.
    + replace (Z.to_nat (a - i)) with (S (Z.to_nat (a - (i + 1)))) by lia.
      cbn [skipn]. replace (Z.max a (i + 1)) with (Z.max a i) by lia. reflexivity.
Qed.

Lemma sum_tokens a b l : 0 <= a -> sum_if (fun j => (a <=? j) && (j <? b)) 0 l = tokens l a b.
Proof.
  intro A. rewrite sum_if_range by lia. unfold tokens.
  replace (Z.max a 0) with a by lia. now replace (a - 0) with a by lia.
Qed.

Lemma sum_below s l i : 0 <= i ->
  sum_if (fun j => j <? s) i l = sum_if (fun j => (0 <=? j) && (j <? s)) i l.
Proof.
  intro I. apply sum_if_ext. intros j J. replace (0 <=? j) with true; [reflexivity|].
  symmetry. apply Z.leb_le. lia.
Qed.

Lemma bounds_loop_spec sizes : forall start end_ i rs re, start <= end_ + 1 ->
  bounds_loop start end_ i sizes rs re =
  (rs + sum_if (fun j => j <? start) i sizes, re + sum_if (fun j => j <? end_ + 1) i sizes).
Proof.
  induction sizes as [|n l IH]; intros start end_ i rs re H; cbn [bounds_loop sum_if].
  - f_equal; lia.
  - destruct (Z.leb_spec i end_) as [E|E].
    + rewrite IH by lia. replace (i <? end_ + 1) with true by (symmetry; apply Z.ltb_lt; lia).
      destruct (i <? start); f_equal; lia.
    + replace (i <? end_ + 1) with false by (symmetry; apply Z.ltb_ge; lia).
      replace (i <? start) with false by (symmetry; apply Z.ltb_ge; lia).
      rewrite !sum_if_none.
      * f_equal; lia.
      * intros j J. apply Z.ltb_ge. lia.
      * intros j J. apply Z.ltb_ge. lia.
Qed.

(** The first position of a range of elements and the last one. *)
Theorem C80_bounds : forall sizes start end_,
  0 <= start <= end_ + 1 ->
  bounds sizes start end_ = (tokens sizes 0 start, tokens sizes 0 (end_ + 1) - 1).
Proof.
  intros sizes start end_ H. unfold bounds. rewrite bounds_loop_spec by lia.
  rewrite !sum_below by lia. rewrite !sum_tokens by lia. f_equal; lia.
Qed.
Print Assumptions C80_bounds.

Example bounds_case : bounds [2; 0; 3; 1] 1 2 = (2, 4).
Proof. reflexivity. Qed.

Lemma pred32_spec head : 0 < head < 2 ^ 32 -> pred32 head = head - 1.
Proof. intro H. unfold pred32. apply Z.mod_small. lia. Qed.

Ltac eqs :=
  repeat match goal with
         | |- Some _ = Some _ => apply f_equal
         | |- (_, _) = (_, _) => apply f_equal2
         end; lia.

Lemma group_loop_spec sizes : forall start head end_ i rs rh re,
  0 < head < 2 ^ 32 -> start <= end_ + 1 -> start < head <= end_ + 1 ->
  0 <= i -> (forall n, In n sizes -> 0 <= n) ->
  group_loop start head end_ i sizes rs rh re =
  if (i <=? head - 1) && (head - 1 <? i + Z.of_nat (length sizes))
     && (sum_if (fun j => j =? head - 1) i sizes =? 0)
  then None
  else Some (rs + sum_if (fun j => j <? start) i sizes,
             rh + sum_if (fun j => (start <=? j) && (j <? head - 1)) i sizes,
             re + sum_if (fun j => j <? end_ + 1) i sizes).
Proof.
  induction sizes as [|n l IH]; intros start head end_ i rs rh re P H B I NN.
  - cbn [group_loop length sum_if].
    replace ((i <=? head - 1) && (head - 1 <? i + Z.of_nat 0)) with false.
    + cbn. eqs.
    + symmetry. apply andb_false_iff. rewrite Z.leb_gt, Z.ltb_ge. lia.
  - cbn [group_loop sum_if]. rewrite (pred32_spec head P).
    assert (NL : forall m, In m l -> 0 <= m) by (intros m M; apply NN; now right).
    cbn [length]. rewrite Nat2Z.inj_succ.
    destruct (Z.eqb_spec i (head - 1)) as [E|E].
    + cbn [andb].
      assert (Z0 : sum_if (fun j => j =? head - 1) (i + 1) l = 0).
      { apply sum_if_none. intros j J. apply Z.eqb_neq. lia. }
      rewrite Z0, Z.add_0_r.
      replace (i <=? head - 1) with true by (symmetry; apply Z.leb_le; lia).
      replace (head - 1 <? i + Z.succ (Z.of_nat (length l))) with true
        by (symmetry; apply Z.ltb_lt; lia). cbn [andb].
      destruct (Z.eqb_spec n 0) as [N0|N0]; [reflexivity|].
      replace (i <=? end_) with true by (symmetry; apply Z.leb_le; lia).
      rewrite IH by (auto; lia).
      replace (i + 1 <=? head - 1) with false by (symmetry; apply Z.leb_gt; lia).
      cbn [andb].
      replace (i <? end_ + 1) with true by (symmetry; apply Z.ltb_lt; lia).
      destruct (i <? start), ((start <=? i) && (i <? head - 1));
        eqs.
    + cbn [andb]. rewrite Z.add_0_l.
      destruct (Z.leb_spec i end_) as [EE|EE].
      * rewrite IH by (auto; lia).
        replace (i <? end_ + 1) with true by (symmetry; apply Z.ltb_lt; lia).
        replace ((i + 1 <=? head - 1) && (head - 1 <? i + 1 + Z.of_nat (length l)))
          with ((i <=? head - 1) && (head - 1 <? i + Z.succ (Z.of_nat (length l)))).
        2:{ f_equal; apply eq_true_iff_eq; rewrite ?Z.leb_le, ?Z.ltb_lt; lia. }
        destruct ((i <=? head - 1) && _ && _); [reflexivity|].
        destruct (i <? start), ((start <=? i) && (i <? head - 1));
          eqs.
      * replace (i <=? head - 1) with false by (symmetry; apply Z.leb_gt; lia). cbn [andb].
        replace (i <? start) with false by (symmetry; apply Z.ltb_ge; lia).
        replace ((start <=? i) && (i <? head - 1)) with false
          by (symmetry; apply andb_false_iff; right; apply Z.ltb_ge; lia).
        replace (i <? end_ + 1) with false by (symmetry; apply Z.ltb_ge; lia).
        rewrite !sum_if_none.
        -- eqs.
        -- intros j J. apply Z.ltb_ge. lia.
        -- intros j J. apply andb_false_iff; right; apply Z.ltb_ge; lia.
        -- intros j J. apply Z.ltb_ge. lia.
Qed.

Lemma sum_single h l : forall i, 0 <= i <= h ->
  sum_if (fun j => j =? h) i l = nth (Z.to_nat (h - i)) l 0.
Proof.
  induction l as [|n l IH]; intros i I; cbn [sum_if]; [now destruct (Z.to_nat (h - i))|].
  destruct (Z.eqb_spec i h) as [->|N].
  - rewrite Z.sub_diag. cbn. rewrite sum_if_none; [lia|]. intros j J. apply Z.eqb_neq. lia.
  - rewrite IH by lia. replace (Z.to_nat (h - i)) with (S (Z.to_nat (h - (i + 1)))) by lia.
    reflexivity.
Qed.

Lemma sum_le sizes start head end_ :
  (forall n, In n sizes -> 0 <= n) -> start < head <= end_ + 1 -> forall i,
  sum_if (fun j => (0 <=? j) && (j <? start)) i sizes + sum_if (fun j => j =? head - 1) i sizes
  <= sum_if (fun j => (0 <=? j) && (j <? end_ + 1)) i sizes + (if i <? 0 then
       sum_if (fun j => j =? head - 1) i sizes else 0).
Proof.
  intros NN H. induction sizes as [|n l IH]; intro i; cbn [sum_if].
  { destruct (i <? 0); lia. }
  assert (0 <= n) by (apply NN; now left).
  specialize (IH (fun m M => NN m (or_intror M)) (i + 1)).
  assert (P : forall k, 0 <= sum_if (fun j => j =? head - 1) k l).
  { intro k. assert (NL : forall m, In m l -> 0 <= m) by (intros m M; apply NN; now right).
    clear - NL. revert k. induction l as [|m l IH]; intro k; cbn; [lia|].
    assert (0 <= m) by (apply NL; now left).
    specialize (IH (fun x M => NL x (or_intror M)) (k + 1)). destruct (k =? head - 1); lia. }
  specialize (P (i + 1)).
  destruct (Z.leb_spec 0 i), (Z.ltb_spec i start), (Z.eqb_spec i (head - 1)),
    (Z.ltb_spec i (end_ + 1)), (Z.ltb_spec (i + 1) 0), (Z.ltb_spec i 0); cbn [andb]; lia.
Qed.

(** The positions of a group: [head] is the number of an element of the group,
    counted from one at the beginning of the rule. *)
Theorem C80_group : forall sizes start head end_,
  (forall n, In n sizes -> 0 <= n) ->
  0 <= start -> start < head <= end_ + 1 -> end_ < Z.of_nat (length sizes) ->
  Z.of_nat (length sizes) < 2 ^ 32 ->
  group_params sizes start head end_ =
  if nth (Z.to_nat (head - 1)) sizes 0 =? 0 then None
  else Some (tokens sizes 0 start, tokens sizes start (head - 1),
             tokens sizes 0 (end_ + 1) - 1).
Proof.
  intros sizes start head end_ NN S H L B. unfold group_params.
  rewrite group_loop_spec by (auto; lia).
  replace (0 <=? head - 1) with true by (symmetry; apply Z.leb_le; lia).
  replace (head - 1 <? 0 + Z.of_nat (length sizes)) with true
    by (symmetry; apply Z.ltb_lt; lia). cbn [andb].
  rewrite sum_single by lia. rewrite Z.sub_0_r.
  destruct (Z.eqb_spec (nth (Z.to_nat (head - 1)) sizes 0) 0) as [E|E]; [reflexivity|].
  rewrite !Z.add_0_l. rewrite (sum_below start), (sum_below (end_ + 1)) by lia.
  rewrite !sum_tokens by lia.
  replace (tokens sizes 0 (end_ + 1) - 1 <? tokens sizes 0 start) with false; [reflexivity|].
  symmetry. apply Z.ltb_ge.
  (* the head is one of the elements counted *)
  enough (tokens sizes 0 start + nth (Z.to_nat (head - 1)) sizes 0 <= tokens sizes 0 (end_ + 1)
          /\ 0 <= nth (Z.to_nat (head - 1)) sizes 0) by lia.
  split.
  - rewrite <- (Z.sub_0_r (head - 1)), <- (sum_single (head - 1) sizes 0) by lia.
    rewrite <- (sum_tokens 0 start sizes), <- (sum_tokens 0 (end_ + 1) sizes) by lia.
    pose proof (sum_le sizes start head end_ NN H 0) as Q. cbn [Z.ltb Z.compare] in Q. lia.
  - destruct (nth_in_or_default (Z.to_nat (head - 1)) sizes 0) as [I|I]; [now apply NN|lia].
Qed.
Print Assumptions C80_group.

Example group_case : group_params [1; 2; 0; 3] 0 2 3 = Some (0, 1, 5).
Proof. reflexivity. Qed.

(** The position of the head is counted from the beginning of the group and
    not from the beginning of the match, as the other two are: behind a left
    context the head is looked for too far to the left. *)
Theorem C80_group_refuted :
  group_params [2; 1; 1] 1 3 2 = Some (2, 1, 3)
  /\ tokens [2; 1; 1] 0 2 = 3.
Proof. split; reflexivity. Qed.
Print Assumptions C80_group_refuted.

(** The head asked for is kept when it is an element of the group. *)
Theorem C80_head : forall start end_ head,
  0 <= start -> start < head <= end_ + 1 -> end_ + 1 < 2 ^ 32 ->
  init_head start end_ head = head.
Proof.
  intros start end_ head S H B. unfold init_head. rewrite Z.mod_small by lia.
  replace (end_ + 1 <? head) with false by (symmetry; apply Z.ltb_ge; lia).
  replace (head <=? start) with false by (symmetry; apply Z.leb_gt; lia). reflexivity.
Qed.
Print Assumptions C80_head.

Example head_case : init_head 1 3 2 = 2.
Proof. reflexivity. Qed.

(** Otherwise it can become the number of no element: a group of one element
    gets the head 0, and "head - 1" is then beyond every vector. *)
Theorem C80_head_refuted :
  init_head 0 0 2 = 0 /\ pred32 0 = 2 ^ 32 - 1
  /\ init_head 2 4 1 = 2 ^ 32 - 1.
Proof. repeat split; vm_compute; reflexivity. Qed.
Print Assumptions C80_head_refuted.

Lemma before_loop_spec k : forall sizes acc,
  before_loop k sizes acc =
  if Nat.leb k (length sizes) then Some (acc + total (firstn k sizes)) else None.
Proof.
  induction k as [|k IH]; intros sizes acc; [cbn; f_equal; lia|].
  destruct sizes as [|n l]; [reflexivity|]. cbn [before_loop length Nat.leb firstn].
  rewrite IH. destruct (Nat.leb k (length l)); [|reflexivity]. f_equal.
  unfold total. cbn. lia.
Qed.

(** The position of the first token of an element. *)
Theorem C80_before : forall sizes index,
  1 <= index <= Z.of_nat (length sizes) ->
  before sizes index = Some (tokens sizes 0 (index - 1))
  /\ unify_params sizes index =
     Some (let count := tokens sizes (index - 1) index in
           if count =? 0 then None else Some (count, tokens sizes 0 (index - 1))).
Proof.
  intros sizes index H.
  assert (B : before sizes index = Some (tokens sizes 0 (index - 1))).
  { unfold before. rewrite before_loop_spec.
    replace (Nat.leb _ _) with true by (symmetry; apply Nat.leb_le; lia).
    unfold tokens. cbn [Z.to_nat skipn]. now rewrite Z.sub_0_r. }
  split; [exact B|]. unfold unify_params.
  replace (index - 1 <? 0) with false by (symmetry; apply Z.ltb_ge; lia).
  assert (N : nth_error sizes (Z.to_nat (index - 1)) = Some (tokens sizes (index - 1) index)).
  { unfold tokens. replace (Z.to_nat (index - (index - 1))) with 1%nat by lia.
    destruct (nth_error sizes (Z.to_nat (index - 1))) as [n|] eqn:E.
    - destruct (nth_error_split _ _ E) as (a & b & -> & La). rewrite <- La.
      rewrite skipn_app, skipn_all, Nat.sub_diag. cbn. f_equal. lia.
    - apply nth_error_None in E. lia. }
  rewrite N, B. now destruct (tokens sizes (index - 1) index =? 0).
Qed.
Print Assumptions C80_before.

Example before_case : before [2; 0; 3] 3 = Some 2 /\ unify_params [2; 0; 3] 3 = Some (Some (3, 2))
  /\ unify_params [2; 0; 3] 2 = Some None.
Proof. repeat split. Qed.

Local Open Scope nat_scope.

(** * Moving a rule *)

Lemma insert_at_app {A} (c d : list A) x k : k = length c ->
  insert_at k x (c ++ d) = c ++ x :: d.
Proof.
  intros ->. unfold insert_at. rewrite firstn_app, skipn_app, firstn_all, skipn_all, Nat.sub_diag.
  cbn. now rewrite app_nil_r.
Qed.

Lemma erase_at_app {A} (c d : list A) x k : k = length c -> erase_at k (c ++ x :: d) = c ++ d.
Proof.
  intros ->. unfold erase_at. rewrite firstn_app, skipn_app, firstn_all, Nat.sub_diag.
  rewrite skipn_all2 by lia. replace (S (length c) - length c) with 1 by lia.
  cbn. now rewrite app_nil_r.
Qed.

(** The rule is taken out and put in at the place given; the others keep their
    order. *)
Theorem C80_move : forall (A : Type) (a b : list A) x from to l,
  l = a ++ x :: b -> from = length a -> to < length l ->
  exists c d, a ++ b = c ++ d /\ length c = to
    /\ move_rule from to l = Some (c ++ x :: d).
Proof.
  intros A a b x from to l -> -> T. rewrite app_length in T. cbn in T.
  unfold move_rule. rewrite nth_error_app2, Nat.sub_diag by lia. cbn [nth_error].
  rewrite app_length. cbn [length].
  destruct (Nat.ltb_spec to (length a)) as [L|L];
    destruct (Nat.ltb_spec (length a) to) as [G|G]; try lia.
  - replace (length a + S (length b) <? to + 0) with false by (symmetry; apply Nat.ltb_ge; lia).
    rewrite <- (firstn_skipn to a). set (a1 := firstn to a). set (a2 := skipn to a).
    assert (L1 : length a1 = to) by (unfold a1; rewrite firstn_length; lia).
    exists a1, (a2 ++ b). split; [now rewrite app_assoc|]. split; [exact L1|].
    f_equal. rewrite <- app_assoc, insert_at_app by lia.
    change (a1 ++ x :: a2 ++ x :: b) with (a1 ++ (x :: a2) ++ x :: b).
    rewrite app_assoc, erase_at_app by (rewrite !app_length; cbn [length]; lia).
    now rewrite <- app_assoc.
  - replace (length a + S (length b) <? to + 1) with false by (symmetry; apply Nat.ltb_ge; lia).
    rewrite <- (firstn_skipn (to - length a) b).
    set (b1 := firstn _ b). set (b2 := skipn _ b).
    assert (L1 : length b1 = to - length a) by (unfold b1; rewrite firstn_length; lia).
    exists (a ++ b1), b2. split; [now rewrite app_assoc|].
    split; [rewrite app_length; lia|]. f_equal.
    change (a ++ x :: b1 ++ b2) with (a ++ (x :: b1) ++ b2). rewrite app_assoc.
    rewrite insert_at_app by (rewrite app_length; cbn [length]; lia).
    rewrite <- app_assoc. cbn [app]. rewrite erase_at_app by lia. now rewrite <- app_assoc.
  - replace (length a + S (length b) <? to + 0) with false by (symmetry; apply Nat.ltb_ge; lia).
    exists a, b. split; [reflexivity|]. split; [lia|]. f_equal.
    rewrite insert_at_app by lia. now rewrite erase_at_app by lia.
Qed.
Print Assumptions C80_move.

Example move_case : move_rule 1 3 [10; 11; 12; 13] = Some [10; 12; 13; 11]
  /\ move_rule 3 0 [10; 11; 12; 13] = Some [13; 10; 11; 12].
Proof. split; reflexivity. Qed.

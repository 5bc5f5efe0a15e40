(** The rule files and the cutter of the tp tokenizer do what they mean (C86).
    The model is M_TpRules. *)
From Coq Require Import String Ascii.
From Coq Require Import List Arith Bool Lia.
From Verif Require Import M_Srx P_Srx M_TpRules.
Import ListNotations.
Local Open Scope nat_scope.

(** * Comments and elements *)

(** Where a reader is: in what counts, behind an odd number of backslashes or not,
    or in a comment. *)
Inductive mode := Code (escaped : bool) | Comment.
Definition step (m : mode) (c : ascii) : mode :=
  match m with
  | Comment => if Ascii.eqb c newline then Code false else Comment
  | Code e => if Ascii.eqb c "\" then Code (negb e)
              else if Ascii.eqb c "#" && negb e then Comment else Code false
  end.
Definition mode_after (m : mode) (s : text) : mode := fold_left step s m.
Definition in_comment (m : mode) : bool := match m with Comment => true | _ => false end.
(** What is left without comments, which end with the end of the line. *)
Fixpoint strip (m : mode) (s : text) : text :=
  match s with
  | [] => []
  | c :: s' => if in_comment m || in_comment (step m c) then strip (step m c) s'
               else c :: strip (step m c) s'
  end.
(** The pieces between the at signs that count. *)
Fixpoint pieces (m : mode) (s : text) : list text :=
  match s with
  | [] => [[]]
  | c :: s' =>
      match m with
      | Code false => if Ascii.eqb c "@" then [] :: pieces (Code false) s'
                      else match pieces (step m c) s' with
                           | p :: ps => (c :: p) :: ps
                           | [] => []
                           end
      | _ => match pieces (step m c) s' with
             | p :: ps => (c :: p) :: ps
             | [] => []
             end
      end
  end.

Lemma find_char_from P s : forall a i pos, pos = i + length a ->
  find_char P (a ++ s) i pos = find_char P s pos pos.
Proof.
  induction a as [|c a IH]; intros i pos ->; cbn [app length].
  - now rewrite Nat.add_0_r.
  - cbn [find_char]. replace (i + S (length a) <=? i) with false
      by (symmetry; apply Nat.leb_gt; lia). cbn [andb]. apply IH. lia.
Qed.
Lemma find_char_first P s : forall i pos, pos <= i ->
  match find_char P s i pos with
  | Some p => exists u c v, s = u ++ c :: v /\ p = i + length u /\ P c = true /\ Forall (fun c => P c = false) u
  | None => Forall (fun c => P c = false) s
  end.
Proof.
  induction s as [|c s IH]; intros i pos L; cbn [find_char]; [constructor|].
  replace (pos <=? i) with true by (symmetry; now apply Nat.leb_le). cbn [andb].
  destruct (P c) eqn:E.
  - exists [], c, s. cbn. split; [easy|split; [lia|split; [easy|constructor]]].
  - specialize (IH (S i) pos ltac:(lia)). destruct (find_char P s (S i) pos) as [p|].
    + destruct IH as (u & d & v & -> & -> & Pd & N). exists (c :: u), d, v. cbn.
      split; [easy|split; [lia|split; [easy|now constructor]]].
    + now constructor.
Qed.

Lemma firstn_app_exact {Y} (a b : list Y) : firstn (length a) (a ++ b) = a.
Proof. rewrite firstn_app, firstn_all, Nat.sub_diag. cbn. apply app_nil_r. Qed.
Lemma skipn_app_exact {Y} (a b : list Y) : skipn (length a) (a ++ b) = b.
Proof. now rewrite skipn_app, skipn_all, Nat.sub_diag. Qed.

Lemma eqb_sym a b : Ascii.eqb a b = Ascii.eqb b a.
Proof. destruct (Ascii.eqb_spec a b), (Ascii.eqb_spec b a); congruence. Qed.

Lemma strip_skip u v : Forall (fun c => Ascii.eqb "#" c = false) u -> forall e,
  strip (Code e) (u ++ v) = u ++ strip (Code (odd_after e u)) v
  /\ mode_after (Code e) (u ++ v) = mode_after (Code (odd_after e u)) v.
Proof.
  induction 1 as [|c u H _ IH]; intros e; [easy|]. cbn [app strip odd_after mode_after fold_left step].
  rewrite (eqb_sym c "#"), H. cbn [andb].
  destruct (Ascii.eqb c "\"); cbn [andb in_comment orb]; destruct (IH (negb e)) as [I1 I2], (IH false) as [I3 I4].
  - rewrite I1. split; [easy|]. exact I2.
  - rewrite I3. split; [easy|]. exact I4.
Qed.
Lemma strip_comment u v : Forall (fun c => Ascii.eqb newline c = false) u ->
  strip Comment (u ++ v) = strip Comment v /\ mode_after Comment (u ++ v) = mode_after Comment v.
Proof.
  induction 1 as [|c u H _ IH]; [easy|]. cbn [app strip mode_after fold_left step].
  rewrite (eqb_sym c newline), H. cbn [in_comment orb]. exact IH.
Qed.

Lemma comments_loop_spec : forall fuel a s flag, length s < fuel ->
  comments_loop fuel (a ++ s) (length a) flag
  = (a ++ strip (Code (odd_after false a)) s, flag || in_comment (mode_after (Code (odd_after false a)) s)).
Proof.
  induction fuel as [|f IH]; intros a s flag L; [lia|]. cbn [comments_loop].
  rewrite (find_char_from _ s a 0 (length a)) by easy.
  pose proof (find_char_first (Ascii.eqb "#") s (length a) (length a) ltac:(lia)) as P.
  destruct (find_char (Ascii.eqb "#") s (length a) (length a)) as [p|].
  - destruct P as (u & c & v & -> & -> & Pc & N). apply Ascii.eqb_eq in Pc. subst c.
    rewrite app_length in L. cbn [length] in L.
    destruct (strip_skip u ("#"%char :: v) N (odd_after false a)) as [-> ->].
    rewrite (app_assoc a u). rewrite <- (app_length a u).
    rewrite is_escaped_app, is_escaped_odd, odd_after_app.
    destruct (odd_after (odd_after false a) u) eqn:Eo; cbn [negb].
    + change ("#"%char :: v) with (["#"%char] ++ v) at 1. rewrite (app_assoc (a ++ u)).
      replace (length (a ++ u) + 1) with (length ((a ++ u) ++ ["#"%char]))
        by (rewrite (app_length (a ++ u)); cbn; lia).
      rewrite IH by lia. rewrite odd_after_app. cbn.
      repeat (rewrite <- ?app_assoc; cbn [app]). reflexivity.
    + rewrite (find_char_from _ ("#"%char :: v) (a ++ u) 0 (length (a ++ u))) by easy.
      pose proof (find_char_first (Ascii.eqb newline) ("#"%char :: v) (length (a ++ u)) (length (a ++ u)) ltac:(lia)) as Q.
      destruct (find_char (Ascii.eqb newline) ("#"%char :: v) (length (a ++ u)) (length (a ++ u))) as [l|].
      * destruct Q as ([|x w] & c & t & E & -> & Pc & M); cbn [app] in E.
        { injection E as <- _. discriminate Pc. }
        injection E as <- ->. apply Ascii.eqb_eq in Pc. subst c.
        rewrite app_length in L. cbn [length] in L.
        rewrite firstn_app_exact.
        replace ((a ++ u) ++ "#"%char :: w ++ newline :: t)
          with (((a ++ u) ++ "#"%char :: w ++ [newline]) ++ t)
          by (repeat (rewrite <- ?app_assoc; cbn [app]); reflexivity).
        replace (length (a ++ u) + length ("#"%char :: w) + 1)
          with (length ((a ++ u) ++ "#"%char :: w ++ [newline]))
          by (rewrite (app_length (a ++ u)); cbn [length]; rewrite (app_length w); cbn [length]; lia).
        rewrite skipn_app_exact, IH by lia. rewrite odd_after_app, Eo.
        inversion M as [|? ? _ M']; subst.
        change (strip (Code false) ("#"%char :: w ++ newline :: t)) with (strip Comment (w ++ newline :: t)).
        change (mode_after (Code false) ("#"%char :: w ++ newline :: t)) with (mode_after Comment (w ++ newline :: t)).
        destruct (strip_comment w (newline :: t) M') as [-> ->]. cbn.
        repeat (rewrite <- ?app_assoc; cbn [app]). reflexivity.
      * rewrite firstn_app_exact. rewrite <- (app_nil_r (a ++ u)) at 1. rewrite IH by (cbn; lia).
        inversion Q as [|? ? _ M']; subst.
        change (strip (Code false) ("#"%char :: v)) with (strip Comment v).
        change (mode_after (Code false) ("#"%char :: v)) with (mode_after Comment v).
        destruct (strip_comment v [] M') as [E1 E2]. rewrite app_nil_r in E1, E2. rewrite E1, E2. cbn.
        rewrite !app_nil_r, orb_true_r. reflexivity.
  - destruct (strip_skip s [] P (odd_after false a)) as [E1 E2]. rewrite app_nil_r in E1, E2.
    rewrite E1, E2. cbn. now rewrite !app_nil_r, orb_false_r.
Qed.

(** C86: exactly the comments go: what begins with a sign # that is not escaped,
    up to the end of the line; and it is told whether the text ends in one. *)
Theorem C86_comments s : remove_comments s = (strip (Code false) s, in_comment (mode_after (Code false) s)).
Proof. unfold remove_comments. exact (comments_loop_spec (S (length s)) [] s false ltac:(lia)). Qed.
Print Assumptions C86_comments.

(** The first piece. *)
Fixpoint cut_at (m : mode) (s : text) : text * option text :=
  match s with
  | [] => ([], None)
  | c :: s' =>
      if match m with Code false => Ascii.eqb c "@" | _ => false end then ([], Some s')
      else let (l, r) := cut_at (step m c) s' in (c :: l, r)
  end.

Lemma get_line_spec s : match get_line s with
  | (l, Some r) => s = l ++ "@"%char :: r /\ ~ In "@"%char l
  | (l, None) => s = l /\ ~ In "@"%char l
  end.
Proof.
  induction s as [|c s IH]; cbn [get_line]; [easy|].
  destruct (Ascii.eqb_spec c "@") as [->|N]; [easy|].
  destruct (get_line s) as [l [r|]]; destruct IH as [-> I]; (split; [easy|]); intros [|]; congruence || contradiction.
Qed.
Lemma cut_at_skip l r : ~ In "@"%char l -> forall m,
  cut_at m (l ++ r) = let (x, y) := cut_at (mode_after m l) r in (l ++ x, y).
Proof.
  induction l as [|c l IH]; intros N m; cbn [app mode_after fold_left].
  - now destruct (cut_at m r).
  - cbn [cut_at]. assert (Ascii.eqb c "@" = false) as E.
    { apply Ascii.eqb_neq. intros ->. apply N. now left. }
    replace (match m with Code false => Ascii.eqb c "@" | _ => false end) with false
      by (rewrite E; now destruct m as [[|]|]).
    rewrite IH by (intros I; apply N; now right). fold (mode_after (step m c) l).
    now destruct (cut_at (mode_after (step m c) l) r).
Qed.
Lemma mode_after_app a b m : mode_after m (a ++ b) = mode_after (mode_after m a) b.
Proof. apply fold_left_app. Qed.

Lemma mode_odd s : (forall x e, mode_after (Code x) s = Code e -> e = odd_after x s)
  /\ (forall e, mode_after Comment s = Code e -> forall y, e = odd_after y s).
Proof.
  induction s as [|c s [IH1 IH2]]; [split; [cbn; congruence|cbn; congruence]|].
  split; cbn [mode_after fold_left step odd_after].
  - intros x e H. destruct (Ascii.eqb c "\") eqn:E1; cbn [andb].
    + now apply IH1.
    + destruct (Ascii.eqb c "#" && negb x).
      * now apply IH2.
      * now apply IH1.
  - intros e H y. destruct (Ascii.eqb_spec c newline) as [->|N].
    + cbn [andb]. change (Ascii.eqb newline "\") with false. cbn [andb]. now apply IH1.
    + now apply IH2.
Qed.

Lemma load_loop_spec : forall fuel b line rest m0,
  mode_after (Code false) b = m0 -> m0 <> Code true ->
  match rest with None => 0 | Some r => S (length r) end < fuel ->
  load_loop fuel line (b ++ line) rest
  = let m := mode_after (Code false) (b ++ line) in
    match rest with
    | None => (b ++ line, None)
    | Some r => let (x, y) := cut_at m ("@"%char :: r) in ((b ++ line) ++ x, y)
    end.
Proof.
  induction fuel as [|f IH]; intros b line rest m0 Em Nm L; [lia|]. cbn [load_loop]. cbn zeta.
  rewrite is_escaped_odd, C86_comments. cbn [snd].
  rewrite mode_after_app, Em.
  assert (odd_after false line || in_comment (mode_after m0 line)
          = match mode_after m0 line with Code false => false | _ => true end) as Q.
  { destruct (mode_after m0 line) as [e|] eqn:E; cbn [in_comment]; [|apply orb_true_r].
    rewrite orb_false_r. destruct m0 as [[|]|]; [easy| |].
    - apply mode_odd in E. subst e. now destruct (odd_after false line).
    - rewrite <- (proj2 (mode_odd line) e E false). now destruct e. }
  rewrite Q. clear Q.
  destruct rest as [r|].
  - pose proof (get_line_spec r) as G. destruct (get_line r) as [line' rest'] eqn:Eg.
    assert (forall m, m <> Code false ->
      cut_at m ("@"%char :: r)
      = let (x, y) := cut_at (step m "@") r in ("@"%char :: x, y)) as Cm.
    { intros [[|]|] H; try easy. }
    destruct (mode_after m0 line) as [[|]|] eqn:E.
    + (* escaped *)
      rewrite Cm by easy. cbn [step]. change (Ascii.eqb "@" "\") with false. change (Ascii.eqb "@" "#") with false.
      cbn [andb].
      assert (mode_after (Code false) ((b ++ line) ++ ["@"%char]) = Code false) as Eb.
      { rewrite !mode_after_app, Em, E. reflexivity. }
      replace ((b ++ line) ++ "@"%char :: line') with (((b ++ line) ++ ["@"%char]) ++ line')
        by (now rewrite <- (app_assoc (b ++ line))).
      rewrite (IH _ line' rest' (Code false) Eb) by
        (first [discriminate | destruct rest' as [r'|]; [destruct G as [-> _]; rewrite app_length in L; cbn in *; lia|lia]]).
      cbn zeta. rewrite (mode_after_app ((b ++ line) ++ ["@"%char]) line'), Eb.
      destruct rest' as [r'|]; destruct G as [-> G].
      * rewrite cut_at_skip by easy.
        destruct (cut_at (mode_after (Code false) line') ("@"%char :: r')) as [x y].
        f_equal. repeat (rewrite <- ?app_assoc; cbn [app]). reflexivity.
      * rewrite <- (app_nil_r line') at 2. rewrite cut_at_skip by easy. cbn [cut_at].
        f_equal. repeat (rewrite <- ?app_assoc; cbn [app]). now rewrite app_nil_r.
    + cbn [cut_at]. change (Ascii.eqb "@" "@") with true. cbn. now rewrite app_nil_r.
    + rewrite Cm by easy. cbn [step]. change (Ascii.eqb "@" newline) with false.
      assert (mode_after (Code false) ((b ++ line) ++ ["@"%char]) = Comment) as Eb.
      { rewrite !mode_after_app, Em, E. reflexivity. }
      replace ((b ++ line) ++ "@"%char :: line') with (((b ++ line) ++ ["@"%char]) ++ line')
        by (now rewrite <- (app_assoc (b ++ line))).
      rewrite (IH _ line' rest' Comment Eb) by
        (first [discriminate | destruct rest' as [r'|]; [destruct G as [-> _]; rewrite app_length in L; cbn in *; lia|lia]]).
      cbn zeta. rewrite (mode_after_app ((b ++ line) ++ ["@"%char]) line'), Eb.
      destruct rest' as [r'|]; destruct G as [-> G].
      * rewrite cut_at_skip by easy.
        destruct (cut_at (mode_after Comment line') ("@"%char :: r')) as [x y].
        f_equal. repeat (rewrite <- ?app_assoc; cbn [app]). reflexivity.
      * rewrite <- (app_nil_r line') at 2. rewrite cut_at_skip by easy. cbn [cut_at].
        f_equal. repeat (rewrite <- ?app_assoc; cbn [app]). now rewrite app_nil_r.
  - now destruct (match mode_after m0 line with Code false => false | _ => true end).
Qed.

Lemma load_whole_spec s : load_whole s = cut_at (Code false) s.
Proof.
  unfold load_whole. pose proof (get_line_spec s) as G. destruct (get_line s) as [line rest].
  change (load_loop (S (length s)) line line rest) with (load_loop (S (length s)) line ([] ++ line) rest).
  rewrite (load_loop_spec (S (length s)) [] line rest (Code false)); [|easy|easy|].
  - cbn [app]. cbn zeta. destruct rest as [r|]; destruct G as [-> G].
    + now rewrite cut_at_skip.
    + rewrite <- (app_nil_r line) at 2. rewrite cut_at_skip by easy. cbn. now rewrite app_nil_r.
  - destruct rest as [r|]; [|lia]. destruct G as [-> _]. rewrite app_length. cbn. lia.
Qed.

Lemma pieces_cut s : forall m, pieces m s = match cut_at m s with
  | (p, None) => [p]
  | (p, Some r) => p :: pieces (Code false) r
  end.
Proof.
  induction s as [|c s IH]; intros m; [easy|]. cbn [pieces cut_at].
  destruct m as [[|]|]; try (rewrite IH; destruct (cut_at _ s) as [p [r|]]; easy).
  destruct (Ascii.eqb c "@"); [easy|]. rewrite IH. destruct (cut_at _ s) as [p [r|]]; easy.
Qed.
Lemma cut_at_shorter s : forall m p r, cut_at m s = (p, Some r) -> s = p ++ "@"%char :: r.
Proof.
  induction s as [|c s IH]; intros m p r; cbn [cut_at]; [easy|].
  destruct (match m with Code false => Ascii.eqb c "@" | _ => false end) eqn:E.
  - intros [= <- <-]. destruct m as [[|]|]; try easy. apply Ascii.eqb_eq in E. now subst.
  - destruct (cut_at (step m c) s) as [l r'] eqn:Ec. intros [= <- ->]. cbn. now rewrite (IH _ _ _ Ec).
Qed.

(** C86: a file falls into the pieces between the at signs that are neither
    escaped nor in a comment. *)
Theorem C86_elements s : elements (S (length s)) s = pieces (Code false) s.
Proof.
  assert (forall fuel s, length s < fuel -> elements fuel s = pieces (Code false) s) as H; [|apply H; lia].
  clear s. induction fuel as [|f IH]; intros s L; [lia|]. cbn [elements].
  rewrite load_whole_spec, pieces_cut. destruct (cut_at (Code false) s) as [p [r|]] eqn:E; [|easy].
  apply cut_at_shorter in E. subst s. rewrite app_length in L. cbn in L. f_equal. apply IH. lia.
Qed.
Print Assumptions C86_elements.

Fixpoint joined (l : list text) : text :=
  match l with
  | [] => []
  | [p] => p
  | p :: l' => p ++ "@"%char :: joined l'
  end.
(** C86: and nothing is lost. *)
Theorem C86_joined s : joined (elements (S (length s)) s) = s.
Proof.
  rewrite C86_elements. assert (forall s m, pieces m s <> [] /\ joined (pieces m s) = s) as H; [|apply H].
  clear s. induction s as [|c s IH]; intros m; [easy|]. cbn [pieces].
  destruct (IH (step m c)) as [N J]. destruct (IH (Code false)) as [N0 J0].
  assert (match pieces (step m c) s with p :: ps => (c :: p) :: ps | [] => [] end <> []
    /\ joined match pieces (step m c) s with p :: ps => (c :: p) :: ps | [] => [] end = c :: s) as G.
  { destruct (pieces (step m c) s) as [|p ps]; [easy|]. split; [easy|].
    rewrite <- J. now destruct ps. }
  destruct m as [[|]|]; try exact G.
  destruct (Ascii.eqb_spec c "@") as [->|_]; [|exact G]. split; [easy|].
  cbn [joined]. destruct (pieces (Code false) s) as [|p ps]; [easy|]. now rewrite <- J0.
Qed.
Print Assumptions C86_joined.

Definition nl : text := [newline].
Example C86_example_elements :
  elements 40 (lit "@rule a\@b # c @ d" ++ nl ++ lit "e@f") = [[]; lit "rule a\@b # c @ d" ++ nl ++ lit "e"; lit "f"]
  /\ remove_comments (lit "rule a\#b # c @ d" ++ nl ++ lit "e#f") = (lit "rule a\#b e", true).
Proof. split; reflexivity. Qed.

(** * Trimming *)

Definition white (s : text) : Prop := Forall (fun c => is_white c = true) s.

Lemma last_black_spec s : forall k, k <= length s ->
  match last_black s k with
  | Some p => exists a c w, firstn k s = a ++ c :: w /\ length a = p /\ is_white c = false /\ white w
  | None => white (firstn k s)
  end.
Proof.
  induction k as [|k IH]; intros L; cbn [last_black].
  - constructor.
  - destruct (nth_error s k) as [c|] eqn:E.
    2:{ apply nth_error_None in E. lia. }
    assert (firstn (S k) s = firstn k s ++ [c]) as F.
    { clear IH. revert s E L. induction k as [|k IHk]; intros [|d s] E L; try easy.
      - cbn in E. injection E as ->. reflexivity.
      - cbn [firstn app]. f_equal. apply IHk; [exact E|cbn in L; lia]. }
    rewrite F. specialize (IH ltac:(lia)). destruct (is_white c) eqn:Ec.
    + destruct (last_black s k) as [p|].
      * destruct IH as (a & d & w & -> & La & Hd & Hw). exists a, d, (w ++ [c]).
        rewrite <- app_assoc. cbn. split; [easy|split; [easy|split; [easy|]]].
        apply Forall_app. split; [easy|now constructor].
      * apply Forall_app. split; [easy|now constructor].
    + exists (firstn k s), c, []. split; [easy|]. rewrite firstn_length. split; [lia|split; [easy|constructor]].
Qed.

(** C86: a text that is white becomes empty; of any other the white space before
    and behind goes, but an escaped space right behind the last black character
    stays. *)
Theorem C86_trim s :
  (white s /\ trim s = [])
  \/ exists w t c v, s = w ++ t ++ c :: v /\ white w /\ white v /\ is_white c = false
     /\ (forall d t', t = d :: t' -> is_white d = false)
     /\ ((exists v', v = " "%char :: v' /\ odd_after false (w ++ t ++ [c]) = true /\ trim s = t ++ [c; " "%char])
         \/ ((v = [] \/ odd_after false (w ++ t ++ [c]) = false \/ (exists d v', v = d :: v' /\ d <> " "%char))
             /\ trim s = t ++ [c])).
Proof.
  destruct s as [|x s']; [left; split; [constructor|reflexivity]|].
  unfold trim. remember (x :: s') as s eqn:Es. clear x s' Es.
  pose proof (last_black_spec s (length s) ltac:(lia)) as B. rewrite firstn_all in B.
  destruct (last_black s (length s)) as [pos|].
  2:{ left. split; [easy|reflexivity]. }
  destruct B as (a & c & v & -> & La & Hc & Hv). right.
  (* the white space before *)
  pose proof (find_char_first (fun c => negb (is_white c)) (a ++ [c]) 0 0 ltac:(lia)) as Fr.
  destruct (find_char (fun c => negb (is_white c)) (a ++ [c]) 0 0) as [p|] eqn:Ef.
  2:{ rewrite Forall_forall in Fr. specialize (Fr c ltac:(apply in_elt)). rewrite Hc in Fr. easy. }
  destruct Fr as (w & d & t & E & Ep & Hd & Hw). cbn [Nat.add] in Ep. subst p.
  apply negb_true_iff in Hd.
  assert (white w) as Ww.
  { eapply Forall_impl; [|exact Hw]. cbn. intros y Hy. now apply negb_false_iff in Hy. }
  assert (exists t', d :: t = t' ++ [c] /\ a = w ++ t') as (t' & Et & Ea).
  { destruct t as [|y t] using rev_ind.
    - apply app_inj_tail in E. destruct E as [-> ->]. exists []. now rewrite app_nil_r.
    - clear IHt. change (w ++ d :: t ++ [y]) with (w ++ (d :: t) ++ [y]) in E. rewrite app_assoc in E.
      apply app_inj_tail in E. destruct E as [-> ->]. exists (d :: t). now split. }
  exists w, t', c, v. subst a.
  split; [now rewrite <- app_assoc|]. split; [easy|split; [easy|split; [easy|]]].
  split. { intros y t'' ->. cbn in Et. injection Et as <- _. exact Hd. }
  assert (forall z, find_char (fun c => negb (is_white c)) ((w ++ t') ++ c :: z) 0 0 = Some (length w)) as Fz.
  { intros z. pose proof (find_char_first (fun c => negb (is_white c)) ((w ++ t') ++ c :: z) 0 0 ltac:(lia)) as F.
    assert ((w ++ t') ++ c :: z = w ++ d :: (t ++ z)) as Ez.
    { change (c :: z) with ([c] ++ z). rewrite app_assoc, E, <- app_assoc. reflexivity. }
    rewrite Ez in *. clear -Hw Hd. assert (negb (is_white d) = true) as H by now rewrite Hd.
    assert (forall i, find_char (fun c => negb (is_white c)) (w ++ d :: t ++ z) i 0 = Some (i + length w)) as G.
    { induction Hw as [|y w Hy _ IH]; intros i; cbn [app find_char Nat.leb andb length].
      - rewrite H. f_equal. lia.
      - rewrite Hy, IH. f_equal. lia. }
    apply (G 0). }
  assert (length ((w ++ t') ++ c :: v) = S (pos + length v)) as Ls by (rewrite app_length; cbn; lia).
  assert (forall z, skipn (length w) ((w ++ t') ++ c :: z) = t' ++ c :: z) as Sk.
  { intros z. rewrite <- app_assoc. apply skipn_app_exact. }
  assert (is_escaped ((w ++ t') ++ c :: v) (pos + 1) = odd_after false (w ++ t' ++ [c])) as Es.
  { replace ((w ++ t') ++ c :: v) with ((w ++ t' ++ [c]) ++ v)
      by (repeat (rewrite <- ?app_assoc; cbn [app]); reflexivity).
    replace (pos + 1) with (length (w ++ t' ++ [c])) by (rewrite !app_length in *; cbn; lia).
    now rewrite is_escaped_app, is_escaped_odd. }
  assert (nth_error ((w ++ t') ++ c :: v) (pos + 1) = nth_error v 0) as Nt.
  { rewrite nth_error_app2 by lia. replace (pos + 1 - length (w ++ t')) with 1 by lia. reflexivity. }
  rewrite Ls, Es, Nt.
  destruct v as [|y v].
  - cbn [length]. replace (pos =? S (pos + 0) - 1) with true by (symmetry; apply Nat.eqb_eq; lia). cbn [negb].
    rewrite Fz, Sk. right. split; [now left|reflexivity].
  - cbn [nth_error length]. replace (pos =? S (pos + S (length v)) - 1) with false by (symmetry; apply Nat.eqb_neq; lia).
    cbn [negb].
    assert (firstn (pos + 1) ((w ++ t') ++ c :: y :: v) = (w ++ t') ++ [c]) as F1.
    { replace ((w ++ t') ++ c :: y :: v) with (((w ++ t') ++ [c]) ++ y :: v)
        by (rewrite <- (app_assoc (w ++ t')); reflexivity).
      replace (pos + 1) with (length ((w ++ t') ++ [c])) by (rewrite app_length; cbn; lia).
      apply firstn_app_exact. }
    destruct (odd_after false (w ++ t' ++ [c])) eqn:Eo; cbn [andb].
    + destruct (Ascii.eqb_spec y " ") as [->|Ny].
      * left. exists v. split; [easy|split; [easy|]].
        destruct v as [|z v].
        -- cbn [length]. replace (pos + 1 =? S (pos + 1) - 1) with true by (symmetry; apply Nat.eqb_eq; lia). cbn [negb].
           rewrite Fz, Sk. reflexivity.
        -- cbn [length]. replace (pos + 1 =? S (pos + S (S (length v))) - 1) with false by (symmetry; apply Nat.eqb_neq; lia).
           cbn [negb].
           assert (firstn (pos + 1 + 1) ((w ++ t') ++ c :: " "%char :: z :: v) = (w ++ t') ++ [c; " "%char]) as F2.
           { replace ((w ++ t') ++ c :: " "%char :: z :: v) with (((w ++ t') ++ [c; " "%char]) ++ z :: v)
               by (rewrite <- (app_assoc (w ++ t')); reflexivity).
             replace (pos + 1 + 1) with (length ((w ++ t') ++ [c; " "%char])) by (rewrite app_length; cbn; lia).
             apply firstn_app_exact. }
           rewrite F2, Fz, Sk. reflexivity.
      * right. split; [right; right; now exists y, v|].
        replace (pos =? S (pos + S (length v)) - 1) with false by (symmetry; apply Nat.eqb_neq; lia). cbn [negb].
        rewrite F1, Fz, Sk. reflexivity.
    + right. split; [right; now left|].
      replace (pos =? S (pos + S (length v)) - 1) with false by (symmetry; apply Nat.eqb_neq; lia). cbn [negb].
      rewrite F1, Fz, Sk. reflexivity.
Qed.
Print Assumptions C86_trim.
Example C86_example_trim : trim (nl ++ lit " a b\   ") = lit "a b\ " /\ trim (lit "a\\  ") = lit "a\\".
Proof. split; reflexivity. Qed.

(** * Values of definitions *)

(** An odd number of backslashes before # or @ becomes less by two (one becomes
    none); [k] have been read. *)
Fixpoint unescaped (k : nat) (s : text) : text :=
  match s with
  | [] => repeat "\"%char k
  | c :: s' =>
      if Ascii.eqb c "\" then unescaped (S k) s'
      else repeat "\"%char (if (Ascii.eqb c "#" || Ascii.eqb c "@") && Nat.odd k then k - 2 else k)
           ++ c :: unescaped 0 s'
  end.

Definition no_slash (b : text) : Prop := forall b' c, b = b' ++ [c] -> c <> "\"%char.

Lemma no_slash_nil : no_slash [].
Proof. intros b' c E. now destruct b'. Qed.
Lemma no_slash_snoc b c : c <> "\"%char -> no_slash (b ++ [c]).
Proof. intros H b' d E. apply app_inj_tail in E. destruct E as [_ <-]. exact H. Qed.

Lemma unescaped_skip u : Forall (fun c => Ascii.eqb c "#" || Ascii.eqb c "@" = false) u -> forall b k,
  no_slash b ->
  exists b2 k2, b ++ repeat "\"%char k ++ u = b2 ++ repeat "\"%char k2 /\ no_slash b2
    /\ forall w, b ++ unescaped k (u ++ w) = b2 ++ unescaped k2 w.
Proof.
  induction 1 as [|c u H _ IH]; intros b k B.
  - exists b, k. rewrite app_nil_r. split; [easy|split; [easy|easy]].
  - cbn [app unescaped]. destruct (Ascii.eqb_spec c "\") as [->|N].
    + destruct (IH b (S k) B) as (b2 & k2 & E & B2 & W). exists b2, k2. split; [|now split].
      rewrite <- E. f_equal. replace (S k) with (k + 1) by lia. rewrite repeat_app, <- app_assoc. reflexivity.
    + rewrite H. cbn [andb].
      destruct (IH (b ++ repeat "\"%char k ++ [c]) 0) as (b2 & k2 & E & B2 & W).
      { rewrite app_assoc. now apply no_slash_snoc. }
      exists b2, k2. split; [|split; [easy|]].
      * rewrite <- E. cbn [repeat app]. repeat (rewrite <- ?app_assoc; cbn [app]). reflexivity.
      * intros w. rewrite <- W. repeat (rewrite <- ?app_assoc; cbn [app]). reflexivity.
Qed.

Lemma last_other_run b k t : no_slash b ->
  last_other (b ++ repeat "\"%char k ++ t) (length b + k)
  = match length b with 0 => None | S j => Some j end.
Proof.
  intros B. induction k as [|k IH].
  - rewrite Nat.add_0_r. cbn [repeat app]. destruct b as [|x b] using rev_ind; [easy|]. clear IHb.
    rewrite app_length. cbn [length]. rewrite Nat.add_1_r. cbn [last_other].
    rewrite nth_error_app1 by (rewrite app_length; cbn; lia).
    rewrite nth_error_app2 by lia. rewrite Nat.sub_diag. cbn [nth_error].
    destruct (Ascii.eqb_spec x bs) as [->|N]; [|easy]. exfalso. now apply (B b bs).
  - rewrite Nat.add_succ_r. cbn [last_other].
    rewrite nth_error_app2 by lia. replace (length b + k - length b) with k by lia.
    rewrite nth_error_app1 by (rewrite repeat_length; lia).
    rewrite nth_error_repeat by lia. change (Ascii.eqb "\" bs) with true. cbn iota.
    rewrite <- IH.
    replace (b ++ repeat "\"%char (S k) ++ t) with ((b ++ repeat "\"%char k) ++ "\"%char :: t).
    2:{ replace (S k) with (k + 1) by lia. rewrite repeat_app. repeat (rewrite <- ?app_assoc; cbn [app]). reflexivity. }
    rewrite (app_assoc b). rewrite !(last_other_app (b ++ repeat "\"%char k)) by (rewrite app_length, repeat_length; lia).
    reflexivity.
Qed.

Lemma even_run k : ((k + 1) mod 2 =? 0) = Nat.odd k.
Proof.
  rewrite Nat.add_1_r, mod2_0, mod2_S, negb_involutive, <- Nat.bit0_eqb, Nat.bit0_odd. reflexivity.
Qed.

Lemma unescape_loop_spec : forall fuel b k s, no_slash b -> length s < fuel ->
  unescape_loop fuel (b ++ repeat "\"%char k ++ s) (length b + k) = b ++ unescaped k s.
Proof.
  induction fuel as [|f IH]; intros b k s B L; [lia|]. cbn [unescape_loop].
  rewrite (app_assoc b).
  rewrite (find_char_from _ s (b ++ repeat "\"%char k) 0 (length b + k)) by (rewrite app_length, repeat_length; lia).
  pose proof (find_char_first (fun c => Ascii.eqb c "#" || Ascii.eqb c "@") s (length b + k) (length b + k) ltac:(lia)) as P.
  destruct (find_char _ s (length b + k) (length b + k)) as [p|].
  2:{ destruct (unescaped_skip s P b k B) as (b2 & k2 & E & _ & W). specialize (W []).
      rewrite app_nil_r in W. rewrite W, <- app_assoc, E. reflexivity. }
  destruct P as (u & c & w & -> & -> & Pc & N).
  destruct (unescaped_skip u N b k B) as (b2 & k2 & E & B2 & W). rewrite W.
  assert (length b + k + length u = length b2 + k2) as Lp.
  { apply (f_equal (@length ascii)) in E. rewrite !app_length, !repeat_length in E. lia. }
  rewrite Lp. rewrite app_length in L. cbn [length] in L.
  replace ((b ++ repeat "\"%char k) ++ u ++ c :: w) with (b2 ++ repeat "\"%char k2 ++ c :: w).
  2:{ rewrite app_assoc, <- E. repeat (rewrite <- ?app_assoc; cbn [app]). reflexivity. }
  rewrite last_other_run by easy.
  replace (match match length b2 with 0 => None | S j => Some j end with
           | Some l => length b2 + k2 - l | None => length b2 + k2 + 1 end) with (k2 + 1)
    by (destruct (length b2); lia).
  rewrite even_run. cbn [unescaped].
  assert (Ascii.eqb c "\" = false) as Ec.
  { destruct (Ascii.eqb_spec c "\") as [->|]; [discriminate Pc|easy]. }
  assert (c <> "\"%char) as Ec' by now apply Ascii.eqb_neq.
  rewrite Ec, Pc. cbn [andb].
  destruct (Nat.odd k2) eqn:Eo.
  - destruct (2 <? k2 + 1) eqn:El.
    + apply Nat.ltb_lt in El.
      assert (exists j, k2 = j + 3) as [j ->].
      { exists (k2 - 3). destruct k2 as [|[|[|k2]]]; try lia. discriminate Eo. }
      replace (length b2 + (j + 3) - 3) with (length b2 + j) by lia.
      replace (j + 3 - 2) with (j + 1) by lia.
      replace (firstn (length b2 + j) (b2 ++ repeat "\"%char (j + 3) ++ c :: w)) with (b2 ++ repeat "\"%char j).
      2:{ rewrite repeat_app. rewrite <- app_assoc. rewrite (app_assoc b2).
          replace (length b2 + j) with (length (b2 ++ repeat "\"%char j)) by (rewrite app_length, repeat_length; lia).
          now rewrite firstn_app_exact. }
      replace (skipn (length b2 + (j + 3)) (b2 ++ repeat "\"%char (j + 3) ++ c :: w)) with (c :: w).
      2:{ rewrite (app_assoc b2).
          replace (length b2 + (j + 3)) with (length (b2 ++ repeat "\"%char (j + 3))) by (rewrite app_length, repeat_length; lia).
          now rewrite skipn_app_exact. }
      pose proof (IH ((b2 ++ repeat "\"%char (j + 1)) ++ [c]) 0 w (no_slash_snoc _ _ Ec') ltac:(lia)) as H.
      cbn [repeat app] in H. rewrite !app_length, repeat_length in H. cbn [length] in H.
      replace (length b2 + (j + 3) - 2 + 1) with (length b2 + (j + 1) + 1 + 0) by lia.
      replace ((b2 ++ repeat "\"%char j) ++ "\"%char :: c :: w) with (((b2 ++ repeat "\"%char (j + 1)) ++ [c]) ++ w).
      2:{ rewrite repeat_app. repeat (rewrite <- ?app_assoc; cbn [app repeat]). reflexivity. }
      rewrite H. repeat (rewrite <- ?app_assoc; cbn [app]). reflexivity.
    + apply Nat.ltb_ge in El. assert (k2 = 1) as -> by (destruct k2 as [|[|k2]]; [discriminate Eo|easy|lia]).
      cbn [Nat.sub repeat app].
      replace (length b2 + 1 - 1) with (length b2) by lia. rewrite firstn_app_exact.
      replace (skipn (length b2 + 1) (b2 ++ "\"%char :: c :: w)) with (c :: w).
      2:{ change ("\"%char :: c :: w) with (["\"%char] ++ c :: w). rewrite (app_assoc b2).
          replace (length b2 + 1) with (length (b2 ++ ["\"%char])) by (rewrite app_length; cbn; lia).
          now rewrite skipn_app_exact. }
      destruct w as [|d w].
      * (* nothing follows *)
        destruct f as [|f]; [cbn in L; lia|]. cbn [unescape_loop].
        pose proof (IH (b2 ++ [c]) 1 [] (no_slash_snoc _ _ Ec')) as _.
        assert (forall n, find_char (fun c => Ascii.eqb c "#" || Ascii.eqb c "@") (b2 ++ [c]) n (n + length b2 + 2) = None) as Fn.
        { clear. induction b2 as [|x b2 IH]; intros n; cbn [app find_char length].
          - replace (n + 0 + 2 <=? n) with false by (symmetry; apply Nat.leb_gt; lia). reflexivity.
          - replace (n + S (length b2) + 2 <=? n) with false by (symmetry; apply Nat.leb_gt; lia). cbn [andb].
            specialize (IH (S n)). replace (n + S (length b2) + 2) with (S n + length b2 + 2) by lia. exact IH. }
        specialize (Fn 0). replace (length b2 + 1 + 1) with (0 + length b2 + 2) by lia. rewrite Fn. reflexivity.
      * (* the character that is skipped *)
        change (b2 ++ c :: d :: w) with (b2 ++ [c] ++ d :: w).
        destruct (Ascii.eqb_spec d "\") as [->|Nd].
        -- pose proof (IH (b2 ++ [c]) 1 w (no_slash_snoc _ _ Ec') ltac:(cbn in L; lia)) as H.
           rewrite app_length in H. cbn [length repeat app] in H.
           replace (b2 ++ [c] ++ "\"%char :: w) with ((b2 ++ [c]) ++ "\"%char :: w) by now rewrite <- app_assoc.
           rewrite H. cbn. now rewrite <- app_assoc.
        -- pose proof (IH ((b2 ++ [c]) ++ [d]) 0 w (no_slash_snoc _ _ Nd) ltac:(cbn in L; lia)) as H.
           rewrite !app_length in H. cbn [length repeat app] in H.
           replace (b2 ++ [c] ++ d :: w) with (((b2 ++ [c]) ++ [d]) ++ w)
             by (repeat (rewrite <- ?app_assoc; cbn [app]); reflexivity).
           replace (length b2 + 1 + 1) with (length b2 + 1 + 1 + 0) by lia. rewrite H. cbn [unescaped].
           replace (Ascii.eqb d "\") with false by (symmetry; now apply Ascii.eqb_neq).
           cbn [Nat.odd]. change (Nat.odd 0) with false. rewrite andb_false_r. cbn [repeat app].
           repeat (rewrite <- ?app_assoc; cbn [app]). reflexivity.
  - pose proof (IH ((b2 ++ repeat "\"%char k2) ++ [c]) 0 w (no_slash_snoc _ _ Ec') ltac:(lia)) as H.
    cbn [repeat app] in H. rewrite !app_length, repeat_length in H. cbn [length] in H.
    replace (b2 ++ repeat "\"%char k2 ++ c :: w) with (((b2 ++ repeat "\"%char k2) ++ [c]) ++ w)
      by (repeat (rewrite <- ?app_assoc; cbn [app]); reflexivity).
    replace (length b2 + k2 + 1) with (length b2 + k2 + 1 + 0) by lia. rewrite H.
    repeat (rewrite <- ?app_assoc; cbn [app]). reflexivity.
Qed.

(** C86: the value of a definition. *)
Theorem C86_value v : unescape v = unescaped 0 v.
Proof. unfold unescape. exact (unescape_loop_spec (S (length v)) [] 0 v no_slash_nil ltac:(lia)). Qed.
Print Assumptions C86_value.
Example C86_example_value : unescape (lit " a\@b\\@c\\\#d@") = lit " a@b\\@c\#d@".
Proof. reflexivity. Qed.

(** * Conditions *)

Section Programs.
Context {X : Type}.

(** What a file says: definitions, things to do, and conditions with a part for
    each case. *)
Inductive prog :=
| PNil
| PDefine (name value : text) (p : prog)
| PDo (x : X) (p : prog)
| PIf (expected : bool) (name : text) (yes p : prog)
| PIfElse (expected : bool) (name : text) (yes no p : prog).

Fixpoint written (p : prog) : list (command X) :=
  match p with
  | PNil => []
  | PDefine n v p => Define n v :: written p
  | PDo x p => Do x :: written p
  | PIf e n yes p => If e n :: written yes ++ EndIf :: written p
  | PIfElse e n yes no p => If e n :: written yes ++ Else :: written no ++ EndIf :: written p
  end.

(** What it means: what is to be done and what is defined in the end; the first
    definition of a name stays. *)
Definition has (ds : list (text * text)) (n : text) : Prop := exists v, In (n, v) ds.
Inductive means : prog -> list (text * text) -> list X -> list (text * text) -> Prop :=
| means_nil ds : means PNil ds [] ds
| means_new n v p ds out ds' : ~ has ds n -> means p (ds ++ [(n, v)]) out ds' -> means (PDefine n v p) ds out ds'
| means_old n v p ds out ds' : has ds n -> means p ds out ds' -> means (PDefine n v p) ds out ds'
| means_do x p ds out ds' : means p ds out ds' -> means (PDo x p) ds (x :: out) ds'
| means_if e n yes p ds out1 ds1 out2 ds2 :
    (has ds n <-> e = true) -> means yes ds out1 ds1 -> means p ds1 out2 ds2 ->
    means (PIf e n yes p) ds (out1 ++ out2) ds2
| means_not e n yes p ds out ds' :
    ~ (has ds n <-> e = true) -> means p ds out ds' -> means (PIf e n yes p) ds out ds'
| means_then e n yes no p ds out1 ds1 out2 ds2 :
    (has ds n <-> e = true) -> means yes ds out1 ds1 -> means p ds1 out2 ds2 ->
    means (PIfElse e n yes no p) ds (out1 ++ out2) ds2
| means_else e n yes no p ds out1 ds1 out2 ds2 :
    ~ (has ds n <-> e = true) -> means no ds out1 ds1 -> means p ds1 out2 ds2 ->
    means (PIfElse e n yes no p) ds (out1 ++ out2) ds2.

(** No condition with an else part. *)
Fixpoint plain (p : prog) : Prop :=
  match p with
  | PNil => True
  | PDefine _ _ p | PDo _ p => plain p
  | PIf _ _ yes p => plain yes /\ plain p
  | PIfElse _ _ _ _ _ => False
  end.
(** Conditions with an else part are not inside other conditions. *)
Fixpoint flat (p : prog) : Prop :=
  match p with
  | PNil => True
  | PDefine _ _ p | PDo _ p => flat p
  | PIf _ _ yes p => plain yes /\ flat p
  | PIfElse _ _ yes no p => plain yes /\ plain no /\ flat p
  end.

Lemma text_eqb_iff a b : text_eqb a b = true <-> a = b.
Proof. unfold text_eqb. destruct (list_eq_dec ascii_dec a b); split; congruence. Qed.
Lemma defined_has ds n : defined ds n = true <-> has ds n.
Proof.
  unfold defined, has. rewrite existsb_exists. split.
  - intros ([m v] & I & E). apply text_eqb_iff in E. cbn in E. subst m. now exists v.
  - intros [v I]. exists (n, v). split; [easy|]. now apply text_eqb_iff.
Qed.
Lemma skip_iff ds n e : Bool.eqb (negb (defined ds n)) e = true <-> ~ (has ds n <-> e = true).
Proof.
  rewrite <- defined_has. destruct (defined ds n), e; cbn; intuition congruence.
Qed.
Lemma skip_not ds n e : Bool.eqb (negb (defined ds n)) e = false <-> (has ds n <-> e = true).
Proof.
  rewrite <- defined_has. destruct (defined ds n), e; cbn; intuition congruence.
Qed.

Lemma skipped_plain p : plain p -> forall cs es ds out,
  obey_all (written p ++ cs) (St false es ds out) = obey_all cs (St false es ds out).
Proof.
  induction p as [|n v p IH|x p IH|e n yes IH1 p IH2|e n yes _ no _ p _]; cbn [plain written]; intros H cs es ds out.
  - easy.
  - cbn. now apply IH.
  - cbn. now apply IH.
  - destruct H as [H1 H2]. cbn [app obey_all obey opened andb stack M_TpRules.defs done].
    rewrite <- app_assoc, IH1 by easy. cbn [app obey_all obey stack opened value negb andb M_TpRules.defs done].
    now apply IH2.
  - easy.
Qed.
Lemma plain_flat p : plain p -> flat p.
Proof. induction p; cbn; tauto. Qed.

Lemma obey_means p ds out ds' : means p ds out ds' -> flat p -> forall cs es acc,
  obey_all (written p ++ cs) (St true es ds acc) = obey_all cs (St true es ds' (acc ++ out)).
Proof.
  induction 1 as [ds|n v p ds out ds' Hn _ IH|n v p ds out ds' Hn _ IH|x p ds out ds' _ IH
                 |e n yes p ds out1 ds1 out2 ds2 Hc _ IH1 _ IH2|e n yes p ds out ds' Hc _ IH
                 |e n yes no p ds out1 ds1 out2 ds2 Hc _ IH1 _ IH2|e n yes no p ds out1 ds1 out2 ds2 Hc _ IH1 _ IH2];
    cbn [flat written]; intros F cs es acc.
  - now rewrite app_nil_r.
  - cbn [app obey_all obey opened stack M_TpRules.defs done].
    destruct (defined ds n) eqn:E; [apply defined_has in E; contradiction|]. now apply IH.
  - cbn [app obey_all obey opened stack M_TpRules.defs done].
    apply defined_has in Hn. rewrite Hn. now apply IH.
  - cbn [app obey_all obey opened stack M_TpRules.defs done]. rewrite IH by easy. now rewrite <- app_assoc.
  - destruct F as [F1 F2]. cbn [app obey_all obey opened stack M_TpRules.defs done andb].
    apply skip_not in Hc. rewrite Hc. rewrite <- app_assoc, IH1 by now apply plain_flat.
    cbn [app obey_all obey opened stack M_TpRules.defs done value negb andb].
    rewrite IH2 by easy. now rewrite <- app_assoc.
  - destruct F as [F1 F2]. cbn [app obey_all obey opened stack M_TpRules.defs done andb].
    apply skip_iff in Hc. rewrite Hc. rewrite <- app_assoc, skipped_plain by easy.
    cbn [app obey_all obey opened stack M_TpRules.defs done value negb andb]. now apply IH.
  - destruct F as (F1 & F2 & F3). cbn [app obey_all obey opened stack M_TpRules.defs done andb].
    apply skip_not in Hc. rewrite Hc. rewrite <- app_assoc, IH1 by now apply plain_flat.
    cbn [app obey_all obey opened stack M_TpRules.defs done value negb andb].
    rewrite <- app_assoc, skipped_plain by easy.
    cbn [app obey_all obey opened stack M_TpRules.defs done value negb andb].
    rewrite IH2 by easy. now rewrite <- app_assoc.
  - destruct F as (F1 & F2 & F3). cbn [app obey_all obey opened stack M_TpRules.defs done andb].
    apply skip_iff in Hc. rewrite Hc. rewrite <- app_assoc, skipped_plain by easy.
    cbn [app obey_all obey opened stack M_TpRules.defs done value is_else negb andb].
    rewrite <- app_assoc, IH1 by now apply plain_flat.
    cbn [app obey_all obey opened stack M_TpRules.defs done value negb andb].
    rewrite IH2 by easy. now rewrite <- app_assoc.
Qed.

(** C86: a file of which the conditions with an else part are not inside others is
    obeyed as it is meant. *)
Theorem C86_conditions p ds : flat p ->
  exists out ds', means p ds out ds' /\ obey_file (written p) ds = Running (St true [] ds' out).
Proof.
  intros F.
  assert (exists out ds', means p ds out ds') as (out & ds' & M).
  { clear F. revert ds. induction p as [|n v p IH|x p IH|e n yes IH1 p IH2|e n yes IH1 no IH2 p IH3]; intros ds.
    - exists [], ds. constructor.
    - destruct (defined ds n) eqn:E.
      + destruct (IH ds) as (out & ds' & M). exists out, ds'. apply means_old; [now apply defined_has|easy].
      + destruct (IH (ds ++ [(n, v)])) as (out & ds' & M). exists out, ds'. apply means_new; [|easy].
        intros H%defined_has. congruence.
    - destruct (IH ds) as (out & ds' & M). exists (x :: out), ds'. now constructor.
    - destruct (Bool.eqb (negb (defined ds n)) e) eqn:E.
      + destruct (IH2 ds) as (out & ds' & M). exists out, ds'. apply means_not; [now apply skip_iff|easy].
      + destruct (IH1 ds) as (out1 & ds1 & M1), (IH2 ds1) as (out2 & ds2 & M2).
        exists (out1 ++ out2), ds2. apply means_if with (ds1 := ds1); [now apply skip_not|easy|easy].
    - destruct (Bool.eqb (negb (defined ds n)) e) eqn:E.
      + destruct (IH2 ds) as (out1 & ds1 & M1), (IH3 ds1) as (out2 & ds2 & M2).
        exists (out1 ++ out2), ds2. apply means_else with (ds1 := ds1); [now apply skip_iff|easy|easy].
      + destruct (IH1 ds) as (out1 & ds1 & M1), (IH3 ds1) as (out2 & ds2 & M2).
        exists (out1 ++ out2), ds2. apply means_then with (ds1 := ds1); [now apply skip_not|easy|easy]. }
  exists out, ds'. split; [easy|]. unfold obey_file.
  pose proof (obey_means p ds out ds' M F [] [] []) as H. rewrite app_nil_r in H. rewrite H. reflexivity.
Qed.
End Programs.
Print Assumptions C86_conditions.
Arguments prog : clear implicits.

(** Every file means one thing. *)
Theorem C86_meaning {X} (p : prog X) ds out1 ds1 out2 ds2 :
  means p ds out1 ds1 -> means p ds out2 ds2 -> out1 = out2 /\ ds1 = ds2.
Proof.
  intros M. revert out2 ds2. induction M; intros o2 d2 M'; inversion M'; subst; try tauto; try contradiction.
  - now apply IHM.
  - now apply IHM.
  - match goal with H : means p _ _ _ |- _ => apply IHM in H; destruct H as [-> ->] end. easy.
  - match goal with H : means yes _ _ _ |- _ => apply IHM1 in H; destruct H as [-> ->] end.
    match goal with H : means p _ _ _ |- _ => apply IHM2 in H; destruct H as [-> ->] end. easy.
  - now apply IHM.
  - match goal with H : means yes _ _ _ |- _ => apply IHM1 in H; destruct H as [-> ->] end.
    match goal with H : means p _ _ _ |- _ => apply IHM2 in H; destruct H as [-> ->] end. easy.
  - match goal with H : means no _ _ _ |- _ => apply IHM1 in H; destruct H as [-> ->] end.
    match goal with H : means p _ _ _ |- _ => apply IHM2 in H; destruct H as [-> ->] end. easy.
Qed.
Print Assumptions C86_meaning.

Example C86_example_conditions :
  let p := PDefine (lit "A") (lit "1") (PDefine (lit "A") (lit "2")
             (PIfElse true (lit "A") (PDo 1 (PIf false (lit "B") (PDo 2 PNil) (PDo 3 PNil))) (PDo 4 PNil) (PDo 5 PNil))) in
  flat p /\ obey_file (written p) [] = Running (St true [] [(lit "A", lit "1")] [1; 2; 3; 5]).
Proof. split; [cbn; tauto|reflexivity]. Qed.

(** The end of a condition with an else part opens the text, even inside a part
    that is to be skipped. *)
Theorem C86_nested_refuted : exists (p : prog nat),
  means p [] [] []
  /\ obey_file (written p) [] = Running (St true [] [] [2]).
Proof.
  exists (PIf true (lit "A") (PIfElse true (lit "B") (PDo 0 PNil) (PDo 1 PNil) (PDo 2 PNil)) PNil).
  split; [|reflexivity]. apply means_not; [|constructor].
  intros [_ H]. destruct (H eq_refl) as [v []].
Qed.
Print Assumptions C86_nested_refuted.
(** A second else is refused in some conditions and not in others. *)
Theorem C86_else_refuted :
  obey_file [If true (lit "A"); Do 0; Else; Do 1; Else; Do 2; EndIf] [] = Running (St true [] [] [1])
  /\ obey_file [If false (lit "A"); Do 0; Else; Do 1; Else; Do 2; EndIf] [] = TooManyElse.
Proof. split; reflexivity. Qed.
Print Assumptions C86_else_refuted.
(** An else without a condition reads the end of an empty list. *)
Theorem C86_stack_refuted : exists cs : list (command nat), obey_file cs [] = EmptyStack.
Proof. now exists [Do 0; Else]. Qed.
Print Assumptions C86_stack_refuted.

(** * Tokens *)

(** C86: a token is what the last rule of the file that matches here says, the
    main rule apart; if none does, it is one symbol of category X. *)
Theorem C86_token symbol file s :
  (exists l1 r l2 k, file = l1 ++ r :: l2 /\ name r <> lit "main_regex" /\ consumes r s = Some k
     /\ Forall (fun q => name q <> lit "main_regex" -> consumes q s = None) l2
     /\ cut_token symbol (regs file) s = (category r, k))
  \/ (Forall (fun q => name q <> lit "main_regex" -> consumes q s = None) file
      /\ cut_token symbol (regs file) s = (lit "X", symbol)).
Proof.
  unfold regs. induction file as [|r file IH] using rev_ind; [right; split; [constructor|reflexivity]|].
  rewrite filter_app, rev_app_distr. cbn [filter].
  destruct (text_eqb (name r) main_name) eqn:E; cbn [negb rev app].
  - apply text_eqb_iff in E. destruct IH as [(l1 & q & l2 & k & -> & N & C & F & H)|[F H]].
    + left. exists l1, q, (l2 ++ [r]), k. rewrite <- app_assoc. split; [easy|split; [easy|split; [easy|split; [|easy]]]].
      apply Forall_app. split; [easy|]. constructor; [|constructor]. now intros.
    + right. split; [|easy]. apply Forall_app. split; [easy|]. constructor; [|constructor]. now intros.
  - assert (name r <> lit "main_regex") as N.
    { intros H. change (lit "main_regex") with main_name in H. apply text_eqb_iff in H. congruence. }
    cbn [cut_token]. destruct (consumes r s) as [k|] eqn:Ec.
    + left. exists file, r, [], k. split; [easy|split; [easy|split; [easy|split; [constructor|easy]]]].
    + destruct IH as [(l1 & q & l2 & k & -> & N' & C & F & H)|[F H]].
      * left. exists l1, q, (l2 ++ [r]), k. rewrite <- app_assoc. split; [easy|split; [easy|split; [easy|split; [|easy]]]].
        apply Forall_app. split; [easy|]. constructor; [|constructor]. now intros.
      * right. split; [|easy]. apply Forall_app. split; [easy|]. constructor; [|constructor]. now intros.
Qed.
Print Assumptions C86_token.
Example C86_example_token :
  let any k := fun s : text => if k <=? length s then Some k else None in
  cut_token 1 (regs [Rule (lit "a") (lit "T") (any 2); Rule (lit "b") (lit "U") (any 3);
                     Rule (lit "main_regex") (lit "M") (any 0); Rule (lit "c") (lit "V") (any 9)]) (lit "abcd")
  = (lit "U", 3).
Proof. reflexivity. Qed.

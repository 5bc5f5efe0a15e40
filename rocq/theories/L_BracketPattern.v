(** Lemmas for the bracketing writer: patterns and what is printed for them. *)
From Coq Require Import String Ascii List ZArith NArith Bool Arith Lia Permutation.
From Verif Require Import M_Quoter M_Cutter M_Bracketing.
Import ListNotations.
Local Open Scope nat_scope.
Local Open Scope char_scope.

(** ** What patterns mean *)
(** A pattern is made of bytes, of directives for the data of an edge, and of at most one list (at any depth). *)
Inductive token := Plain (c : ascii) | Percent | Category | Text | Tags | Attributes | Score | Role | Attribute (o : ascii) (name : str).
Inductive pattern :=
| Flat (ts : list token)
| Joining (pre : list token) (o : ascii) (sep : str) (sub : pattern) (post : list token).
Definition spell_token (t : token) : str :=
  match t with
  | Plain c => [c] | Percent => ["%"] | Category => ["%"; "c"] | Text => ["%"; "t"] | Tags => ["%"; "T"] | Attributes => ["%"; "A"]
  | Score => ["%"; "s"] | Role => ["%"; "r"] | Attribute o n => "%" :: "a" :: o :: n ++ [close o]
  end.
Definition spell_tokens : list token -> str := flat_map spell_token.
Fixpoint spell (p : pattern) : str :=
  match p with
  | Flat ts => spell_tokens ts
  | Joining pre o sep sub post => spell_tokens pre ++ ("%" :: "*" :: o :: sep ++ close o :: o :: spell sub ++ [close o]) ++ spell_tokens post
  end.
Definition DIRECTIVES : str := ["T"; "c"; "t"; "a"; "A"; "s"; "*"; "r"].
(** A per cent sign stands for itself if no directive follows. *)
Fixpoint fine (ts : list token) (rest : str) : Prop :=
  match ts with
  | [] => True
  | Plain c :: ts' => c <> "%" /\ fine ts' rest
  | Percent :: ts' => match spell_tokens ts' ++ rest with [] => True | d :: _ => ~ In d DIRECTIVES end /\ fine ts' rest
  | Attribute o n :: ts' => ~ In (close o) n /\ fine ts' rest
  | _ :: ts' => fine ts' rest
  end.
Fixpoint fine_pattern (p : pattern) : Prop :=
  match p with
  | Flat ts => fine ts []
  | Joining pre o sep sub post =>
      fine pre ["%"; "*"] /\ fine post [] /\ ~ In (close o) sep /\ ~ In (close o) (spell sub) /\ spell sub <> [] /\ fine_pattern sub
  end.
Definition tokens_of (p : pattern) : list token := match p with Flat ts => ts | Joining pre _ _ _ post => pre ++ post end.

(** A list with separators; what is empty at the beginning has none. *)
Fixpoint intercalate (sep : str) (xs : list str) : str :=
  match xs with [] => [] | [x] => x | x :: xs' => x ++ sep ++ intercalate sep xs' end.
Fixpoint from_first (xs : list str) : list str := match xs with [] :: xs' => from_first xs' | _ => xs end.
Definition equal (a b : str) : bool := if list_eq_dec ascii_dec a b then true else false.
(** The value of an attribute; none is empty. *)
Fixpoint value_in (m : av_map) (k : str) : str := match m with [] => [] | (x, v) :: m' => if equal x k then v else value_in m' k end.

(** ** Strings and maps *)
Lemma str_same_spec a b : str_same a b = true <-> a = b.
Proof.
  revert b. induction a as [|x a IH]; intros [|y b]; cbn; split; try discriminate; try reflexivity.
  - rewrite andb_true_iff, IH. intros [E ->]. apply Ascii.eqb_eq in E. now subst.
  - intros E. injection E as -> ->. rewrite Ascii.eqb_refl. now apply IH.
Qed.
Lemma equal_spec a b : equal a b = true <-> a = b.
Proof. unfold equal. destruct (list_eq_dec ascii_dec a b); split; congruence. Qed.
Lemma str_same_equal a b : str_same a b = equal a b.
Proof. apply eq_true_iff_eq. rewrite str_same_spec, equal_spec. tauto. Qed.
Lemma strs_same_spec a b : strs_same a b = true <-> a = b.
Proof.
  revert b. induction a as [|x a IH]; intros [|y b]; cbn; split; try discriminate; try reflexivity.
  - rewrite andb_true_iff, IH, str_same_spec. intros [-> ->]. reflexivity.
  - intros E. injection E as -> ->. rewrite andb_true_iff, IH, str_same_spec. auto.
Qed.
Lemma str_empty_equal a : str_empty a = equal a [].
Proof. now destruct a. Qed.
Lemma value_get m k : av_value m k = value_in m k.
Proof. unfold av_value. induction m as [|[x v] m IH]; cbn; [reflexivity|]. rewrite str_same_equal. destruct (equal x k); [reflexivity|exact IH]. Qed.
Lemma get_in m k : In k (map fst m) <-> exists v, av_get m k = Some v.
Proof.
  induction m as [|[x v] m IH]; cbn; [split; [intros []|intros [v H]; discriminate]|]. destruct (str_same x k) eqn:E.
  - apply str_same_spec in E. split; eauto.
  - rewrite <- IH. split; [|now right]. intros [->|H]; [|assumption]. exfalso. enough (str_same k k = true) by congruence. now apply str_same_spec.
Qed.
Lemma touch_in m k : In k (map fst m) -> av_touch m k = m.
Proof. intros H. apply get_in in H as [v E]. unfold av_touch. now rewrite E. Qed.
Lemma insert_get k v m k' : av_get (av_insert k v m) k' = if equal k k' then Some v else av_get m k'.
Proof.
  induction m as [|[x w] m IH]; cbn; [now rewrite str_same_equal|]. destruct (str_same x k) eqn:E.
  - apply str_same_spec in E as ->. cbn. rewrite str_same_equal. now destruct (equal k k').
  - destruct (str_less k x); cbn; rewrite ?str_same_equal; [now destruct (equal k k')|]. rewrite IH. destruct (equal x k') eqn:Ex; [|reflexivity].
    apply equal_spec in Ex as ->. destruct (equal k k') eqn:Ek; [|reflexivity]. apply equal_spec in Ek as ->. rewrite str_same_equal in E. unfold equal in E. now destruct (list_eq_dec ascii_dec k' k').
Qed.
Lemma insert_value k v m k' : av_value (av_insert k v m) k' = if equal k k' then v else av_value m k'.
Proof. unfold av_value. rewrite insert_get. now destruct (equal k k'). Qed.
Lemma insert_keys k v m k' : In k' (map fst (av_insert k v m)) <-> k' = k \/ In k' (map fst m).
Proof.
  induction m as [|[x w] m IH]; cbn; [split; [intros [<-|[]]; now left|intros [->|[]]; now left]|]. destruct (str_same x k) eqn:E; cbn.
  - apply str_same_spec in E as ->. split; [intros [<-|H]; auto|intros [->|[->|H]]; auto].
  - destruct (str_less k x); cbn; [split; [intros [<-|[<-|H]]; auto|intros [->|[->|H]]; auto]|]. rewrite IH. split; [intros [<-|[->|H]]; auto|intros [->|[->|H]]; auto].
Qed.

(** ** Joining *)
Lemma joined_some sep xs : forall s, s <> [] -> fold_left (fun s x => s ++ (if str_empty s then [] else sep) ++ x) xs s = s ++ flat_map (fun x => sep ++ x) xs.
Proof.
  induction xs as [|x xs IH]; intros s Hs; cbn; [now rewrite app_nil_r|]. destruct s as [|c s]; [now destruct Hs|]. cbn [str_empty]. rewrite IH by discriminate. now rewrite <- !app_assoc.
Qed.
Lemma intercalate_cons sep x xs : intercalate sep (x :: xs) = x ++ flat_map (fun y => sep ++ y) xs.
Proof. revert x. induction xs as [|y xs IH]; intros x; [cbn; now rewrite app_nil_r|]. cbn [intercalate] in *. rewrite IH. cbn. now rewrite <- app_assoc. Qed.
Lemma joined_spec sep xs : joined sep xs = intercalate sep (from_first xs).
Proof.
  unfold joined. induction xs as [|x xs IH]; [reflexivity|]. cbn [fold_left str_empty app]. destruct x as [|c x]; [exact IH|]. cbn [from_first]. rewrite intercalate_cons. now apply joined_some.
Qed.

Section Meaning.
Context {score edge : Type}.
Variable show : score -> str.
Variable zero : score.
Variable same : score -> score -> bool.
Variable tag_separator pair_separator av_separator : str.
Notation edge_data := (edge_data score edge).
Definition render_token (e : edge_data) (t : token) : str :=
  match t with
  | Plain c => [c] | Percent => ["%"] | Category => category _ _ e | Text => text _ _ e
  | Tags => intercalate tag_separator (from_first (tags _ _ e))
  | Attributes => intercalate pair_separator (from_first (map (fun p => fst p ++ av_separator ++ snd p) (avs _ _ e)))
  | Score => show (points _ _ e) | Role => role _ _ e | Attribute _ n => value_in (avs _ _ e) n
  end.
Definition render_tokens (e : edge_data) : list token -> str := flat_map (render_token e).
(** Whether a second edge has what is printed of the first one; what is empty or zero does not count. *)
Definition shares (e e2 : edge_data) (t : token) : bool :=
  match t with
  | Category => equal (category _ _ e) [] || equal (category _ _ e2) (category _ _ e)
  | Text => equal (text _ _ e) [] || equal (text _ _ e2) (text _ _ e)
  | Tags => match tags _ _ e with [] => true | _ => if list_eq_dec (list_eq_dec ascii_dec) (tags _ _ e2) (tags _ _ e) then true else false end
  | Score => same (points _ _ e) zero || same (points _ _ e2) (points _ _ e)
  | Attribute _ n => equal (value_in (avs _ _ e2) n) (value_in (avs _ _ e) n)
  | Attributes => forallb (fun kv => equal (value_in (avs _ _ e2) (fst kv)) (value_in (avs _ _ e) (fst kv))) (avs _ _ e)
  | _ => true
  end.
Definition friends (ts : list token) (es : list edge_data) (e : edge_data) : list edge_data := filter (fun e2 => forallb (shares e e2) ts) es.
(** [ts]: what the printer shows of an edge outside lists. *)
Fixpoint render (p : pattern) (ts : list token) (es : list edge_data) (e : edge_data) : str :=
  match p with
  | Flat l => render_tokens e l
  | Joining pre o sep sub post =>
      render_tokens e pre ++ intercalate sep (from_first (map (render sub (tokens_of sub) (friends ts es e)) (friends ts es e))) ++ render_tokens e post
  end.
(** The edges of a place have all attributes that patterns name, and no empty ones. *)
Fixpoint names (p : pattern) : list str :=
  match p with
  | Flat ts => flat_map (fun t => match t with Attribute _ n => [n] | _ => [] end) ts
  | Joining pre _ _ sub post => flat_map (fun t => match t with Attribute _ n => [n] | _ => [] end) (pre ++ post) ++ names sub
  end.
Definition complete (ns : list str) (e : edge_data) : Prop :=
  (forall n, In n ns -> In n (map fst (avs _ _ e))) /\ (forall k v, In (k, v) (avs _ _ e) -> v <> []).
(** No per cent sign is printed in front of a list. *)
Definition quiet (ts : list token) (e : edge_data) : Prop := forall t, In t ts -> ~ In "%" (render_token e t).
Fixpoint quiet_pattern (p : pattern) (e : edge_data) : Prop :=
  match p with Flat _ => True | Joining pre _ _ sub _ => quiet pre e /\ quiet_pattern sub e end.

(** ** The scanner *)
Notation scan := (scan score edge show tag_separator pair_separator av_separator).
Notation printing := (printing score).
(** What a token does. *)
Definition step (e : edge_data) (st : printing) (t : token) : printing :=
  let st' := put _ (render_token e t) st in
  match t with
  | Category => with_category _ (category _ _ e) st' | Text => with_text _ (text _ _ e) st' | Tags => with_tags _ (tags _ _ e) st'
  | Score => with_points _ (points _ _ e) st' | Attributes => with_maps _ (map_ _ st) (map_ _ st) st'
  | Attribute _ n => with_maps _ (map_ _ st) (av_insert n (value_in (avs _ _ e) n) (this_avs _ st)) st'
  | _ => st'
  end.
Definition steps (e : edge_data) : list token -> printing -> printing := fun ts st => fold_left (step e) ts st.
Lemma char_at_app a b k : char_at (a ++ b) (length a + k) = char_at b k.
Proof. unfold char_at. rewrite app_nth2 by lia. f_equal. lia. Qed.
Lemma skipn_app_at {A} (a b : list A) k : skipn (length a + k) (a ++ b) = skipn k b.
Proof. induction a as [|x a IH]; [reflexivity|exact IH]. Qed.
Lemma char_here a c b : char_at (a ++ c :: b) (length a) = c.
Proof. rewrite <- (Nat.add_0_r (length a)). now rewrite char_at_app. Qed.
Lemma skipn_here {A} (a b : list A) : skipn (length a) (a ++ b) = b.
Proof. induction a as [|x a IH]; [reflexivity|exact IH]. Qed.
Lemma find_in_app c a b : ~ In c a -> find_in c (a ++ c :: b) = Some (length a).
Proof.
  induction a as [|x a IH]; cbn; intros H; [now rewrite Ascii.eqb_refl|]. destruct (Ascii.eqb_spec x c) as [E|E]; [exfalso; auto|]. rewrite IH by auto. reflexivity.
Qed.
Lemma find_at c a b d from : from = length a -> ~ In c b -> find_from c (a ++ b ++ c :: d) from = Some (length a + length b).
Proof. intros -> H. unfold find_from. rewrite skipn_here, find_in_app by assumption. reflexivity. Qed.
Lemma sub_str_app a b c : sub_str (a ++ b ++ c) (length a) (length a + length b) = b.
Proof.
  unfold sub_str. replace (length a + length b - length a) with (length b) by lia. rewrite skipn_here.
  rewrite firstn_app, Nat.sub_diag, firstn_all. cbn. apply app_nil_r.
Qed.
(** One step at a per cent sign. *)
Lemma at_percent a d r : Nat.ltb (length a) (length (a ++ "%" :: d :: r)) = true /\ Nat.ltb (length a + 1) (length (a ++ "%" :: d :: r)) = true /\
  char_at (a ++ "%" :: d :: r) (length a) = "%" /\ char_at (a ++ "%" :: d :: r) (length a + 1) = d.
Proof.
  rewrite app_length. cbn [length]. repeat split; try (apply Nat.ltb_lt; lia).
  - rewrite <- (Nat.add_0_r (length a)). now rewrite char_at_app.
  - now rewrite char_at_app.
Qed.
Lemma scan_token f e a t r st : fine [t] r -> map_ _ st = avs _ _ e -> (forall o n, t = Attribute o n -> In n (map fst (avs _ _ e))) ->
  scan (S f) e (a ++ spell_token t ++ r) (length a) st = scan f e (a ++ spell_token t ++ r) (length a + length (spell_token t)) (step e st t).
Proof.
  intros F M I. destruct t as [c| | | | | | | |o n]; cbn [spell_token app] in *.
  - cbn [M_Bracketing.scan]. rewrite app_length. cbn [length]. destruct (Nat.ltb_spec (length a) (length a + S (length r))); [|lia].
    rewrite !char_here. destruct F as [F _]. destruct (Ascii.eqb_spec c "%"); [contradiction|]. reflexivity.
  - destruct r as [|d r].
    + cbn [M_Bracketing.scan]. rewrite app_length. cbn [length]. destruct (Nat.ltb_spec (length a) (length a + 1)); [|lia].
      destruct (Nat.ltb_spec (length a + 1) (length a + 1)); [lia|]. rewrite andb_false_r, char_here. reflexivity.
    + destruct (at_percent a d r) as [E1 [E2 [E3 E4]]]. cbn [M_Bracketing.scan]. rewrite E1, E2, E3, E4. rewrite Ascii.eqb_refl. cbn [andb]. cbv zeta. destruct F as [F _]. cbn in F.
      repeat match goal with |- (if (d =? ?x) then _ else _) = _ => let E := fresh in destruct (Ascii.eqb_spec d x) as [E|E]; [exfalso; apply F; subst; tauto|] end. reflexivity.
  - destruct (at_percent a "c" r) as [E1 [E2 [E3 E4]]]. cbn [M_Bracketing.scan]. rewrite E1, E2, E3, E4. reflexivity.
  - destruct (at_percent a "t" r) as [E1 [E2 [E3 E4]]]. cbn [M_Bracketing.scan]. rewrite E1, E2, E3, E4. reflexivity.
  - destruct (at_percent a "T" r) as [E1 [E2 [E3 E4]]]. cbn [M_Bracketing.scan]. rewrite E1, E2, E3, E4. cbn. now rewrite joined_spec.
  - destruct (at_percent a "A" r) as [E1 [E2 [E3 E4]]]. cbn [M_Bracketing.scan]. rewrite E1, E2, E3, E4. cbn. rewrite joined_spec, M. reflexivity.
  - destruct (at_percent a "s" r) as [E1 [E2 [E3 E4]]]. cbn [M_Bracketing.scan]. rewrite E1, E2, E3, E4. reflexivity.
  - destruct (at_percent a "r" r) as [E1 [E2 [E3 E4]]]. cbn [M_Bracketing.scan]. rewrite E1, E2, E3, E4. reflexivity.
  - destruct F as [F _]. destruct (at_percent a "a" (o :: (n ++ [close o]) ++ r)) as [E1 [E2 [E3 E4]]]. cbn [M_Bracketing.scan]. rewrite E1, E2, E3, E4. cbn [Ascii.eqb Bool.eqb andb]. cbv zeta.
    assert (Hl : Nat.ltb (length a + 2) (length (a ++ "%" :: "a" :: o :: (n ++ [close o]) ++ r)) = true) by (apply Nat.ltb_lt; rewrite app_length; cbn; lia). rewrite Hl.
    rewrite (char_at_app a _ 2). cbn [char_at nth].
    assert (Ep : a ++ "%" :: "a" :: o :: (n ++ [close o]) ++ r = (a ++ ["%"; "a"; o]) ++ n ++ close o :: r) by (rewrite <- !app_assoc; reflexivity).
    rewrite Ep. assert (Ea : length a + 3 = length (a ++ ["%"; "a"; o])) by (rewrite app_length; reflexivity). rewrite Ea, (find_at (close o)) by (reflexivity || assumption).
    rewrite sub_str_app, M. rewrite (touch_in (avs _ _ e) n) by (eapply I; reflexivity). rewrite value_get.
    replace (length (a ++ ["%"; "a"; o]) + length n + 1) with (length a + length ("%" :: "a" :: o :: n ++ [close o])) by (cbn [length]; rewrite !app_length; cbn; lia).
    unfold step. rewrite M. reflexivity.
Qed.
Definition named (ts : list token) : list str := flat_map (fun t => match t with Attribute _ n => [n] | _ => [] end) ts.
Lemma step_map e st t : map_ _ st = avs _ _ e -> map_ _ (step e st t) = avs _ _ e.
Proof. intros H. destruct t; cbn; assumption. Qed.
Lemma steps_map e ts : forall st, map_ _ st = avs _ _ e -> map_ _ (steps e ts st) = avs _ _ e.
Proof. induction ts as [|t ts IH]; intros st H; [assumption|]. cbn. apply IH, step_map, H. Qed.
Lemma fine_one t ts r : fine (t :: ts) r -> fine [t] (spell_tokens ts ++ r) /\ fine ts r.
Proof. destruct t; cbn; intros H; try tauto. Qed.
Lemma scan_tokens f e ts r : forall a st, fine ts r -> map_ _ st = avs _ _ e -> (forall n, In n (named ts) -> In n (map fst (avs _ _ e))) ->
  scan (length ts + f) e (a ++ spell_tokens ts ++ r) (length a) st = scan f e (a ++ spell_tokens ts ++ r) (length a + length (spell_tokens ts)) (steps e ts st).
Proof.
  induction ts as [|t ts IH]; intros a st F M I.
  - cbn. now rewrite Nat.add_0_r.
  - apply fine_one in F as [F1 F2]. cbn [length plus spell_tokens flat_map]. rewrite <- app_assoc.
    change (flat_map spell_token ts) with (spell_tokens ts). rewrite scan_token; [|assumption|assumption|].
    + replace (a ++ spell_token t ++ spell_tokens ts ++ r) with ((a ++ spell_token t) ++ spell_tokens ts ++ r) by (now rewrite <- app_assoc).
      rewrite <- app_length. rewrite IH; [|assumption|now apply step_map|]. 
      * rewrite !app_length. cbn [steps fold_left]. f_equal. lia.
      * intros n Hn. apply I. cbn. apply in_or_app. now right.
    + intros o n ->. apply I. cbn. now left.
Qed.
Lemma scan_end f e p st : scan (S f) e p (length p) st = Some st.
Proof. cbn [M_Bracketing.scan]. now rewrite Nat.ltb_irrefl. Qed.
Lemma scan_star f e a o sep s r st : ~ In (close o) sep -> ~ In (close o) s ->
  let q := "%" :: "*" :: o :: sep ++ close o :: o :: s ++ [close o] in
  scan (S f) e (a ++ q ++ r) (length a) st = scan f e (a ++ q ++ r) (length a + length q) (with_sub _ sep s (put _ STAR st)).
Proof.
  intros H1 H2 q. subst q. cbn [app]. destruct (at_percent a "*" (o :: (sep ++ close o :: o :: s ++ [close o]) ++ r)) as [E1 [E2 [E3 E4]]].
  cbn [M_Bracketing.scan]. rewrite E1, E2, E3, E4. cbn [Ascii.eqb Bool.eqb andb]. cbv zeta.
  assert (Hl : Nat.ltb (length a + 2) (length (a ++ "%" :: "*" :: o :: (sep ++ close o :: o :: s ++ [close o]) ++ r)) = true) by (apply Nat.ltb_lt; rewrite app_length; cbn; lia). rewrite Hl.
  rewrite (char_at_app a _ 2). cbn [char_at nth].
  assert (Ep : a ++ "%" :: "*" :: o :: (sep ++ close o :: o :: s ++ [close o]) ++ r = (a ++ ["%"; "*"; o]) ++ sep ++ close o :: o :: s ++ close o :: r) by (repeat (rewrite <- app_assoc; cbn [app]); reflexivity).
  rewrite Ep. set (a3 := a ++ ["%"; "*"; o]). assert (Ea : length a + 3 = length a3) by (subst a3; rewrite app_length; reflexivity). rewrite Ea, (find_at (close o)) by (reflexivity || assumption).
  rewrite sub_str_app.
  assert (Eq : a3 ++ sep ++ close o :: o :: s ++ close o :: r = (a3 ++ sep ++ [close o; o]) ++ s ++ close o :: r) by (rewrite <- !app_assoc; reflexivity).
  assert (E5 : char_at (a3 ++ sep ++ close o :: o :: s ++ close o :: r) (length a3 + length sep + 1) = o) by (rewrite <- Nat.add_assoc, char_at_app, char_at_app; reflexivity).
  rewrite E5, Ascii.eqb_refl. assert (E6 : length a3 + length sep + 2 = length (a3 ++ sep ++ [close o; o])) by (rewrite !app_length; cbn; lia).
  rewrite E6, Eq. rewrite (find_at (close o)) by (reflexivity || assumption). rewrite sub_str_app.
  replace (length (a3 ++ sep ++ [close o; o]) + length s + 1) with (length a + length ("%" :: "*" :: o :: sep ++ close o :: o :: s ++ [close o])); [reflexivity|].
  subst a3. cbn [length]. rewrite !app_length. cbn [length]. rewrite !app_length. cbn [length]. lia.
Qed.
(** What the pattern leaves. *)
Definition after (p : pattern) (e : edge_data) (st : printing) : printing :=
  match p with
  | Flat ts => steps e ts st
  | Joining pre o sep sub post => steps e post (with_sub _ sep (spell sub) (put _ STAR (steps e pre st)))
  end.
Lemma tokens_length ts : length ts <= length (spell_tokens ts).
Proof. unfold spell_tokens. induction ts as [|t ts IH]; [cbn; lia|]. cbn [flat_map length]. rewrite app_length. assert (1 <= length (spell_token t)) by (destruct t; cbn; lia). lia. Qed.
Lemma scan_more f e p : forall i st r k, scan f e p i st = Some r -> scan (f + k) e p i st = Some r.
Proof.
  induction f as [|f IH]; intros i st r k H; [discriminate H|]. cbn [plus M_Bracketing.scan] in *.
  repeat match type of H with
  | (if ?c then _ else _) = _ => destruct c
  | (match ?x with Some _ => _ | None => _ end) = _ => destruct x
  end; cbv zeta in *;
  repeat match type of H with
  | (if ?c then _ else _) = _ => destruct c
  | (match ?x with Some _ => _ | None => _ end) = _ => destruct x
  end; try (exact H); apply IH; exact H.
Qed.
Lemma scan_pattern fuel e p st : fine_pattern p -> map_ _ st = avs _ _ e -> (forall n, In n (named (tokens_of p)) -> In n (map fst (avs _ _ e))) -> length (spell p) < fuel ->
  scan fuel e (spell p) 0 st = Some (after p e st).
Proof.
  destruct p as [ts|pre o sep sub post]; cbn [fine_pattern spell tokens_of after]; intros F M I Hf.
  - pose proof (tokens_length ts). pose proof (scan_tokens 1 e ts [] [] st F M I) as H1. cbn [app length plus] in H1. rewrite app_nil_r, scan_end in H1.
    replace fuel with (length ts + 1 + (fuel - (length ts + 1))) by lia. now apply scan_more.
  - destruct F as [F1 [F2 [F3 [F4 [_ F5]]]]]. set (q := "%" :: "*" :: o :: sep ++ close o :: o :: spell sub ++ [close o]) in *. assert (1 <= length q) by (subst q; cbn; lia).
    assert (N : forall n, In n (named pre) \/ In n (named post) -> In n (map fst (avs _ _ e))).
    { intros n Hn. apply I. unfold named. rewrite flat_map_app. apply in_or_app. exact Hn. }
    assert (Fp : fine pre (q ++ spell_tokens post)).
    { clear -F1. induction pre as [|t pre IH]; [exact Logic.I|]. destruct t; cbn [fine] in *; try (now apply IH); destruct F1 as [A B]; (split; [|now apply IH]); try assumption.
      destruct (spell_tokens pre); [exact A|exact A]. }
    pose proof (scan_tokens (1 + (length post + 1)) e pre (q ++ spell_tokens post) [] st Fp M ltac:(intros n Hn; apply N; now left)) as S1. cbn [app length] in S1. rewrite Nat.add_0_l in S1.
    pose proof (scan_star (length post + 1) e (spell_tokens pre) o sep (spell sub) (spell_tokens post) (steps e pre st) F3 F4) as S2. cbv zeta in S2. fold q in S2.
    change (1 + (length post + 1)) with (S (length post + 1)) in S1. rewrite S2 in S1. clear S2.
    assert (M2 : map_ _ (with_sub _ sep (spell sub) (put _ STAR (steps e pre st))) = avs _ _ e) by (cbn; now apply steps_map).
    pose proof (scan_tokens 1 e post [] (spell_tokens pre ++ q) _ F2 M2 ltac:(intros n Hn; apply N; now right)) as S3.
    rewrite app_nil_r, <- !app_assoc in S3. rewrite app_length in S3. rewrite S3 in S1.
    replace (length (spell_tokens pre) + length q + length (spell_tokens post)) with (length (spell_tokens pre ++ q ++ spell_tokens post)) in S1 by (rewrite !app_length; lia).
    rewrite scan_end in S1. rewrite !app_length in Hf. pose proof (tokens_length pre). pose proof (tokens_length post).
    replace fuel with (length pre + S (length post + 1) + (fuel - (length pre + S (length post + 1)))) by lia. apply scan_more. exact S1.
Qed.
End Meaning.

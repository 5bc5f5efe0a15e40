(** C78: the tagset converter: what its rules do, when they end, how lines become rules. *)
From Coq Require Import ZArith String Ascii List Bool Arith Lia.
From Verif Require Import M_Items M_Unumsunt.
Import ListNotations.
Local Open Scope nat_scope.

(** ** Specification *)
(** When a rule concerns an annotation. *)
Definition meets (r : rule) (it : annotation) : Prop :=
  (words r = [] \/ exists w rest, In w (words r) /\ ~ In 43%Z w /\ txt it = w ++ rest /\ (rest = [] \/ exists t, rest = 43%Z :: t))
  /\ forall a v, In (a, v) (conditions r) -> (a = CATEGORY -> cat it = v) /\ (a <> CATEGORY -> get_string it a = v).
(** A string stands for a constant value. *)
Definition constant (v : str) : Prop := match v with c :: _ => c <> REFERENCE | [] => True end.
Definition simple (v : str) : Prop := ~ In SEPARATOR v.
Definition meaning (v : str) : zvalue :=
  if str_eqb v ANY_DESIGNATION then ZDefault else if str_eqb v FALSE_DESIGNATION then ZNull else of_string v.
(** The last of the assignments to a name counts. *)
Fixpoint last_for (a : str) (cs : list (str * str)) : option str :=
  match cs with [] => None | (n, v) :: cs => match last_for a cs with Some w => Some w | None => if str_eqb n a then Some v else None end end.
Definition changed (cs : list (str * str)) (it it' : annotation) : Prop :=
  txt it' = txt it
  /\ cat it' = match last_for CATEGORY cs with Some v => v | None => cat it end
  /\ forall a, a <> CATEGORY -> get it' a = match last_for a cs with Some v => meaning v | None => get it a end.
Definition plain (c : str * str) : Prop := constant (snd c) /\ simple (snd c).

(** ** Strings and values *)
Lemma seqb_spec a b : reflect (a = b) (str_eqb a b).
Proof. unfold str_eqb. destruct (list_eq_dec Z.eq_dec a b); now constructor. Qed.
Lemma seqb_refl a : str_eqb a a = true.
Proof. now destruct (seqb_spec a a). Qed.
Lemma find_set l a v b : find_value (set_in l a v) b = if str_eqb a b then Some v else find_value l b.
Proof.
  induction l as [|[n x] l IH]; cbn [set_in find_value]; [easy|]. destruct (seqb_spec n a) as [->|N]; cbn [find_value].
  - now destruct (str_eqb a b).
  - rewrite IH. destruct (seqb_spec n b), (seqb_spec a b); congruence.
Qed.
Lemma get_set it a v b : get (set it a v) b = if str_eqb a b then v else get it b.
Proof. unfold get, set. cbn [vals]. rewrite find_set. now destruct (str_eqb a b). Qed.
Lemma up_to_plus_spec t : exists rest, t = up_to_plus t ++ rest /\ ~ In 43%Z (up_to_plus t) /\ (rest = [] \/ exists u, rest = 43%Z :: u).
Proof.
  induction t as [|c t (rest & E & N & R)]; [exists []; cbn; auto|]. cbn [up_to_plus]. destruct (Z.eqb_spec c 43) as [->|Nc].
  - exists (43%Z :: t). cbn. split; [easy|]. split; [easy|]. right. now exists t.
  - exists rest. cbn. split; [congruence|]. split; [intros [K|K]; [congruence|auto]|easy].
Qed.
Lemma up_to_plus_unique w rest : ~ In 43%Z w -> (rest = [] \/ exists u, rest = 43%Z :: u) -> up_to_plus (w ++ rest) = w.
Proof.
  intros N R. induction w as [|c w IH]; cbn [app up_to_plus]; [destruct R as [->|[u ->]]; reflexivity|]. cbn in N. destruct (Z.eqb_spec c 43); [subst; tauto|].
  now rewrite IH by tauto.
Qed.
Lemma member_In w l : member w l = true <-> In w l.
Proof.
  unfold member. rewrite existsb_exists. split.
  - intros (x & I & E). destruct (seqb_spec w x); [now subst|easy].
  - intros I. exists w. split; [easy|apply seqb_refl].
Qed.
Lemma suits_meets r it : suits r it = true <-> meets r it.
Proof.
  unfold suits, meets. rewrite andb_true_iff, forallb_forall.
  assert (C : forall a v, condition_holds it (a, v) = true <-> (a = CATEGORY -> cat it = v) /\ (a <> CATEGORY -> get_string it a = v)).
  { intros a v. unfold condition_holds. cbn [fst snd]. destruct (seqb_spec a CATEGORY) as [->|Na].
    - destruct (seqb_spec v (cat it)); split; intuition congruence.
    - destruct (seqb_spec (get_string it a) v); split; intuition congruence. }
  split; intros [W Q]; split.
  - destruct (words r) as [|w ws] eqn:Ew; [now left|right]. apply member_In in W. destruct (up_to_plus_spec (txt it)) as (rest & E & N & R). exists (up_to_plus (txt it)), rest. auto.
  - intros a v I. apply C, (Q _ I).
  - destruct W as [->|(w & rest & I & N & E & R)]; [easy|]. rewrite E, up_to_plus_unique by easy. destruct (words r); [easy|]. now apply member_In.
  - intros [a v] I. apply C. auto.
Qed.

(** ** Commands *)
Definition effect1 (it : annotation) (c : str * str) : annotation :=
  if str_eqb (fst c) CATEGORY then set_cat it (snd c) else set it (fst c) (meaning (snd c)).
Definition effect (cs : list (str * str)) (it : annotation) : annotation := fold_left effect1 cs it.
Lemma assign_constant n w v it : constant v -> constant w -> assign n w v it = Some (effect1 it (n, v)).
Proof.
  intros Cv Cw. unfold assign, effect1, meaning. cbn [fst snd]. destruct (str_eqb n CATEGORY).
  - unfold first_is_reference. destruct w as [|c w]; [easy|]. cbn in Cw. destruct (Z.eqb_spec c REFERENCE); [congruence|easy].
  - destruct v as [|c v]; [reflexivity|]. cbn in Cv. destruct (Z.eqb_spec c REFERENCE); [congruence|]. destruct (str_eqb (c :: v) ANY_DESIGNATION); [easy|].
    now destruct (str_eqb (c :: v) FALSE_DESIGNATION).
Qed.
Lemma split_simple v : simple v -> split_alternatives v = [v].
Proof.
  unfold simple. induction v as [|c v IH]; [easy|]. intros N. cbn [split_alternatives]. cbn in N. destruct (Z.eqb_spec c SEPARATOR); [subst; tauto|]. now rewrite IH by tauto.
Qed.
Definition join (l : list str) : str := match l with [] => [] | v :: l => v ++ flat_map (cons SEPARATOR) l end.
Lemma split_join v l : Forall simple (v :: l) -> split_alternatives (join (v :: l)) = v :: l.
Proof.
  cbn [join]. revert v. induction l as [|w l IH]; intros v F; inversion F as [|? ? Fv F']; subst.
  - cbn [flat_map]. rewrite app_nil_r. now apply split_simple.
  - cbn [flat_map]. specialize (IH w F'). clear F. unfold simple in Fv. induction v as [|c v IHv]; cbn [app split_alternatives].
    + rewrite Z.eqb_refl. f_equal. exact IH.
    + cbn in Fv. destruct (Z.eqb_spec c SEPARATOR); [subst; tauto|]. assert (Q : split_alternatives (v ++ SEPARATOR :: w ++ flat_map (cons SEPARATOR) l) = v :: w :: l) by (apply IHv; tauto). unfold str in *. now rewrite Q.
Qed.
Lemma run_plain cs it : Forall plain cs -> run_commands cs it = Some (effect cs it, []).
Proof.
  intros F. revert it. induction F as [|[n v] cs [Cv Sv] F IH]; intros it; [easy|]. cbn [run_commands]. unfold command. cbn [fst snd] in *.
  rewrite split_simple by easy. rewrite assign_constant by easy. cbn [copies option_map]. now rewrite IH.
Qed.
Lemma run_app cs cs' it x l : run_commands cs it = Some (x, l) -> run_commands (cs ++ cs') it = option_map (fun p => (fst p, l ++ snd p)) (run_commands cs' x).
Proof.
  revert it x l. induction cs as [|c cs IH]; intros it x l E; cbn [run_commands app] in *.
  - inversion E; subst. destruct (run_commands cs' x) as [[]|]; reflexivity.
  - destruct (command c it) as [[y l']|]; [|easy]. destruct (run_commands cs y) as [[z l'']|] eqn:Ez; [|easy]. cbn in E. inversion E; subst.
    rewrite (IH _ _ _ Ez). destruct (run_commands cs' x) as [[]|]; cbn; [|easy]. now rewrite app_assoc.
Qed.
Lemma copies_constant n w l it : constant w -> Forall constant l -> copies n w l it = Some (map (fun a => effect1 it (n, a)) l).
Proof. intros Cw F. induction F as [|v l Cv F IH]; [easy|]. cbn [copies map]. rewrite assign_constant by easy. now rewrite IH. Qed.
Lemma constant_join v l : constant v -> Forall simple (v :: l) -> constant (join (v :: l)).
Proof. intros C F. destruct v as [|c v]; [|easy]. cbn. destruct l; [easy|]. cbn. discriminate. Qed.
Lemma run_alternatives before n v l after it :
  Forall plain before -> Forall plain after -> Forall constant (v :: l) -> Forall simple (v :: l) ->
  run_commands (before ++ (n, join (v :: l)) :: after) it =
    Some (effect (before ++ (n, v) :: after) it, map (fun a => effect (before ++ [(n, v); (n, a)]) it) l).
Proof.
  intros Fb Fa Fc Fs. rewrite (run_app _ _ _ _ _ (run_plain before it Fb)). cbn [run_commands]. unfold command. cbn [fst snd].
  inversion Fc as [|? ? Cv Fl]; subst. rewrite split_join by easy. rewrite assign_constant by (easy || now apply constant_join).
  rewrite copies_constant by (easy || now apply constant_join). cbn [option_map]. rewrite run_plain by easy. cbn [option_map fst snd app]. unfold effect. rewrite fold_left_app. cbn [fold_left].
  rewrite app_nil_r. f_equal. f_equal. apply map_ext. intros a. now rewrite fold_left_app.
Qed.
Lemma effect_changed cs : forall it, changed cs it (effect cs it).
Proof.
  induction cs as [|[n v] cs IH]; intros it; cbn [effect fold_left last_for]; [repeat split|]. fold (effect cs (effect1 it (n, v))).
  destruct (IH (effect1 it (n, v))) as (T & C & G). split; [|split].
  - rewrite T. unfold effect1. now destruct (str_eqb _ _).
  - cbn [last_for]. rewrite C. destruct (last_for CATEGORY cs); [easy|]. unfold effect1. cbn [fst snd]. now destruct (str_eqb n CATEGORY).
  - intros a Na. cbn [last_for]. rewrite (G a Na). destruct (last_for a cs); [easy|]. unfold effect1. cbn [fst snd]. destruct (seqb_spec n CATEGORY) as [->|Nn].
    + destruct (seqb_spec CATEGORY a); [congruence|]. reflexivity.
    + rewrite get_set. now destruct (str_eqb n a).
Qed.
Definition same (x y : annotation) : Prop := cat x = cat y /\ txt x = txt y /\ forall a, a <> CATEGORY -> get x a = get y a.
Lemma changed_same cs it x y : changed cs it x -> changed cs it y -> same x y.
Proof. intros (T & C & G) (T' & C' & G'). repeat split; try congruence. intros a Na. now rewrite (G a Na), (G' a Na). Qed.
Lemma meets_same r x y : same x y -> meets r x -> meets r y.
Proof.
  intros (C & T & G) [W Q]. split; [now rewrite <- T|]. intros a v I. destruct (Q a v I) as [Q1 Q2]. rewrite <- C. split; [easy|]. intros Na. unfold get_string. rewrite <- (G a Na). now apply Q2.
Qed.

(** ** Rules without alternatives *)
Definition no_alternatives (r : rule) : Prop := Forall plain (commands r) /\ is_skip r = false.
Inductive pointwise (P : annotation -> option annotation -> Prop) : list (option annotation) -> list (option annotation) -> Prop :=
| p_nil : pointwise P [] []
| p_none l l' : pointwise P l l' -> pointwise P (None :: l) (None :: l')
| p_some x y l l' : P x y -> pointwise P l l' -> pointwise P (Some x :: l) (y :: l').
Definition some_meets (r : rule) (items : list (option annotation)) : Prop := exists it, In (Some it) items /\ meets r it.
Lemma loop_plain r items : forall fuel done b, no_alternatives r -> length items <= fuel ->
  exists items' b', apply_loop r fuel done items b = Ended (done ++ items') b'
  /\ pointwise (fun x y => exists x', y = Some x' /\ (meets r x -> changed (commands r) x x') /\ (~ meets r x -> x' = x)) items items'
  /\ (b' = true <-> b = true \/ some_meets r items).
Proof.
  induction items as [|[x|] items IH]; intros fuel done b N L; cbn [length] in L.
  - exists [], b. rewrite app_nil_r. split; [destruct fuel; reflexivity|]. split; [constructor|]. split; [auto|]. intros [K|(it & I & _)]; [easy|destruct I].
  - destruct fuel as [|fuel]; [lia|]. cbn [apply_loop]. destruct (suits r x) eqn:Sx.
    + rewrite (run_plain _ x (proj1 N)). rewrite (proj2 N). cbn [map]. rewrite app_nil_r.
      destruct (IH fuel (done ++ [Some (effect (commands r) x)]) true N) as (l & b' & E & P & B); [lia|]. rewrite E. exists (Some (effect (commands r) x) :: l), b'.
      rewrite <- app_assoc. split; [easy|]. apply suits_meets in Sx. split; [|split; [intros _; right; exists x; split; [now left|easy]|intros _; apply B; now left]].
      constructor; [|easy]. exists (effect (commands r) x). split; [easy|]. split; [intros _; apply effect_changed|easy].
    + destruct (IH fuel (done ++ [Some x]) b N) as (l & b' & E & P & B); [lia|]. rewrite E. exists (Some x :: l), b'. rewrite <- app_assoc. split; [easy|].
      assert (M : ~ meets r x) by (intros M; apply suits_meets in M; congruence). split.
      * constructor; [|easy]. exists x. split; [easy|]. split; [easy|easy].
      * rewrite B. split; (intros [K|(it & I & Mi)]; [now left|right; exists it; split; [|easy]]).
        -- now right.
        -- destruct I as [I|I]; [inversion I; subst; easy|easy].
  - destruct fuel as [|fuel]; [lia|]. cbn [apply_loop]. destruct (IH fuel (done ++ [None]) b N) as (l & b' & E & P & B); [lia|]. rewrite E. exists (None :: l), b'.
    rewrite <- app_assoc. split; [easy|]. split; [now constructor|]. rewrite B. split; (intros [K|(it & I & Mi)]; [now left|right; exists it; split; [|easy]]).
    + now right.
    + destruct I as [I|I]; [easy|easy].
Qed.
(** Annotations that meet the conditions get the last constant assigned to each name, others stay, none is added. *)
Theorem C78_plain r items fuel : no_alternatives r -> length items <= fuel ->
  exists items' b, apply r fuel items = Ended items' b
  /\ pointwise (fun x y => exists x', y = Some x' /\ (meets r x -> changed (commands r) x x') /\ (~ meets r x -> x' = x)) items items'
  /\ (b = true <-> some_meets r items).
Proof.
  intros N L. destruct (loop_plain r items fuel [] false N L) as (l & b & E & P & B). exists l, b. split; [easy|]. split; [easy|]. rewrite B. split; [intros [K|K]; easy|auto].
Qed.
Print Assumptions C78_plain.

(** ** Rules that skip *)
Lemma loop_skip r items : forall fuel done b, is_skip r = true -> commands r = [] -> length items <= fuel ->
  exists items' b', apply_loop r fuel done items b = Ended (done ++ items') b'
  /\ pointwise (fun x y => (meets r x -> y = None) /\ (~ meets r x -> y = Some x)) items items' /\ (b' = true <-> b = true \/ some_meets r items).
Proof.
  induction items as [|[x|] items IH]; intros fuel done b Sk Nc L; cbn [length] in L.
  - exists [], b. rewrite app_nil_r. split; [destruct fuel; reflexivity|]. split; [constructor|]. split; [auto|]. intros [K|(it & I & _)]; [easy|destruct I].
  - destruct fuel as [|fuel]; [lia|]. cbn [apply_loop]. destruct (suits r x) eqn:Sx.
    + rewrite Nc. cbn [run_commands]. rewrite Sk. cbn [map]. rewrite app_nil_r. destruct (IH fuel (done ++ [None]) true Sk Nc) as (l & b' & E & P & B); [lia|].
      rewrite E. exists (None :: l), b'. rewrite <- app_assoc. split; [easy|]. apply suits_meets in Sx.
      split; [constructor; easy|split; [intros _; right; exists x; split; [now left|easy]|intros _; apply B; now left]].
    + destruct (IH fuel (done ++ [Some x]) b Sk Nc) as (l & b' & E & P & B); [lia|]. rewrite E. exists (Some x :: l), b'. rewrite <- app_assoc. split; [easy|].
      assert (M : ~ meets r x) by (intros M; apply suits_meets in M; congruence). split; [constructor; easy|].
      rewrite B. split; (intros [K|(it & I & Mi)]; [now left|right; exists it; split; [|easy]]).
      * now right.
      * destruct I as [I|I]; [inversion I; subst; easy|easy].
  - destruct fuel as [|fuel]; [lia|]. cbn [apply_loop]. destruct (IH fuel (done ++ [None]) b Sk Nc) as (l & b' & E & P & B); [lia|]. rewrite E. exists (None :: l), b'.
    rewrite <- app_assoc. split; [easy|]. split; [now constructor|]. rewrite B. split; (intros [K|(it & I & Mi)]; [now left|right; exists it; split; [|easy]]).
    + now right.
    + destruct I as [I|I]; [easy|easy].
Qed.
Theorem C78_skip r items fuel : is_skip r = true -> commands r = [] -> length items <= fuel ->
  exists items' b, apply r fuel items = Ended items' b
  /\ pointwise (fun x y => (meets r x -> y = None) /\ (~ meets r x -> y = Some x)) items items' /\ (b = true <-> some_meets r items).
Proof.
  intros Sk Nc L. destruct (loop_skip r items fuel [] false Sk Nc L) as (l & b & E & P & B). exists l, b. split; [easy|]. split; [easy|]. rewrite B. split; [intros [K|K]; easy|auto].
Qed.
Print Assumptions C78_skip.

(** ** Rules with alternatives *)
Record alternatives (r : rule) (before : list (str * str)) (n v : str) (l : list str) (after : list (str * str)) : Prop := {
  a_commands : commands r = before ++ (n, join (v :: l)) :: after;
  a_skip : is_skip r = false;
  a_before : Forall plain before;
  a_after : Forall plain after;
  a_constant : Forall constant (v :: l);
  a_simple : Forall simple (v :: l) }.
Lemma last_app a cs cs' : last_for a (cs ++ cs') = match last_for a cs' with Some w => Some w | None => last_for a cs end.
Proof. induction cs as [|[n v] cs IH]; cbn [app last_for]; [now destruct (last_for a cs')|]. rewrite IH. now destruct (last_for a cs'). Qed.
Lemma last_copy a before n v w : last_for a (before ++ [(n, v); (n, w)]) = last_for a (before ++ [(n, w)]).
Proof. rewrite !last_app. cbn [last_for]. now destruct (str_eqb n a). Qed.
Definition copy before (n v : str) (it : annotation) (w : str) : annotation := effect (before ++ [(n, v); (n, w)]) it.
Lemma copy_changed before n v it w : changed (before ++ [(n, w)]) it (copy before n v it w).
Proof.
  destruct (effect_changed (before ++ [(n, v); (n, w)]) it) as (T & C & G). unfold changed, copy. split; [easy|]. rewrite <- (last_copy CATEGORY before n v w). split; [easy|].
  intros a Na. rewrite <- (last_copy a before n v w). auto.
Qed.
Lemma changed_again cs x y : changed cs x y -> changed cs y y.
Proof.
  intros (T & C & G). split; [easy|]. split; [rewrite C; now destruct (last_for CATEGORY cs)|]. intros a Na. rewrite (G a Na). now destruct (last_for a cs).
Qed.
Lemma copy_meets r before n v it w : meets r (copy before n v it w) -> meets r (copy before n v (copy before n v it w) w).
Proof.
  apply meets_same. pose proof (copy_changed before n v it w) as A. apply changed_again in A. exact (changed_same _ _ _ _ A (copy_changed before n v _ w)).
Qed.
Lemma loop_endless r before n v l after : alternatives r before n v l after -> forall fuel done todo b it w,
  In (Some it) todo -> meets r it -> In w l -> meets r (copy before n v it w) -> apply_loop r fuel done todo b = Running.
Proof.
  intros A. induction fuel as [|fuel IH]; intros done todo b it w I M Iw Mw; [destruct todo; [easy|reflexivity]|]. destruct todo as [|x todo]; [easy|]. cbn [apply_loop].
  destruct x as [x|]; [|destruct I as [I|I]; [easy|now apply (IH _ _ _ it w)]].
  destruct (suits r x) eqn:Sx.
  - rewrite (a_commands _ _ _ _ _ _ A), run_alternatives by apply A. destruct I as [I|I].
    + inversion I; subst x. apply (IH _ _ _ (copy before n v it w) w); auto.
      * apply in_app_iff. right. apply in_map. unfold copy. apply (in_map (fun a => effect (before ++ [(n, v); (n, a)]) it) l w Iw).
      * now apply copy_meets.
    + apply (IH _ _ _ it w); auto. apply in_app_iff. now left.
  - destruct I as [I|I]; [|now apply (IH _ _ _ it w)]. inversion I; subst x. apply suits_meets in M. congruence.
Qed.
(** If an alternative still meets the conditions, the rule never ends. *)
Theorem C78_endless r before n v l after items it w it' :
  alternatives r before n v l after -> In (Some it) items -> meets r it -> In w l -> changed (before ++ [(n, w)]) it it' -> meets r it' ->
  forall fuel, apply r fuel items = Running.
Proof.
  intros A I M Iw C M' fuel. apply (loop_endless r before n v l after A fuel [] items false it w); auto.
  exact (meets_same r _ _ (changed_same _ _ _ _ C (copy_changed before n v it w)) M').
Qed.
Print Assumptions C78_endless.
Definition results r before (n v : str) l (x : option annotation) : list annotation :=
  match x with Some it => if suits r it then map (copy before n v it) l else [] | None => [] end.
Definition first_result (r : rule) before (n v : str) after (x : option annotation) : option annotation :=
  match x with Some it => if suits r it then Some (effect (before ++ (n, v) :: after) it) else Some it | None => None end.
Lemma loop_pending r fuel done pend b : Forall (fun x => suits r x = false) pend -> length pend <= fuel -> apply_loop r fuel done (map Some pend) b = Ended (done ++ map Some pend) b.
Proof.
  revert fuel done. induction pend as [|x pend IH]; intros fuel done F L; cbn [map]; [destruct fuel; cbn [apply_loop]; now rewrite app_nil_r|]. inversion F; subst. cbn [length] in L.
  destruct fuel as [|fuel]; [lia|]. cbn [apply_loop]. rewrite H1. rewrite IH by (easy || lia). now rewrite <- app_assoc.
Qed.
Lemma loop_alternatives r before n v l after : alternatives r before n v l after -> forall items pend fuel done b,
  (forall it w, In (Some it) items -> meets r it -> In w l -> ~ meets r (copy before n v it w)) -> Forall (fun x => suits r x = false) pend ->
  length items * S (length l) + length pend <= fuel ->
  exists b', apply_loop r fuel done (items ++ map Some pend) b
    = Ended (done ++ map (first_result r before n v after) items ++ map Some (pend ++ flat_map (results r before n v l) items)) b' /\ (b' = true <-> b = true \/ some_meets r items).
Proof.
  intros A. induction items as [|x items IH]; intros pend fuel done b C F L; cbn [length] in L.
  - exists b. cbn [app map flat_map]. rewrite app_nil_r. split; [apply loop_pending; [easy|lia]|]. split; [auto|intros [K|(it & I & _)]; [easy|destruct I]].
  - destruct fuel as [|fuel]; [lia|]. cbn [app apply_loop]. destruct x as [x|].
    + destruct (suits r x) eqn:Sx.
      * rewrite (a_commands _ _ _ _ _ _ A), run_alternatives by apply A. rewrite (a_skip _ _ _ _ _ _ A).
        assert (Mx : meets r x) by now apply suits_meets. rewrite <- app_assoc, <- map_app.
        destruct (IH (pend ++ map (copy before n v x) l) fuel (done ++ [Some (effect (before ++ (n, v) :: after) x)]) true) as (b' & E & B).
        -- intros it w I. apply C. now right.
        -- apply Forall_app. split; [easy|]. apply Forall_forall. intros y Iy. apply in_map_iff in Iy as (w & <- & Iw). destruct (suits r (copy before n v x w)) eqn:Sy; [|easy].
           apply suits_meets in Sy. exfalso. apply (C x w); [now left|easy|easy|exact Sy].
        -- rewrite app_length, map_length. lia.
        -- unfold copy in E at 1. rewrite E. exists b'. split.
           ++ cbn [map flat_map]. unfold first_result at 2. unfold results at 2. rewrite Sx, <- !app_assoc. reflexivity.
           ++ split; [intros _; right; exists x; split; [now left|easy]|intros _; apply B; now left].
      * destruct (IH pend fuel (done ++ [Some x]) b) as (b' & E & B); [intros it w I; apply C; now right|easy|lia|]. rewrite E. exists b'. split.
        -- cbn [map flat_map]. unfold first_result at 2. unfold results at 2. rewrite Sx, <- !app_assoc. reflexivity.
        -- rewrite B. split; (intros [K|(it & I & Mi)]; [now left|right; exists it; split; [|easy]]); [now right|].
           destruct I as [I|I]; [inversion I; subst; apply suits_meets in Mi; congruence|easy].
    + destruct (IH pend fuel (done ++ [None]) b) as (b' & E & B); [intros it w I; apply C; now right|easy|lia|]. rewrite E. exists b'. split.
      * cbn [map flat_map]. rewrite <- !app_assoc. reflexivity.
      * rewrite B. split; (intros [K|(it & I & Mi)]; [now left|right; exists it; split; [|easy]]); [now right|]. destruct I as [I|I]; easy.
Qed.
(** Otherwise the first alternative is made of each item itself; the others are put behind all items in order.  Commands
    behind the alternatives are only done for the first one. *)
Theorem C78_alternatives r before n v l after items fuel :
  alternatives r before n v l after ->
  (forall it w it', In (Some it) items -> meets r it -> In w l -> changed (before ++ [(n, w)]) it it' -> ~ meets r it') ->
  length items * S (length l) <= fuel ->
  exists firsts others b, apply r fuel items = Ended (firsts ++ map Some (concat others)) b
  /\ pointwise (fun x y => exists x', y = Some x' /\ (meets r x -> changed (before ++ (n, v) :: after) x x') /\ (~ meets r x -> x' = x)) items firsts
  /\ Forall2 (fun x ys => (forall it, x = Some it -> meets r it -> Forall2 (fun w y => changed (before ++ [(n, w)]) it y) l ys)
                          /\ ((forall it, x = Some it -> ~ meets r it) -> ys = [])) items others
  /\ (b = true <-> some_meets r items).
Proof.
  intros A C L. destruct (loop_alternatives r before n v l after A items [] fuel [] false) as (b & E & B).
  - intros it w I M Iw. apply (C it w _ I M Iw). apply copy_changed.
  - constructor.
  - cbn [length]. lia.
  - cbn [map app] in E. rewrite app_nil_r in E. exists (map (first_result r before n v after) items), (map (results r before n v l) items), b.
    rewrite <- flat_map_concat_map. split; [exact E|]. clear E. split; [|split].
    + clear B C L. induction items as [|[x|] items IH]; cbn [map]; constructor; auto. unfold first_result. destruct (suits r x) eqn:Sx.
      * eexists. split; [reflexivity|]. apply suits_meets in Sx. split; [intros _; apply effect_changed|easy].
      * eexists. split; [reflexivity|]. split; [|easy]. intros M. apply suits_meets in M. congruence.
    + clear B C L. induction items as [|x items IH]; cbn [map]; constructor; auto. split.
      * intros it -> M. apply suits_meets in M. unfold results. rewrite M. clear. induction l; cbn [map]; constructor; auto. apply copy_changed.
      * intros N. unfold results. destruct x as [it|]; [|easy]. destruct (suits r it) eqn:Sx; [|easy]. apply suits_meets in Sx. now apply N in Sx.
    + rewrite B. split; [intros [K|K]; easy|auto].
Qed.
Print Assumptions C78_alternatives.
(** A rule with alternatives ends exactly if none but the first keeps the conditions. *)
Corollary C78_ends r before n v l after items : alternatives r before n v l after ->
  ((exists fuel items' b, apply r fuel items = Ended items' b) <->
   (forall it w it', In (Some it) items -> meets r it -> In w l -> changed (before ++ [(n, w)]) it it' -> ~ meets r it')).
Proof.
  intros A. split.
  - intros (fuel & items' & b & E) it w it' I M Iw C M'. rewrite (C78_endless r before n v l after items it w it' A I M Iw C M' fuel) in E. discriminate.
  - intros C. destruct (C78_alternatives r before n v l after items _ A C (le_n _)) as (f & o & b & E & _). eauto.
Qed.
Print Assumptions C78_ends.

(** ** Examples *)
Local Open Scope string_scope.
Local Open Scope list_scope.
Definition s (t : string) : str := map (fun c => Z.of_nat (nat_of_ascii c)) (list_ascii_of_string t).
Definition adjective : annotation := Annotation (s "adj") (s "jaki+adj") [(s "Rp", ZSym (s "m")); (s "L", ZInt 1)].
Definition cond (l : list (string * string)) : list (str * str) := map (fun p => (s (fst p), s (snd p))) l.
Ltac fine := repeat (first [apply Forall_nil|apply Forall_cons]); repeat match goal with |- plain _ => split end; let K := fresh in intros K; vm_compute in K; intuition discriminate.
Definition narrow : rule := Rule [] (cond [("CAT", "adj"); ("Rp", "m"); ("L", "1")]) (cond [("R", "x"); ("Rp", "mz|mnz")]) false 1.
Example C78_alternatives_some : alternatives narrow (cond [("R", "x")]) (s "Rp") (s "mz") [s "mnz"] [].
Proof. split; [reflexivity|reflexivity| | | |]; fine. Qed.
Example C78_alternatives_run : apply narrow 4 [None; Some adjective] = Ended [None; Some (Annotation (s "adj") (s "jaki+adj") [(s "Rp", ZSym (s "mz")); (s "L", ZInt 1); (s "R", ZSym (s "x"))]);
       Some (Annotation (s "adj") (s "jaki+adj") [(s "Rp", ZSym (s "mnz")); (s "L", ZInt 1); (s "R", ZSym (s "x"))])] true.
Proof. vm_compute. reflexivity. Qed.
Definition ask : rule := Rule [s "jaki"; s "jaka"] (cond [("CAT", "adj")]) (cond [("CAT", "pron"); ("O", "0")]) false 0.
Example C78_plain_some : no_alternatives ask /\ apply ask 1 [Some adjective] = Ended [Some (Annotation (s "pron") (s "jaki+adj") [(s "Rp", ZSym (s "m")); (s "L", ZInt 1); (s "O", ZDefault)])] true.
Proof. split; [split; [|reflexivity]; fine|vm_compute; reflexivity]. Qed.
Example C78_skip_some : apply (make_skip ask) 2 [Some adjective; Some (Annotation (s "adj") (s "taki") [])] = Ended [None; Some (Annotation (s "adj") (s "taki") [])] true.
Proof. vm_compute. reflexivity. Qed.
(** A rule that keeps its conditions true for the second alternative: CAT = adj >> Typ = a|b. *)
Theorem C78_endless_refuted : ~ (forall r items, exists fuel items' b, apply r fuel items = Ended items' b).
Proof.
  intros K. set (r := Rule [] (cond [("CAT", "adj")]) (cond [("Typ", "a|b")]) false 1). destruct (K r [Some adjective]) as (fuel & items & b & E).
  rewrite (C78_endless r [] (s "Typ") (s "a") [s "b"] [] [Some adjective] adjective (s "b") (effect [(s "Typ", s "b")] adjective)) in E; try discriminate.
  - split; [reflexivity|reflexivity| | | |]; fine.
  - now left.
  - apply suits_meets. vm_compute. reflexivity.
  - now left.
  - apply effect_changed.
  - apply suits_meets. vm_compute. reflexivity.
Qed.
Print Assumptions C78_endless_refuted.
(** Commands behind alternatives do not reach the second one; a second pair of alternatives becomes a rule of its own whose
    conditions may be false by then; references are recognised in categories by the first alternative only. *)
Theorem C78_after_refuted : exists x y, apply (Rule [] (cond [("CAT", "adj")]) (cond [("CAT", "a|b"); ("O", "0")]) false 1) 2 [Some adjective] = Ended [Some x; Some y] true
  /\ get x (s "O") = ZDefault /\ get y (s "O") = ZNull.
Proof. eexists _, _. split; [vm_compute; reflexivity|]. split; vm_compute; reflexivity. Qed.
Print Assumptions C78_after_refuted.
Theorem C78_two_refuted : exists rs x y, read_rules (s "CAT=adj>>CAT=a|b,O=1|2") = Some rs /\ apply_all rs 9 [Some adjective] = Ended [Some x; Some y] false
  /\ get x (s "O") = ZNull /\ get y (s "O") = ZNull.
Proof. eexists _, _, _. split; [vm_compute; reflexivity|]. split; [vm_compute; reflexivity|]. split; vm_compute; reflexivity. Qed.
Print Assumptions C78_two_refuted.
Theorem C78_reference_refuted :
  (exists x y, apply (Rule [] (cond [("CAT", "adj")]) (cond [("CAT", "$Rp|b")]) false 1) 2 [Some adjective] = Ended [Some x; Some y] true /\ cat x = s "m" /\ cat y = s "fail")
  /\ (exists x y, apply (Rule [] (cond [("CAT", "adj")]) (cond [("CAT", "b|$Rp")]) false 1) 2 [Some adjective] = Ended [Some x; Some y] true /\ cat y = s "$Rp")
  /\ apply (Rule [] (cond [("CAT", "adj")]) (cond [("CAT", "$Rp|")]) false 1) 2 [Some adjective] = Thrown.
Proof.
  split; [eexists _, _; split; [vm_compute; reflexivity|split; vm_compute; reflexivity]|]. split; [eexists _, _; split; [vm_compute; reflexivity|vm_compute; reflexivity]|].
  vm_compute. reflexivity.
Qed.
Print Assumptions C78_reference_refuted.

(** ** Lines *)
Definition inter (c : list Z) (l : list str) : str := match l with [] => [] | v :: l => v ++ flat_map (fun w => c ++ w) l end.
Lemma take_app stop p rest : Forall (fun c => stop c = false) p -> (forall c t, rest = c :: t -> stop c = true) -> take_until stop (p ++ rest) = (p, rest).
Proof.
  intros F R. induction F as [|c p Fc F IH]; cbn [app take_until].
  - destruct rest as [|c t]; [easy|]. cbn [take_until]. now rewrite (R c t eq_refl).
  - rewrite Fc, IH. reflexivity.
Qed.
Lemma pieces_inter stop l : stop 44%Z = true -> forall fuel rest, l <> [] -> Forall (fun p => p <> [] /\ Forall (fun c => stop c = false) p) l -> (forall c t, rest = c :: t -> stop c = true /\ c <> 44%Z) ->
  length l <= fuel -> pieces fuel stop (inter [44%Z] l ++ rest) = Some (l, rest).
Proof.
  intros S44. induction l as [|p l IH]; intros fuel rest N F R L; [easy|]. inversion F as [|? ? [Np Fp] F']; subst. cbn [length] in L. destruct fuel as [|fuel]; [lia|]. cbn [pieces].
  destruct l as [|q l].
  - cbn [inter flat_map]. rewrite app_nil_r. rewrite take_app; [|easy|intros c t E; now apply (R c t)]. destruct p; [easy|]. destruct rest as [|c t]; [reflexivity|].
    destruct (R c t eq_refl) as [_ Nc]. now destruct (Z.eqb_spec c 44).
  - specialize (IH fuel rest ltac:(easy) F' R ltac:(lia)). change (inter [44%Z] (p :: q :: l)) with (p ++ 44%Z :: inter [44%Z] (q :: l)). rewrite <- app_assoc. cbn [app].
    rewrite take_app; [|easy|intros c t E; inversion E; subst; easy]. destruct p; [easy|]. cbn [Z.eqb Pos.eqb]. now rewrite IH.
Qed.
Lemma inter_length l c : l <> [] -> Forall (fun p : str => p <> []) l -> length l <= length (inter [c] l).
Proof.
  destruct l as [|p l]; [easy|]. intros _ F. inversion F; subst. cbn [inter length]. rewrite app_length. assert (1 <= length p) by (destruct p; [easy|cbn; lia]).
  enough (length l <= length (flat_map (fun w => [c] ++ w) l)) by lia. clear. induction l as [|q l IH]; cbn [length flat_map]; [lia|]. rewrite !app_length. cbn [length]. unfold str in *. lia.
Qed.
(** A line of conditions and commands is taken apart as it was put together. *)
Theorem C78_parse conds cmds : conds <> [] -> cmds <> [] -> Forall (fun p => p <> [] /\ ~ In 44%Z p /\ ~ In 62%Z p) conds -> Forall (fun p => p <> [] /\ ~ In 44%Z p) cmds ->
  parse_rule (inter [44%Z] conds ++ [62; 62]%Z ++ inter [44%Z] cmds) = Some (conds, cmds).
Proof.
  intros N1 N2 F1 F2. unfold parse_rule. rewrite pieces_inter; auto.
  - cbn [app]. cbn [Z.eqb Pos.eqb andb]. rewrite <- (app_nil_r (inter [44%Z] cmds)) at 2. rewrite pieces_inter; auto; [|easy|].
    + eapply Forall_impl; [|exact F2]. intros p [Np Ip]. split; [easy|]. apply Forall_forall. intros c I. cbn beta. destruct (Z.eqb_spec c 44); [now subst|easy].
    + assert (length cmds <= length (inter [44%Z] cmds)); [|lia]. apply inter_length; [easy|]. eapply Forall_impl; [|exact F2]. now intros p [Np _].
  - eapply Forall_impl; [|exact F1]. intros p (Np & I1 & I2). split; [easy|]. apply Forall_forall. intros c I. cbn beta. destruct (Z.eqb_spec c 44); [now subst|]. destruct (Z.eqb_spec c 62); [now subst|easy].
  - intros c t E. inversion E; subst. easy.
  - rewrite app_length. assert (length conds <= length (inter [44%Z] conds)); [|lia]. apply inter_length; [easy|]. eapply Forall_impl; [|exact F1]. now intros p [Np _].
Qed.
Print Assumptions C78_parse.
Example C78_parse_some : parse_rule (s "CAT=adj,jaki jaka>>CAT=pron,O=0") = Some ([s "CAT=adj"; s "jaki jaka"], [s "CAT=pron"; s "O=0"]).
Proof. vm_compute. reflexivity. Qed.
(** What stands behind an empty command or a second equality sign is lost without an error. *)
Theorem C78_lost_refuted : read_rules (s "CAT=adj>>A=1,,B=2") = read_rules (s "CAT=adj>>A=1") /\ read_rules (s "CAT=adj>>A=1=2") = read_rules (s "CAT=adj>>A=1")
  /\ read_rules (s "CAT=adj>>A") = read_rules (s "CAT=adj>>B") /\ read_rules (s "CAT=adj>>A") <> None.
Proof. repeat split; try (vm_compute; reflexivity). vm_compute. discriminate. Qed.
Print Assumptions C78_lost_refuted.

Fixpoint breeding (cs : list (str * str)) : nat := match cs with [] => 0 | (_, v) :: cs => (if has_separator v then 1 else 0) + breeding cs end.
Definition well_formed (r : rule) : Prop := (is_skip r = true -> commands r = []) /\ breeding (commands r) = breed r /\ breed r <= 1.
Lemma breeding_app a b : breeding (a ++ b) = breeding a + breeding b.
Proof. induction a as [|[n v] a IH]; cbn; lia. Qed.
Lemma add_command_spec r a v : well_formed r ->
  match add_command r a v with
  | Some r' => well_formed r' /\ commands r' = commands r ++ [(a, v)] /\ words r' = words r /\ conditions r' = conditions r /\ is_skip r = false
  | None => is_skip r = true \/ breed r = 1
  end.
Proof.
  intros (Sk & B & L). unfold add_command. destruct (is_skip r) eqn:Er; [now left|]. destruct (has_separator v) eqn:Hv.
  - destruct (Nat.eqb_spec (breed r) 0) as [E|E]; [|right; lia]. unfold well_formed. cbn. rewrite breeding_app. cbn. rewrite Hv. repeat split; try easy; try congruence; lia.
  - unfold well_formed. cbn. rewrite breeding_app. cbn. rewrite Hv. repeat split; try easy; try congruence; lia.
Qed.
Lemma clear_add r a v : exists r', add_command (clear_commands r) a v = Some r' /\ well_formed r' /\ commands r' = [(a, v)] /\ words r' = words r /\ conditions r' = conditions r.
Proof.
  assert (W : well_formed (clear_commands r)) by (repeat split; cbn; lia). pose proof (add_command_spec (clear_commands r) a v W) as K.
  destruct (add_command (clear_commands r) a v) as [r'|]; [|cbn in K; destruct K; easy]. exists r'. now destruct K as (? & ? & ? & ? & _).
Qed.
Definition assigned (cmds : list str) : list (str * str) :=
  flat_map (fun c => match parse_assignment (trim c) with Some (a, v) => [(trim a, trim v)] | None => [] end) cmds.
Lemma commands_read cmds : forall r done, well_formed r -> Forall well_formed done -> Forall (fun x => words x = words r /\ conditions x = conditions r) done ->
  let '(r', done') := fold_left read_command cmds (r, done) in
  Forall well_formed (r' :: done') /\ Forall (fun x => words x = words r /\ conditions x = conditions r) (r' :: done')
  /\ (Forall (fun c => trim c <> SKIP) cmds -> flat_map commands (rev (r' :: done')) = flat_map commands (rev (r :: done)) ++ assigned cmds).
Proof.
  induction cmds as [|c cmds IH]; intros r done W Wd Sd; cbn [fold_left].
  - split; [now constructor|]. split; [now constructor|]. intros _. cbn [assigned flat_map]. now rewrite app_nil_r.
  - unfold read_command at 2. destruct (seqb_spec (trim c) SKIP) as [E|N].
    + assert (W' : well_formed (make_skip r)) by (repeat split; cbn; lia). specialize (IH (make_skip r) done W' Wd Sd). destruct (fold_left read_command cmds (make_skip r, done)) as [r' done'].
      destruct IH as (I1 & I2 & _). split; [easy|]. split; [easy|]. intros F. inversion F; subst. congruence.
    + change (assigned (c :: cmds)) with ((match parse_assignment (trim c) with Some (a, v) => [(trim a, trim v)] | None => [] end) ++ assigned cmds).
      destruct (parse_assignment (trim c)) as [[a v]|].
      * pose proof (add_command_spec r (trim a) (trim v) W) as K. destruct (add_command r (trim a) (trim v)) as [r1|].
        -- destruct K as (W1 & C1 & E1 & E2 & _). rewrite <- E1, <- E2 in Sd. specialize (IH r1 done W1 Wd Sd). destruct (fold_left read_command cmds (r1, done)) as [r' done'].
           rewrite E1, E2 in IH. destruct IH as (I1 & I2 & I3). split; [easy|]. split; [easy|]. intros F. inversion F; subst. rewrite I3 by easy. cbn [rev]. rewrite !flat_map_app. cbn [flat_map].
           rewrite C1, !app_nil_r, <- !app_assoc. reflexivity.
        -- destruct (clear_add r (trim a) (trim v)) as (r1 & E & W1 & C1 & E1 & E2). rewrite E.
           assert (Sd' : Forall (fun x => words x = words r1 /\ conditions x = conditions r1) (r :: done)) by (rewrite E1, E2; now constructor).
           specialize (IH r1 (r :: done) W1 (Forall_cons _ W Wd) Sd'). destruct (fold_left read_command cmds (r1, r :: done)) as [r' done']. rewrite E1, E2 in IH. destruct IH as (I1 & I2 & I3).
           split; [easy|]. split; [easy|]. intros F. inversion F; subst. rewrite I3 by easy. cbn [rev]. rewrite !flat_map_app. cbn [flat_map]. rewrite C1, !app_nil_r, <- !app_assoc. reflexivity.
      * specialize (IH r done W Wd Sd). destruct (fold_left read_command cmds (r, done)) as [r' done']. destruct IH as (I1 & I2 & I3). split; [easy|]. split; [easy|]. intros F. inversion F; subst. auto.
Qed.
Lemma conditions_read conds : forall r, commands r = [] -> is_skip r = false -> breed r = 0 ->
  let r' := fold_left read_condition conds r in commands r' = [] /\ is_skip r' = false /\ breed r' = 0.
Proof.
  induction conds as [|c conds IH]; intros r C S B; cbn [fold_left]; [easy|]. apply IH; unfold read_condition; destruct (parse_assignment c) as [[a v]|]; cbn; auto;
    revert r C S B; induction (words_of c []) as [|w ws IHw]; intros r C S B; cbn [fold_left]; auto.
Qed.
(** A line gives rules that share the conditions, have at most one command with alternatives each, and do all its commands in order. *)
Theorem C78_rules line rs : read_rules line = Some rs ->
  exists conds cmds, parse_rule line = Some (conds, cmds) /\ Forall well_formed rs
  /\ (forall r r', In r rs -> In r' rs -> words r = words r' /\ conditions r = conditions r')
  /\ (Forall (fun c => trim c <> SKIP) cmds -> flat_map commands rs = assigned cmds).
Proof.
  unfold read_rules. destruct (parse_rule line) as [[conds cmds]|] eqn:E; [|easy]. exists conds, cmds. split; [easy|].
  destruct (conditions_read conds new_rule eq_refl eq_refl eq_refl) as (C & S & B). set (r0 := fold_left read_condition conds new_rule) in *.
  assert (W : well_formed r0) by (repeat split; rewrite ?C, ?B; cbn; auto). pose proof (commands_read cmds r0 [] W (Forall_nil _) (Forall_nil _)) as K.
  destruct (fold_left read_command cmds (r0, [])) as [r done]. destruct K as (K1 & K2 & K3). assert (Er : rs = rev (r :: done)) by congruence. subst rs. split; [|split].
  - apply Forall_rev. exact K1.
  - intros x y Ix Iy. apply in_rev in Ix, Iy. rewrite Forall_forall in K2. destruct (K2 x Ix) as [-> ->], (K2 y Iy) as [-> ->]. easy.
  - intros F. rewrite (K3 F). cbn [rev app flat_map]. rewrite C. reflexivity.
Qed.
Print Assumptions C78_rules.
Example C78_rules_some : option_map (map commands) (read_rules (s "CAT=adj>> A = 1|2 , B=3, C=4|5")) = Some [cond [("A", "1|2"); ("B", "3")]; cond [("C", "4|5")]].
Proof. vm_compute. reflexivity. Qed.
(** Nothing behind an empty line of a file is read. *)
Theorem C78_blank before after R : read_file (before ++ [] :: after) R = read_file before R.
Proof. revert R. induction before as [|l before IH]; intros R; cbn [app read_file]; [reflexivity|]. destruct (trim l); [easy|]. destruct (read_line R _); auto. Qed.
Print Assumptions C78_blank.

(** ** Maps of categories, attributes and values *)
(** The first of several definitions of a name counts. *)
Lemma lookup_app m m' a : lookup_name (m ++ m') a = match lookup_name m a with Some b => Some b | None => lookup_name m' a end.
Proof. unfold lookup_name. induction m as [|[x y] m IH]; cbn [app find]; [easy|]. cbn [fst]. destruct (str_eqb x a); easy. Qed.
Theorem C78_first m a b c : lookup_name (add_name m (a, b)) c = match lookup_name m c with Some x => Some x | None => if str_eqb a c then Some b else None end.
Proof.
  unfold add_name. cbn [fst]. destruct (lookup_name m a) eqn:E.
  - destruct (lookup_name m c) eqn:Ec; [easy|]. destruct (seqb_spec a c); [congruence|easy].
  - rewrite lookup_app. destruct (lookup_name m c); [easy|]. unfold lookup_name. cbn. now destruct (str_eqb a c).
Qed.
Print Assumptions C78_first.
Definition new_name (m : list (str * str)) (a a' : str) : Prop := lookup_name m a = Some a' \/ lookup_name m a = None /\ a' = a.
Definition new_value (m : list (str * str)) (v v' : zvalue) : Prop :=
  (exists t, lookup_name m (zvalue_to_string v) = Some t /\ v' = of_string t) \/ lookup_name m (zvalue_to_string v) = None /\ v' = v.
Lemma or_same_spec m a a' : new_name m a a' <-> or_same (lookup_name m a) a = a'.
Proof. unfold new_name, or_same. destruct (lookup_name m a); split; [intros [E|[E _]]; congruence|intros ->; now left|intros [E|[_ ->]]; congruence|intros ->; now right]. Qed.
Lemma convert_spec am vm avs : forall it,
  let it' := convert_values am vm avs it in
  cat it' = cat it /\ txt it' = txt it
  /\ (forall b, (forall a v, In (a, v) avs -> or_same (lookup_name am a) a <> b) -> get it' b = get it b)
  /\ (NoDup (map (fun av => or_same (lookup_name am (fst av)) (fst av)) avs) -> forall a v, In (a, v) avs -> new_value vm v (get it' (or_same (lookup_name am a) a))).
Proof.
  induction avs as [|[a v] avs IH]; intros it; cbn [convert_values fold_left]; [repeat split; easy|].
  set (it1 := match lookup_name vm (zvalue_to_string (snd (a, v))) with Some w => _ | None => _ end). fold (convert_values am vm avs it1).
  destruct (IH it1) as (C & T & O & V). cbn [fst snd] in *. set (a' := or_same (lookup_name am a) a) in *.
  assert (G : exists v', new_value vm v v' /\ cat it1 = cat it /\ txt it1 = txt it /\ forall b, get it1 b = if str_eqb a' b then v' else get it b).
  { unfold it1, new_value. destruct (lookup_name vm (zvalue_to_string v)) as [w|].
    - exists (of_string w). split; [left; now exists w|]. split; [easy|]. split; [easy|]. apply get_set.
    - exists v. split; [now right|]. split; [easy|]. split; [easy|]. apply get_set. }
  destruct G as (v' & Nv & Gc & Gt & Gg). cbv zeta. split; [congruence|]. split; [congruence|]. split.
  - intros b Nb. rewrite O by (intros x y I; apply (Nb x y); now right). rewrite Gg. destruct (seqb_spec a' b) as [E|]; [|easy]. exfalso. apply (Nb a v); [now left|exact E].
  - intros ND x y [I|I].
    + inversion I; subst x y. fold a'. rewrite O; [rewrite Gg, seqb_refl; exact Nv|]. intros x y Ix E. cbn [map fst] in ND. inversion ND as [|? ? NI _]; subst. apply NI. apply in_map_iff. now exists (x, y).
    + cbn [map] in ND. inversion ND; subst. now apply V.
Qed.
(** Category, attributes and values are renamed; the text and everything without a rule stays. *)
Theorem C78_maps cm am vm it : let it' := convert cm am vm it in
  txt it' = txt it /\ new_name cm (cat it) (cat it')
  /\ (forall b, (forall a v, In (a, v) (vals it) -> ~ new_name am a b) -> get it' b = ZNull)
  /\ ((forall a v b w c, In (a, v) (vals it) -> In (b, w) (vals it) -> new_name am a c -> new_name am b c -> (a, v) = (b, w)) -> NoDup (vals it) ->
      forall a v a', In (a, v) (vals it) -> new_name am a a' -> new_value vm v (get it' a')).
Proof.
  unfold convert. destruct (convert_spec am vm (vals it) (Annotation (or_same (lookup_name cm (cat it)) (cat it)) (txt it) [])) as (C & T & O & V). cbv zeta.
  split; [exact T|]. split; [rewrite C; apply or_same_spec; reflexivity|]. split.
  - intros b N. rewrite O; [reflexivity|]. intros a v I E. apply (N a v I). now apply or_same_spec.
  - intros U ND a v a' I Na. apply or_same_spec in Na. subst a'. apply V; [|easy]. clear -U ND. induction (vals it) as [|[x y] l IH]; [constructor|]. inversion ND as [|? ? NI ND']; subst. cbn [map]. constructor.
    + intros K. apply in_map_iff in K as ([x' y'] & E & I). cbn [fst] in E. apply NI.
      rewrite (U x y x' y' (or_same (lookup_name am x) x)); [easy|now left|now right|now apply or_same_spec|now apply or_same_spec].
    + apply IH; [|easy]. intros p q p' q' c Ip Iq. apply U; now right.
Qed.
Print Assumptions C78_maps.
Example C78_maps_some : convert (cond [("adj", "przymiotnik")]) (cond [("number", "L")]) (cond [("sg", "1")]) (Annotation (s "adj") (s "taki") [(s "number", ZSym (s "sg")); (s "case", ZSym (s "nom"))])
  = Annotation (s "przymiotnik") (s "taki") [(s "L", ZInt 1); (s "case", ZSym (s "nom"))].
Proof. vm_compute. reflexivity. Qed.
(** Two attributes with one new name: the last of them hides the other. *)
Theorem C78_maps_refuted : get (convert [] (cond [("a", "x"); ("b", "x")]) [] (Annotation (s "c") (s "t") [(s "a", ZSym (s "1st")); (s "b", ZSym (s "2nd"))])) (s "x") = ZSym (s "2nd").
Proof. vm_compute. reflexivity. Qed.
Print Assumptions C78_maps_refuted.

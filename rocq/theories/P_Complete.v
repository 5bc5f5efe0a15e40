(** C58: the completion of a pipeline. *)
From Coq Require Import String List Bool Arith Lia.
From Verif Require Import M_Complete.
Import ListNotations.
Local Open Scope nat_scope.

Section Completer.
Context {promise factory : Type}.
Variable required : promise -> list (list tag).
Variable provided : promise -> list tag.
Variable handles : promise -> handling.
Variable languages : promise -> list lang.
Variable clone : promise -> lang -> promise.
Variable keeper : list factory.
Variable f_required : factory -> list (list tag).
Variable f_provided : factory -> list tag.
Variable default : factory -> promise.
Variable default_with : factory -> lang -> promise.
Variable langs : list lang.

(** * Specification *)
(** Some promise of [d] gives all the tags. *)
Definition met (d : list promise) (r : list tag) : Prop := exists p, In p d /\ incl r (provided p).
(** Every promise has what it requires before it. *)
Definition ready (x : list promise) : Prop := forall a p b, x = a ++ p :: b -> Forall (met a) (required p).
(** An alternative that is to be made for each language. *)
Definition several (a : list promise) : Prop :=
  (exists p, In p a /\ handles p = Dependent) \/
  (exists p q l m, In p a /\ In q a /\ handles p = OneLanguage /\ handles q = OneLanguage /\ languages p = [l] /\ languages q = [m] /\ l <> m).
Definition speaks (p : promise) (l : lang) : Prop :=
  match handles p with Independent | Guesser => True | _ => In l (languages p) end.
Definition offer (a : list promise) (l : lang) (q : promise) : Prop :=
  exists p, In p a /\ speaks p l /\ q = match handles p with Dependent => clone p l | _ => p end.
(** The language of a promise of one language. *)
Definition tongue (p : promise) (l : option lang) : Prop :=
  match l with Some l => handles p = OneLanguage /\ languages p = [l] | None => handles p <> OneLanguage end.
(** A promise the keeper has for the required tags. *)
Definition suits (r : list tag) (lg : option lang) (q : promise) : Prop :=
  exists f, In f keeper /\ incl r (f_provided f) /\ (forall r', In r' (f_required f) -> ~ incl r r') /\
    match lg with
    | Some l => speaks (default f) l /\ q = match handles (default f) with Dependent => default_with f l | _ => default f end
    | None => handles (default f) <> Dependent /\ q = default f
    end.
Definition single (p : promise) : list promise := [p].
(** From the promises [d], with [t] to come, the whole can become [x]. *)
Inductive run : list promise -> list (list promise) -> list promise -> Prop :=
  | R_end d : run d [] d
  | R_languages d a t qs x : several a -> Forall2 (offer a) langs qs -> run d (map single qs ++ t) x -> run d (a :: t) x
  | R_ready d a t p x : ~ several a -> In p a -> Forall (met d) (required p) -> run (d ++ [p]) t x -> run d (a :: t) x
  | R_need d a t p x before r after lg b : ~ several a -> In p a ->
      required p = before ++ r :: after -> Forall (met d) before -> ~ met d r -> tongue p lg ->
      (forall q, In q b <-> suits r lg q) -> run d (b :: [p] :: t) x -> run d (a :: t) x.

(** What the promises keep: one language is one, a clone is of one language. *)
Hypothesis one_spec : forall p, handles p = OneLanguage -> exists l, languages p = [l].
Hypothesis clone_spec : forall p l, handles p = Dependent -> In l (languages p) -> handles (clone p l) = OneLanguage /\ languages (clone p l) = [l].

Notation scan := (scan required provided handles languages clone keeper f_required f_provided default default_with langs).
Notation complete_ := (complete_ required provided handles languages clone keeper f_required f_provided default default_with langs).
Notation multilingual := (multilingual handles languages).
Notation fulfillers := (fulfillers handles languages keeper f_required f_provided default default_with).
Notation by_language := (by_language handles languages clone).
Notation filtre := (filtre handles languages clone).
Notation check_required := (check_required provided).
Notation language_of := (language_of handles languages).

(** * The parts *)
Lemma Forall2_weaken {A B} (P Q : A -> B -> Prop) l m : (forall a b, P a b -> Q a b) -> Forall2 P l m -> Forall2 Q l m.
Proof. intros I. induction 1; constructor; auto. Qed.
Lemma existsb_eq t l : existsb (String.eqb t) l = true <-> In t l.
Proof. rewrite existsb_exists. split; [intros (x & Hx & E); apply String.eqb_eq in E; now subst|intros H; exists t; split; [assumption|apply String.eqb_refl]]. Qed.
Lemma existsb_eq' t l : existsb (fun h => String.eqb h t) l = true <-> In t l.
Proof. rewrite existsb_exists. split; [intros (x & Hx & E); apply String.eqb_eq in E; now subst|intros H; exists t; split; [assumption|apply String.eqb_refl]]. Qed.
Lemma subset_spec a b : subset a b = true <-> incl a b.
Proof. unfold subset. rewrite forallb_forall. split; intros H t Ht; [apply existsb_eq, H, Ht|apply existsb_eq, H, Ht]. Qed.
Lemma fronts_single d : fronts (map single d) = d.
Proof. induction d as [|p d IH]; [reflexivity|]. change (p :: fronts (map single d) = p :: d). now rewrite IH. Qed.
Lemma check_spec r d : check_required r (map single d) = true <-> met d r.
Proof.
  unfold M_Complete.check_required. rewrite fronts_single, existsb_exists. unfold met. split; intros (p & H & K); exists p; (split; [assumption|]); now apply subset_spec.
Qed.
Lemma check_false r d : check_required r (map single d) = false <-> ~ met d r.
Proof. rewrite <- check_spec. destruct (check_required r (map single d)); split; congruence. Qed.
Lemma one_language_spec p l : handles p = OneLanguage -> one_language languages p = l <-> languages p = [l].
Proof. intros H. destruct (one_spec p H) as (m & E). unfold one_language. rewrite E. cbn. split; congruence. Qed.
Lemma tongue_spec p lg : tongue p lg <-> language_of p = lg.
Proof.
  unfold tongue, M_Complete.language_of. destruct lg as [l|].
  - destruct (handles p) eqn:E; split; try discriminate; try (now intros [? _]).
    + intros [_ K]. f_equal. now apply one_language_spec.
    + intros K. injection K as K. split; [reflexivity|]. now apply one_language_spec.
  - destruct (handles p); split; try discriminate; try reflexivity; congruence.
Qed.
Lemma multilingual_spec a : forall one, multilingual one a = true <->
  several a \/ (exists p l m, one = Some l /\ In p a /\ handles p = OneLanguage /\ languages p = [m] /\ l <> m).
Proof.
  induction a as [|p a IH]; intros one.
  - cbn. split; [discriminate|]. intros [[(p & [] & _)|(p & q & l & m & [] & _)]|(p & l & m & _ & [] & _)].
  - cbn [M_Complete.multilingual].
    assert (U : forall o, several a \/ (exists p l m, o = Some l /\ In p a /\ handles p = OneLanguage /\ languages p = [m] /\ l <> m) ->
      several (p :: a) \/ (exists q l m, o = Some l /\ In q (p :: a) /\ handles q = OneLanguage /\ languages q = [m] /\ l <> m)).
    { intros o [[(q & Hq & E)|(q & q' & l & m & H1 & H2 & E)]|(q & l & m & E & Hq & K)].
      - left. left. exists q. split; [now right|assumption].
      - left. right. exists q, q', l, m. split; [now right|]. split; [now right|]. assumption.
      - right. exists q, l, m. split; [assumption|]. split; [now right|assumption]. }
    assert (S1 : handles p <> OneLanguage -> handles p <> Dependent ->
      several (p :: a) \/ (exists q l m, one = Some l /\ In q (p :: a) /\ handles q = OneLanguage /\ languages q = [m] /\ l <> m) ->
      several a \/ (exists p l m, one = Some l /\ In p a /\ handles p = OneLanguage /\ languages p = [m] /\ l <> m)).
    { intros N1 N2 [[(q & [<-|Hq] & E)|(q & q' & l & m & [<-|H1] & [<-|H2] & E1 & E2 & E)]|(q & l & m & E & [<-|Hq] & E1 & K)]; try congruence.
      - left. left. eauto.
      - left. right. exists q, q', l, m. auto.
      - right. exists q, l, m. auto. }
    destruct (handles p) eqn:Ep.
    + rewrite IH. split; [apply U|apply S1; congruence].
    + rewrite IH. split; [apply U|apply S1; congruence].
    + destruct (one_spec p Ep) as (m & Em). assert (E1 : one_language languages p = m) by (now apply one_language_spec). rewrite E1. destruct one as [l|].
      * destruct (String.eqb_spec l m) as [->|N].
        -- rewrite IH. split; [apply U|]. intros [[(q & [<-|Hq] & E)|(q & q' & l & n & [<-|H1] & [<-|H2] & F1 & F2 & F3 & F4 & F5)]|(q & l & n & E & [<-|Hq] & F1 & F2 & F3)]; try congruence.
           ++ left. left. eauto.
           ++ right. exists q', m, n. repeat split; auto. congruence.
           ++ right. exists q, m, l. repeat split; auto. congruence.
           ++ left. right. exists q, q', l, n. auto 10.
           ++ right. exists q, l, n. auto.
        -- split; [|reflexivity]. intros _. right. exists p, l, m. split; [reflexivity|]. split; [now left|auto].
      * rewrite IH. split.
        -- intros [H|(q & l & n & E & Hq & F1 & F2 & F3)]; [apply U; now left|]. injection E as <-. left. right. exists p, q, m, n. split; [now left|]. split; [now right|]. auto.
        -- intros [[(q & [<-|Hq] & E)|(q & q' & l & n & [<-|H1] & [<-|H2] & F1 & F2 & F3 & F4 & F5)]|(q & l & n & E & _)]; try congruence.
           ++ left. left. eauto.
           ++ right. exists q', m, n. repeat split; auto. congruence.
           ++ right. exists q, m, l. repeat split; auto. congruence.
           ++ left. right. exists q, q', l, n. auto 10.
    + split; [|reflexivity]. intros _. left. left. exists p. split; [now left|assumption].
Qed.
Lemma several_spec a : multilingual None a = true <-> several a.
Proof. rewrite multilingual_spec. split; [|now left]. intros [H|(p & l & m & E & _)]; [assumption|discriminate]. Qed.
Lemma several_false a : multilingual None a = false <-> ~ several a.
Proof. rewrite <- several_spec. destruct (multilingual None a); split; congruence. Qed.
Lemma several_incl a b : incl a b -> several a -> several b.
Proof.
  intros I [(p & H & E)|(p & q & l & m & H1 & H2 & E)]; [left; exists p; auto|right; exists p, q, l, m; auto].
Qed.
Lemma suits_spec r lg q : In q (fulfillers r lg) <-> suits r lg q.
Proof.
  unfold M_Complete.fulfillers, suits. rewrite in_flat_map. split; intros (f & Hf & K); exists f; (split; [assumption|]).
  - destruct (negb (vicious_circle f_required f r) && subset r (f_provided f)) eqn:E; [|destruct K]. apply andb_true_iff in E as [E1 E2]. apply negb_true_iff in E1. apply subset_spec in E2.
    split; [assumption|]. split.
    { intros r' Hr' I. assert (X : vicious_circle f_required f r = true) by (apply existsb_exists; exists r'; split; [assumption|now apply subset_spec]). congruence. }
    unfold default_promise in K. unfold speaks. destruct (handles (default f)) eqn:Eh.
    + destruct K as [<-|[]]. destruct lg; [auto|split; congruence].
    + destruct K as [<-|[]]. destruct lg; [auto|split; congruence].
    + destruct lg as [l|]; [|destruct K as [<-|[]]; split; congruence]. destruct (String.eqb_spec (one_language languages (default f)) l) as [El|]; [|destruct K]. destruct K as [<-|[]].
      apply one_language_spec in El; [|assumption]. rewrite El. split; [now left|reflexivity].
    + destruct lg as [l|]; [|destruct K]. destruct (existsb _ _) eqn:El; [|destruct K]. destruct K as [<-|[]]. apply existsb_eq' in El. auto.
  - destruct K as (K1 & K2 & K3). apply subset_spec in K1. rewrite K1.
    assert (X : vicious_circle f_required f r = false).
    { apply not_true_iff_false. intros X. apply existsb_exists in X as (r' & Hr' & I). apply subset_spec in I. exact (K2 r' Hr' I). }
    rewrite X. cbn [negb andb]. unfold default_promise. unfold speaks in K3. destruct (handles (default f)) eqn:Eh; destruct lg as [l|]; destruct K3 as [K3 ->]; try (now left); try congruence.
    + destruct (one_spec _ Eh) as (m & Em). rewrite Em in K3. destruct K3 as [<-|[]]. replace (one_language languages (default f)) with m; [rewrite String.eqb_refl; now left|]. symmetry. now apply one_language_spec.
    + apply existsb_eq' in K3. rewrite K3. now left.
Qed.
Lemma filtre_spec a l q : In q (filtre a l) <-> offer a l q.
Proof.
  unfold M_Complete.filtre, offer. rewrite in_flat_map. split; intros (p & Hp & K); exists p; (split; [assumption|]); unfold can_handle, speaks in *; destruct (handles p) eqn:E.
  1, 2: destruct K as [<-|[]]; auto.
  1, 2: destruct (existsb _ _) eqn:X; [|destruct K]; apply existsb_eq' in X; destruct K as [<-|[]]; auto.
  1, 2: destruct K as [_ ->]; now left.
  1, 2: destruct K as [K ->]; apply existsb_eq' in K; rewrite K; now left.
Qed.
Lemma filtre_one a l : ~ several (filtre a l).
Proof.
  assert (K : forall q, In q (filtre a l) -> handles q <> Dependent /\ (handles q = OneLanguage -> languages q = [l])).
  { intros q Hq. apply filtre_spec in Hq as (p & Hp & S & ->). unfold speaks in S. destruct (handles p) eqn:E; try (split; congruence).
    - split; [congruence|]. intros _. destruct (one_spec p E) as (m & Em). rewrite Em in *. now destruct S as [->|[]].
    - destruct (clone_spec p l E S) as [C1 C2]. split; [congruence|auto]. }
  intros [(p & Hp & E)|(p & q & m & n & Hp & Hq & E1 & E2 & E3 & E4 & N)].
  - now destruct (K p Hp).
  - destruct (K p Hp) as [_ K1]. destruct (K q Hq) as [_ K2]. rewrite (K1 E1) in E3. rewrite (K2 E2) in E4. congruence.
Qed.
Lemma by_language_spec a ls : match by_language a ls with
  | Some s => Forall2 (fun l b => b = filtre a l /\ b <> []) ls s
  | None => exists l, In l ls /\ filtre a l = []
  end.
Proof.
  induction ls as [|l ls IH]; [constructor|]. cbn. destruct (filtre a l) as [|q b] eqn:E; [exists l; split; [now left|assumption]|].
  destruct (by_language a ls) as [s|]; [constructor; [split; [now symmetry|discriminate]|assumption]|]. destruct IH as (m & Hm & Em). exists m. split; [now right|assumption].
Qed.

(** * Runs *)
Lemma run_app u t : forall d x, run d (u ++ t) x <-> exists y, run d u y /\ run y t x.
Proof.
  intros d x. split.
  - intros H. remember (u ++ t) as s eqn:Es. revert u Es. induction H as [d|d a t0 qs x S F H IH|d a t0 p x S Hp M H IH|d a t0 p x bef r aft lg b S Hp E M1 M2 T B H IH]; intros u Es.
    + symmetry in Es. apply app_eq_nil in Es as [-> ->]. exists d. split; constructor.
    + destruct u as [|a' u]; cbn in Es.
      * subst t. exists d. split; [constructor|]. eapply R_languages; eassumption.
      * injection Es as <- ->. destruct (IH (map single qs ++ u)) as (y & Y1 & Y2); [now rewrite app_assoc|]. exists y. split; [eapply R_languages; eassumption|assumption].
    + destruct u as [|a' u]; cbn in Es.
      * subst t. exists d. split; [constructor|]. eapply R_ready; eassumption.
      * injection Es as <- ->. destruct (IH u eq_refl) as (y & Y1 & Y2). exists y. split; [eapply R_ready; eassumption|assumption].
    + destruct u as [|a' u]; cbn in Es.
      * subst t. exists d. split; [constructor|]. eapply R_need; eassumption.
      * injection Es as <- ->. destruct (IH (b :: [p] :: u) eq_refl) as (y & Y1 & Y2). exists y. split; [eapply R_need; eassumption|assumption].
  - intros (y & H & K). induction H as [d|d a t0 qs y S F H IH|d a t0 p y S Hp M H IH|d a t0 p y bef r aft lg b S Hp E M1 M2 T B H IH]; cbn.
    + assumption.
    + eapply R_languages; try eassumption. rewrite app_assoc. now apply IH.
    + eapply R_ready; try eassumption. now apply IH.
    + eapply R_need; try eassumption. now apply IH.
Qed.
Lemma run_choice d a t x : ~ several a -> (run d (a :: t) x <-> exists p, In p a /\ run d ([p] :: t) x).
Proof.
  intros N. assert (N1 : forall p, In p a -> ~ several [p]) by (intros p Hp S; apply N; eapply several_incl; [|exact S]; intros q [<-|[]]; assumption). split.
  - intros H. inversion H; subst; try contradiction.
    + exists p. split; [assumption|]. eapply R_ready; eauto. now left.
    + exists p. split; [assumption|]. eapply R_need; eauto. now left.
  - intros (p & Hp & H). inversion H; subst; try (now destruct (N1 p Hp)).
    + match goal with K : In _ [p] |- _ => destruct K as [<-|[]] end. eapply R_ready; eauto.
    + match goal with K : In _ [p] |- _ => destruct K as [<-|[]] end. eapply R_need; eauto.
Qed.
Lemma run_choices bs t x : forall d, Forall (fun b => ~ several b) bs ->
  (run d (bs ++ t) x <-> exists qs, Forall2 (fun b q => In q b) bs qs /\ run d (map single qs ++ t) x).
Proof.
  induction bs as [|b bs IH]; intros d F; cbn.
  - split; [intros H; exists []; split; [constructor|assumption]|]. intros (qs & Q & H). inversion Q; subst. exact H.
  - inversion F as [|? ? Nb F']; subst. rewrite run_choice by assumption. split.
    + intros (q & Hq & H). change ([q] :: bs ++ t) with ([[q]] ++ (bs ++ t)) in H. apply run_app in H as (y & Y1 & Y2). apply IH in Y2 as (qs & Q & Y2); [|assumption].
      exists (q :: qs). split; [now constructor|]. cbn. change (single q :: map single qs ++ t) with ([[q]] ++ (map single qs ++ t)). apply run_app. eauto.
    + intros (qs & Q & H). inversion Q as [|? q ? qs' Hq Q' E1 E2]; subst. exists q. split; [assumption|]. cbn in H. change (single q :: map single qs' ++ t) with ([[q]] ++ (map single qs' ++ t)) in H.
      apply run_app in H as (y & Y1 & Y2). change ([q] :: bs ++ t) with ([[q]] ++ (bs ++ t)). apply run_app. exists y. split; [assumption|]. apply IH; [assumption|]. eauto.
Qed.
Lemma several_languages a s : Forall2 (fun l b => b = filtre a l /\ b <> []) langs s -> forall qs, Forall2 (fun b q => In q b) s qs <-> Forall2 (offer a) langs qs.
Proof.
  induction 1 as [|l b ls s [-> N] H IH]; intros qs; split; intros K; inversion K; subst; constructor; try (apply IH; assumption); try constructor.
  - now apply filtre_spec.
  - now apply filtre_spec.
Qed.
Lemma run_languages d a t x s : several a -> Forall2 (fun l b => b = filtre a l /\ b <> []) langs s -> (run d (a :: t) x <-> run d (s ++ t) x).
Proof.
  intros S F. assert (N : Forall (fun b => ~ several b) s).
  { clear -F one_spec clone_spec. induction F as [|l b ls s [-> _] F IH]; constructor; [apply filtre_one|assumption]. }
  rewrite run_choices by assumption. split.
  - intros H. inversion H; subst; try contradiction. exists qs. split; [|assumption]. now apply (several_languages a s F).
  - intros (qs & Q & H). eapply R_languages; [assumption| |exact H]. now apply (several_languages a s F).
Qed.
Lemma run_ready d p t x : ~ several [p] -> Forall (met d) (required p) -> (run d ([p] :: t) x <-> run (d ++ [p]) t x).
Proof.
  intros N M. split; [|intros H; eapply R_ready; eauto; now left]. intros H. inversion H; subst; try contradiction.
  - match goal with K : In _ [p] |- _ => destruct K as [<-|[]] end. assumption.
  - match goal with K : In _ [p] |- _ => destruct K as [<-|[]] end. exfalso. match goal with K : required p = _ |- _ => rewrite K in M end. apply Forall_app in M as [_ M]. inversion M; subst. contradiction.
Qed.
Lemma first_unique (P : list tag -> Prop) a r b a' r' b' : a ++ r :: b = a' ++ r' :: b' -> Forall P a -> ~ P r -> Forall P a' -> ~ P r' -> r = r'.
Proof.
  revert a'. induction a as [|x a IH]; intros [|x' a'] E Fa N Fa' N'; cbn in E; injection E as E1 E2; subst; try assumption || reflexivity.
  - inversion Fa'; subst. contradiction.
  - inversion Fa; subst. contradiction.
  - inversion Fa; inversion Fa'; subst. eapply IH; eassumption.
Qed.
Lemma suits_several r lg b b' : (forall q, In q b <-> suits r lg q) -> (forall q, In q b' <-> suits r lg q) -> incl b b'.
Proof. intros H K q Hq. apply K, H, Hq. Qed.
Lemma run_need d p t x before r after : ~ several [p] -> required p = before ++ r :: after -> Forall (met d) before -> ~ met d r ->
  (run d ([p] :: t) x <-> run d (fulfillers r (language_of p) :: [p] :: t) x).
Proof.
  intros N E M1 M2. pose proof (proj2 (tongue_spec p _) eq_refl) as T. split.
  - intros H. inversion H as [| |? ? ? p' ? N' Hp M|? ? ? p' ? bef r' aft lg b N' Hp E' F1 F2 T' B R]; subst; try contradiction.
    + destruct Hp as [<-|[]]. rewrite E in M. apply Forall_app in M as [_ M]. inversion M; subst. contradiction.
    + destruct Hp as [<-|[]]. assert (r = r') by (eapply (first_unique (met d)); [rewrite <- E; exact E'|assumption..]). subst r'. apply tongue_spec in T'. subst lg.
      assert (I1 : incl b (fulfillers r (language_of p))) by (apply (suits_several r (language_of p)); [assumption|intros; apply suits_spec]).
      assert (I2 : incl (fulfillers r (language_of p)) b) by (apply (suits_several r (language_of p)); [intros; apply suits_spec|assumption]).
      clear H. revert R. destruct (multilingual None b) eqn:Eb.
      * apply several_spec in Eb. intros R. inversion R; subst; try contradiction. eapply R_languages; [eapply several_incl; [|exact Eb]; assumption| |eassumption].
        eapply Forall2_weaken; [|eassumption]. intros l q (q0 & Q1 & Q2). exists q0. split; [now apply I1|assumption].
      * apply several_false in Eb. intros R. apply run_choice in R as (q & Hq & R); [|assumption]. apply run_choice; [|eauto]. intros S. apply Eb. eapply several_incl; eassumption.
  - intros R. eapply R_need; eauto; [now left|]. intros; apply suits_spec.
Qed.

(** * The rounds *)
Definition plain (d : list promise) : Prop := Forall (fun p => ~ several [p]) d.
Lemma ready_app d p : ready d -> Forall (met d) (required p) -> ready (d ++ [p]).
Proof.
  intros R M a q b E. destruct (exists_last (l := q :: b) ltac:(discriminate)) as (b' & z & Eb). rewrite Eb, app_assoc in E. apply app_inj_tail in E as [E1 E2].
  destruct b' as [|y b']; cbn in Eb; injection Eb as E3 E4; subst.
  - now rewrite app_nil_r in M.
  - eapply R. reflexivity.
Qed.
Lemma ready_prefix a b : ready (a ++ b) -> ready a.
Proof. intros R x p y ->. apply (R x p (y ++ b)). rewrite <- app_assoc. reflexivity. Qed.
Lemma run_prefix d : ready d -> plain d -> forall t x, run [] (map single d ++ t) x <-> run d t x.
Proof.
  intros R P. induction d as [|p d IH] using rev_ind; intros t x; [reflexivity|]. apply Forall_app in P as [P1 P2]. inversion P2; subst. pose proof (ready_prefix _ _ R) as R'.
  rewrite map_app. cbn [map]. rewrite <- app_assoc. cbn [app]. rewrite IH by assumption. apply run_ready; [assumption|]. now apply (R d p []).
Qed.
Lemma find_first {A} (f : A -> bool) l : match find f l with
  | Some r => exists a b, l = a ++ r :: b /\ f r = true /\ Forall (fun x => f x = false) a
  | None => Forall (fun x => f x = false) l
  end.
Proof.
  induction l as [|x l IH]; [constructor|]. cbn. destruct (f x) eqn:E; [exists [], l; repeat split; auto|]. destruct (find f l) as [r|].
  - destruct IH as (a & b & -> & E' & F). exists (x :: a), b. repeat split; auto.
  - constructor; assumption.
Qed.
Lemma unmet_first d l : match find (fun r => negb (check_required r (map single d))) l with
  | Some r => exists a b, l = a ++ r :: b /\ ~ met d r /\ Forall (met d) a
  | None => Forall (met d) l
  end.
Proof.
  pose proof (find_first (fun r => negb (check_required r (map single d))) l) as H. destruct (find _ l) as [r|].
  - destruct H as (a & b & E & N & F). exists a, b. split; [assumption|]. split; [apply check_false; now apply negb_true_iff in N|]. eapply Forall_impl; [|exact F]. cbn. intros x Hx. apply check_spec. now apply negb_false_iff in Hx.
  - eapply Forall_impl; [|exact H]. cbn. intros x Hx. apply check_spec. now apply negb_false_iff in Hx.
Qed.
(** Where a round may start. *)
Definition from (s : list (list promise)) (k : nat) : Prop := exists d, firstn k s = map single d /\ ready d /\ plain d /\ k = List.length d.
Lemma from_split s k : from s k -> exists d t, s = map single d ++ t /\ ready d /\ plain d /\ k = List.length d.
Proof. intros (d & E & R & P & L). exists d, (skipn k s). split; [|auto]. rewrite <- E. symmetry. apply firstn_skipn. Qed.
Lemma from_make d t : ready d -> plain d -> from (map single d ++ t) (List.length d).
Proof. intros R P. exists d. split; [|auto]. rewrite firstn_app, map_length, Nat.sub_diag, app_nil_r. apply firstn_all2. now rewrite map_length. Qed.
Lemma from_less d t k : ready d -> plain d -> k <= List.length d -> from (map single d ++ t) k.
Proof.
  intros R P L. exists (firstn k d). rewrite <- (firstn_skipn k d) in R, P. apply ready_prefix in R. apply Forall_app in P as [P _]. split; [|split; [assumption|]; split; [assumption|rewrite firstn_length; lia]].
  rewrite firstn_app, map_length. replace (k - List.length d) with 0 by lia. cbn [firstn]. now rewrite app_nil_r, firstn_map.
Qed.
Definition same (s s' : list (list promise)) : Prop := forall x, run [] s x <-> run [] s' x.
Lemma scan_spec post : forall restart d, ready d -> plain d -> restart <= List.length d ->
  match scan restart (map single d) post with
  | Finished => exists d', map single d ++ post = map single d' /\ ready d' /\ plain d'
  | Again s' r' => same (map single d ++ post) s' /\ from s' r'
  | Split pre a t => exists d', pre = map single d' /\ map single d ++ post = pre ++ a :: t /\ ready d' /\ plain d' /\ ~ several a
  | Abandoned => forall x, ~ run [] (map single d ++ post) x
  | Undefined => True
  end.
Proof.
  induction post as [|a post IH]; intros restart d R P L; cbn [M_Complete.scan].
  - exists d. split; [apply app_nil_r|auto].
  - destruct (multilingual None a) eqn:Ea.
    + apply several_spec in Ea. pose proof (by_language_spec a langs) as B. destruct (by_language a langs) as [s|].
      * assert (Sm : same (map single d ++ a :: post) (map single d ++ s ++ post)).
        { intros x. rewrite !run_prefix by assumption. now apply run_languages. }
        destruct s as [|b s].
        -- destruct (restart =? List.length (map single d)) eqn:E; [exact I|]. split; [exact Sm|]. now apply from_less.
        -- split; [exact Sm|]. rewrite map_length. now apply from_make.
      * destruct B as (l & Hl & El). intros x H. rewrite run_prefix in H by assumption. inversion H as [|? ? ? qs ? S F|? ? ? ? ? N|? ? ? ? ? ? ? ? ? ? N]; subst; try contradiction.
        assert (X : exists q, offer a l q). { clear -F Hl. induction F as [|m q ls qs O F IH]; [destruct Hl|]. destruct Hl as [<-|Hl]; [eauto|now apply IH]. }
        destruct X as (q & Q). apply filtre_spec in Q. now rewrite El in Q.
    + apply several_false in Ea. destruct a as [|p [|p' a]]; [exact I| |].
      * pose proof (unmet_first d (required p)) as F. destruct (find _ (required p)) as [r|].
        -- destruct F as (bef & aft & E & N & F). assert (Sm : same (map single d ++ [p] :: post) (map single d ++ fulfillers r (language_of p) :: [p] :: post)).
           { intros x. rewrite !run_prefix by assumption. eapply run_need; eassumption. }
           destruct (fulfillers r (language_of p)) as [|q b] eqn:Ef.
           ++ intros x H. apply Sm in H. rewrite run_prefix in H by assumption. apply run_choice in H as (q & [] & _). intros [(q & [] & _)|(q & q' & l & m & [] & _)].
           ++ split; [exact Sm|]. rewrite map_length. now apply from_make.
        -- assert (Es : map single d ++ [[p]] = map single (d ++ [p])) by (rewrite map_app; reflexivity). rewrite Es.
           specialize (IH restart (d ++ [p]) (ready_app _ _ R F)). rewrite <- Es, <- !app_assoc in IH. cbn [app] in IH. rewrite Es in IH. apply IH.
           ++ apply Forall_app. split; [assumption|]. constructor; [assumption|constructor].
           ++ rewrite app_length. cbn. lia.
      * exists d. auto.
Qed.

(** * The results *)
Lemma both_done (a b : @result promise) l : both a b = Done l -> exists x y, a = Done x /\ b = Done y /\ l = x ++ y.
Proof. destruct a, b; try discriminate. intros H. injection H as <-. eauto. Qed.
Lemma run_done d x : run d [] x <-> x = d.
Proof. split; [intros H; inversion H; reflexivity|intros ->; constructor]. Qed.
Lemma ready_nil : ready [].
Proof. intros [|? ?] ? ? [=]. Qed.
Lemma from_zero s : from s 0.
Proof. apply (from_less [] s 0 ready_nil); [constructor|apply le_n]. Qed.
Lemma exact fuel : forall s k l, from s k -> complete_ fuel s k = Done l -> forall x, In x l <-> run [] s x.
Proof.
  induction fuel as [|n IH]; intros s k l F H x; [discriminate|]. cbn [M_Complete.complete_] in H. destruct (from_split _ _ F) as (d & t & -> & R & P & ->).
  rewrite firstn_app, skipn_app, map_length, Nat.sub_diag in H. cbn [firstn skipn] in H. rewrite app_nil_r, firstn_all2, skipn_all2 in H by now rewrite map_length. cbn [app] in H.
  pose proof (scan_spec t (List.length d) d R P (le_n _)) as S. destruct (scan (List.length d) (map single d) t) as [|s' r'|pre a post| |].
  - injection H as <-. destruct S as (d' & E & R' & P'). rewrite E, fronts_single. rewrite <- (app_nil_r (map single d')), run_prefix by assumption. rewrite run_done. cbn. split; [intros [->|[]]; reflexivity|intros ->; now left].
  - destruct S as [S1 S2]. rewrite (IH _ _ _ S2 H). symmetry. apply S1.
  - destruct S as (d' & -> & E & R' & P' & N). rewrite E, run_prefix, run_choice by assumption.
    assert (K : forall a l, fold_right (fun p x => both (complete_ n (map single d' ++ [p] :: post) 0) x) (Done []) a = Done l -> (In x l <-> exists p, In p a /\ run d' ([p] :: post) x)).
    { clear H E N a l. induction a as [|p a IHa]; intros l H; cbn in H.
      - injection H as <-. split; [intros []|intros (p & [] & _)].
      - apply both_done in H as (y & z & H1 & H2 & ->). rewrite in_app_iff, (IHa z H2). pose proof (IH _ _ _ (from_zero _) H1 x) as H3. rewrite (run_prefix d' R' P') in H3. rewrite H3. split.
        + intros [K|(q & Hq & K)]; [exists p; split; [now left|assumption]|exists q; split; [now right|assumption]].
        + intros (q & [<-|Hq] & K); [now left|right; eauto]. }
    exact (K a l H).
  - injection H as <-. split; [intros []|]. intros K. exact (S x K).
  - discriminate.
Qed.
Theorem C58_exact fuel s l : complete_ fuel s 0 = Done l -> forall x, In x l <-> run [] s x.
Proof. apply exact, from_zero. Qed.

(** * What the results are like *)
Theorem C58_ready d t x : run d t x -> ready d -> ready x.
Proof. induction 1; auto. intros R. apply IHrun. now apply ready_app. Qed.
(** What an alternative has become; what was added for a requirement. *)
Definition chosen (a c : list promise) : Prop := (~ several a /\ exists p, In p a /\ c = [p]) \/ (several a /\ Forall2 (offer a) langs c).
Inductive within {A} : list A -> list A -> Prop :=
  | W_nil y : within [] y
  | W_take a x y : within x y -> within (a :: x) (a :: y)
  | W_skip a x y : within x y -> within x (a :: y).
Definition added (x : list promise) (q : promise) : Prop :=
  exists p r lg q0, In p x /\ In r (required p) /\ tongue p lg /\ suits r lg q0 /\ (q = q0 \/ exists l, offer [q0] l q).
Lemma within_tail {A} (a x y : list A) : within (a ++ x) y -> within x y.
Proof.
  intros H. remember (a ++ x) as w eqn:E. revert a E. induction H as [y|b w y H IH|b w y H IH]; intros a E.
  - symmetry in E. apply app_eq_nil in E as [-> ->]. constructor.
  - destruct a as [|c a]; cbn in E; [subst; now constructor|]. injection E as -> E. constructor. exact (IH a E).
  - constructor. exact (IH a E).
Qed.
Lemma within_in {A} (x y : list A) q : within x y -> In q x -> In q y.
Proof. induction 1; [intros []| |]; cbn; intuition. Qed.
Lemma chosen_single p c : ~ several [p] -> chosen [p] c -> c = [p].
Proof. intros N [[_ (q & [<-|[]] & ->)]|[S _]]; [reflexivity|contradiction]. Qed.
Lemma offer_single a l q : offer a l q -> ~ several [q].
Proof. intros O S. apply (filtre_one a l). eapply several_incl; [|exact S]. intros r [<-|[]]. now apply filtre_spec. Qed.
Lemma singles_chosen ls a qs cs : Forall2 (offer a) ls qs -> Forall2 chosen (map single qs) cs -> List.concat cs = qs.
Proof.
  intros F. revert cs. induction F as [|l q ls qs O F IH]; intros cs H; inversion H as [|? c ? cs' C H']; subst; [reflexivity|]. cbn. rewrite (IH _ H').
  apply chosen_single in C; [now subst|]. eapply offer_single. exact O.
Qed.
Lemma run_shape d t x : run d t x -> exists cs z, x = d ++ z /\ Forall2 chosen t cs /\ within (List.concat cs) z /\ Forall (fun q => In q (List.concat cs) \/ added x q) z.
Proof.
  induction 1 as [d|d a t qs x S F H IH|d a t p x S Hp M H IH|d a t p x bef r aft lg b S Hp E M1 M2 T B H IH].
  - exists [], []. rewrite app_nil_r. repeat split; constructor.
  - destruct IH as (cs & z & -> & C & W & A). apply Forall2_app_inv_l in C as (c1 & c2 & C1 & C2 & ->). pose proof (singles_chosen _ _ _ _ F C1) as E.
    rewrite concat_app, E in W, A. exists (qs :: c2), z. split; [reflexivity|]. split; [constructor; [right; auto|assumption]|]. auto.
  - destruct IH as (cs & z & -> & C & W & A). exists ([p] :: cs), (p :: z). split; [now rewrite <- app_assoc|]. split; [constructor; [left; eauto|assumption]|]. split; [cbn; now constructor|].
    constructor; [left; now left|]. eapply Forall_impl; [|exact A]. cbn. intros q [Q|Q]; auto.
  - destruct IH as (cs & z & -> & C & W & A). inversion C as [|? cb ? cs1 Cb C1]; subst. inversion C1 as [|? cp ? cs2 Cp C2]; subst.
    assert (Np : ~ several [p]) by (intros K; apply S; eapply several_incl; [|exact K]; intros q [<-|[]]; assumption). apply chosen_single in Cp; [|assumption]. subst cp. cbn [List.concat] in W, A.
    exists ([p] :: cs2), z. split; [reflexivity|]. split; [constructor; [left; eauto|assumption]|]. split; [now apply within_tail in W|].
    eapply Forall_impl; [|exact A]. intros q [Q|Q]; [|now right]. apply in_app_iff in Q as [Q|Q]; [|now left]. right.
    assert (Pz : In p (d ++ z)) by (apply in_app_iff; right; eapply within_in; [exact W|]; apply in_app_iff; right; now left).
    exists p, r, lg. destruct Cb as [[_ (q0 & Q0 & ->)]|[_ Fb]].
    + destruct Q as [<-|[]]. exists q0. split; [assumption|]. split; [rewrite E; apply in_app_iff; right; now left|]. split; [assumption|]. split; [now apply B|now left].
    + assert (X : exists l, offer b l q). { clear -Fb Q. induction Fb as [|l q' ls qs O F IH]; [destruct Q|]. destruct Q as [<-|Q]; [eauto|now apply IH]. }
      destruct X as (l & q0 & Q0 & Q1). exists q0. split; [assumption|]. split; [rewrite E; apply in_app_iff; right; now left|]. split; [assumption|]. split; [now apply B|]. right. exists l, q0. split; [now left|assumption].
Qed.
Theorem C58_sound fuel s l x : complete_ fuel s 0 = Done l -> In x l ->
  ready x /\ exists cs, Forall2 chosen s cs /\ within (List.concat cs) x /\ Forall (fun q => In q (List.concat cs) \/ added x q) x.
Proof.
  intros H K. apply (C58_exact _ _ _ H) in K. split; [eapply C58_ready; [exact K|apply ready_nil]|]. apply run_shape in K as (cs & z & -> & C). exists cs. exact C.
Qed.

(** * The rounds come to an end *)
Lemma ready_at a p b : ready (a ++ p :: b) -> Forall (met a) (required p).
Proof. intros R. now apply (R a p b). Qed.
Lemma scan_walk restart t d2 : forall d1, ready (d1 ++ d2) -> plain d2 -> scan restart (map single d1) (map single d2 ++ t) = scan restart (map single (d1 ++ d2)) t.
Proof.
  induction d2 as [|p d2 IH]; intros d1 R P; [now rewrite app_nil_r|]. inversion P as [|? ? Np P']; subst. cbn [map app M_Complete.scan].
  change (single p) with [p]. rewrite (proj2 (several_false [p]) Np). pose proof (unmet_first d1 (required p)) as U. destruct (find _ (required p)) as [r|].
  - exfalso. destruct U as (a & b & E & N & _). pose proof (ready_at _ _ _ R) as M. rewrite E in M. apply Forall_app in M as [_ M]. inversion M; subst. contradiction.
  - replace (map single d1 ++ [[p]]) with (map single (d1 ++ [p])) by (rewrite map_app; reflexivity). rewrite IH; [now rewrite <- app_assoc|now rewrite <- app_assoc|assumption].
Qed.
Theorem C58_unchanged fuel x : ready x -> Forall (fun p => ~ several [p]) x -> complete_ (S fuel) (map single x) 0 = Done [x].
Proof.
  intros R P. cbn [M_Complete.complete_ firstn skipn]. pose proof (scan_walk 0 [] x [] R P) as W. cbn [map app] in W. rewrite app_nil_r in W. rewrite W. cbn [M_Complete.scan]. now rewrite fronts_single.
Qed.
(** Nothing is read that is not there. *)
Lemma scan_defined post : langs <> [] -> forall restart pre, Forall (fun a => a <> []) (pre ++ post) ->
  match scan restart pre post with
  | Undefined => False
  | Again s _ => Forall (fun a => a <> []) s
  | Split p a q => Forall (fun a => a <> []) (p ++ q)
  | _ => True
  end.
Proof.
  intros NL. induction post as [|a post IH]; intros restart pre F; cbn [M_Complete.scan]; [exact I|]. pose proof F as F0. apply Forall_app in F as [F1 F2]. inversion F2 as [|? ? Na F3]; subst. destruct (multilingual None a).
  - pose proof (by_language_spec a langs) as B. destruct (by_language a langs) as [s|]; [|exact I]. destruct s as [|b s]; [inversion B; congruence|].
    rewrite !Forall_app. split; [assumption|]. split; [|assumption]. revert B. generalize (b :: s). clear. intros w B. induction B as [|l c ls w [_ N] B IH]; constructor; assumption.
  - destruct a as [|p [|p' a]]; [congruence| |].
    + destruct (find _ (required p)) as [r|].
      * destruct (fulfillers r (language_of p)) as [|q b]; [exact I|]. rewrite Forall_app. split; [assumption|]. constructor; [discriminate|assumption].
      * apply IH. now rewrite <- app_assoc.
    + rewrite Forall_app. auto.
Qed.
Theorem C58_defined fuel : langs <> [] -> forall s k, Forall (fun a => a <> []) s -> complete_ fuel s k <> Bad.
Proof.
  intros NL. induction fuel as [|n IH]; intros s k F; cbn [M_Complete.complete_]; [discriminate|]. pose proof (scan_defined (skipn k s) NL k (firstn k s)) as D. rewrite firstn_skipn in D. specialize (D F).
  destruct (scan k (firstn k s) (skipn k s)) as [|s' r'|pre a post| |]; try discriminate; [now apply IH| |contradiction].
  apply Forall_app in D as [D1 D2]. clear F. induction a as [|p a IHa]; cbn; [discriminate|].
  assert (X : complete_ n (pre ++ [p] :: post) 0 <> Bad) by (apply IH; rewrite Forall_app; split; [assumption|]; constructor; [discriminate|assumption]).
  destruct (complete_ n (pre ++ [p] :: post) 0); [discriminate|congruence|]. revert IHa. destruct (fold_right _ _ a); cbn; intros IHa; [discriminate|congruence|discriminate].
Qed.

(** Where the tags are ranked so that an annotator requires only tags of a lower rank than those
    it is asked for, the completion ends. *)
Section Ends.
Variable rank : list tag -> nat.
Hypothesis with_spec : forall f l, In f keeper -> handles (default f) = Dependent -> In l (languages (default f)) -> handles (default_with f l) = OneLanguage /\ languages (default_with f l) = [l].
Hypothesis keeps : forall r lg q, suits r lg q -> incl r (provided q) /\ Forall (fun r' => rank r' < rank r) (required q).

Lemma fold_finished {A} (f : A -> @result promise) l : (forall x, In x l -> f x <> Unfinished) -> fold_right (fun p x => both (f p) x) (Done []) l <> Unfinished.
Proof.
  induction l as [|a l IH]; intros H; cbn; [discriminate|]. specialize (IH (fun x Hx => H x (or_intror Hx))). pose proof (H a (or_introl eq_refl)) as Ha.
  destruct (f a); [congruence|discriminate|]. revert IH. destruct (fold_right _ _ l); cbn; intros IH; [congruence|discriminate|discriminate].
Qed.
Lemma fold_same {A} (f g : A -> @result promise) l : (forall x, In x l -> f x <> Unfinished -> g x = f x) -> fold_right (fun p x => both (f p) x) (Done []) l <> Unfinished ->
  fold_right (fun p x => both (g p) x) (Done []) l = fold_right (fun p x => both (f p) x) (Done []) l.
Proof.
  induction l as [|a l IH]; intros H K; [reflexivity|]. cbn in *. specialize (IH (fun x Hx => H x (or_intror Hx))). pose proof (H a (or_introl eq_refl)) as Ha.
  destruct (f a) as [| |y] eqn:Ef; [now destruct K|rewrite Ha by discriminate; reflexivity|]. rewrite Ha by discriminate. rewrite IH; [reflexivity|]. intros E. rewrite E in K. now apply K.
Qed.
Lemma complete_more n : forall m s k, complete_ n s k <> Unfinished -> n <= m -> complete_ m s k = complete_ n s k.
Proof.
  induction n as [|n IH]; intros m s k H L; [now destruct H|]. destruct m as [|m]; [lia|]. cbn [M_Complete.complete_] in *.
  destruct (scan k (firstn k s) (skipn k s)) as [|s' r'|pre a post| |]; try reflexivity; [apply IH; [assumption|lia]|].
  apply fold_same; [|assumption]. intros x _ Hx. apply IH; [assumption|lia].
Qed.
Definition Term (d : list promise) (t : list (list promise)) : Prop := forall k, k <= List.length d -> exists n, complete_ n (map single d ++ t) k <> Unfinished.
Lemma round_of d t k n : ready d -> plain d -> k <= List.length d -> complete_ (S n) (map single d ++ t) k =
  match scan k (map single d) t with
  | Finished => Done [fronts (map single d ++ t)]
  | Again s' r' => complete_ n s' r'
  | Abandoned => Done []
  | Undefined => Bad
  | Split pre a post => fold_right (fun p x => both (complete_ n (pre ++ [p] :: post) 0) x) (Done []) a
  end.
Proof.
  intros R P L. cbn [M_Complete.complete_]. rewrite firstn_app, skipn_app, map_length. replace (k - List.length d) with 0 by lia. cbn [firstn skipn]. rewrite app_nil_r, firstn_map, skipn_map.
  rewrite <- (firstn_skipn k d) in P. apply Forall_app in P as [_ P]. pose proof (scan_walk k t (skipn k d) (firstn k d)) as W. rewrite firstn_skipn in W. now rewrite (W R P).
Qed.
Definition ext (d d' : list promise) : Prop := exists z, d' = d ++ z.
Lemma ext_refl d : ext d d.
Proof. exists []. now rewrite app_nil_r. Qed.
Lemma ext_trans a b c : ext a b -> ext b c -> ext a c.
Proof. intros [x ->] [y ->]. exists (x ++ y). now rewrite app_assoc. Qed.
Lemma ext_met a b r : ext a b -> met a r -> met b r.
Proof. intros [z ->] (p & H & K). exists p. split; [apply in_app_iff; now left|assumption]. Qed.
Lemma ext_in a b (p : promise) : ext a b -> In p a -> In p b.
Proof. intros [z ->] H. apply in_app_iff. now left. Qed.
(** [p] comes to an end in front of anything that does. *)
Definition ends_at (p : promise) : Prop := forall d t, ready d -> plain d -> (forall d', ext d d' -> ready d' -> plain d' -> In p d' -> Term d' t) -> Term d ([p] :: t).
Lemma ends_choice a d t : ~ several a -> (forall q, In q a -> ends_at q) -> ready d -> plain d ->
  (forall d', ext d d' -> ready d' -> plain d' -> (exists q, In q a /\ In q d') -> Term d' t) -> Term d (a :: t).
Proof.
  intros N E R P C. assert (C1 : forall q, In q a -> Term d ([q] :: t)).
  { intros q Hq. apply (E q Hq d t R P). intros d' X R' P' I. apply C; auto. exists q. auto. }
  destruct a as [|p [|p' a]].
  - intros k L. exists 1. rewrite round_of by assumption. cbn. discriminate.
  - apply C1. now left.
  - intros k L. assert (X : forall l, incl l (p :: p' :: a) -> exists n, forall q, In q l -> complete_ n (map single d ++ [q] :: t) 0 <> Unfinished).
    { induction l as [|q l IH]; intros I; [exists 0; intros q []|]. destruct IH as (n1 & H1); [intros y Hy; apply I; now right|]. destruct (C1 q (I q (or_introl eq_refl)) 0 (Nat.le_0_l _)) as (n2 & H2).
      exists (n1 + n2). intros y [<-|Hy]; [rewrite (complete_more n2) by (try assumption; lia); assumption|]. rewrite (complete_more n1) by (try (apply H1; assumption); lia). now apply H1. }
    destruct (X _ (incl_refl _)) as (n & Hn). exists (S n). rewrite round_of by assumption. cbn [M_Complete.scan]. rewrite (proj2 (several_false _) N). now apply fold_finished.
Qed.
Lemma ends_list s t : forall d, Forall (fun b => ~ several b /\ forall q, In q b -> ends_at q) s -> ready d -> plain d ->
  (forall d', ext d d' -> ready d' -> plain d' -> Forall (fun b => exists q, In q b /\ In q d') s -> Term d' t) -> Term d (s ++ t).
Proof.
  induction s as [|b s IH]; intros d F R P C; cbn [app].
  - apply C; [apply ext_refl|assumption..|constructor].
  - inversion F as [|? ? [N E] F']; subst. apply ends_choice; try assumption. intros d' X R' P' (q & Q1 & Q2). apply IH; try assumption. intros d'' X' R'' P'' Fs. apply C; try assumption; [eapply ext_trans; eassumption|].
    constructor; [exists q; split; [assumption|eapply ext_in; eassumption]|assumption].
Qed.
Lemma suits_tongue r lg q : suits r lg q -> handles q <> Dependent.
Proof.
  intros (f & Hf & _ & _ & K). destruct lg as [l|]; destruct K as [K1 ->]; [|assumption]. destruct (handles (default f)) eqn:E; try congruence. unfold speaks in K1. rewrite E in K1.
  destruct (with_spec f l Hf E K1) as [W _]. congruence.
Qed.
Lemma filtre_suits r lg b l q : (forall q, In q b <-> suits r lg q) -> In q (filtre b l) -> suits r lg q.
Proof.
  intros B H. apply filtre_spec in H as (p & Hp & _ & ->). apply B in Hp. pose proof (suits_tongue _ _ _ Hp) as N. destruct (handles p); congruence.
Qed.
Lemma by_language_each a ls s : by_language a ls = Some s -> Forall (fun b => exists l, b = filtre a l) s.
Proof.
  intros E. pose proof (by_language_spec a ls) as H. rewrite E in H. clear E. revert H. generalize s. clear s. induction ls as [|l ls IH]; intros s H; inversion H as [|? ? ? ? [-> _] H']; subst; constructor; [eexists; reflexivity|now apply IH].
Qed.
Definition unmet (d : list promise) (l : list (list tag)) : nat := List.length (filter (fun r => negb (check_required r (map single d))) l).
Lemma unmet_less d d' l r : ext d d' -> In r l -> ~ met d r -> met d' r -> unmet d' l < unmet d l.
Proof.
  intros X H N M. unfold unmet.
  assert (Le : forall m, List.length (filter (fun r => negb (check_required r (map single d'))) m) <= List.length (filter (fun r => negb (check_required r (map single d))) m)).
  { induction m as [|y m IH]; cbn [filter]; [lia|]. destruct (check_required y (map single d)) eqn:E.
    - apply check_spec in E. apply (ext_met _ _ _ X) in E. apply check_spec in E. rewrite E. exact IH.
    - cbn [negb]. destruct (check_required y (map single d')); cbn [negb List.length]; lia. }
  induction l as [|y l IH]; [destruct H|]. cbn [filter]. destruct H as [->|H].
  - apply check_false in N. apply check_spec in M. rewrite N, M. cbn [negb List.length]. specialize (Le l). lia.
  - specialize (IH H). destruct (check_required y (map single d)) eqn:E.
    + apply check_spec in E. apply (ext_met _ _ _ X) in E. apply check_spec in E. rewrite E. exact IH.
    + cbn [negb]. destruct (check_required y (map single d')); cbn [negb List.length]; lia.
Qed.
Lemma ends_single k : forall p, Forall (fun r => rank r < k) (required p) -> ~ several [p] -> ends_at p.
Proof.
  induction k as [k IHk] using lt_wf_ind. intros p Fk N d t. remember (unmet d (required p)) as u eqn:Eu. revert d Eu. induction u as [u IHu] using lt_wf_ind. intros d -> R P C.
  pose proof (unmet_first d (required p)) as U. destruct (find (fun r => negb (check_required r (map single d))) (required p)) as [r|] eqn:Ef.
  - destruct U as (bef & aft & E & Nr & Fm).
    assert (Ir : In r (required p)) by (rewrite E; apply in_app_iff; right; now left).
    assert (C' : forall d', ext d d' -> ready d' -> plain d' -> met d' r -> Term d' ([p] :: t)).
    { intros d' X R' P' M. apply (IHu (unmet d' (required p))); try assumption; [eapply unmet_less; eassumption|reflexivity|]. intros d'' X' R'' P'' I. apply C; try assumption. eapply ext_trans; eassumption. }
    set (b := fulfillers r (language_of p)).
    assert (B : forall q, In q b <-> suits r (language_of p) q) by (intros; apply suits_spec).
    assert (Eq : forall q, suits r (language_of p) q -> ~ several [q] -> ends_at q).
    { intros q Hq Nq. destruct (keeps _ _ _ Hq) as [_ Fq]. rewrite Forall_forall in Fk. apply (IHk (rank r) (Fk r Ir) q); assumption. }
    assert (Mq : forall d' q, suits r (language_of p) q -> In q d' -> met d' r) by (intros d' q Hq I; exists q; split; [assumption|now destruct (keeps _ _ _ Hq)]).
    assert (T : exists n, complete_ n (map single d ++ b :: [p] :: t) (List.length d) <> Unfinished).
    { destruct (multilingual None b) eqn:Eb.
      - pose proof (by_language_spec b langs) as L. destruct (by_language b langs) as [s|] eqn:El.
        + destruct s as [|b1 s].
          * exists 1. rewrite round_of by (try assumption; lia). cbn [M_Complete.scan]. rewrite Eb, El, map_length, Nat.eqb_refl. discriminate.
          * assert (Tl : Term d ((b1 :: s) ++ [p] :: t)).
            { apply ends_list; try assumption.
              - pose proof (by_language_each _ _ _ El) as F. eapply Forall_impl; [|exact F]. intros c (l & ->). split; [apply filtre_one|].
                intros q Hq. apply Eq; [eapply filtre_suits; eassumption|]. intros S. apply (filtre_one b l). eapply several_incl; [|exact S]. intros y [<-|[]]. assumption.
              - intros d' X R' P' F. apply C'; try assumption. inversion F as [|? ? (q & Q1 & Q2) _]; subst. apply (Mq d' q); [|assumption]. pose proof (by_language_each _ _ _ El) as G. inversion G as [|? ? (l & E1) _]; subst. eapply filtre_suits; eassumption. }
            destruct (Tl (List.length d) (le_n _)) as (n & Hn). exists (S n). rewrite round_of by (try assumption; lia). cbn [M_Complete.scan]. rewrite Eb, El, map_length. exact Hn.
        + exists 1. rewrite round_of by (try assumption; lia). cbn [M_Complete.scan]. rewrite Eb, El. discriminate.
      - apply several_false in Eb. assert (Tb : Term d (b :: [p] :: t)); [|exact (Tb (List.length d) (le_n _))]. apply ends_choice; try assumption.
        + intros q Hq. apply Eq; [now apply B|]. intros S. apply Eb. eapply several_incl; [|exact S]. intros y [<-|[]]. assumption.
        + intros d' X R' P' (q & Q1 & Q2). apply C'; try assumption. apply (Mq d' q); [now apply B|assumption]. }
    intros j L. destruct T as (n & Hn). exists (S n). rewrite round_of by assumption. cbn [M_Complete.scan]. rewrite (proj2 (several_false _) N), Ef. fold b. destruct b as [|q b']; [discriminate|]. now rewrite map_length.
  - assert (Es : map single (d ++ [p]) ++ t = map single d ++ [p] :: t) by (rewrite map_app, <- app_assoc; reflexivity).
    assert (Tn : Term (d ++ [p]) t).
    { apply C; [exists [p]; reflexivity|now apply ready_app| |apply in_app_iff; right; now left]. apply Forall_app. split; [assumption|]. constructor; [assumption|constructor]. }
    intros j L. destruct (Tn j) as (n & Hn); [rewrite app_length; lia|]. exists n. now rewrite <- Es.
Qed.
Lemma ends_any p : ~ several [p] -> ends_at p.
Proof.
  intros N. apply (ends_single (S (list_max (map rank (required p))))); [|assumption]. apply Forall_forall. intros r Hr. pose proof (proj1 (list_max_le (map rank (required p)) _) (le_n _)) as M.
  rewrite Forall_map, Forall_forall in M. specialize (M r Hr). cbn in M. lia.
Qed.
Lemma ends_all t : forall d, ready d -> plain d -> Term d t.
Proof.
  induction t as [|a t IH]; intros d R P.
  - intros k L. exists 1. rewrite round_of by assumption. discriminate.
  - destruct (multilingual None a) eqn:Ea.
    + pose proof (by_language_spec a langs) as B. destruct (by_language a langs) as [s|] eqn:El.
      * assert (Tl : Term d (s ++ t)).
        { apply ends_list; try assumption; [|intros; now apply IH]. pose proof (by_language_each _ _ _ El) as F. eapply Forall_impl; [|exact F]. intros c (l & ->).
          split; [apply filtre_one|]. intros q Hq. apply ends_any. intros S. apply (filtre_one a l). eapply several_incl; [|exact S]. intros y [<-|[]]. assumption. }
        intros k L. destruct s as [|b s].
        -- destruct (Tl k L) as (n & Hn). exists (S n). rewrite round_of by assumption. cbn [M_Complete.scan]. rewrite Ea, El. destruct (k =? List.length (map single d)); [discriminate|exact Hn].
        -- destruct (Tl (List.length d) (le_n _)) as (n & Hn). exists (S n). rewrite round_of by assumption. cbn [M_Complete.scan]. rewrite Ea, El, map_length. exact Hn.
      * intros k L. exists 1. rewrite round_of by assumption. cbn [M_Complete.scan]. rewrite Ea, El. discriminate.
    + apply several_false in Ea. apply ends_choice; try assumption; [|intros; now apply IH]. intros q Hq. apply ends_any. intros S. apply Ea. eapply several_incl; [|exact S]. intros y [<-|[]]. assumption.
Qed.
Theorem C58_ends s : exists n, complete_ n s 0 <> Unfinished.
Proof. exact (ends_all s [] ready_nil (Forall_nil _) 0 (le_n 0)). Qed.
End Ends.
End Completer.

(** * The choice *)
Section Choice.
Context {promise exn num : Type}.
Variable add : num -> num -> num.
Variable nought : num.
Variable lt eq : num -> num -> bool.
Variable quality time : promise -> num.
Variable creates : promise -> option exn.
(** The numbers are compared as numbers are. *)
Hypothesis lt_trans : forall a b c, lt a b = true -> lt b c = true -> lt a c = true.
Hypothesis lt_weak : forall a b c, lt a b = true -> lt a c = true \/ lt c b = true.
Hypothesis lt_irrefl : forall a, lt a a = false.
Hypothesis eq_spec : forall a b, eq a b = true <-> lt a b = false /\ lt b a = false.

Fixpoint total (f : promise -> num) (z : num) (s : list promise) : num :=
  match s with [] => z | p :: s' => total f (add z (f p)) s' end.
Definition good (s : list promise) : num := total quality nought s.
Definition long (s : list promise) : num := total time nought s.
(** [x] is of a higher quality than [y], or of the same quality and faster. *)
Definition surpasses (x y : list promise) : Prop :=
  lt (good y) (good x) = true \/ (lt (good x) (good y) = false /\ lt (good y) (good x) = false /\ lt (long x) (long y) = true).
Definition created (s : list promise) : Prop := Forall (fun p => creates p = None) s.
(** [s] is the first of the best of those that have [P]. *)
Definition first_best (P : list promise -> Prop) (l : list (list promise)) (s : list promise) : Prop :=
  exists a b, l = a ++ s :: b /\ P s /\ (forall y, In y a -> P y -> surpasses s y) /\ (forall y, In y b -> P y -> ~ surpasses y s).
(** The first promise of [s] that is not created, with what it throws. *)
Definition throws (s : list promise) (e : exn) : Prop := exists a p b, s = a ++ p :: b /\ created a /\ creates p = Some e.

Notation try_solution := (try_solution add nought lt eq quality time).
Notation best_of := (best_of add nought lt eq quality time).
Notation check_solution := (check_solution creates).
Notation choose := (choose add nought lt eq quality time creates).

Lemma total_fold f z s : fold_left (fun x p => add x (f p)) s z = total f z s.
Proof. revert z. induction s as [|p s IH]; intros z; [reflexivity|]. apply IH. Qed.
Lemma try_spec b s : try_solution (Some b) s = true <-> surpasses s b.
Proof.
  unfold M_Complete.try_solution, M_Complete.quality_of, M_Complete.time_of. rewrite !total_fold. fold (good s) (good b) (long s) (long b). unfold surpasses. rewrite orb_true_iff, andb_true_iff, eq_spec. tauto.
Qed.
Lemma surpasses_trans x y z : surpasses x y -> surpasses y z -> surpasses x z.
Proof.
  unfold surpasses. intros [A|(A1 & A2 & A3)] [B|(B1 & B2 & B3)].
  - left. eapply lt_trans; eassumption.
  - left. destruct (lt_weak _ _ (good z) A) as [K|K]; [congruence|assumption].
  - left. destruct (lt_weak _ _ (good x) B) as [K|K]; [assumption|congruence].
  - right. repeat split; [| |eapply lt_trans; eassumption].
    + destruct (lt (good x) (good z)) eqn:E; [|reflexivity]. destruct (lt_weak _ _ (good y) E) as [K|K]; congruence.
    + destruct (lt (good z) (good x)) eqn:E; [|reflexivity]. destruct (lt_weak _ _ (good y) E) as [K|K]; congruence.
Qed.
Lemma surpasses_weak x y z : surpasses x y -> surpasses x z \/ surpasses z y.
Proof.
  unfold surpasses. intros [A|(A1 & A2 & A3)].
  - destruct (lt_weak _ _ (good z) A); auto.
  - destruct (lt (good z) (good x)) eqn:E1; [now left; left|]. destruct (lt (good y) (good z)) eqn:E2; [now right; left|].
    destruct (lt (good x) (good z)) eqn:E3; [destruct (lt_weak _ _ (good y) E3); congruence|]. destruct (lt (good z) (good y)) eqn:E4; [destruct (lt_weak _ _ (good x) E4); congruence|].
    destruct (lt_weak _ _ (long z) A3); [left|right]; right; auto.
Qed.
Lemma surpasses_irrefl x : ~ surpasses x x.
Proof. intros [A|(_ & _ & A)]; rewrite lt_irrefl in A; discriminate. Qed.
Lemma best_inv l : forall seen best,
  match best with
  | None => seen = []
  | Some (a, s, b) => exists m, seen = a ++ s :: m /\ b = m ++ l /\ (forall y, In y a -> surpasses s y) /\ (forall y, In y m -> ~ surpasses y s)
  end ->
  match best_of seen best l with
  | None => seen ++ l = []
  | Some (a, s, b) => seen ++ l = a ++ s :: b /\ (forall y, In y a -> surpasses s y) /\ (forall y, In y b -> ~ surpasses y s)
  end.
Proof.
  induction l as [|x l IH]; intros seen best H.
  - cbn. rewrite app_nil_r. destruct best as [[[a s] b]|]; [|assumption]. destruct H as (m & -> & -> & H1 & H2). rewrite app_nil_r. auto.
  - cbn [M_Complete.best_of]. replace (seen ++ x :: l) with ((seen ++ [x]) ++ l) by (rewrite <- app_assoc; reflexivity).
    destruct (try_solution (option_map (fun b => snd (fst b)) best) x) eqn:T; apply IH.
    + exists []. split; [reflexivity|split; [reflexivity|]]. split; [|intros y []]. intros y Hy. destruct best as [[[a s] b]|]; [|subst seen; destruct Hy]. change (try_solution (Some s) x = true) in T. apply try_spec in T.
      destruct H as (m & -> & _ & H1 & H2). apply in_app_iff in Hy as [Hy|[<-|Hy]]; [eapply surpasses_trans; [exact T|now apply H1]|exact T|]. destruct (surpasses_weak _ _ y T) as [K|K]; [assumption|]. now destruct (H2 y Hy).
    + destruct best as [[[a s] b]|]; [|discriminate T]. destruct H as (m & -> & -> & H1 & H2). change (try_solution (Some s) x = false) in T. exists (m ++ [x]). rewrite <- !app_assoc. split; [reflexivity|split; [reflexivity|split; [assumption|]]].
      intros y Hy. apply in_app_iff in Hy as [Hy|[<-|[]]]; [now apply H2|]. intros K. apply try_spec in K. congruence.
Qed.
Lemma check_created s : check_solution s = None <-> created s.
Proof.
  induction s as [|p s IH]; cbn; [split; [constructor|reflexivity]|]. destruct (creates p) eqn:E; split; intros H; [discriminate|inversion H; congruence|constructor; [assumption|now apply IH]|inversion H; now apply IH].
Qed.
Lemma check_throws s e : check_solution s = Some e -> throws s e.
Proof.
  induction s as [|p s IH]; cbn; [discriminate|]. destruct (creates p) as [e'|] eqn:E; intros H.
  - apply (f_equal (fun o => match o with Some v => v | None => e end)) in H. cbn in H. subst e'. exists [], p, s. repeat split; [constructor|assumption].
  - destruct (IH H) as (a & q & b & -> & Ca & Cq). exists (p :: a), q, b. repeat split; [constructor; assumption|assumption].
Qed.
Lemma throws_not s e : throws s e -> ~ created s.
Proof. intros (a & p & b & -> & _ & E) C. apply Forall_app in C as [_ C]. inversion C. congruence. Qed.
Lemma put_back {A} (a0 b0 a b : list A) (x s : A) : a0 ++ b0 = a ++ s :: b -> exists a' b', a0 ++ x :: b0 = a' ++ s :: b' /\ incl a' (x :: a) /\ incl b' (x :: b).
Proof.
  revert a. induction a0 as [|y a0 IH]; intros a E; cbn in E.
  - exists (x :: a), b. rewrite E. repeat split; [apply incl_refl|apply incl_tl, incl_refl].
  - destruct a as [|z a]; cbn in E; apply (f_equal (fun l => (hd y l, tl l))) in E; cbn in E; apply pair_equal_spec in E as [-> E].
    + exists [], (a0 ++ x :: b0). repeat split; [intros w []|]. subst b. intros w Hw. apply in_app_iff in Hw as [Hw|[->|Hw]]; [right; apply in_app_iff; now left|now left|right; apply in_app_iff; now right].
    + destruct (IH a E) as (a' & b' & E' & I1 & I2). exists (z :: a'), b'. cbn [app]. rewrite E'. repeat split; [|assumption]. intros w [->|Hw]; [right; now left|]. destruct (I1 w Hw) as [->|K]; [now left|right; now right].
Qed.
Lemma choose_inv n : forall first l, List.length l <= n ->
  match choose n first l with
  | Found s => first_best created l s
  | Throws e => Forall (fun s => ~ created s) l /\ (first = Some e \/ first = None /\ exists s, first_best (fun _ => True) l s /\ throws s e)
  | Nothing => l = [] /\ first = None
  end.
Proof.
  induction n as [|n IH]; intros first l L.
  - destruct l; [|cbn in L; lia]. cbn. destruct first; [split; [constructor|now left]|auto].
  - cbn [M_Complete.choose]. pose proof (best_inv l [] None eq_refl) as B. destruct (best_of [] None l) as [[[a s] b]|]; cbn [app] in B.
    + destruct B as (-> & B1 & B2). destruct (check_solution s) as [e|] eqn:Ck.
      * pose proof (check_throws _ _ Ck) as Th. pose proof (throws_not _ _ Th) as N.
        assert (L' : List.length (a ++ b) <= n) by (rewrite app_length in *; cbn in L; lia).
        specialize (IH (match first with None => Some e | _ => first end) (a ++ b) L'). destruct (choose n _ (a ++ b)) as [x|e'|].
        -- destruct IH as (a1 & b1 & E & C & I1 & I2). destruct (put_back _ _ _ _ s _ E) as (a' & b' & E' & J1 & J2). exists a', b'. split; [exact E'|split; [exact C|]]. split.
           ++ intros y Hy Cy. destruct (J1 y Hy) as [<-|K]; [contradiction|now apply I1].
           ++ intros y Hy Cy. destruct (J2 y Hy) as [<-|K]; [contradiction|now apply I2].
        -- destruct IH as [F K]. split.
           ++ apply Forall_app in F as [F1 F2]. apply Forall_app. split; [assumption|constructor; assumption].
           ++ destruct first as [f|]; [destruct K as [K|[K _]]; [now left|discriminate K]|]. right. split; [reflexivity|]. destruct K as [K|[K _]]; [|discriminate K].
              apply (f_equal (fun o => match o with Some v => v | None => e end)) in K. cbn in K. subst e'. exists s. split; [|assumption]. exists a, b. auto.
        -- destruct IH as [_ K]. destruct first; discriminate K.
      * exists a, b. repeat split; [now apply check_created|intros; now apply B1|intros; now apply B2].
    + subst l. destruct first; [split; [constructor|now left]|auto].
Qed.
(** The sequence found can be created, and is the first of the best of those that can; if none
    can, what is thrown is what the first of the best of all throws; nothing is found only when
    there is nothing. *)
Theorem C58_choice l :
  match choose (List.length l) None l with
  | Found s => first_best created l s
  | Throws e => Forall (fun s => ~ created s) l /\ exists s, first_best (fun _ => True) l s /\ throws s e
  | Nothing => l = []
  end.
Proof.
  pose proof (choose_inv (List.length l) None l (le_n _)) as H. destruct (choose (List.length l) None l) as [s|e|]; [assumption| |apply H].
  destruct H as [F [K|[_ K]]]; [discriminate K|auto].
Qed.
End Choice.

(** * Examples *)
Local Open Scope string_scope.
Inductive spoken := Any | One (l : lang) | Many (l : list lang).
Record part := mk_part { p_name : string; p_req : list (list tag); p_prov : list tag; p_spoken : spoken; p_quality : nat; p_time : nat; p_fails : option string }.
Definition p_hand (p : part) : handling := match p_spoken p with Any => Independent | One _ => OneLanguage | Many _ => Dependent end.
Definition p_langs (p : part) : list lang := match p_spoken p with Any => [] | One l => [l] | Many l => l end.
Definition in_tongue (p : part) (l : lang) : part := mk_part (p_name p) (p_req p) (p_prov p) (One l) (p_quality p) (p_time p) (p_fails p).
Definition completing keeper langs := complete_ p_req p_prov p_hand p_langs in_tongue keeper p_req p_prov (fun f => f) in_tongue langs.
Definition completed keeper langs := complete p_req p_prov p_hand p_langs in_tongue keeper p_req p_prov (fun f => f) in_tongue langs Nat.add 0 Nat.ltb Nat.eqb p_quality p_time p_fails.
Definition told (r : @result part) : @result (string * list lang) :=
  match r with Unfinished => Unfinished | Bad => Bad | Done l => Done (map (map (fun p => (p_name p, p_langs p))) l) end.

Definition reader := mk_part "txt-reader" [] ["symbol"] Any 0 1 None.
Definition writer := mk_part "simple-writer" [] [] Any 0 1 None.
Definition tokenizer := mk_part "tp-tokenizer" [["symbol"]] ["token"] (Many ["pl"; "en"]) 1 2 None.
Definition segmenter := mk_part "srx-segmenter" [["symbol"]] ["segment"] (Many ["pl"; "en"]) 1 3 None.
Definition link := mk_part "link-parser" [["segment"]; ["token"]] ["parse"; "link-grammar"] (One "en") 3 5 None.
Definition puddle := mk_part "puddle" [["form"]] ["parse"] (One "pl") 3 4 None.
Definition lemmatizer := mk_part "lamerlemma" [["token"]] ["form"; "lemma"] (One "pl") 2 4 None.
Definition guesser := mk_part "morfologik" [["token"]] ["form"; "lemma"] (One "pl") 5 9 None.
Definition kept := [lemmatizer; link; guesser; puddle; segmenter; tokenizer].

(** A parser of English gets the segmenter and the tokenizer, made for English, in front of it. *)
Example link_completed : told (completing kept ["en"] 10 [[reader]; [link]; [writer]] 0) =
  Done [[("txt-reader", []); ("srx-segmenter", ["en"]); ("tp-tokenizer", ["en"]); ("link-parser", ["en"]); ("simple-writer", [])]].
Proof. vm_compute. reflexivity. Qed.
(** Two lemmatizers can serve the Polish parser; the better one is taken. *)
Example puddle_completed : told (completing kept ["pl"] 10 [[reader]; [puddle]; [writer]] 0) =
  Done [[("txt-reader", []); ("tp-tokenizer", ["pl"]); ("lamerlemma", ["pl"]); ("puddle", ["pl"]); ("simple-writer", [])];
        [("txt-reader", []); ("tp-tokenizer", ["pl"]); ("morfologik", ["pl"]); ("puddle", ["pl"]); ("simple-writer", [])]].
Proof. vm_compute. reflexivity. Qed.
Example puddle_chosen : option_map (fun o => match o with Found s => map p_name s | _ => [] end) (completed kept ["pl"] 10 [[reader]; [puddle]; [writer]]) =
  Some ["txt-reader"; "tp-tokenizer"; "morfologik"; "puddle"; "simple-writer"].
Proof. vm_compute. reflexivity. Qed.
(** Where the better one cannot be created, the other is taken. *)
Definition broken := mk_part "morfologik" [["token"]] ["form"; "lemma"] (One "pl") 5 9 (Some "no such file").
Example broken_passed : option_map (fun o => match o with Found s => map p_name s | _ => [] end) (completed [lemmatizer; broken; tokenizer] ["pl"] 10 [[reader]; [puddle]; [writer]]) =
  Some ["txt-reader"; "tp-tokenizer"; "lamerlemma"; "puddle"; "simple-writer"].
Proof. vm_compute. reflexivity. Qed.
Example broken_thrown : completed [broken; tokenizer] ["pl"] 10 [[reader]; [puddle]; [writer]] = Some (Throws "no such file").
Proof. vm_compute. reflexivity. Qed.
(** A tokenizer asked for by the user is made for each of the languages. *)
Example tokenizer_twice : told (completing kept ["pl"; "en"] 10 [[reader]; [tokenizer]; [writer]] 0) =
  Done [[("txt-reader", []); ("tp-tokenizer", ["pl"]); ("tp-tokenizer", ["en"]); ("simple-writer", [])]].
Proof. vm_compute. reflexivity. Qed.
(** There is nothing without what is required. *)
Example nothing_without : completed [tokenizer] ["en"] 10 [[reader]; [link]; [writer]] = Some Nothing.
Proof. vm_compute. reflexivity. Qed.
(** The numbers compare as [C58_choice] wants. *)
Example numbers : ((forall a b c, a <? b = true -> b <? c = true -> a <? c = true) /\ (forall a b c, a <? b = true -> a <? c = true \/ c <? b = true) /\
  (forall a, a <? a = false) /\ (forall a b, a =? b = true <-> a <? b = false /\ b <? a = false))%nat.
Proof.
  split; [|split; [|split]].
  - intros a b c. rewrite !Nat.ltb_lt. lia.
  - intros a b c. rewrite !Nat.ltb_lt. lia.
  - intros a. apply Nat.ltb_irrefl.
  - intros a b. rewrite !Nat.ltb_ge, Nat.eqb_eq. lia.
Qed.
(** Whatever is asked for of these parts, the completion ends: the contracts of [C58_exact] and
    [C58_ends] hold of them. *)
Definition rank (r : list tag) : nat :=
  match r with [] => 9 | t :: _ => if (t =? "symbol")%string then 1 else if (t =? "token")%string then 2 else if (t =? "segment")%string then 2 else if (t =? "form")%string then 3 else if (t =? "lemma")%string then 3 else 4 end.
Example one_tongue p : p_hand p = OneLanguage -> exists l, p_langs p = [l].
Proof. unfold p_hand, p_langs. destruct (p_spoken p); try discriminate. eauto. Qed.
Example kept_ends s langs : exists n, completing kept langs n s 0 <> Unfinished.
Proof.
  refine (C58_ends _ _ _ _ _ _ _ _ _ _ langs one_tongue _ rank _ _ s); [auto..|].
  intros r lg q (f & Hf & I & _ & K).
  assert (E : p_prov q = p_prov f /\ p_req q = p_req f) by (destruct lg as [l|]; destruct K as [_ ->]; [destruct (p_hand f)|]; auto).
  destruct E as [-> ->]. split; [exact I|]. destruct r as [|t r]; [|assert (J : In t (p_prov f)) by (apply I; now left); clear I K].
  - repeat (destruct Hf as [<-|Hf]; [repeat constructor; vm_compute; lia|]). destruct Hf.
  - repeat (destruct Hf as [<-|Hf]; [repeat (destruct J as [<-|J]; [repeat constructor; vm_compute; lia|]); destruct J|]). destruct Hf.
Qed.

(** Two annotators that require what the other provides are asked for without end. *)
Definition chicken := mk_part "chicken" [["egg"]] ["chicken"] Any 1 1 None.
Definition egg := mk_part "egg" [["chicken"]] ["egg"] Any 1 1 None.
Theorem C58_cycle_refuted : forall fuel t, completing [chicken; egg] ["pl"] fuel ([chicken] :: t) 0 = Unfinished.
Proof.
  intros fuel t. enough (H : forall t, completing [chicken; egg] ["pl"] fuel ([chicken] :: t) 0 = Unfinished /\ completing [chicken; egg] ["pl"] fuel ([egg] :: t) 0 = Unfinished) by apply H.
  clear t. induction fuel as [|n IH]; intros t; [split; reflexivity|]. split.
  - change (completing [chicken; egg] ["pl"] n ([egg] :: [chicken] :: t) 0 = Unfinished). apply IH.
  - change (completing [chicken; egg] ["pl"] n ([chicken] :: [egg] :: t) 0 = Unfinished). apply IH.
Qed.
(** A requirement is met by a processor of another language: the Polish parser is left without
    any Polish lemmatizer. *)
Definition lemmatizer_en := mk_part "english-lemmatizer" [] ["form"; "lemma"] (One "en") 2 4 None.
Theorem C58_language_refuted : told (completing kept ["pl"] 10 [[reader]; [lemmatizer_en]; [puddle]; [writer]] 0) =
  Done [[("txt-reader", []); ("english-lemmatizer", ["en"]); ("puddle", ["pl"]); ("simple-writer", [])]].
Proof. vm_compute. reflexivity. Qed.
(** What two processors give together does not count: nothing is found, though the tokens and
    the segments are both there. *)
Definition both_needed := mk_part "aligner" [["token"; "segment"]] ["aligned"] Any 2 4 None.
Theorem C58_together_refuted :
  completing [] ["pl"] 10 [[reader]; [in_tongue tokenizer "pl"]; [in_tongue segmenter "pl"]; [both_needed]; [writer]] 0 = Done [].
Proof. vm_compute. reflexivity. Qed.
(** Without languages a processor that depends on them is left out. *)
Theorem C58_no_language_refuted : told (completing kept [] 10 [[reader]; [tokenizer]; [writer]] 0) = Done [[("txt-reader", []); ("simple-writer", [])]].
Proof. vm_compute. reflexivity. Qed.

Print Assumptions C58_exact.
Print Assumptions C58_ready.
Print Assumptions C58_sound.
Print Assumptions C58_unchanged.
Print Assumptions C58_defined.
Print Assumptions C58_ends.
Print Assumptions C58_choice.
Print Assumptions C58_cycle_refuted.
Print Assumptions C58_language_refuted.
Print Assumptions C58_together_refuted.
Print Assumptions C58_no_language_refuted.

(** C19: edit distance. *)
From Coq Require Import String Ascii List Arith Bool Lia.
From Verif Require Import M_Edit.
Import ListNotations.

(** ** Specification: sequences of single-element edits *)
Inductive edit1 {T} : list T -> list T -> Prop :=
| edit_insert u x v : edit1 (u ++ v) (u ++ x :: v)
| edit_delete u x v : edit1 (u ++ x :: v) (u ++ v)
| edit_subst u x y v : edit1 (u ++ x :: v) (u ++ y :: v).

Inductive edits {T} : nat -> list T -> list T -> Prop :=
| edits_0 a : edits 0 a a
| edits_S n a b c : edit1 a b -> edits n b c -> edits (S n) a c.

Definition is_distance {T} (a b : list T) (d : nat) : Prop :=
  edits d a b /\ forall n, edits n a b -> d <= n.

(** ** Proofs: an intermediate alignment relation *)
Section Proofs.
Context {T : Type} (eqb : T -> T -> bool).
Hypothesis eqb_spec : forall x y, eqb x y = true <-> x = y.

Inductive align : nat -> list T -> list T -> Prop :=
| al_nil : align 0 [] []
| al_keep n x a b : align n a b -> align n (x :: a) (x :: b)
| al_sub n x y a b : align n a b -> align (S n) (x :: a) (y :: b)
| al_ins n y a b : align n a b -> align (S n) a (y :: b)
| al_del n x a b : align n a b -> align (S n) (x :: a) b.

Lemma edits_trans : forall n a b, edits n a b -> forall m (c : list T), edits m b c -> edits (n + m) a c.
Proof. induction 1; intros; cbn; [assumption|]. econstructor; eauto. Qed.

Lemma edits_cons : forall n (a b : list T), edits n a b -> forall x, edits n (x :: a) (x :: b).
Proof.
  induction 1 as [|n a b c H1 H IH]; intro x; [constructor|].
  apply edits_S with (b := x :: b); [|apply IH].
  inversion H1; subst.
  - apply (edit_insert (x :: u)).
  - apply (edit_delete (x :: u)).
  - apply (edit_subst (x :: u)).
Qed.

Lemma align_edits : forall n a b, align n a b -> edits n a b.
Proof.
  induction 1.
  - constructor.
  - apply edits_cons. assumption.
  - apply edits_S with (b := y :: a); [apply (edit_subst [])|]. apply edits_cons. assumption.
  - apply edits_S with (b := y :: a); [apply (edit_insert [])|]. apply edits_cons. assumption.
  - apply edits_S with (b := a); [apply (edit_delete [])|]. assumption.
Qed.

Lemma align_refl : forall a, align 0 a a.
Proof. induction a; constructor; assumption. Qed.

(** One more edit at the front of the chain costs at most one more. *)
Lemma align_edit1 : forall a b, edit1 a b -> forall n c, align n b c -> exists m, m <= S n /\ align m a c.
Proof.
  intros a b H n c Hal. revert a H. induction Hal as [|n x b c Hal IH|n x y b c Hal IH|n y b c Hal IH|n x b c Hal IH];
  intros a H.
  - inversion H as [u x v E1 E2|u x v E1 E2|u x y v E1 E2].
    + destruct u; discriminate.
    + apply app_eq_nil in E2. destruct E2; subst. exists 1. split; [lia|]. repeat constructor.
    + destruct u; discriminate.
  - inversion H as [u z v E1 E2|u z v E1 E2|u z z' v E1 E2].
    + destruct u as [|w u]; cbn in *.
      * inversion E2; subst. exists (S n). split; [lia|]. apply al_ins. assumption.
      * inversion E2; subst. destruct (IH _ (edit_insert u z v)) as (m & Hm & Ha).
        exists m. split; [lia|]. constructor. assumption.
    + destruct u as [|w u]; cbn in *.
      * subst. exists (S n). split; [lia|]. apply al_del. apply al_keep. assumption.
      * inversion E2; subst. destruct (IH _ (edit_delete u z v)) as (m & Hm & Ha).
        exists m. split; [lia|]. constructor. assumption.
    + destruct u as [|w u]; cbn in *.
      * inversion E2; subst. exists (S n). split; [lia|]. apply al_sub. assumption.
      * inversion E2; subst. destruct (IH _ (edit_subst u z z' v)) as (m & Hm & Ha).
        exists m. split; [lia|]. constructor. assumption.
  - inversion H as [u z v E1 E2|u z v E1 E2|u z z' v E1 E2].
    + destruct u as [|w u]; cbn in *.
      * inversion E2; subst. exists (S n). split; [lia|]. apply al_ins. assumption.
      * inversion E2; subst. destruct (IH _ (edit_insert u z v)) as (m & Hm & Ha).
        exists (S m). split; [lia|]. apply al_sub. assumption.
    + destruct u as [|w u]; cbn in *.
      * subst. exists (S (S n)). split; [lia|]. apply al_del. apply al_sub. assumption.
      * inversion E2; subst. destruct (IH _ (edit_delete u z v)) as (m & Hm & Ha).
        exists (S m). split; [lia|]. apply al_sub. assumption.
    + destruct u as [|w u]; cbn in *.
      * inversion E2; subst. exists (S n). split; [lia|]. apply al_sub. assumption.
      * inversion E2; subst. destruct (IH _ (edit_subst u z z' v)) as (m & Hm & Ha).
        exists (S m). split; [lia|]. apply al_sub. assumption.
  - destruct (IH a H) as (m & Hm & Ha). exists (S m). split; [lia|]. apply al_ins. assumption.
  - inversion H as [u z v E1 E2|u z v E1 E2|u z z' v E1 E2].
    + destruct u as [|w u]; cbn in *.
      * inversion E2; subst. exists n. split; [lia|]. assumption.
      * inversion E2; subst. destruct (IH _ (edit_insert u z v)) as (m & Hm & Ha).
        exists (S m). split; [lia|]. apply al_del. assumption.
    + destruct u as [|w u]; cbn in *.
      * subst. exists (S (S n)). split; [lia|]. apply al_del. apply al_del. assumption.
      * inversion E2; subst. destruct (IH _ (edit_delete u z v)) as (m & Hm & Ha).
        exists (S m). split; [lia|]. apply al_del. assumption.
    + destruct u as [|w u]; cbn in *.
      * inversion E2; subst. exists (S n). split; [lia|]. apply al_del. assumption.
      * inversion E2; subst. destruct (IH _ (edit_subst u z z' v)) as (m & Hm & Ha).
        exists (S m). split; [lia|]. apply al_del. assumption.
Qed.

Lemma edits_align : forall n (a b : list T), edits n a b -> exists m, m <= n /\ align m a b.
Proof.
  induction 1 as [a|n a b c H1 H (m & Hm & Ha)].
  - exists 0. split; [lia|apply align_refl].
  - destruct (align_edit1 a b H1 m c Ha) as (k & Hk & Hak). exists k. split; [lia|assumption].
Qed.

(** Reversal, since the algorithm extends prefixes. *)
Lemma align_snoc_keep : forall n a b x, align n a b -> align n (a ++ [x]) (b ++ [x]).
Proof. induction 1; cbn; repeat constructor; assumption. Qed.
Lemma align_snoc_sub : forall n a b x y, align n a b -> align (S n) (a ++ [x]) (b ++ [y]).
Proof. induction 1; cbn; repeat constructor; assumption. Qed.
Lemma align_snoc_ins : forall n a b y, align n a b -> align (S n) a (b ++ [y]).
Proof. induction 1; cbn; repeat constructor; assumption. Qed.
Lemma align_snoc_del : forall n a b x, align n a b -> align (S n) (a ++ [x]) b.
Proof. induction 1; cbn; repeat constructor; assumption. Qed.

Lemma align_rev : forall n a b, align n a b -> align n (rev a) (rev b).
Proof.
  induction 1; cbn.
  - constructor.
  - apply align_snoc_keep; assumption.
  - apply align_snoc_sub; assumption.
  - apply align_snoc_ins; assumption.
  - apply align_snoc_del; assumption.
Qed.

(** Inversion at the end. *)
Lemma align_snoc_inv : forall n a b x y, align n (a ++ [x]) (b ++ [y]) ->
  (x = y /\ align n a b) \/ (exists m, n = S m /\ (align m a b \/ align m (a ++ [x]) b \/ align m a (b ++ [y]))).
Proof.
  intros n a b x y H. apply align_rev in H. rewrite !rev_app_distr in H. cbn in H.
  inversion H; subst.
  - left. split; [reflexivity|]. match goal with H : align _ (rev a) _ |- _ => apply align_rev in H; rewrite !rev_involutive in H end. assumption.
  - right. eexists; split; [reflexivity|]. left.
    match goal with H : align _ (rev a) _ |- _ => apply align_rev in H; rewrite !rev_involutive in H end. assumption.
  - right. eexists; split; [reflexivity|]. right; left.
    match goal with H : align _ (x :: rev a) _ |- _ => apply align_rev in H; cbn in H; rewrite !rev_involutive in H end. assumption.
  - right. eexists; split; [reflexivity|]. right; right.
    match goal with H : align _ (rev a) _ |- _ => apply align_rev in H; cbn in H; rewrite !rev_involutive in H end. assumption.
Qed.

Lemma align_nil_l : forall n b, align n [] b -> n = length b.
Proof. intros n b H. remember [] as a. induction H; cbn; try congruence. rewrite IHalign by assumption. reflexivity. Qed.
Lemma align_nil_r : forall n a, align n a [] -> n = length a.
Proof. intros n a H. remember [] as b. induction H; cbn; try congruence. rewrite IHalign by assumption. reflexivity. Qed.
Lemma align_ins_all : forall b, align (length b) [] b.
Proof. induction b; constructor; assumption. Qed.
Lemma align_del_all : forall a, align (length a) a [].
Proof. induction a; constructor; assumption. Qed.

(** [dist a b d]: least alignment. *)
Definition dist (a b : list T) (d : nat) : Prop :=
  align d a b /\ forall n, align n a b -> d <= n.

Lemma dist_step : forall a b x y left up diag,
  dist (a ++ [x]) b left -> dist a (b ++ [y]) up -> dist a b diag ->
  dist (a ++ [x]) (b ++ [y])
       (Nat.min (Nat.min (1 + left) (1 + up)) (diag + (if eqb x y then 0 else 1))).
Proof.
  intros a b x y left up diag [Hl Ml] [Hu Mu] [Hd Md]. split.
  - destruct (Nat.min_dec (Nat.min (1 + left) (1 + up)) (diag + (if eqb x y then 0 else 1))) as [->| ->].
    + destruct (Nat.min_dec (1 + left) (1 + up)) as [->| ->].
      * apply align_snoc_ins. assumption.
      * apply align_snoc_del. assumption.
    + destruct (eqb x y) eqn:E.
      * apply eqb_spec in E. subst. rewrite Nat.add_0_r. apply align_snoc_keep. assumption.
      * rewrite Nat.add_1_r. apply align_snoc_sub. assumption.
  - intros n Hn. apply align_snoc_inv in Hn.
    destruct Hn as [[-> Hn]|(m & -> & [Hn|[Hn|Hn]])].
    + assert (eqb y y = true) as -> by (apply eqb_spec; reflexivity). apply Md in Hn. lia.
    + apply Md in Hn. destruct (eqb x y); lia.
    + apply Ml in Hn. lia.
    + apply Mu in Hn. lia.
Qed.

(** A column for the prefix [a]: entry j is the distance to the prefix of
    length j. *)
Inductive column (a : list T) : list T -> list T -> list nat -> Prop :=
| col_end b d : dist a b d -> column a b [] [d]
| col_cons b y s d ds : dist a b d -> column a (b ++ [y]) s ds -> column a b (y :: s) (d :: ds).

Lemma column_hd : forall a b s ds, column a b s ds -> exists d ds', ds = d :: ds' /\ dist a b d.
Proof. intros a b s ds H; inversion H; subst; eauto. Qed.

Lemma inner_column : forall a x s2 b left prev,
  column a b s2 prev -> dist (a ++ [x]) b left ->
  column (a ++ [x]) b s2 (left :: inner eqb x s2 left prev).
Proof.
  intros a x s2. induction s2 as [|y s2 IH]; intros b left prev Hc Hl.
  - inversion Hc; subst. cbn. constructor. assumption.
  - inversion Hc as [|b' y' s' d ds Hd Hc']; subst.
    destruct (column_hd _ _ _ _ Hc') as (p' & ds' & -> & Hp').
    cbn [inner]. constructor; [assumption|]. apply IH; [assumption|].
    apply dist_step; assumption.
Qed.

Lemma dist_nil_l : forall b, dist [] b (length b).
Proof.
  intro b. split; [apply align_ins_all|]. intros n H. apply align_nil_l in H. lia.
Qed.
Lemma dist_nil_r : forall a, dist a [] (length a).
Proof.
  intro b. split; [apply align_del_all|]. intros n H. apply align_nil_r in H. lia.
Qed.

Lemma first_column : forall s b, column [] b s (seq (length b) (length s + 1)).
Proof.
  induction s as [|y s IH]; intro b; cbn.
  - constructor. apply dist_nil_l.
  - constructor; [apply dist_nil_l|]. specialize (IH (b ++ [y])).
    rewrite app_length in IH. cbn in IH. rewrite Nat.add_1_r in IH at 1. assumption.
Qed.

Lemma outer_column : forall s1 a s2 prev, column a [] s2 prev ->
  column (a ++ s1) [] s2 (outer eqb (length a) s1 s2 prev).
Proof.
  induction s1 as [|x s1 IH]; intros a s2 prev H; cbn [outer].
  - rewrite app_nil_r. assumption.
  - replace (a ++ x :: s1) with ((a ++ [x]) ++ s1) by (rewrite <- app_assoc; reflexivity).
    replace (S (length a)) with (length (a ++ [x])) by (rewrite app_length; cbn; lia).
    apply IH. apply inner_column; [assumption|].
    replace (length a + 1) with (length (a ++ [x])) by (rewrite app_length; reflexivity).
    apply dist_nil_r.
Qed.

Lemma column_last : forall a s b ds, column a b s ds -> dist a (b ++ s) (nth (length s) ds 0).
Proof.
  intros a s. induction s as [|y s IH]; intros b ds H; inversion H; subst; cbn.
  - rewrite app_nil_r. assumption.
  - replace (b ++ y :: s) with ((b ++ [y]) ++ s) by (rewrite <- app_assoc; reflexivity).
    apply IH. assumption.
Qed.

Lemma levenshtein_dist : forall a b, dist a b (levenshtein eqb a b).
Proof.
  intros a b. unfold levenshtein.
  apply (column_last a b []). apply (outer_column a []). apply (first_column b []).
Qed.

Lemma levenshtein_is_distance : forall a b, is_distance a b (levenshtein eqb a b).
Proof.
  intros a b. destruct (levenshtein_dist a b) as [H M]. split.
  - apply align_edits. assumption.
  - intros n Hn. destruct (edits_align _ _ _ Hn) as (m & Hm & Ha). apply M in Ha. lia.
Qed.

Lemma edit1_sym : forall a b : list T, edit1 a b -> edit1 b a.
Proof. destruct 1; constructor. Qed.

Lemma edits_sym : forall n (a b : list T), edits n a b -> edits n b a.
Proof.
  induction 1 as [|n a b c H1 H IH]; [constructor|].
  rewrite <- Nat.add_1_r. eapply edits_trans; [eassumption|].
  econstructor; [apply edit1_sym; eassumption|constructor].
Qed.
End Proofs.

(** ** Theorems *)
Theorem C19_levenshtein_minimal : forall T (eqb : T -> T -> bool),
  (forall x y, eqb x y = true <-> x = y) ->
  forall a b, is_distance a b (levenshtein eqb a b).
Proof. intros. apply levenshtein_is_distance. assumption. Qed.
Print Assumptions C19_levenshtein_minimal.

Theorem C19_levenshtein_metric : forall T (eqb : T -> T -> bool),
  (forall x y, eqb x y = true <-> x = y) ->
  forall a b c,
    (levenshtein eqb a b = 0 <-> a = b) /\
    levenshtein eqb a b = levenshtein eqb b a /\
    levenshtein eqb a c <= levenshtein eqb a b + levenshtein eqb b c.
Proof.
  intros T eqb He a b c.
  destruct (levenshtein_is_distance eqb He a b) as [Hab Mab].
  destruct (levenshtein_is_distance eqb He b a) as [Hba Mba].
  destruct (levenshtein_is_distance eqb He b c) as [Hbc Mbc].
  destruct (levenshtein_is_distance eqb He a c) as [Hac Mac].
  split; [split|split].
  - intro E. rewrite E in Hab. inversion Hab. reflexivity.
  - intros ->. specialize (Mab 0 (edits_0 b)). lia.
  - pose proof (Mab _ (edits_sym _ _ _ Hba)). pose proof (Mba _ (edits_sym _ _ _ Hab)). lia.
  - apply Mac. eapply edits_trans; eassumption.
Qed.
Print Assumptions C19_levenshtein_metric.

(** The suggested string: if some candidate is closer than 99 then the result is
    the first of the closest candidates; otherwise it is the empty string. *)
Theorem C19_most_similar : forall T (eqb : T -> T -> bool),
  (forall x y, eqb x y = true <-> x = y) ->
  forall string container,
  let r := findTheMostSimilarString eqb string container in
  (exists pre post d, container = pre ++ r :: post /\ is_distance r string d /\ d < 99 /\
     (forall e n, In e pre -> is_distance e string n -> d < n) /\
     (forall e n, In e post -> is_distance e string n -> d <= n))
  \/ (r = [] /\ forall e n, In e container -> is_distance e string n -> 99 <= n).
Proof.
  intros T eqb He string container. cbv zeta. unfold findTheMostSimilarString.
  assert (Huniq : forall e n, is_distance e string n -> n = levenshtein eqb e string).
  { intros e n [H1 M1]. destruct (levenshtein_is_distance eqb He e string) as [H2 M2].
    pose proof (M1 _ H2). pose proof (M2 _ H1). lia. }
  assert (G : forall container best shortest,
    let r := most_similar_loop eqb string container best shortest in
    (exists pre post, container = pre ++ r :: post /\ levenshtein eqb r string < shortest /\
       (forall e, In e pre -> levenshtein eqb r string < levenshtein eqb e string) /\
       (forall e, In e post -> levenshtein eqb r string <= levenshtein eqb e string))
    \/ (r = best /\ forall e, In e container -> shortest <= levenshtein eqb e string)).
  { clear container. induction container as [|e c IH]; intros best shortest; cbv zeta; cbn [most_similar_loop].
    - right. split; [reflexivity|]. intros ? [].
    - destruct (Nat.ltb_spec (levenshtein eqb e string) shortest) as [Hlt|Hge].
      + left. destruct (IH e (levenshtein eqb e string)) as [(pre & post & E & Hs & Hp & Hq)|[E Hall]].
        * exists (e :: pre), post. split; [cbn; rewrite <- E; reflexivity|]. split; [lia|].
          split; [|assumption]. intros e' [<-|Hin]; [assumption|]. apply Hp. assumption.
        * exists [], c. rewrite E. split; [reflexivity|]. split; [assumption|].
          split; [intros ? []|assumption].
      + destruct (IH best shortest) as [(pre & post & E & Hs & Hp & Hq)|[E Hall]].
        * left. exists (e :: pre), post. split; [cbn; rewrite <- E; reflexivity|]. split; [assumption|].
          split; [|assumption]. intros e' [<-|Hin]; [lia|]. apply Hp. assumption.
        * right. split; [assumption|]. intros e' [<-|Hin]; [assumption|]. apply Hall. assumption. }
  destruct (G container [] 99) as [(pre & post & E & Hs & Hp & Hq)|[E Hall]].
  - left. exists pre, post, (levenshtein eqb (most_similar_loop eqb string container [] 99) string).
    split; [assumption|]. split; [apply levenshtein_is_distance; assumption|].
    split; [assumption|]. split.
    + intros e n Hin Hn. apply Huniq in Hn. subst. apply Hp. assumption.
    + intros e n Hin Hn. apply Huniq in Hn. subst. apply Hq. assumption.
  - right. split; [assumption|]. intros e n Hin Hn. apply Huniq in Hn. subst. apply Hall. assumption.
Qed.
Print Assumptions C19_most_similar.

Example C19_example :
  levenshtein Ascii.eqb (list_ascii_of_string "kitten") (list_ascii_of_string "sitting") = 3 /\
  findTheMostSimilarString Ascii.eqb (list_ascii_of_string "tp-tokeniser")
    [list_ascii_of_string "psi-writer"; list_ascii_of_string "tp-tokenizer"; list_ascii_of_string "tokenizer"]
  = list_ascii_of_string "tp-tokenizer" /\
  (forall x y, Ascii.eqb x y = true <-> x = y).
Proof. split; [|split]; [vm_compute; reflexivity..|apply Ascii.eqb_eq]. Qed.

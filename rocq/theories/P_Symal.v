(** C63: the symmetrisation of word alignments. *)
From Coq Require Import String Ascii List ZArith Bool Arith Lia Sorted Permutation.
From Verif Require Import M_Symal.
Import ListNotations.
Local Open Scope nat_scope.

(** ** What alignments are *)
Section Spec.
Variables m n : nat.
Variables a b : nat -> nat.
(** What getals asserts. *)
Definition valid : Prop := (forall j, 1 <= j <= m -> a j <= n) /\ (forall i, 1 <= i <= n -> b i <= m).
Definition inside (p : point) : Prop := 1 <= fst p <= n /\ 1 <= snd p <= m.
Definition directed (p : point) : Prop := inside p /\ a (snd p) = fst p.
Definition inverse (p : point) : Prop := inside p /\ b (fst p) = snd p.
Definition either (p : point) : Prop := directed p \/ inverse p.
Definition both_ways (p : point) : Prop := directed p /\ inverse p.
End Spec.
(** Words with a point. *)
Definition row_in (l : list point) (i : nat) : Prop := exists j, In (i, j) l.
Definition col_in (l : list point) (j : nat) : Prop := exists i, In (i, j) l.
(** Points side by side, or at a corner. *)
Definition near (x y : nat) : Prop := x = y \/ x = S y \/ y = S x.
Definition beside (diagonal : bool) (p q : point) : Prop :=
  p <> q /\ near (fst p) (fst q) /\ near (snd p) (snd q) /\ (diagonal = false -> fst p = fst q \/ snd p = snd q).
(** Points that a chain of neighbours among [U] connects to one of [I]. *)
Inductive chained (diagonal : bool) (I U : point -> Prop) : point -> Prop :=
| Ch_first p : I p -> chained diagonal I U p
| Ch_next p q : chained diagonal I U p -> beside diagonal p q -> U q -> chained diagonal I U q.
Definition increasing : list point -> Prop := StronglySorted (fun p q => fst p < fst q \/ (fst p = fst q /\ snd p < snd q)).

(** ** Sets of points *)
Lemma less_spec p q : less p q = true <-> fst p < fst q \/ (fst p = fst q /\ snd p < snd q).
Proof. unfold less. rewrite orb_true_iff, andb_true_iff, Nat.ltb_lt, Nat.eqb_eq, Nat.ltb_lt. tauto. Qed.
Lemma same_spec p q : same p q = true <-> p = q.
Proof. unfold same. rewrite andb_true_iff, !Nat.eqb_eq. destruct p, q; cbn. split; [intros [-> ->]; reflexivity|intros E; injection E as -> ->; auto]. Qed.
Lemma in_insert p q l : In q (insert p l) <-> q = p \/ In q l.
Proof.
  induction l as [|x l IH]; cbn; [split; [intros [->|[]]; auto|intros [->|[]]; auto]|]. destruct (less p x); cbn; [split; [intros [->|H]; auto|intros [->|H]; auto]|].
  destruct (same p x) eqn:E; cbn.
  - apply same_spec in E as ->. split; [auto|intros [->|H]; auto].
  - rewrite IH. split; [intros [->|[->|H]]; auto|intros [->|[->|H]]; auto].
Qed.
Lemma insert_increasing p l : increasing l -> increasing (insert p l).
Proof.
  induction 1 as [|x l S IH F]; cbn; [repeat constructor|]. destruct (less p x) eqn:L.
  - apply less_spec in L. constructor; [now constructor|]. constructor; [assumption|]. eapply Forall_impl; [|exact F]. cbn. lia.
  - destruct (same p x) eqn:E; [now constructor|]. constructor; [assumption|]. apply Forall_forall. intros q Hq. apply in_insert in Hq as [->|Hq]; [|exact (proj1 (Forall_forall _ _) F q Hq)].
    assert (~ less p x = true) by congruence. assert (~ same p x = true) by congruence. rewrite less_spec in *. rewrite same_spec in *. destruct p as [p1 p2], x as [x1 x2]; cbn in *.
    destruct (Nat.eq_dec p1 x1); [|lia]. subst. right. split; [reflexivity|]. destruct (Nat.eq_dec p2 x2); [subst; now destruct H0|lia].
Qed.
Lemma next_none p l : next p l = None -> forall q, In q l -> ~ (fst p < fst q \/ (fst p = fst q /\ snd p < snd q)).
Proof.
  unfold next. intros H q Hq K. apply less_spec in K. assert (I : In q (filter (less p) l)) by (apply filter_In; auto). destruct (filter (less p) l); [destruct I|discriminate H].
Qed.
Lemma next_some p l q : increasing l -> next p l = Some q -> In q l /\ (fst p < fst q \/ (fst p = fst q /\ snd p < snd q)) /\
  forall r, In r l -> (fst p < fst r \/ (fst p = fst r /\ snd p < snd r)) -> r = q \/ (fst q < fst r \/ (fst q = fst r /\ snd q < snd r)).
Proof.
  unfold next. induction 1 as [|x l S IH F]; cbn; [discriminate|]. destruct (less p x) eqn:L.
  - cbn. intros E. injection E as ->. apply less_spec in L. split; [now left|]. split; [assumption|]. intros r [->|Hr] _; [now left|]. right. exact (proj1 (Forall_forall _ _) F r Hr).
  - intros H. destruct (IH H) as [I1 [I2 I3]]. split; [now right|]. split; [assumption|]. intros r [->|Hr] Hl; [|now apply I3]. apply less_spec in Hl. congruence.
Qed.

(** ** The lists that are printed *)
Section Sentence.
Variables m n : nat.
Variables a b : nat -> nat.
Hypothesis ok : valid m n a b.
Notation inside := (inside m n).
Notation directed := (directed m n a).
Notation inverse := (inverse m n b).
Notation either := (either m n a b).
Notation both_ways := (both_ways m n a b).
Notation filled := (filled m n a b).
Notation try := (try m n a b).
Notation pass := (pass m n a b).
Notation grow := (grow m n a b).
Notation printgrow := (printgrow m n a b).

Lemma in_direct p : In p (direct_points m a) <-> directed p.
Proof.
  destruct ok as [Oa _]. unfold direct_points, P_Symal.directed, P_Symal.inside. rewrite in_flat_map. split.
  - intros [j [Hj H]]. apply in_seq in Hj. destruct (Nat.eqb_spec (a j) 0); [destruct H|]. destruct H as [<-|[]]. cbn. specialize (Oa j). lia.
  - destruct p as [i j]. cbn. intros [H E]. exists j. split; [apply in_seq; lia|]. destruct (Nat.eqb_spec (a j) 0); [lia|]. left. now rewrite E.
Qed.
Lemma in_inverse p : In p (inverse_points n b) <-> inverse p.
Proof.
  destruct ok as [_ Ob]. unfold inverse_points, P_Symal.inverse, P_Symal.inside. rewrite in_flat_map. split.
  - intros [i [Hi H]]. apply in_seq in Hi. destruct (Nat.eqb_spec (b i) 0); [destruct H|]. destruct H as [<-|[]]. cbn. specialize (Ob i). lia.
  - destruct p as [i j]. cbn. intros [H E]. exists i. split; [apply in_seq; lia|]. destruct (Nat.eqb_spec (b i) 0); [lia|]. left. now rewrite E.
Qed.
Lemma in_intersection p : In p (intersection_points m a b) <-> both_ways p.
Proof.
  destruct ok as [Oa _]. unfold intersection_points, P_Symal.both_ways, P_Symal.directed, P_Symal.inverse, P_Symal.inside. rewrite in_flat_map. split.
  - intros [j [Hj H]]. apply in_seq in Hj. destruct (Nat.eqb_spec (a j) 0); [destruct H|]. destruct (Nat.eqb_spec (b (a j)) j); [|destruct H]. destruct H as [<-|[]]. cbn. specialize (Oa j). lia.
  - destruct p as [i j]. cbn. intros [[H E] [_ E2]]. exists j. split; [apply in_seq; lia|]. destruct (Nat.eqb_spec (a j) 0); [lia|]. cbn. rewrite E. destruct (Nat.eqb_spec (b i) j); [|contradiction]. now left.
Qed.
Lemma in_union p : In p (union_points m n a b) <-> either p.
Proof.
  unfold union_points. rewrite in_app_iff. change (flat_map _ (seq 1 m)) with (direct_points m a). rewrite in_direct. unfold P_Symal.either. split.
  - intros [H|H]; [now left|]. right. apply in_inverse. apply in_flat_map in H as [i [Hi H]]. apply in_flat_map. exists i. split; [assumption|]. destruct (negb (b i =? 0)); [|destruct H]. cbn in H. destruct (negb (a (b i) =? i)); [assumption|destruct H].
  - intros [H|H]; [now left|]. destruct (Nat.eq_dec (a (snd p)) (fst p)) as [E|E]; [left; split; [apply H|assumption]|]. right. destruct H as [[H1 H2] H]. apply in_flat_map. exists (fst p). split; [apply in_seq; lia|].
    rewrite H. destruct (Nat.eqb_spec (snd p) 0); [lia|]. destruct (Nat.eqb_spec (a (snd p)) (fst p)); [contradiction|]. left. now destruct p.
Qed.
Lemma flat_nodup {B} (f : nat -> list B) (key : B -> nat) l : NoDup l -> (forall x y, In y (f x) -> key y = x) -> (forall x, NoDup (f x)) -> NoDup (flat_map f l).
Proof.
  intros N K D. induction N as [|x l H N IH]; cbn; [constructor|]. assert (G : forall y, In y (f x) -> ~ In y (flat_map f l)).
  { intros y H1 H2. apply in_flat_map in H2 as [z [Hz H2]]. apply K in H1, H2. congruence. }
  specialize (D x). induction (f x) as [|y r IHr]; cbn; [assumption|]. inversion D; subst. constructor; [|apply IHr; [assumption|intros z Hz; apply G; now right]].
  rewrite in_app_iff. intros [H1|H1]; [contradiction|]. eapply G; [now left|exact H1].
Qed.
Ltac one_or_none := match goal with |- NoDup (if ?c then _ else _) => destruct c; repeat constructor; auto end.
(** Each of the simple alignments is printed as what it is, without repetitions. *)
Theorem C63_simple :
  (NoDup (direct_points m a) /\ forall p, In p (direct_points m a) <-> directed p) /\
  (NoDup (inverse_points n b) /\ forall p, In p (inverse_points n b) <-> inverse p) /\
  (NoDup (intersection_points m a b) /\ forall p, In p (intersection_points m a b) <-> both_ways p) /\
  (NoDup (union_points m n a b) /\ forall p, In p (union_points m n a b) <-> either p).
Proof.
  assert (D : NoDup (direct_points m a)).
  { apply (flat_nodup _ snd); [apply seq_NoDup| |intros x; one_or_none]. intros j p H. destruct (negb _); [|destruct H]. destruct H as [<-|[]]. reflexivity. }
  split; [split; [exact D|apply in_direct]|]. split; [split; [|apply in_inverse]|split; [split; [|apply in_intersection]|split; [|apply in_union]]].
  - apply (flat_nodup _ fst); [apply seq_NoDup| |intros x; one_or_none]. intros j p H. destruct (negb _); [|destruct H]. destruct H as [<-|[]]. reflexivity.
  - apply (flat_nodup _ snd); [apply seq_NoDup| |intros x; one_or_none]. intros j p H. destruct (_ && _); [|destruct H]. destruct H as [<-|[]]. reflexivity.
  - unfold union_points. change (flat_map _ (seq 1 m)) with (direct_points m a).
    assert (N2 : NoDup (flat_map (fun i => if negb (b i =? 0) && negb (a (b i) =? i) then [(i, b i)] else []) (seq 1 n))).
    { apply (flat_nodup _ fst); [apply seq_NoDup| |intros x; one_or_none]. intros j p H. destruct (_ && _); [|destruct H]. destruct H as [<-|[]]. reflexivity. }
    assert (G : forall p, In p (direct_points m a) -> ~ In p (flat_map (fun i => if negb (b i =? 0) && negb (a (b i) =? i) then [(i, b i)] else []) (seq 1 n))).
    { intros p H1 H2. apply in_direct in H1 as [_ E]. apply in_flat_map in H2 as [i [_ H2]]. destruct (negb (b i =? 0)); [|destruct H2]. cbn in H2. destruct (Nat.eqb_spec (a (b i)) i); [destruct H2|]. destruct H2 as [<-|[]]. cbn in E. contradiction. }
    clear -D N2 G. induction (direct_points m a) as [|p l IH]; cbn; [assumption|]. inversion D; subst. constructor; [|apply IH; [assumption|intros q Hq; apply G; now right]].
    rewrite in_app_iff. intros [H|H]; [contradiction|]. eapply G; [now left|exact H].
Qed.

(** ** Growing *)
(** What holds of the variables all the time. *)
Record inv (g : grid) : Prop := {
  i_sorted : increasing (cur g);
  i_union : forall p, In p (cur g) -> either p;
  i_inter : forall p, both_ways p -> In p (cur g);
  i_rows : forall i, ea g i = true <-> row_in (cur g) i;
  i_cols : forall j, fa g j = true <-> col_in (cur g) j;
  i_all : forall p, In p (all g) <-> either p;
  i_A : forall p, either p -> A g p = 1%Z \/ A g p = (-1)%Z \/ A g p = 2%Z;
  i_two : forall p, A g p = 2%Z -> In p (cur g) }.
Lemma set_spec f i k : set_ f i k = true <-> k = i \/ f k = true.
Proof. unfold set_. destruct (Nat.eqb_spec k i); split; auto. intros [K|K]; [contradiction|assumption]. Qed.
Lemma rows_add p g : (forall i, ea g i = true <-> row_in (cur g) i) -> forall i, ea (add p g) i = true <-> row_in (cur (add p g)) i.
Proof.
  intros H i. cbn. rewrite set_spec, H. unfold row_in. split.
  - intros [->|[j K]]; [exists (snd p)|exists j]; apply in_insert; [left; now destruct p|now right].
  - intros [j K]. apply in_insert in K as [<-|K]; [now left|]. right. eauto.
Qed.
Lemma cols_add p g : (forall i, fa g i = true <-> col_in (cur g) i) -> forall i, fa (add p g) i = true <-> col_in (cur (add p g)) i.
Proof.
  intros H i. cbn. rewrite set_spec, H. unfold col_in. split.
  - intros [->|[j K]]; [exists (fst p)|exists j]; apply in_insert; [left; now destruct p|now right].
  - intros [j K]. apply in_insert in K as [<-|K]; [now left|]. right. eauto.
Qed.
Lemma put_spec f p v q : put_ f p v q = if same q p then v else f q.
Proof. reflexivity. Qed.
Lemma inv_add p g : inv g -> either p -> inv (add p g).
Proof.
  intros [H1 H2 H3 H4 H5 H6 H7 H8] E. constructor.
  - now apply insert_increasing.
  - intros q Hq. apply in_insert in Hq as [->|Hq]; auto.
  - intros q Hq. apply in_insert. right. auto.
  - now apply rows_add.
  - now apply cols_add.
  - exact H6.
  - intros q Hq. cbn. rewrite put_spec. destruct (same q p); auto.
  - intros q. cbn. rewrite put_spec, in_insert. destruct (same q p) eqn:K; [apply same_spec in K; auto|]. intros Hq. right. auto.
Qed.
(** The state while it is filled: direct alignments of [js] and inverse ones of [is] are in. *)
Record filling (dir inv_ : point -> Prop) (g : grid) : Prop := {
  f_sorted : increasing (cur g);
  f_cur : forall p, In p (cur g) <-> dir p /\ both_ways p;
  f_rows : forall i, ea g i = true <-> row_in (cur g) i;
  f_cols : forall j, fa g j = true <-> col_in (cur g) j;
  f_all : forall p, In p (all g) <-> dir p \/ inv_ p;
  f_A : forall p, dir p \/ inv_ p -> A g p = 1%Z \/ A g p = (-1)%Z \/ A g p = 2%Z;
  f_two : forall p, A g p = 2%Z -> In p (cur g) }.
Lemma filling_ext d d' i i' g : (forall p, d p <-> d' p) -> (forall p, i p <-> i' p) -> filling d i g -> filling d' i' g.
Proof. intros E1 E2 [H1 H2 H3 H4 H5 H6 H7]. constructor; auto; intros p; [rewrite H2, E1; tauto|rewrite H5, E1, E2; tauto|rewrite <- E1, <- E2; apply H6]. Qed.
Lemma fill_direct_spec g d j : filling d (fun _ => False) g -> 1 <= j <= m -> (forall p, d p -> snd p < j) -> filling (fun p => d p \/ (directed p /\ snd p = j)) (fun _ => False) (fill_direct a b g j).
Proof.
  intros [H1 H2 H3 H4 H5 H6 H7] Hj Hd. unfold fill_direct. destruct ok as [Oa _]. specialize (Oa j Hj). destruct (Nat.eqb_spec (a j) 0) as [E0|E0]; cbn [negb].
  - assert (No : forall p, ~ (directed p /\ snd p = j)) by (intros p [[[P1 P2] P3] <-]; lia).
    constructor; auto; intros p; [rewrite H2; specialize (No p); tauto|rewrite H5; specialize (No p); tauto|]. intros [[K|K]|[]]; [auto|now apply No in K].
  - assert (Dj : forall p, directed p /\ snd p = j <-> p = (a j, j)).
    { intros [x y]. unfold P_Symal.directed, P_Symal.inside. cbn. split; [intros [[_ <-] <-]; reflexivity|intros E; injection E as -> ->; lia]. }
    destruct (Nat.eqb_spec (b (a j)) j) as [Eb|Eb].
    + assert (Bw : both_ways (a j, j)) by (unfold P_Symal.both_ways, P_Symal.directed, P_Symal.inverse, P_Symal.inside; cbn; lia).
      constructor.
      * now apply insert_increasing.
      * intros p. cbn. rewrite in_insert, H2, Dj. split; [intros [->|K]; tauto|tauto].
      * apply rows_add. exact H3.
      * apply cols_add. exact H4.
      * intros p. cbn. rewrite in_insert, H5, Dj. tauto.
      * intros p. cbn. rewrite put_spec, Dj. destruct (same p (a j, j)) eqn:K; [auto|]. intros [[K1|K1]|[]]; [auto|]. subst. exfalso. enough (same (a j, j) (a j, j) = true) by congruence. now apply same_spec.
      * intros p. cbn. rewrite put_spec, in_insert. destruct (same p (a j, j)) eqn:K; [apply same_spec in K; auto|]. intros Hp. right. auto.
    + assert (Nb : ~ both_ways (a j, j)) by (unfold P_Symal.both_ways, P_Symal.inverse; cbn; tauto).
      constructor; cbn; auto.
      * intros p. rewrite H2, Dj. split; [tauto|]. intros [[K|K] B]; [tauto|]. subst. contradiction.
      * intros p. rewrite in_insert, H5, Dj. tauto.
      * intros p. rewrite put_spec, Dj. destruct (same p (a j, j)) eqn:K; [auto|]. intros [[K1|K1]|[]]; [auto|]. subst. exfalso. enough (same (a j, j) (a j, j) = true) by congruence. now apply same_spec.
      * intros p. rewrite put_spec. destruct (same p (a j, j)) eqn:K; [discriminate|]. auto.
Qed.
Lemma fill_inverse_spec g i s : filling directed s g -> 1 <= i <= n -> filling directed (fun p => s p \/ (inverse p /\ ~ directed p /\ fst p = i)) (fill_inverse a b g i).
Proof.
  intros [H1 H2 H3 H4 H5 H6 H7] Hi. unfold fill_inverse. destruct ok as [_ Ob]. specialize (Ob i Hi). destruct (negb (b i =? 0) && negb (a (b i) =? i)) eqn:E.
  - apply andb_true_iff in E as [E0 E1]. apply negb_true_iff in E0, E1. apply Nat.eqb_neq in E0, E1.
    assert (Dj : forall p, inverse p /\ ~ directed p /\ fst p = i <-> p = (i, b i)).
    { intros [x y]. unfold P_Symal.directed, P_Symal.inverse, P_Symal.inside. cbn. split; [intros [[_ <-] [_ <-]]; reflexivity|intros E; injection E as -> ->; repeat split; lia]. }
    constructor; cbn; auto.
    + intros p. rewrite in_insert, H5, Dj. tauto.
    + intros p. rewrite put_spec, Dj. destruct (same p (i, b i)) eqn:K; [auto|]. intros [K1|[K1|K1]]; [auto|auto|]. subst. exfalso. enough (same (i, b i) (i, b i) = true) by congruence. now apply same_spec.
    + intros p. rewrite put_spec. destruct (same p (i, b i)) eqn:K; [discriminate|]. auto.
  - assert (No : forall p, ~ (inverse p /\ ~ directed p /\ fst p = i)).
    { intros [x y]. unfold P_Symal.directed, P_Symal.inverse, P_Symal.inside. cbn. intros [[P1 P2] [P3 ->]]. apply andb_false_iff in E as [E|E]; apply negb_false_iff, Nat.eqb_eq in E; [lia|]. apply P3. rewrite P2 in E. tauto. }
    constructor; auto; intros p; [rewrite H5; specialize (No p); tauto|]. intros [K|[K|K]]; [auto|auto|now apply No in K].
Qed.
Lemma filled_inv : inv filled.
Proof.
  assert (D : forall k, k <= m -> filling (fun p => directed p /\ snd p < S k) (fun _ => False) (fold_left (fill_direct a b) (seq 1 k) empty)).
  { induction k as [|k IH]; intros Hk.
    - constructor; cbn; auto; try (intros p; split; [intros []|intros [K _]; unfold P_Symal.directed, P_Symal.inside in K; lia]).
      + constructor.
      + intros i. split; [discriminate|intros [j []]].
      + intros i. split; [discriminate|intros [j []]].
      + intros p; split; [intros []|intros [K|[]]; unfold P_Symal.directed, P_Symal.inside in K; lia].
      + intros p [K|[]]. unfold P_Symal.directed, P_Symal.inside in K. lia.
      + discriminate.
    - rewrite seq_S, fold_left_app. cbn [fold_left plus]. eapply filling_ext; [| |apply fill_direct_spec; [apply IH; lia|lia|]]; [|reflexivity|].
      + intros p. cbn. split; [intros [[H1 H2]|[H1 H2]]; split; auto; lia|]. intros [H1 H2]. destruct (Nat.eq_dec (snd p) (S k)); [right; auto|left; split; [assumption|lia]].
      + cbn. intros p [_ H]. exact H. }
  assert (I : forall k, k <= n -> filling directed (fun p => inverse p /\ ~ directed p /\ fst p < S k) (fold_left (fill_inverse a b) (seq 1 k) (fold_left (fill_direct a b) (seq 1 m) empty))).
  { induction k as [|k IH]; intros Hk.
    - cbn [seq fold_left]. eapply filling_ext; [| |apply (D m (le_n m))].
      + intros p. cbn. split; [tauto|]. intros H. split; [assumption|]. destruct H as [[_ H] _]. lia.
      + intros p. cbn. split; [intros []|]. intros [[[H _] _] [_ K]]. lia.
    - rewrite seq_S, fold_left_app. cbn [fold_left plus]. eapply filling_ext; [| |apply fill_inverse_spec; [apply IH; lia|lia]]; [reflexivity|].
      intros p. cbn. split; [intros [[H1 [H2 H3]]|[H1 [H2 H3]]]; (split; [exact H1|split; [exact H2|lia]])|]. intros [H1 [H2 H3]]. destruct (Nat.eq_dec (fst p) (S k)); [right; auto|left; split; [exact H1|split; [exact H2|lia]]]. }
  destruct (I n (le_n n)) as [H1 H2 H3 H4 H5 H6 H7].
  assert (E : forall p, directed p \/ (inverse p /\ ~ directed p /\ fst p < S n) <-> either p).
  { intros p. unfold P_Symal.either. split; [tauto|]. intros [H|H]; [now left|]. destruct (Nat.eq_dec (a (snd p)) (fst p)) as [K|K]; [left; split; [apply H|assumption]|].
    right. split; [assumption|]. split; [intros [_ L]; contradiction|]. destruct H as [[H _] _]. lia. }
  constructor; auto.
  - intros p Hp. apply H2 in Hp as [Hp _]. now left.
  - intros p Hp. apply H2. split; [apply Hp|assumption].
  - intros p. rewrite H5. apply E.
  - intros p Hp. apply H6, E, Hp.
Qed.
Lemma filled_cur p : In p (cur filled) <-> both_ways p.
Proof.
  split.
  - assert (D : forall k, k <= m -> forall q, In q (cur (fold_left (fill_direct a b) (seq 1 k) empty)) -> both_ways q).
    { induction k as [|k IH]; intros Hk q Hq; [destruct Hq|]. rewrite seq_S, fold_left_app in Hq. cbn [fold_left plus] in Hq. unfold fill_direct in Hq at 1.
      destruct ok as [Oa _]. specialize (Oa (S k)). destruct (Nat.eqb_spec (a (S k)) 0); cbn [negb] in Hq; [apply IH in Hq; [assumption|lia]|]. destruct (Nat.eqb_spec (b (a (S k))) (S k)) as [Eb|Eb].
      - cbn in Hq. apply in_insert in Hq as [->|Hq]; [|apply IH in Hq; [assumption|lia]]. unfold P_Symal.both_ways, P_Symal.directed, P_Symal.inverse, P_Symal.inside. cbn [fst snd]. lia.
      - cbn in Hq. apply IH in Hq; [assumption|lia]. }
    assert (I : forall l g, cur (fold_left (fill_inverse a b) l g) = cur g).
    { induction l as [|i l IH]; intros g; [reflexivity|]. cbn. rewrite IH. unfold fill_inverse. now destruct (_ && _). }
    unfold M_Symal.filled. rewrite I. apply D. lia.
  - apply (i_inter _ filled_inv).
Qed.

(** A neighbour that is not put in. *)
Definition idle (g : grid) (q : point) : Prop := either q -> ea g (fst q) = true /\ fa g (snd q) = true.
Lemma try_spec g f q : (try (g, f) q = (g, f) /\ idle g q) \/ (try (g, f) q = (add q g, true) /\ either q /\ (ea g (fst q) = false \/ fa g (snd q) = false)).
Proof.
  unfold M_Symal.try. cbn [fst].
  assert (U : ((0 <? fst q) && (fst q <=? n) && (0 <? snd q) && (snd q <=? m) && ((b (fst q) =? snd q) || (a (snd q) =? fst q)))%nat = true <-> either q).
  { rewrite !andb_true_iff, orb_true_iff, !Nat.ltb_lt, !Nat.leb_le, !Nat.eqb_eq. unfold P_Symal.either, P_Symal.directed, P_Symal.inverse, P_Symal.inside. tauto. }
  destruct ((0 <? fst q) && (fst q <=? n) && (0 <? snd q) && (snd q <=? m) && ((b (fst q) =? snd q) || (a (snd q) =? fst q)))%nat; cbn [andb].
  - destruct (ea g (fst q)) eqn:E1; destruct (fa g (snd q)) eqn:E2; cbn [andb negb]; [left|right|right|right]; (split; [reflexivity|]).
    + intros _. auto.
    + split; [now apply U|auto].
    + split; [now apply U|auto].
    + split; [now apply U|auto].
  - left. split; [reflexivity|]. intros H. apply U in H. discriminate H.
Qed.
Section Walk.
Variable diagonal : bool.
Notation reach := (chained diagonal both_ways either).
Lemma neighbours_beside o p : In o (neighbours diagonal) -> 1 <= fst p -> 1 <= snd p -> beside diagonal p (o p).
Proof.
  destruct p as [i j]. cbn [fst snd]. intros H Hi Hj. assert (G : exists x y, o (i, j) = (x, y) /\ (x, y) <> (i, j) /\ near i x /\ near j y /\ (diagonal = false -> i = x \/ j = y)).
  { unfold neighbours in H. apply in_app_or in H as [H|H].
    - repeat (destruct H as [<-|H]; [cbn [fst snd]; eexists; eexists; split; [reflexivity|]; unfold near; split; [intros E; injection E; lia|lia]|]). destruct H.
    - destruct diagonal; [|destruct H]. repeat (destruct H as [<-|H]; [cbn [fst snd]; eexists; eexists; split; [reflexivity|]; unfold near; split; [intros E; injection E; lia|split; [lia|split; [lia|discriminate]]]|]). destruct H. }
  destruct G as [x [y [-> [N [N1 [N2 N3]]]]]]. unfold beside. cbn. repeat split; auto.
Qed.
Lemma beside_neighbours p q : beside diagonal p q -> exists o, In o (neighbours diagonal) /\ o p = q.
Proof.
  destruct p as [i j], q as [x y]. unfold beside, near. cbn [fst snd]. intros [N [H1 [H2 H3]]].
  assert (Nxy : ~ (x = i /\ y = j)) by (intros [-> ->]; now apply N).
  assert (L : forall o : point -> point, (x, y) = o (i, j) -> In o (neighbours diagonal) -> exists o, In o (neighbours diagonal) /\ o (i, j) = (x, y)) by (intros o E I; exists o; auto).
  unfold neighbours in *. destruct diagonal.
  - destruct H1 as [->|[->| ->]]; destruct H2 as [->|[->| ->]]; try (exfalso; apply Nxy; split; reflexivity);
    first [ eapply L; [|left; reflexivity]; cbn; f_equal; lia | eapply L; [|right; left; reflexivity]; cbn; f_equal; lia | eapply L; [|right; right; left; reflexivity]; cbn; f_equal; lia
      | eapply L; [|right; right; right; left; reflexivity]; cbn; f_equal; lia | eapply L; [|right; right; right; right; left; reflexivity]; cbn; f_equal; lia
      | eapply L; [|right; right; right; right; right; left; reflexivity]; cbn; f_equal; lia | eapply L; [|right; right; right; right; right; right; left; reflexivity]; cbn; f_equal; lia
      | eapply L; [|right; right; right; right; right; right; right; left; reflexivity]; cbn; f_equal; lia ].
  - specialize (H3 eq_refl). destruct H1 as [->|[->| ->]]; destruct H2 as [->|[->| ->]]; try lia;
    first [ eapply L; [|left; reflexivity]; cbn; f_equal; lia | eapply L; [|right; left; reflexivity]; cbn; f_equal; lia | eapply L; [|right; right; left; reflexivity]; cbn; f_equal; lia
      | eapply L; [|right; right; right; left; reflexivity]; cbn; f_equal; lia ].
Qed.
(** The words without a point. *)
Definition uncovered (g : grid) : nat := length (filter (fun i => negb (ea g i)) (seq 1 n)) + length (filter (fun j => negb (fa g j)) (seq 1 m)).
Lemma filter_less {B} (f f' : B -> bool) l : (forall x, f' x = true -> f x = true) -> length (filter f' l) <= length (filter f l).
Proof. intros H. induction l as [|x l IH]; cbn; [lia|]. destruct (f' x) eqn:E; [rewrite (H _ E); cbn; lia|]. destruct (f x); cbn; lia. Qed.
Lemma filter_lt {B} (f f' : B -> bool) l y : (forall x, f' x = true -> f x = true) -> In y l -> f y = true -> f' y = false -> length (filter f' l) < length (filter f l).
Proof.
  intros H I E1 E2. induction l as [|x l IH]; cbn; [destruct I|]. destruct I as [->|I].
  - rewrite E1, E2. cbn. pose proof (filter_less f f' l H). lia.
  - specialize (IH I). destruct (f' x) eqn:E; [rewrite (H _ E); cbn; lia|]. destruct (f x); cbn; lia.
Qed.
Lemma uncovered_add q g : inside q -> ea g (fst q) = false \/ fa g (snd q) = false -> uncovered (add q g) < uncovered g.
Proof.
  intros [I1 I2] H. unfold uncovered. cbn [ea fa add].
  assert (M1 : forall x, negb (set_ (ea g) (fst q) x) = true -> negb (ea g x) = true) by (intros x; unfold set_; destruct (x =? fst q); [discriminate|auto]).
  assert (M2 : forall x, negb (set_ (fa g) (snd q) x) = true -> negb (fa g x) = true) by (intros x; unfold set_; destruct (x =? snd q); [discriminate|auto]).
  pose proof (filter_less _ _ (seq 1 n) M1). pose proof (filter_less _ _ (seq 1 m) M2). destruct H as [H|H].
  - enough (length (filter (fun i => negb (set_ (ea g) (fst q) i)) (seq 1 n)) < length (filter (fun i => negb (ea g i)) (seq 1 n))) by lia.
    apply (filter_lt _ _ _ (fst q) M1); [apply in_seq; lia|now rewrite H|]. unfold set_. now rewrite Nat.eqb_refl.
  - enough (length (filter (fun i => negb (set_ (fa g) (snd q) i)) (seq 1 m)) < length (filter (fun i => negb (fa g i)) (seq 1 m))) by lia.
    apply (filter_lt _ _ _ (snd q) M2); [apply in_seq; lia|now rewrite H|]. unfold set_. now rewrite Nat.eqb_refl.
Qed.
Lemma either_inside q : either q -> inside q.
Proof. intros [[H _]|[H _]]; exact H. Qed.
(** From the state before to the state after: it stays sound; either nothing happened, or words were covered. *)
Record moved (s s' : grid * bool) : Prop := {
  mv_inv : inv (fst s) -> inv (fst s');
  mv_reach : (forall p, In p (cur (fst s)) -> reach p) -> forall p, In p (cur (fst s')) -> reach p;
  mv_more : forall p, In p (cur (fst s)) -> In p (cur (fst s'));
  mv_same : snd s' = false -> s' = s;
  mv_less : s' = s \/ (snd s' = true /\ uncovered (fst s') < uncovered (fst s)) }.
Lemma moved_refl s : moved s s.
Proof. constructor; auto. Qed.
Lemma moved_trans s1 s2 s3 : moved s1 s2 -> moved s2 s3 -> moved s1 s3.
Proof.
  intros [A1 A2 A3 A4 A5] [B1 B2 B3 B4 B5]. constructor; auto.
  - intros H. specialize (B4 H). subst s3. auto.
  - destruct A5 as [->|A5]; [exact B5|]. right. destruct B5 as [->|B5]; [exact A5|]. split; [apply B5|]. lia.
Qed.
Lemma try_moved s p o : In o (neighbours diagonal) -> In p (cur (fst s)) -> inv (fst s) -> (forall q, In q (cur (fst s)) -> reach q) -> moved s (try s (o p)) /\ (snd (try s (o p)) = false -> idle (fst s) (o p)).
Proof.
  intros Ho Hp I R. destruct s as [g f]. cbn [fst] in *. pose proof (either_inside _ (i_union _ I _ Hp)) as [J1 J2]. destruct (try_spec g f (o p)) as [[E Id]|[E [U Un]]]; rewrite E.
  - split; [apply moved_refl|auto].
  - split; [|discriminate]. constructor; cbn [fst snd]; try discriminate.
    + intros _. now apply inv_add.
    + intros _ q Hq. cbn in Hq. apply in_insert in Hq as [->|Hq]; [|auto]. apply (Ch_next _ _ _ p); [auto| |assumption]. now apply neighbours_beside.
    + intros q Hq. cbn. apply in_insert. now right.
    + right. split; [reflexivity|]. apply uncovered_add; [now apply either_inside|assumption].
Qed.
Lemma round_moved p : forall os s, (forall o, In o os -> In o (neighbours diagonal)) -> In p (cur (fst s)) -> inv (fst s) -> (forall q, In q (cur (fst s)) -> reach q) ->
  let s' := fold_left (fun s o => try s (o p)) os s in moved s s' /\ (snd s' = false -> forall o, In o os -> idle (fst s) (o p)).
Proof.
  induction os as [|o os IH]; intros s Ho Hp I R; cbn; [split; [apply moved_refl|intros _ o []]|].
  destruct (try_moved s p o (Ho o (or_introl eq_refl)) Hp I R) as [M1 M2]. destruct (IH (try s (o p))) as [N1 N2].
  - intros x Hx. apply Ho. now right.
  - now apply (mv_more _ _ M1).
  - now apply (mv_inv _ _ M1).
  - now apply (mv_reach _ _ M1).
  - split; [eapply moved_trans; eassumption|]. intros E x [<-|Hx].
    + apply M2. pose proof (mv_same _ _ N1 E) as K. rewrite <- K. exact E.
    + pose proof (mv_same _ _ N1 E) as K. assert (F : snd (try s (o p)) = false) by (rewrite <- K; exact E). pose proof (mv_same _ _ M1 F) as K2. rewrite <- K2 at 1. now apply N2.
Qed.
Definition before (p q : point) : Prop := fst p < fst q \/ (fst p = fst q /\ snd p < snd q).
Lemma pass_moved : forall f k s s', inv (fst s) -> (forall q, In q (cur (fst s)) -> reach q) -> (forall p, k = Some p -> In p (cur (fst s))) -> pass diagonal f k s = Some s' ->
  moved s s' /\ (snd s' = false -> forall p, k = Some p -> forall q, In q (cur (fst s)) -> q = p \/ before p q -> forall o, In o (neighbours diagonal) -> idle (fst s) (o q)).
Proof.
  induction f as [|f IH]; intros k s s' I R K H; (destruct k as [p|]; [|cbn in H; injection H as <-; split; [apply moved_refl|discriminate]]); [discriminate H|].
  cbn [M_Symal.pass] in H. destruct (round_moved p (neighbours diagonal) s (fun o Ho => Ho) (K p eq_refl) I R) as [M1 M2]. cbv zeta in M1, M2.
  set (s1 := fold_left (fun s o => try s (o p)) (neighbours diagonal) s) in *. pose proof (mv_inv _ _ M1 I) as I1.
  destruct (IH (next p (cur (fst s1))) s1 s' I1 (mv_reach _ _ M1 R)) as [N1 N2].
  - intros q E. eapply next_some; [apply (i_sorted _ I1)|exact E].
  - exact H.
  - split; [eapply moved_trans; eassumption|]. intros E p' Ep q Hq L o Ho. injection Ep as <-. pose proof (mv_same _ _ N1 E) as K1. assert (F : snd s1 = false) by (rewrite <- K1; exact E). pose proof (mv_same _ _ M1 F) as K2.
    destruct L as [->|L]; [now apply M2|]. rewrite <- K2 at 1. rewrite <- K2 in Hq. destruct (next p (cur (fst s1))) as [r|] eqn:En.
    + eapply N2; [exact E|reflexivity|assumption| |assumption]. destruct (next_some _ _ _ (i_sorted _ I1) En) as [_ [_ B]]. apply B; [assumption|exact L].
    + exfalso. eapply next_none; [exact En|exact Hq|exact L].
Qed.
Definition code (p : point) : nat := fst p * (m + 1) + snd p.
Lemma pass_ends : forall f k s, inv (fst s) -> (forall q, In q (cur (fst s)) -> reach q) -> (forall p, k = Some p -> In p (cur (fst s)) /\ (n + 1) * (m + 1) <= code p + f) -> pass diagonal f k s <> None.
Proof.
  induction f as [|f IH]; intros k s I R K; (destruct k as [p|]; [|discriminate]); destruct (K p eq_refl) as [Hp Hc].
  - pose proof (either_inside _ (i_union _ I _ Hp)) as [J1 J2]. unfold code in Hc. nia.
  - cbn [M_Symal.pass]. destruct (round_moved p (neighbours diagonal) s (fun o Ho => Ho) Hp I R) as [M1 _]. cbv zeta in M1.
    set (s1 := fold_left (fun s o => try s (o p)) (neighbours diagonal) s) in *. pose proof (mv_inv _ _ M1 I) as I1. apply IH; [assumption|now apply (mv_reach _ _ M1)|].
    intros q E. destruct (next_some _ _ _ (i_sorted _ I1) E) as [Hq [B _]]. split; [assumption|]. pose proof (either_inside _ (i_union _ I _ Hp)) as [J1 J2]. pose proof (either_inside _ (i_union _ I1 _ Hq)) as [L1 L2].
    unfold code in *. nia.
Qed.
(** Nothing can be put in any more. *)
Definition still (g : grid) : Prop := forall p q, In p (cur g) -> beside diagonal p q -> idle g q.
Lemma hd_first g p q : inv g -> hd_error (cur g) = Some p -> In q (cur g) -> q = p \/ before p q.
Proof.
  intros I. pose proof (i_sorted _ I) as S. destruct (cur g) as [|x l]; [discriminate|]. cbn. intros E. injection E as ->. apply StronglySorted_inv in S as [_ F]. intros [->|H]; [now left|]. right. exact (proj1 (Forall_forall _ _) F q H).
Qed.
Lemma hd_in {B} (l : list B) x : hd_error l = Some x -> In x l.
Proof. destruct l; [discriminate|]. cbn. intros E. injection E as ->. now left. Qed.
Lemma grow_spec f' : forall f g g', inv g -> (forall q, In q (cur g) -> reach q) -> grow diagonal f f' g = Some g' ->
  inv g' /\ (forall q, In q (cur g') -> reach q) /\ still g'.
Proof.
  induction f as [|f IH]; intros g g' I R H; [discriminate H|]. cbn [M_Symal.grow] in H. destruct (pass diagonal f' (hd_error (cur g)) (g, false)) as [[g1 []]|] eqn:E; [| |discriminate H].
  - destruct (pass_moved f' (hd_error (cur g)) (g, false) _ I R (fun p => @hd_in _ _ p) E) as [M _]. apply IH in H; [exact H|apply (mv_inv _ _ M I)|apply (mv_reach _ _ M R)].
  - injection H as <-. destruct (pass_moved f' (hd_error (cur g)) (g, false) _ I R (fun p => @hd_in _ _ p) E) as [M N]. pose proof (mv_same _ _ M eq_refl) as K. injection K as ->. split; [assumption|]. split; [assumption|].
    intros p q Hp B. destruct (beside_neighbours _ _ B) as [o [Ho <-]]. destruct (hd_error (cur g)) as [h|] eqn:Eh; [|destruct (cur g); [destruct Hp|discriminate Eh]].
    eapply (N eq_refl h eq_refl p); [assumption|now apply (hd_first g)|assumption].
Qed.
Lemma grow_ends f' : (n + 1) * (m + 1) <= f' -> forall f g, inv g -> (forall q, In q (cur g) -> reach q) -> uncovered g < f -> grow diagonal f f' g <> None.
Proof.
  intros Hf'. induction f as [|f IH]; intros g I R Hf; [lia|]. cbn [M_Symal.grow]. destruct (pass diagonal f' (hd_error (cur g)) (g, false)) as [[g1 []]|] eqn:E; [|discriminate|].
  - destruct (pass_moved f' (hd_error (cur g)) (g, false) _ I R (fun p => @hd_in _ _ p) E) as [M _]. apply IH; [apply (mv_inv _ _ M I)|apply (mv_reach _ _ M R)|]. destruct (mv_less _ _ M) as [K|[_ K]]; [discriminate K|]. cbn in K. lia.
  - exfalso. apply (pass_ends f' (hd_error (cur g)) (g, false) I R) in E; [exact E|]. intros p Hp. split; [now apply hd_in|lia].
Qed.
End Walk.
(** ** The last steps *)
Definition covered_by (both : bool) (g : grid) (p : point) : Prop :=
  if both then ea g (fst p) = true \/ fa g (snd p) = true else ea g (fst p) = true /\ fa g (snd p) = true.
Lemma last_step_spec both v g p : inv g -> either p ->
  inv (last_step both v g p) /\ (forall q, In q (cur g) -> In q (cur (last_step both v g p))) /\ (forall q, covered_by both g q -> covered_by both (last_step both v g p) q) /\
  all (last_step both v g p) = all g /\ (forall q, A (last_step both v g p) q = A g q \/ A (last_step both v g p) q = 2%Z) /\ (A g p = v -> covered_by both (last_step both v g p) p).
Proof.
  intros I U. unfold last_step.
  assert (Ad : inv (add p g) /\ (forall q, In q (cur g) -> In q (cur (add p g))) /\ (forall q, covered_by both g q -> covered_by both (add p g) q) /\ all (add p g) = all g /\ (forall q, A (add p g) q = A g q \/ A (add p g) q = 2%Z) /\ covered_by both (add p g) p).
  { split; [now apply inv_add|]. split; [intros q Hq; cbn; apply in_insert; now right|]. split; [|split; [reflexivity|split]].
    - intros q. unfold covered_by. destruct both; cbn; rewrite !set_spec; tauto.
    - intros q. cbn. rewrite put_spec. destruct (same q p); auto.
    - unfold covered_by. destruct both; cbn; rewrite !set_spec; auto. }
  destruct (Z.eqb_spec (A g p) v) as [E|E]; [|split; [exact I|]; split; [auto|]; split; [auto|]; split; [reflexivity|]; split; [auto|]; intros K; contradiction].
  destruct ((both && negb (ea g (fst p)) && negb (fa g (snd p))) || (negb both && negb (ea g (fst p) && fa g (snd p)))) eqn:C.
  - destruct Ad as [A1 [A2 [A3 [A4 [A5 A6]]]]]. auto 8.
  - split; [exact I|]. split; [auto|]. split; [auto|]. split; [reflexivity|]. split; [auto|]. intros _. unfold covered_by. apply orb_false_iff in C as [C1 C2]. destruct both; cbn in *.
    + destruct (ea g (fst p)); [auto|]. destruct (fa g (snd p)); [auto|discriminate C1].
    + destruct (ea g (fst p)); destruct (fa g (snd p)); auto; discriminate C2.
Qed.
Lemma last_steps both v : forall l g, inv g -> (forall p, In p l -> either p) ->
  let g' := fold_left (last_step both v) l g in
  inv g' /\ (forall q, In q (cur g) -> In q (cur g')) /\ (forall q, covered_by both g q -> covered_by both g' q) /\ all g' = all g /\ (forall q, A g' q = A g q \/ A g' q = 2%Z) /\
  (forall p, In p l -> A g p = v -> covered_by both g' p).
Proof.
  induction l as [|p l IH]; intros g I U; cbn [fold_left].
  - cbv zeta. split; [exact I|]. split; [auto|]. split; [auto|]. split; [reflexivity|]. split; [auto|]. intros p [].
  - cbv zeta. destruct (last_step_spec both v g p I (U p (or_introl eq_refl))) as [A1 [A2 [A3 [A4 [A5 A6]]]]]. destruct (IH _ A1 (fun q Hq => U q (or_intror Hq))) as [B1 [B2 [B3 [B4 [B5 B6]]]]]. cbv zeta in *.
    split; [exact B1|]. split; [auto|]. split; [auto|]. split; [congruence|]. split.
    + intros q. destruct (B5 q) as [K|K]; [|auto]. rewrite K. apply A5.
    + intros q [<-|Hq] E; [auto|]. destruct (A5 q) as [K|K].
      * apply B6; [assumption|congruence].
      * apply B3. pose proof (i_two _ A1 _ K) as T. unfold covered_by. assert (row_in (cur (last_step both v g p)) (fst q)) by (exists (snd q); now destruct q). assert (col_in (cur (last_step both v g p)) (snd q)) by (exists (fst q); now destruct q). destruct both; rewrite (i_rows _ A1), (i_cols _ A1); auto.
Qed.
Lemma final_spec both g : inv g -> inv (final_ both g) /\ (forall q, In q (cur g) -> In q (cur (final_ both g))) /\ forall p, either p -> covered_by both (final_ both g) p.
Proof.
  intros I. unfold final_. assert (U : forall p, In p (all g) -> either p) by apply (i_all _ I).
  destruct (last_steps both 1 (all g) g I U) as [A1 [A2 [A3 [A4 [A5 A6]]]]]. cbv zeta in *. set (g1 := fold_left (last_step both 1) (all g) g) in *.
  destruct (last_steps both (-1) (all g) g1 A1 U) as [B1 [B2 [B3 [B4 [B5 B6]]]]]. cbv zeta in *. split; [exact B1|]. split; [auto|]. intros p Hp.
  assert (Two : forall h, inv h -> A h p = 2%Z -> covered_by both h p).
  { intros h Ih E. pose proof (i_two _ Ih _ E) as T. unfold covered_by. assert (row_in (cur h) (fst p)) by (exists (snd p); now destruct p). assert (col_in (cur h) (snd p)) by (exists (fst p); now destruct p). destruct both; rewrite (i_rows _ Ih), (i_cols _ Ih); auto. }
  destruct (i_A _ I p Hp) as [E|[E|E]].
  - apply B3, A6; [now apply (i_all _ I)|exact E].
  - destruct (A5 p) as [K|K]; [|apply B3, Two; assumption]. apply B6; [now apply (i_all _ I)|congruence].
  - apply B3, A3, Two; assumption.
Qed.

(** The result lies between the intersection and the union, in increasing order. *)
Theorem C63_between diagonal final both f f' l : printgrow diagonal final both f f' = Some l ->
  increasing l /\ (forall p, both_ways p -> In p l) /\ (forall p, In p l -> either p).
Proof.
  unfold M_Symal.printgrow. destruct (grow diagonal f f' filled) as [g|] eqn:E; [|discriminate]. intros H. injection H as <-.
  destruct (grow_spec diagonal f' f filled g filled_inv) as [I _]; [intros q Hq; apply Ch_first, filled_cur, Hq|exact E|].
  destruct final; [destruct (final_spec both g I) as [I' _]; destruct I'|destruct I]; auto.
Qed.
(** Growing: every point is chained to the intersection; a neighbour in the union is left out only if both its words have points. *)
Theorem C63_grown diagonal both f f' l : printgrow diagonal false both f f' = Some l ->
  (forall p, In p l -> chained diagonal both_ways either p) /\
  (forall p q, In p l -> beside diagonal p q -> either q -> row_in l (fst q) /\ col_in l (snd q)).
Proof.
  unfold M_Symal.printgrow. destruct (grow diagonal f f' filled) as [g|] eqn:E; [|discriminate]. intros H. injection H as <-.
  destruct (grow_spec diagonal f' f filled g filled_inv) as [I [R S]]; [intros q Hq; apply Ch_first, filled_cur, Hq|exact E|].
  split; [exact R|]. intros p q Hp B U. destruct (S p q Hp B U) as [S1 S2]. split; [now apply (i_rows _ I)|now apply (i_cols _ I)].
Qed.
(** With the last steps, every point of the union has a word (with [both]) or both words covered; and nothing grown is lost. *)
Theorem C63_final diagonal both f f' l : printgrow diagonal true both f f' = Some l ->
  (forall p, either p -> if both then row_in l (fst p) \/ col_in l (snd p) else row_in l (fst p) /\ col_in l (snd p)) /\
  exists l0, printgrow diagonal false both f f' = Some l0 /\ forall p, In p l0 -> In p l.
Proof.
  unfold M_Symal.printgrow. destruct (grow diagonal f f' filled) as [g|] eqn:E; [|discriminate]. intros H. injection H as <-.
  destruct (grow_spec diagonal f' f filled g filled_inv) as [I [R S]]; [intros q Hq; apply Ch_first, filled_cur, Hq|exact E|].
  destruct (final_spec both g I) as [I' [M C]]. split; [|eauto]. intros p Hp. specialize (C p Hp). unfold covered_by in C. destruct both; rewrite (i_rows _ I'), (i_cols _ I') in C; exact C.
Qed.
Lemma filter_length_le {B} (f : B -> bool) l : length (filter f l) <= length l.
Proof. induction l as [|x l IH]; cbn; [lia|]. destruct (f x); cbn; lia. Qed.
(** It ends, after at most one round for each word and one more. *)
Theorem C63_ends diagonal final both f f' : n + m < f -> (n + 1) * (m + 1) <= f' -> exists l, printgrow diagonal final both f f' = Some l.
Proof.
  intros Hf Hf'. unfold M_Symal.printgrow. destruct (grow diagonal f f' filled) as [g|] eqn:E; [eauto|]. exfalso. eapply (grow_ends diagonal f' Hf' f filled filled_inv); [intros q Hq; apply Ch_first, filled_cur, Hq| |exact E].
  unfold uncovered. pose proof (filter_length_le (fun i => negb (ea filled i)) (seq 1 n)) as L1. pose proof (filter_length_le (fun i => negb (fa filled i)) (seq 1 m)) as L2. rewrite seq_length in L1, L2. lia.
Qed.
End Sentence.
Print Assumptions C63_simple.
Print Assumptions C63_between.
Print Assumptions C63_grown.
Print Assumptions C63_final.
Print Assumptions C63_ends.
(** As the comment of printgrow says: the result is the union of a direct and an inverse alignment. *)
Theorem C63_as_union m n a b diagonal final both f f' l : valid m n a b -> printgrow m n a b diagonal final both f f' = Some l ->
  exists a' b', valid m n a' b' /\ forall p, In p l <-> either m n a' b' p.
Proof.
  intros V H. destruct (C63_between m n a b V _ _ _ _ _ _ H) as [_ [_ U]].
  set (has := fun p => existsb (same p) l). assert (Has : forall p, has p = true <-> In p l).
  { intros p. unfold has. rewrite existsb_exists. split; [intros [q [Hq E]]; apply same_spec in E; now subst|intros Hp; exists p; split; [assumption|now apply same_spec]]. }
  exists (fun j => if has (a j, j) then a j else 0), (fun i => if has (i, b i) then b i else 0). split.
  - destruct V as [Va Vb]. split; [intros j Hj; destruct (has _); [now apply Va|lia]|intros i Hi; destruct (has _); [now apply Vb|lia]].
  - intros [i j]. unfold either, directed, inverse, inside in *. cbn [fst snd]. split.
    + intros Hp. destruct (U _ Hp) as [[K E]|[K E]]; cbn in K, E; [left|right]; (split; [exact K|]); rewrite E; apply Has in Hp; now rewrite Hp.
    + intros [[K E]|[K E]].
      * destruct (has (a j, j)) eqn:Hh; [|lia]. apply Has in Hh. now rewrite E in Hh.
      * destruct (has (i, b i)) eqn:Hh; [|lia]. apply Has in Hh. now rewrite E in Hh.
Qed.
Print Assumptions C63_as_union.

(** ** The line *)
Local Open Scope string_scope.
Definition word (p : point) : string := number (snd p - 1) ++ "-" ++ number (fst p - 1).
Fixpoint words (ps : list point) : string := match ps with [] => "" | [p] => word p | p :: ps' => word p ++ " " ++ words ps' end.
Lemma append_assoc (x y z : string) : (x ++ y) ++ z = x ++ y ++ z.
Proof. induction x as [|c x IH]; cbn; [reflexivity|]. now rewrite IH. Qed.
Lemma append_nil (x : string) : x ++ "" = x.
Proof. induction x as [|c x IH]; cbn; [reflexivity|]. now rewrite IH. Qed.
Lemma texts_spec ps : forall s, fold_left (fun s p => s ++ pair_text p) ps s = s ++ fold_right (fun p s => pair_text p ++ s) "" ps.
Proof. induction ps as [|p ps IH]; intros s; cbn; [now rewrite append_nil|]. now rewrite IH, append_assoc. Qed.
Lemma replace_last_end s c : replace_last (s ++ String c "") = s ++ String newline "".
Proof. induction s as [|x s IH]; [reflexivity|]. cbn. rewrite IH. now destruct s. Qed.
Lemma pair_word p : pair_text p = word p ++ " ".
Proof. unfold pair_text, word. now rewrite !append_assoc. Qed.
Lemma texts_words p ps : fold_right (fun p s => pair_text p ++ s) "" (p :: ps) = words (p :: ps) ++ " ".
Proof.
  revert p. induction ps as [|q ps IH]; intros p; cbn [fold_right] in *; [now rewrite append_nil, pair_word|]. rewrite IH, pair_word.
  change (words (p :: q :: ps)) with (word p ++ " " ++ words (q :: ps)). now rewrite !append_assoc.
Qed.
Lemma length_append x y : String.length (x ++ y) = (String.length x + String.length y)%nat.
Proof. induction x as [|c x IH]; cbn; [reflexivity|]. now rewrite IH. Qed.
(** The words "j-i" (from 0), with spaces in between and a newline. *)
Theorem C63_line ps : line ps = words ps ++ String newline "".
Proof.
  unfold line. cbv zeta. rewrite texts_spec. cbn [append]. destruct ps as [|p ps]; [reflexivity|]. rewrite texts_words.
  destruct (Nat.eqb_spec (String.length (words (p :: ps) ++ " ")) 0) as [E|_]; [rewrite length_append in E; cbn in E; lia|]. apply replace_last_end.
Qed.
Print Assumptions C63_line.

(** ** Cases *)
Definition at_ (l : list nat) (k : nat) : nat := nth (k - 1) l 0.
(** Four source words, five target words. *)
Definition a4 := at_ [1; 2; 4; 5]. Definition b5 := at_ [1; 1; 2; 3; 0].
Example C63_example_valid : valid 4 5 a4 b5.
Proof. split; intros k Hk; do 6 (destruct k as [|k]; [cbn; lia|]); lia. Qed.
Example C63_example_union : union_points 4 5 a4 b5 = [(1, 1); (2, 2); (4, 3); (5, 4); (2, 1); (3, 2)]. Proof. reflexivity. Qed.
Example C63_example_intersection : intersection_points 4 a4 b5 = [(1, 1); (4, 3)]. Proof. reflexivity. Qed.
Example C63_example_grow : printgrow 4 5 a4 b5 false false false 10 30 = Some [(1, 1); (2, 1); (2, 2); (3, 2); (4, 3)]. Proof. vm_compute. reflexivity. Qed.
Example C63_example_diagonal : printgrow 4 5 a4 b5 true false false 10 30 = Some [(1, 1); (2, 1); (2, 2); (3, 2); (4, 3); (5, 4)]. Proof. vm_compute. reflexivity. Qed.
Example C63_example_final : printgrow 2 2 (at_ [0; 1]) (at_ [1; 0]) false true false 10 30 = Some [(1, 1); (1, 2)]. Proof. vm_compute. reflexivity. Qed.
Example C63_example_line : line [(1, 1); (2, 1); (11, 10)] = "0-0 0-1 9-10" ++ String newline "". Proof. reflexivity. Qed.
(** Exchanging the languages does not always exchange the coordinates of the result. *)
Theorem C63_symmetric_refuted :
  printgrow 3 3 (at_ [1; 3; 2]) (at_ [2; 1; 2]) true false false 10 30 = Some [(1, 1); (2, 1); (2, 3); (3, 2)] /\
  printgrow 3 3 (at_ [2; 1; 2]) (at_ [1; 3; 2]) true false false 10 30 = Some [(1, 2); (2, 1); (2, 3); (3, 2)].
Proof. vm_compute. auto. Qed.
Print Assumptions C63_symmetric_refuted.

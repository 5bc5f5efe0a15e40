(** Facts about the automata of M_Fsa: sets and arc lists, the operations on an automaton,
    epsilon closures, and what [traverse] builds. *)
From Coq Require Import List ZArith Bool Sorted Permutation Lia PeanoNat.
From Verif Require Import M_OrdSet L_OrdSet M_Fsa S_Fsa.
Import ListNotations.
Local Open Scope nat_scope.

(** ** Orders and sets *)
Lemma nat_strict : strict_total Nat.ltb.
Proof.
  constructor.
  - apply Nat.ltb_irrefl.
  - intros x y z. rewrite !Nat.ltb_lt. lia.
  - intros x y. rewrite !Nat.ltb_ge. lia.
Qed.
Lemma pair_strict : strict_total pair_ltb.
Proof.
  constructor.
  - intros [a b]. unfold pair_ltb. cbn [fst snd]. rewrite !Nat.ltb_irrefl. now rewrite andb_false_r.
  - intros [a b] [c d] [e g]. unfold pair_ltb. cbn [fst snd].
    rewrite !orb_true_iff, !andb_true_iff, !Nat.ltb_lt, !Nat.eqb_eq. lia.
  - intros [a b] [c d]. unfold pair_ltb. cbn [fst snd].
    rewrite !orb_false_iff, !andb_false_iff, !Nat.ltb_ge, !Nat.eqb_neq. intros. f_equal; lia.
Qed.
Lemma set_ltb_strict : strict_total set_ltb.
Proof.
  constructor.
  - induction x as [|a x IH]; [reflexivity|]. cbn [set_ltb]. rewrite Nat.ltb_irrefl. exact IH.
  - induction x as [|a x IH]; intros [|b y] [|c z]; cbn [set_ltb]; try discriminate; try reflexivity.
    destruct (Nat.ltb_spec a b), (Nat.ltb_spec b c), (Nat.ltb_spec a c); try reflexivity; try lia.
    all: intros K1 K2.
    all: destruct (Nat.ltb_spec b a); try discriminate; destruct (Nat.ltb_spec c b); try discriminate;
      destruct (Nat.ltb_spec c a); try lia; try reflexivity; try (now apply (IH y z)).
  - induction x as [|a x IH]; intros [|b y]; cbn [set_ltb]; try discriminate; try reflexivity.
    destruct (Nat.ltb_spec a b); [discriminate|]. destruct (Nat.ltb_spec b a); [discriminate|].
    intros H1 H2. assert (a = b) by lia. subst. f_equal. now apply IH.
Qed.
Lemma arc_strict {S} (ltb : S -> S -> bool) : strict_total ltb -> strict_total (arc_ltb ltb).
Proof.
  intros H. constructor.
  - intros [a p]. unfold arc_ltb. cbn [fst snd]. rewrite Z.ltb_irrefl, (st_irrefl _ H). now rewrite andb_false_r.
  - intros [a p] [b q] [c r]. unfold arc_ltb. cbn [fst snd].
    rewrite !orb_true_iff, !andb_true_iff, !Z.ltb_lt, !Z.eqb_eq.
    intros [K|[-> K]] [K'|[-> K']]; try (left; lia). right. split; [reflexivity|].
    exact (st_trans _ H _ _ _ K K').
  - intros [a p] [b q]. unfold arc_ltb. cbn [fst snd].
    rewrite !orb_false_iff, !andb_false_iff, !Z.ltb_ge, !Z.eqb_neq. intros [K1 K2] [K3 K4].
    assert (a = b) by lia. subst b. f_equal. apply (st_total _ H); [destruct K2|destruct K4]; congruence.
Qed.
Lemma equivalent_eq {A} (ltb : A -> A -> bool) : strict_total ltb ->
  forall x y, equivalent ltb x y = true <-> x = y.
Proof.
  intros H x y. unfold equivalent. rewrite andb_true_iff, !negb_true_iff. split.
  - intros [K1 K2]. now apply (st_total _ H).
  - intros ->. now rewrite (st_irrefl _ H).
Qed.
Lemma order_dec {A} (ltb : A -> A -> bool) (H : strict_total ltb) (x y : A) : {x = y} + {x <> y}.
Proof.
  destruct (equivalent ltb x y) eqn:E.
  - left. now apply (equivalent_eq ltb H).
  - right. intros K. apply (equivalent_eq ltb H) in K. congruence.
Qed.
Lemma set_count_in {A} (ltb : A -> A -> bool) : strict_total ltb ->
  forall x s, set_count ltb x s = true <-> In x s.
Proof.
  intros H x s. unfold set_count. rewrite existsb_exists. split.
  - intros (y & Hin & K). apply (equivalent_eq ltb H) in K. now subst.
  - intros Hin. exists x. split; [assumption|]. now apply (equivalent_eq ltb H).
Qed.
Lemma in_set_erase {A} (ltb : A -> A -> bool) : strict_total ltb ->
  forall x y s, In y (set_erase ltb x s) <-> In y s /\ y <> x.
Proof.
  intros H x y s. unfold set_erase. rewrite filter_In, negb_true_iff.
  assert (E : equivalent ltb x y = false <-> y <> x).
  { rewrite <- not_true_iff_false, (equivalent_eq ltb H). intuition. }
  now rewrite E.
Qed.
Lemma increasing_filter {A} (ltb : A -> A -> bool) g s : increasing ltb s -> increasing ltb (filter g s).
Proof.
  unfold increasing. induction 1 as [|x s Hs IH Hx]; cbn [filter]; [constructor|].
  destruct (g x); [|assumption]. constructor; [assumption|].
  apply Forall_forall. intros y Hy. apply filter_In in Hy as [Hy _]. rewrite Forall_forall in Hx. auto.
Qed.
Lemma in_insert_all {A} (ltb : A -> A -> bool) : strict_total ltb ->
  forall xs s y, In y (insert_all ltb xs s) <-> In y xs \/ In y s.
Proof.
  intros H xs. unfold insert_all. induction xs as [|x xs IH]; intros s y; cbn [fold_left In]; [intuition|].
  rewrite IH, (in_set_insert ltb H). intuition.
Qed.
Lemma increasing_insert_all {A} (ltb : A -> A -> bool) : strict_total ltb ->
  forall xs s, increasing ltb s -> increasing ltb (insert_all ltb xs s).
Proof.
  intros H xs. unfold insert_all. induction xs as [|x xs IH]; intros s Hs; cbn [fold_left]; [assumption|].
  apply IH. now apply increasing_insert.
Qed.
Lemma in_arc_set {S} (ltb : S -> S -> bool) : strict_total ltb -> forall l x, In x (arc_set ltb l) <-> In x l.
Proof.
  intros H l x. unfold arc_set. rewrite (in_insert_all _ (arc_strict _ H)). cbn. intuition.
Qed.
Lemma increasing_arc_set {S} (ltb : S -> S -> bool) : strict_total ltb ->
  forall l, increasing (arc_ltb ltb) (arc_set ltb l).
Proof. intros H l. apply (increasing_insert_all _ (arc_strict _ H)). constructor. Qed.

(** ** Sorted arc lists *)
Definition arc_le (x y : arc) : Prop := arc_ltb Nat.ltb y x = false.
Definition sorted_arcs (l : list arc) : Prop := StronglySorted arc_le l.
Lemma arc_le_spec x y : arc_le x y <-> (fst x < fst y)%Z \/ fst x = fst y /\ snd x <= snd y.
Proof.
  unfold arc_le, arc_ltb. rewrite orb_false_iff, andb_false_iff, Z.ltb_ge, Z.eqb_neq, Nat.ltb_ge. lia.
Qed.
Lemma insert_arc_perm a l : Permutation (insert_arc a l) (a :: l).
Proof.
  induction l as [|b l IH]; cbn [insert_arc]; [reflexivity|].
  destruct (arc_ltb Nat.ltb a b); [reflexivity|]. rewrite IH. apply perm_swap.
Qed.
Lemma insert_arc_sorted a l : sorted_arcs l -> sorted_arcs (insert_arc a l).
Proof.
  unfold sorted_arcs. induction 1 as [|b l Hl IH Hb]; cbn [insert_arc]; [repeat constructor|].
  destruct (arc_ltb Nat.ltb a b) eqn:E.
  - assert (Hab : arc_le a b).
    { apply arc_le_spec. unfold arc_ltb in E.
      rewrite orb_true_iff, andb_true_iff, Z.ltb_lt, Z.eqb_eq, Nat.ltb_lt in E. lia. }
    constructor; [constructor; assumption|]. constructor; [assumption|].
    apply Forall_forall. intros y Hy. rewrite Forall_forall in Hb. specialize (Hb _ Hy).
    rewrite arc_le_spec in *. lia.
  - constructor; [assumption|]. apply Forall_forall. intros y Hy.
    apply (Permutation_in _ (insert_arc_perm a l)) in Hy as [<-|Hy]; [exact E|].
    rewrite Forall_forall in Hb. auto.
Qed.
Lemma sort_arcs_perm l : Permutation (sort_arcs l) l.
Proof. induction l as [|a l IH]; cbn [sort_arcs]; [reflexivity|]. now rewrite insert_arc_perm, IH. Qed.
Lemma sort_arcs_sorted l : sorted_arcs (sort_arcs l).
Proof. induction l as [|a l IH]; cbn [sort_arcs]; [constructor|]. now apply insert_arc_sorted. Qed.
Lemma sorted_perm_unique l : forall k, sorted_arcs l -> sorted_arcs k -> Permutation l k -> l = k.
Proof.
  induction l as [|x l IH]; intros k Hl Hk P.
  - apply Permutation_nil in P. now subst.
  - destruct k as [|y k]; [apply Permutation_sym, Permutation_nil in P; discriminate|].
    inversion Hl as [|? ? Hl' Hx]; inversion Hk as [|? ? Hk' Hy]; subst.
    rewrite Forall_forall in Hx, Hy.
    assert (x = y).
    { destruct (Permutation_in _ P (or_introl eq_refl)) as [E|Hin]; [congruence|].
      destruct (Permutation_in _ (Permutation_sym P) (or_introl eq_refl)) as [E|Hin']; [congruence|].
      apply Hy in Hin. apply Hx in Hin'. rewrite arc_le_spec in *.
      destruct x, y; cbn in *. f_equal; lia. }
    subst y. f_equal. apply IH; [assumption..|]. now apply Permutation_cons_inv in P.
Qed.

(** ** Operations *)
Record wf (f : ndfsa) : Prop := {
  wf_arcs : forall p x, In x (n_arcs f p) -> snd x < n_size f;
  wf_sorted : forall p, sorted_arcs (n_arcs f p);
  wf_starts : forall p, In p (n_starts f) -> p < n_size f;
  wf_ends : forall p, In p (n_ends f) -> p < n_size f;
  wf_starts_inc : increasing Nat.ltb (n_starts f);
  wf_ends_inc : increasing Nat.ltb (n_ends f)
}.
Lemma n_arcs_out f p : n_size f <= p -> n_arcs f p = [].
Proof. apply nth_overflow. Qed.
Lemma empty_wf : wf empty.
Proof.
  constructor; cbn; try contradiction; try constructor.
  - intros p x. unfold n_arcs. cbn. destruct p; contradiction.
  - intros p. unfold n_arcs. cbn. destruct p; constructor.
Qed.

Lemma add_state_num b f : fst (add_state b f) = n_size f.
Proof. reflexivity. Qed.
Lemma add_state_size b f : n_size (snd (add_state b f)) = S (n_size f).
Proof. unfold n_size. cbn. rewrite app_length. cbn. lia. Qed.
Lemma add_state_arcs b f p : n_arcs (snd (add_state b f)) p = n_arcs f p.
Proof.
  unfold n_arcs. cbn. destruct (Nat.lt_ge_cases p (length (n_states f))) as [H|H].
  - now rewrite app_nth1.
  - rewrite app_nth2 by assumption. rewrite (nth_overflow (n_states f)) by assumption.
    destruct (p - length (n_states f)) as [|[|k]]; reflexivity.
Qed.
Lemma add_state_starts b f p : In p (n_starts (snd (add_state b f))) <-> In p (n_starts f) \/ b = true /\ p = n_size f.
Proof.
  cbn. destruct b; [rewrite (in_set_insert _ nat_strict); unfold n_size; intuition|intuition discriminate].
Qed.
Lemma add_state_wf b f : wf f -> wf (snd (add_state b f)).
Proof.
  intros [H1 H2 H3 H4 H5 H6]. constructor.
  - intros p x. rewrite add_state_arcs, add_state_size. intros K. apply H1 in K. lia.
  - intros p. rewrite add_state_arcs. apply H2.
  - intros p. rewrite add_state_starts, add_state_size. intros [K|[_ ->]]; [apply H3 in K; lia|lia].
  - intros p. rewrite add_state_size. cbn. intros K. apply H4 in K. lia.
  - cbn. destruct b; [|assumption]. now apply (increasing_insert _ nat_strict).
  - cbn. assumption.
Qed.

Lemma update_length {A} n (g : A -> A) l : length (update n g l) = length l.
Proof. revert n. induction l as [|x l IH]; intros [|n]; cbn; auto. Qed.
Lemma update_nth {A} n (g : A -> A) l p d : n < length l -> nth p (update n g l) d = if p =? n then g (nth p l d) else nth p l d.
Proof.
  revert n p. induction l as [|x l IH]; intros [|n] [|p] H; cbn in *; try lia; try reflexivity.
  rewrite IH by lia. reflexivity.
Qed.
Lemma add_arc_size p a f : n_size (add_arc p a f) = n_size f.
Proof. unfold n_size. cbn. apply update_length. Qed.
Lemma add_arc_other p a f q : q <> p -> n_arcs (add_arc p a f) q = n_arcs f q.
Proof.
  intros H. unfold n_arcs. cbn. destruct (Nat.lt_ge_cases p (length (n_states f))) as [K|K].
  - rewrite update_nth by assumption. now rewrite (proj2 (Nat.eqb_neq q p) H).
  - assert (E : forall A (l : list A) n g, length l <= n -> update n g l = l).
    { intros A l. induction l as [|x l IH]; intros [|n] g L; cbn in *; try reflexivity; try lia. f_equal. apply IH. lia. }
    now rewrite E.
Qed.
Lemma add_arc_same p a f : p < n_size f -> n_arcs (add_arc p a f) p = sort_arcs (n_arcs f p ++ [a]).
Proof. intros H. unfold n_arcs. cbn. rewrite update_nth by exact H. now rewrite Nat.eqb_refl. Qed.
Lemma add_arc_in p a f q x : p < n_size f ->
  (In x (n_arcs (add_arc p a f) q) <-> In x (n_arcs f q) \/ q = p /\ x = a).
Proof.
  intros H. destruct (Nat.eq_dec q p) as [->|N].
  - rewrite add_arc_same by assumption. split.
    + intros K. apply (Permutation_in _ (sort_arcs_perm _)) in K. apply in_app_iff in K. cbn in K. intuition.
    + intros K. apply (Permutation_in _ (Permutation_sym (sort_arcs_perm _))). apply in_app_iff. cbn. intuition.
  - rewrite add_arc_other by assumption. intuition.
Qed.
Lemma add_arc_wf p a f : wf f -> snd a < n_size f -> wf (add_arc p a f).
Proof.
  intros [H1 H2 H3 H4 H5 H6] Ha. constructor; try (rewrite ?add_arc_size; assumption).
  - intros q x. rewrite add_arc_size. destruct (Nat.lt_ge_cases p (n_size f)) as [K|K].
    + rewrite add_arc_in by assumption. intros [Hx|[-> ->]]; [now apply H1 in Hx|assumption].
    + destruct (Nat.eq_dec q p) as [->|N]; [|rewrite add_arc_other by assumption; apply H1].
      rewrite n_arcs_out; [contradiction|]. now rewrite add_arc_size.
  - intros q. destruct (Nat.eq_dec q p) as [->|N]; [|rewrite add_arc_other by assumption; apply H2].
    destruct (Nat.lt_ge_cases p (n_size f)) as [K|K].
    + rewrite add_arc_same by assumption. apply sort_arcs_sorted.
    + rewrite n_arcs_out; [constructor|]. now rewrite add_arc_size.
Qed.
Lemma set_end_in p f q : In q (n_ends (set_end p f)) <-> In q (n_ends f) \/ q = p.
Proof. cbn. rewrite (in_set_insert _ nat_strict). intuition. Qed.
Lemma set_end_wf p f : wf f -> p < n_size f -> wf (set_end p f).
Proof.
  intros [H1 H2 H3 H4 H5 H6] Hp. constructor; try assumption.
  - intros q. rewrite set_end_in. intros [K| ->]; [now apply H4|assumption].
  - cbn. now apply (increasing_insert _ nat_strict).
Qed.
Lemma unset_end_in p f q : In q (n_ends (unset_end p f)) <-> In q (n_ends f) /\ q <> p.
Proof. cbn. apply (in_set_erase _ nat_strict). Qed.
Lemma unset_end_wf p f : wf f -> wf (unset_end p f).
Proof.
  intros [H1 H2 H3 H4 H5 H6]. constructor; try assumption.
  - intros q. rewrite unset_end_in. intros [K _]. now apply H4.
  - cbn. now apply increasing_filter.
Qed.
Lemma set_start_in p f q : In q (n_starts (set_start p f)) <-> In q (n_starts f) \/ q = p.
Proof. cbn. rewrite (in_set_insert _ nat_strict). intuition. Qed.
Lemma set_start_wf p f : wf f -> p < n_size f -> wf (set_start p f).
Proof.
  intros [H1 H2 H3 H4 H5 H6] Hp. constructor; try assumption.
  - intros q. rewrite set_start_in. intros [K| ->]; [now apply H3|assumption].
  - cbn. now apply (increasing_insert _ nat_strict).
Qed.
Lemma unset_start_in p f q : In q (n_starts (unset_start p f)) <-> In q (n_starts f) /\ q <> p.
Proof. cbn. apply (in_set_erase _ nat_strict). Qed.
Lemma unset_start_wf p f : wf f -> wf (unset_start p f).
Proof.
  intros [H1 H2 H3 H4 H5 H6]. constructor; try assumption.
  - intros q. rewrite unset_start_in. intros [K _]. now apply H3.
  - cbn. now apply increasing_filter.
Qed.

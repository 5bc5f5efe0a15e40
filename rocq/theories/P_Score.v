(** C95: the batches of score, its mark of singletons, and the groups of a batch. *)
From Coq Require Import String Ascii.
From Coq Require Import List Arith Bool Lia Permutation Sorted.
From Verif Require Import M_Score.
Import ListNotations.
Local Open Scope nat_scope.

(** * Batches *)

Lemma list_eqb_ok {A} (eqb : A -> A -> bool) : (forall a b, eqb a b = true <-> a = b) -> forall l1 l2, list_eqb eqb l1 l2 = true <-> l1 = l2.
Proof.
  intros E. induction l1 as [|a l1 IH]; intros [|b l2]; cbn; try easy. rewrite andb_true_iff, E, IH. split; [intros [-> ->]; reflexivity|intros H; injection H; auto].
Qed.
Definition nats_ok := list_eqb_ok Nat.eqb Nat.eqb_eq.
Definition sets_ok := list_eqb_ok (list_eqb Nat.eqb) nats_ok.

(** What holds of every two neighbours. *)
Definition Linked {A} (R : A -> A -> Prop) (l : list A) : Prop := forall x a b y, l = x ++ a :: b :: y -> R a b.
Lemma linked_snoc {A} (R : A -> A -> Prop) l c : Linked R l -> (forall x a, l = x ++ [a] -> R a c) -> Linked R (l ++ [c]).
Proof.
  intros H1 H2 x a b y E. destruct y as [|z y _] using rev_ind.
  - assert (E' : l ++ [c] = (x ++ [a]) ++ [b]) by (rewrite E, <- app_assoc; reflexivity). apply app_inj_tail in E' as [E1 <-]. now apply H2 with x.
  - assert (E' : l ++ [c] = (x ++ a :: b :: y) ++ [z]) by (rewrite E, <- app_assoc; reflexivity). apply app_inj_tail in E' as [E1 _]. now apply H1 with x y.
Qed.
Lemma linked_front {A} (R : A -> A -> Prop) l c : Linked R (l ++ [c]) -> Linked R l.
Proof. intros H x a b y ->. apply (H x a b (y ++ [c])). rewrite <- app_assoc. reflexivity. Qed.
Lemma linked_end {A} (R : A -> A -> Prop) l c : Linked R (l ++ [c]) -> forall x a, l = x ++ [a] -> R a c.
Proof. intros H x a ->. apply (H x a c []). rewrite <- app_assoc. reflexivity. Qed.

Section Batches.
  Context {num : Type} (add : num -> num -> num) (domain : nat -> nat).
  Context {line : Type} (line_eqb : line -> line -> bool) (empty_line : line) (create : line -> pair_t num).
  Hypothesis line_ok : forall a b, line_eqb a b = true <-> a = b.

  (** Two pairs that differ in nothing but the count and the sentence, if the sentences are of one domain. *)
  Definition same_pair (a b : pair_t num) : Prop :=
    p_src _ a = p_src _ b /\ p_tgt _ a = p_tgt _ b /\ p_toT _ a = p_toT _ b /\ p_toS _ a = p_toS _ b
    /\ domain (p_sentence _ a) = domain (p_sentence _ b).
  (** Lines one after another with the same pair; its count is the sum of theirs. *)
  Definition run := (line * list line)%type.
  Definition lines_of (r : run) : list line := fst r :: snd r.
  Definition pair_of (r : run) : pair_t num := create (fst r).
  Definition merged (r : run) : pair_t num :=
    mkPair num (p_src _ (pair_of r)) (p_tgt _ (pair_of r)) (p_toT _ (pair_of r)) (p_toS _ (pair_of r)) (p_sentence _ (pair_of r))
      (fold_left add (map (fun l => p_count _ (create l)) (snd r)) (p_count _ (pair_of r))).
  Definition run_ok (r : run) : Prop := forall l, In l (snd r) -> same_pair (pair_of r) (create l).
  (** A batch has one source phrase, and no two neighbours in it could have been one run. *)
  Definition batch_ok (b : list run) : Prop :=
    b <> [] /\ Linked (fun r1 r2 => ~ same_pair (pair_of r1) (pair_of r2)) b
    /\ forall r1 r2, In r1 b -> In r2 b -> p_src _ (pair_of r1) = p_src _ (pair_of r2).
  Definition batches_ok (bs : list (list run)) : Prop :=
    (forall b r, In b bs -> In r b -> run_ok r) /\ (forall b, In b bs -> batch_ok b)
    /\ Linked (fun b1 b2 => forall r1 r2, In r1 b1 -> In r2 b2 -> p_src _ (pair_of r1) <> p_src _ (pair_of r2)) bs.
  (** What is given on: the pairs, and the mark; the first batch always has the mark, the others if they have
      two pairs at least. *)
  Definition marked (bs : list (list run)) : list (list (pair_t num) * bool) :=
    match bs with
    | [] => []
    | b :: bs' => (map merged b, true) :: map (fun b => (map merged b, 2 <=? length b)) bs'
    end.

  Lemma same_ok a b : equals _ a b && feature_equals _ domain a b = true <-> same_pair a b.
  Proof. unfold equals, feature_equals, same_pair. rewrite !andb_true_iff, !nats_ok, !sets_ok, Nat.eqb_eq. intuition congruence. Qed.
  Lemma same_refl a : same_pair a a. Proof. unfold same_pair. auto. Qed.
  Lemma same_merged r p : same_pair (merged r) p <-> same_pair (pair_of r) p. Proof. reflexivity. Qed.
  Lemma merged_snoc f l x : merged (f, l ++ [x]) = more _ add (merged (f, l)) (p_count _ (create x)).
  Proof. unfold merged, more, pair_of. cbn [fst snd p_src p_tgt p_toT p_toS p_sentence p_count]. now rewrite map_app, fold_left_app. Qed.

  Lemma merged_one x : merged (x, []) = create x.
  Proof. unfold merged, pair_of. cbn [fst snd map fold_left]. now destruct (create x). Qed.

  Definition mark (B : list (list run)) (D : list run) : bool := match B, D with [], _ => true | _, [] => false | _, _ => true end.
  Lemma marked_snoc B D r : marked (B ++ [D ++ [r]]) = marked B ++ [(map merged D ++ [merged r], mark B D)].
  Proof.
    destruct B as [|b B]; cbn [app marked map mark]; [now rewrite map_app|]. rewrite map_app. cbn [map app]. rewrite map_app, app_length. cbn [map length].
    do 3 f_equal. destruct D as [|d D]; cbn [mark length]; [reflexivity|]. now replace (2 <=? S (length D) + 1) with true by (symmetry; apply Nat.leb_le; lia).
  Qed.

  Lemma extend B D f l x : batches_ok (B ++ [D ++ [(f, l)]]) -> same_pair (create f) (create x) -> batches_ok (B ++ [D ++ [(f, l ++ [x])]]).
  Proof.
    intros (H1 & H2 & H3) E. assert (Old : In (D ++ [(f, l)]) (B ++ [D ++ [(f, l)]])) by (apply in_or_app; right; now left).
    assert (Same : forall r, In r (D ++ [(f, l ++ [x])]) -> exists r', In r' (D ++ [(f, l)]) /\ pair_of r' = pair_of r).
    { intros r I. apply in_app_or in I as [I|[<-|[]]]; [exists r; split; [apply in_or_app; now left|reflexivity]|]. exists (f, l). split; [apply in_or_app; right; now left|reflexivity]. }
    split; [|split].
    - intros b r I J. apply in_app_or in I as [I|[<-|[]]]; [apply H1 with b; [apply in_or_app; now left|exact J]|].
      apply in_app_or in J as [J|[<-|[]]]; [apply H1 with (D ++ [(f, l)]); [exact Old|apply in_or_app; now left]|].
      intros y Iy. cbn [snd] in Iy. apply in_app_or in Iy as [Iy|[<-|[]]]; [|exact E]. apply (H1 _ (f, l) Old); [apply in_or_app; right; now left|exact Iy].
    - intros b I. apply in_app_or in I as [I|[<-|[]]]; [apply H2; apply in_or_app; now left|]. destruct (H2 _ Old) as (K1 & K2 & K3). split; [now destruct D|]. split.
      + apply linked_snoc; [now apply linked_front in K2|]. intros y a ->. apply (linked_end _ _ _ K2 y a eq_refl).
      + intros r1 r2 I1 I2. destruct (Same _ I1) as (s1 & J1 & <-), (Same _ I2) as (s2 & J2 & <-). now apply K3.
    - apply linked_snoc; [now apply linked_front in H3|]. intros y a -> r1 r2 I1 I2. destruct (Same _ I2) as (s2 & J2 & <-).
      apply (linked_end _ _ _ H3 y a eq_refl r1 s2 I1 J2).
  Qed.
  Lemma next_run B D r x : batches_ok (B ++ [D ++ [r]]) -> ~ same_pair (pair_of r) (create x) -> p_src _ (pair_of r) = p_src _ (create x) ->
    batches_ok (B ++ [(D ++ [r]) ++ [(x, [])]]).
  Proof.
    intros (H1 & H2 & H3) N E. assert (Old : In (D ++ [r]) (B ++ [D ++ [r]])) by (apply in_or_app; right; now left).
    destruct (H2 _ Old) as (K1 & K2 & K3). assert (Ir : In r (D ++ [r])) by (apply in_or_app; right; now left).
    assert (Src : forall q, In q ((D ++ [r]) ++ [(x, [])]) -> p_src _ (pair_of q) = p_src _ (pair_of r)).
    { intros q I. apply in_app_or in I as [I|[<-|[]]]; [now apply K3|]. now symmetry. }
    split; [|split].
    - intros b q I J. apply in_app_or in I as [I|[<-|[]]]; [apply H1 with b; [apply in_or_app; now left|exact J]|].
      apply in_app_or in J as [J|[<-|[]]]; [now apply H1 with (D ++ [r])|]. intros y [].
    - intros b I. apply in_app_or in I as [I|[<-|[]]]; [apply H2; apply in_or_app; now left|]. split; [now destruct D|]. split.
      + apply linked_snoc; [exact K2|]. intros y a Ea. apply app_inj_tail in Ea as [_ <-]. exact N.
      + intros r1 r2 I1 I2. rewrite (Src _ I1), (Src _ I2). reflexivity.
    - apply linked_snoc; [now apply linked_front in H3|]. intros y a -> r1 r2 I1 I2. rewrite (Src _ I2). apply (linked_end _ _ _ H3 y a eq_refl r1 r I1 Ir).
  Qed.
  Lemma next_batch B D r x : batches_ok (B ++ [D ++ [r]]) -> p_src _ (pair_of r) <> p_src _ (create x) -> batches_ok ((B ++ [D ++ [r]]) ++ [[] ++ [(x, [])]]).
  Proof.
    intros (H1 & H2 & H3) E. assert (Old : In (D ++ [r]) (B ++ [D ++ [r]])) by (apply in_or_app; right; now left).
    destruct (H2 _ Old) as (K1 & K2 & K3). assert (Ir : In r (D ++ [r])) by (apply in_or_app; right; now left).
    split; [|split].
    - intros b q I J. apply in_app_or in I as [I|[<-|[]]]; [now apply H1 with b|]. destruct J as [<-|[]]. intros y [].
    - intros b I. apply in_app_or in I as [I|[<-|[]]]; [now apply H2|]. split; [easy|]. split.
      + intros [|? [|? ?]] a b y Q; discriminate Q.
      + intros r1 r2 [<-|[]] [<-|[]]. reflexivity.
    - apply linked_snoc; [exact H3|]. intros y a Ea r1 r2 I1 [<-|[]]. apply app_inj_tail in Ea as [_ <-]. rewrite (K3 r1 r I1 Ir). exact E.
  Qed.

  Definition all_lines (bs : list (list run)) : list line := concat (map lines_of (concat bs)).
  Lemma all_lines_last B D f l : all_lines (B ++ [D ++ [(f, l)]]) = all_lines B ++ concat (map lines_of D) ++ f :: l.
  Proof. unfold all_lines. rewrite concat_app, map_app, concat_app. cbn [concat]. rewrite app_nil_r, map_app, concat_app. cbn [map concat lines_of fst snd]. now rewrite app_nil_r. Qed.

  Lemma loop_ok : forall lines B D f l, batches_ok (B ++ [D ++ [(f, l)]]) -> exists bs, batches_ok bs
    /\ all_lines bs = all_lines (B ++ [D ++ [(f, l)]]) ++ lines
    /\ score_loop _ add domain _ line_eqb create lines (last l f) (Some (p_count _ (create (last l f)))) (map merged D) (Some (merged (f, l))) (mark B D) (marked B)
       = Some (marked bs).
  Proof.
    induction lines as [|x lines IH]; intros B D f l H.
    { exists (B ++ [D ++ [(f, l)]]). rewrite app_nil_r. split; [exact H|]. split; [reflexivity|]. cbn [score_loop]. now rewrite marked_snoc. }
    assert (Last : forall d, last (l ++ [x]) d = x) by (intros d; apply last_last).
    assert (Add : all_lines (B ++ [D ++ [(f, l ++ [x])]]) ++ lines = all_lines (B ++ [D ++ [(f, l)]]) ++ x :: lines).
    { rewrite !all_lines_last. repeat rewrite <- app_assoc. cbn [app]. repeat rewrite <- app_assoc. reflexivity. }
    cbn [score_loop]. destruct (line_eqb x (last l f)) eqn:El.
    - apply line_ok in El. assert (E : same_pair (create f) (create x)).
      { rewrite El. destruct l as [|y l _] using rev_ind; [apply same_refl|]. rewrite last_last. destruct H as (H1 & _).
        apply (H1 (D ++ [(f, l ++ [y])]) (f, l ++ [y])); [apply in_or_app; right; now left|apply in_or_app; right; now left|]. apply in_or_app. right. now left. }
      destruct (IH B D f (l ++ [x]) (extend _ _ _ _ _ H E)) as (bs & R1 & R2 & R3). exists bs. split; [exact R1|]. split; [now rewrite R2|].
      rewrite Last, merged_snoc in R3. rewrite <- El. exact R3.
    - cbv zeta. destruct (equals _ (merged (f, l)) (create x) && feature_equals _ domain (merged (f, l)) (create x)) eqn:Ee.
      + apply same_ok in Ee. rewrite same_merged in Ee.
        destruct (IH B D f (l ++ [x]) (extend _ _ _ _ _ H Ee)) as (bs & R1 & R2 & R3). exists bs. split; [exact R1|]. split; [now rewrite R2|].
        rewrite Last, merged_snoc in R3. exact R3.
      + assert (N : ~ same_pair (pair_of (f, l)) (create x)). { intros Q. apply same_merged, same_ok in Q. congruence. }
        destruct (list_eqb Nat.eqb (p_src _ (merged (f, l))) (p_src _ (create x))) eqn:Es; cbn [negb].
        * apply nats_ok in Es. destruct (IH B (D ++ [(f, l)]) x [] (next_run _ _ _ _ H N Es)) as (bs & R1 & R2 & R3).
          exists bs. split; [exact R1|]. split.
          { rewrite R2, !all_lines_last, map_app, concat_app. repeat rewrite <- app_assoc. unfold lines_of. cbn [map concat fst snd app]. rewrite ?app_nil_r. repeat rewrite <- app_assoc. reflexivity. }
          cbn [last] in R3. rewrite map_app in R3. cbn [map] in R3. replace (mark B (D ++ [(f, l)])) with true in R3 by (now destruct B, D). rewrite merged_one in R3. exact R3.
        * assert (Ns : p_src _ (pair_of (f, l)) <> p_src _ (create x)). { intros Q. apply nats_ok in Q. cbn [p_src merged] in Es. congruence. }
          destruct (IH (B ++ [D ++ [(f, l)]]) [] x [] (next_batch _ _ _ _ H Ns)) as (bs & R1 & R2 & R3).
          exists bs. split; [exact R1|]. split.
          { rewrite R2, all_lines_last. cbn [map concat app]. rewrite <- app_assoc. reflexivity. }
          cbn [last map] in R3. rewrite marked_snoc in R3. rewrite merged_one in R3. destruct B; exact R3.
  Qed.

  (** The lines are cut into runs of the same pair and these into batches with the same source, both as long
      as can be; the count of a pair is the sum of those of its lines. *)
  Theorem C95_batches : forall lines, hd_error lines <> Some empty_line -> exists bs, batches_ok bs
    /\ all_lines bs = lines /\ score _ add domain _ line_eqb empty_line create lines = Some (marked bs).
  Proof.
    intros [|x lines] Hx.
    - exists []. split; [|now split]. split; [intros b r []|]. split; [intros b []|]. intros [|? ?] a b y Q; discriminate Q.
    - unfold score. cbn [score_loop]. destruct (line_eqb x empty_line) eqn:E; [apply line_ok in E; subst x; now elim Hx|].
      destruct (loop_ok lines [] [] x []) as (bs & R1 & R2 & R3).
      + cbn [app]. split; [intros b r [<-|[]] [<-|[]] y []|]. split.
        * intros b [<-|[]]. split; [easy|]. split; [intros [|? [|? ?]] a b y Q; discriminate Q|intros r1 r2 [<-|[]] [<-|[]]; reflexivity].
        * intros [|? [|? ?]] a b y Q; discriminate Q.
      + exists bs. split; [exact R1|]. split; [rewrite R2; reflexivity|]. rewrite merged_one in R3. exact R3.
  Qed.
  (** A file that begins with an empty line uses a null pointer. *)
  Theorem C95_empty_refuted : forall lines, score _ add domain _ line_eqb empty_line create (empty_line :: lines) = None.
  Proof. intros lines. unfold score. cbn [score_loop]. now rewrite (proj2 (line_ok _ _) eq_refl). Qed.
End Batches.
Print Assumptions C95_batches.
Print Assumptions C95_empty_refuted.

(** Three source phrases with one, one and two pairs: the second, which is a singleton, has no mark, the third,
    which is none, has it.  The counts of equal lines and of lines with an equal pair are added. *)
Definition case_create (l : nat) : pair_t nat :=
  match l with
  | 1 => mkPair nat [1] [5] [[0]] [[0]] 0 1
  | 2 => mkPair nat [2] [6] [[0]] [[0]] 0 1
  | 3 => mkPair nat [3] [7] [[0]] [[0]] 0 1
  | 4 => mkPair nat [3] [7] [[0]] [[0]] 0 5
  | _ => mkPair nat [3] [8] [[0]] [[0]] 0 1
  end.
Theorem C95_singleton_refuted : score _ Nat.add (fun _ => 0) _ Nat.eqb 0 case_create [1; 2; 3; 3; 4; 4; 5]
  = Some [([mkPair nat [1] [5] [[0]] [[0]] 0 1], true); ([mkPair nat [2] [6] [[0]] [[0]] 0 1], false);
          ([mkPair nat [3] [7] [[0]] [[0]] 0 12; mkPair nat [3] [8] [[0]] [[0]] 0 1], true)].
Proof. reflexivity. Qed.
Print Assumptions C95_singleton_refuted.

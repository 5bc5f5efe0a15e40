(** Lemmas about CalcLengths of M_Huffman.v: the array holds a forest that the loop merges
    into one tree. *)
From Coq Require Import List Arith Bool Lia Permutation.
From Verif Require Import M_Huffman L_Huffman.
Import ListNotations.

(** What the standard says about the heap functions: the result is a rearrangement and
    a heap; popping moves the front to the back; the front of a heap has the least weight;
    the weights of other values do not matter. *)
Record heap_ops (is_heap : (nat -> nat) -> list nat -> Prop)
    (make pop push : (nat -> nat) -> list nat -> list nat) : Prop := {
  heap_ext : forall w w' l, (forall x, In x l -> w x = w' x) -> is_heap w l -> is_heap w' l;
  heap_min : forall w x l, is_heap w (x :: l) -> forall y, In y l -> w x <= w y;
  heap_make : forall w l, Permutation (make w l) l /\ is_heap w (make w l);
  heap_pop : forall w x l, is_heap w (x :: l) ->
    exists l', pop w (x :: l) = l' ++ [x] /\ Permutation l' l /\ is_heap w l';
  heap_push : forall w l x, is_heap w l ->
    Permutation (push w (l ++ [x])) (l ++ [x]) /\ is_heap w (push w (l ++ [x]))
}.

Inductive tree := Leaf (i : nat) | Node (l r : tree).
Fixpoint leaves (t : tree) : list nat := match t with Leaf i => [i] | Node l r => leaves l ++ leaves r end.
(** The leaves with their depths. *)
Fixpoint dleaves (d : nat) (t : tree) : list (nat * nat) :=
  match t with Leaf i => [(i, d)] | Node l r => dleaves (S d) l ++ dleaves (S d) r end.

Section Forest.
Variable ws : list nat.
Variable plus : nat -> nat -> nat.
Fixpoint tw (t : tree) : nat := match t with Leaf i => nth i ws 0 | Node l r => plus (tw l) (tw r) end.
(** Merging the two lightest trees until one is left. *)
Inductive huff : list tree -> tree -> Prop :=
  | huff_one t : huff [t] t
  | huff_step F a b F' T : Permutation F (a :: b :: F') ->
      (forall x, In x (b :: F') -> tw a <= tw x) -> (forall x, In x F' -> tw b <= tw x) ->
      huff (Node a b :: F') T -> huff F T.
End Forest.

Lemma get_app_r a b i : length a <= i -> get (a ++ b) i = get b (i - length a).
Proof. intros H. unfold get. now rewrite app_nth2. Qed.
Lemma get_skip A h x : h <= x -> get (skipn h A) (x - h) = get A x.
Proof.
  unfold get. revert A x. induction h as [|h IH]; intros A x H; cbn [skipn]; [now rewrite Nat.sub_0_r|].
  destruct A as [|y A]; [now rewrite !nth_overflow by (cbn; lia)|]. destruct x as [|x]; [lia|]. cbn [Nat.sub nth]. apply IH. lia.
Qed.
Lemma get_prefix_changed l A h x : length l = h -> h <= x -> get (l ++ skipn h A) x = get A x.
Proof. intros Hl Hx. rewrite get_app_r by lia. rewrite Hl. now apply get_skip. Qed.
Lemma get_set A i v x : i < length A -> get (set A i v) x = if x =? i then v else get A x.
Proof. intros H. unfold get. now apply nth_set. Qed.
Lemma firstn_skip_len {A} (l : list A) h : h <= length l -> length (firstn h l) = h.
Proof. intros. rewrite firstn_length. lia. Qed.
Lemma skipn_set {A} (l : list A) h i v : i < h -> skipn h (set l i v) = skipn h l.
Proof. revert l i. induction h as [|h IH]; intros [|x l] [|i] H; cbn; try lia; try reflexivity. apply IH. lia. Qed.
Lemma firstn_set {A} (l : list A) h i v : h <= i -> firstn h (set l i v) = firstn h l.
Proof. revert l i. induction h as [|h IH]; intros [|x l] [|i] H; cbn; try lia; try reflexivity. f_equal. apply IH. lia. Qed.
Lemma firstn_app_len {A} (a b : list A) i : length a = i -> firstn i (a ++ b) = a.
Proof. intros <-. rewrite firstn_app, firstn_all, Nat.sub_diag, firstn_O. apply app_nil_r. Qed.
Lemma skipn_app_len {A} (a b : list A) i : length a = i -> skipn i (a ++ b) = b.
Proof. intros <-. rewrite skipn_app, skipn_all, Nat.sub_diag. reflexivity. Qed.
Lemma set_app_mid {A} (a : list A) x b i v : length a = i -> set (a ++ x :: b) i v = a ++ v :: b.
Proof. intros <-. induction a as [|y a IH]; cbn; [reflexivity|]. now rewrite IH. Qed.

Section Merge.
Variable is_heap : (nat -> nat) -> list nat -> Prop.
Variables make pop push : (nat -> nat) -> list nat -> list nat.
Hypothesis ops : heap_ops is_heap make pop push.
Variable plus : nat -> nat -> nat.

Lemma merge_spec A k : S (S k) <= length A -> NoDup (firstn (S (S k)) A) ->
  (forall x, In x (firstn (S (S k)) A) -> S (S k) <= x < length A) -> is_heap (get A) (firstn (S (S k)) A) ->
  exists m1 m2 l, Permutation (firstn (S (S k)) A) (m1 :: m2 :: l) /\
    (forall y, In y (m2 :: l) -> get A m1 <= get A y) /\ (forall y, In y l -> get A m2 <= get A y) /\
    let B := merge plus pop push A (S (S k)) in
    length B = length A /\ Permutation (firstn (S k) B) (S k :: l) /\ is_heap (get B) (firstn (S k) B) /\
    forall x, S k <= x -> get B x = if (x =? m1) || (x =? m2) then S k
                                    else if x =? S k then plus (get A m1) (get A m2) else get A x.
Proof.
  intros Hlen Hnd Hrange Hheap.
  pose proof (firstn_skip_len A (S (S k)) Hlen) as Hfl.
  destruct (firstn (S (S k)) A) as [|m1 l0] eqn:Ef; [cbn in Hfl; lia|].
  destruct (heap_pop _ _ _ _ ops _ _ _ Hheap) as [l1 [E1 [P1 Hh1]]].
  assert (Hl0 : length l0 = S k) by (cbn in Hfl; lia).
  assert (Hl1 : length l1 = S k) by (now rewrite (Permutation_length P1)).
  assert (Hm1 : get A 0 = m1). { unfold get. destruct A; [discriminate|]. cbn in Ef. now injection Ef as -> _. }
  set (A1 := on_prefix pop A (S (S k))).
  assert (EA1 : A1 = l1 ++ m1 :: skipn (S (S k)) A) by (unfold A1, on_prefix; now rewrite Ef, E1, <- app_assoc).
  assert (G1 : forall x, S (S k) <= x -> get A1 x = get A x).
  { intros x Hx. unfold A1, on_prefix. rewrite Ef, E1. apply get_prefix_changed; [rewrite app_length; cbn; lia|assumption]. }
  destruct l1 as [|m2 l1]; [cbn in Hl1; lia|].
  assert (Hm2 : get A1 0 = m2) by (rewrite EA1; reflexivity).
  assert (In1 : forall x, In x (m2 :: l1) -> S (S k) <= x < length A).
  { intros x Hx. apply Hrange. right. eapply Permutation_in; [exact P1|assumption]. }
  assert (Hh1' : is_heap (get A1) (m2 :: l1)).
  { eapply (heap_ext _ _ _ _ ops); [|exact Hh1]. intros x Hx. symmetry. apply G1. now apply In1. }
  destruct (heap_pop _ _ _ _ ops _ _ _ Hh1') as [l2 [E2 [P2 Hh2]]].
  assert (Hl2 : length l2 = k) by (rewrite (Permutation_length P2); cbn in Hl1; lia).
  set (A2 := on_prefix pop A1 (S k)).
  assert (Ef1 : firstn (S k) A1 = m2 :: l1).
  { rewrite EA1. now apply firstn_app_len. }
  assert (Es1 : skipn (S k) A1 = m1 :: skipn (S (S k)) A).
  { rewrite EA1. now apply skipn_app_len. }
  assert (EA2 : A2 = l2 ++ m2 :: m1 :: skipn (S (S k)) A) by (unfold A2, on_prefix; now rewrite Ef1, E2, Es1, <- app_assoc).
  assert (G2 : forall x, S (S k) <= x -> get A2 x = get A x).
  { intros x Hx. rewrite EA2. change (l2 ++ m2 :: m1 :: skipn (S (S k)) A) with (l2 ++ [m2; m1] ++ skipn (S (S k)) A).
    rewrite app_assoc. apply get_prefix_changed; [rewrite app_length; cbn; lia|assumption]. }
  set (w := plus (get A2 m1) (get A2 m2)).
  set (A3 := set A2 (S k) w).
  set (A4 := set A3 k (S k)).
  assert (EA4 : A4 = l2 ++ S k :: w :: skipn (S (S k)) A).
  { unfold A4, A3. rewrite EA2.
    replace (l2 ++ m2 :: m1 :: skipn (S (S k)) A) with ((l2 ++ [m2]) ++ m1 :: skipn (S (S k)) A) by now rewrite <- app_assoc.
    rewrite set_app_mid by (rewrite app_length; cbn; lia). rewrite <- app_assoc. cbn [app]. now apply set_app_mid. }
  set (A5 := set (set A4 m2 (S k)) m1 (S k)).
  assert (L4 : length A4 = length A).
  { rewrite EA4, app_length. cbn [length]. rewrite skipn_length. lia. }
  assert (Hm1r : S (S k) <= m1 < length A) by (apply Hrange; now left).
  assert (Hm2r : S (S k) <= m2 < length A) by (apply In1; now left).
  assert (G4 : forall x, S k <= x -> get A4 x = if x =? S k then w else get A x).
  { intros x Hx. rewrite EA4. destruct (Nat.eqb_spec x (S k)) as [->|Hne].
    - rewrite get_app_r by lia. replace (S k - length l2) with 1 by lia. reflexivity.
    - change (l2 ++ S k :: w :: skipn (S (S k)) A) with (l2 ++ [S k; w] ++ skipn (S (S k)) A). rewrite app_assoc.
      apply get_prefix_changed; [rewrite app_length; cbn; lia|lia]. }
  assert (G5 : forall x, S k <= x -> get A5 x = if (x =? m1) || (x =? m2) then S k else if x =? S k then w else get A x).
  { intros x Hx. unfold A5. rewrite get_set by (rewrite set_length; lia). rewrite get_set by lia. rewrite G4 by assumption.
    destruct (x =? m1), (x =? m2); reflexivity. }
  assert (F5 : firstn (S k) A5 = l2 ++ [S k]).
  { unfold A5. rewrite !firstn_set by lia. rewrite EA4. replace (l2 ++ S k :: w :: skipn (S (S k)) A) with ((l2 ++ [S k]) ++ w :: skipn (S (S k)) A) by now rewrite <- app_assoc.
    apply firstn_app_len. rewrite app_length. cbn. lia. }
  assert (Hw : w = plus (get A m1) (get A m2)) by (unfold w; rewrite !G2 by lia; reflexivity).
  assert (Hperm : Permutation (m1 :: l0) (m1 :: m2 :: l2)).
  { constructor. rewrite <- P1. now constructor. }
  assert (Hnd2 : NoDup (m1 :: m2 :: l2)) by (eapply Permutation_NoDup; eassumption).
  assert (In2 : forall x, In x l2 -> S (S k) <= x < length A).
  { intros x Hx. apply Hrange. eapply Permutation_in; [symmetry; exact Hperm|]. right. now right. }
  assert (Hh5 : is_heap (get A5) l2).
  { eapply (heap_ext _ _ _ _ ops); [|exact Hh2]. intros x Hx. pose proof (In2 x Hx). rewrite G1 by lia. rewrite G5 by lia.
    inversion Hnd2 as [|? ? N1 Hnd3]; subst. inversion Hnd3 as [|? ? N2 _]; subst.
    destruct (Nat.eqb_spec x (get A 0)) as [->|_]; [exfalso; apply N1; now right|].
    destruct (Nat.eqb_spec x (get A1 0)) as [->|_]; [contradiction|]. cbn [orb].
    destruct (Nat.eqb_spec x (S (length l2))) as [->|_]; [lia|reflexivity]. }
  destruct (heap_push _ _ _ _ ops _ _ (S k) Hh5) as [P5 Hh6].
  exists m1, m2, l2. split; [assumption|]. split; [|split].
  - intros y Hy. apply (heap_min _ _ _ _ ops _ _ _ Hheap). eapply Permutation_in; [exact P1|].
    destruct Hy as [<-|Hy]; [now left|]. right. eapply Permutation_in; [exact P2|assumption].
  - intros y Hy. pose proof (heap_min _ _ _ _ ops _ _ _ Hh1') as Hmin.
    pose proof (In2 y Hy). rewrite <- (G1 m2), <- (G1 y) by lia. apply Hmin.
    eapply Permutation_in; [exact P2|assumption].
  - assert (EB : merge plus pop push A (S (S k)) = push (get A5) (l2 ++ [S k]) ++ skipn (S k) A5).
    { unfold merge. cbn zeta. rewrite Hm1. replace (S (S k) - 1) with (S k) by lia. replace (S k - 1) with k by lia.
      fold A1. rewrite Hm2. fold A2. fold w. fold A3. fold A4. fold A5. unfold on_prefix. now rewrite F5. }
    cbn zeta. rewrite EB. set (P := push (get A5) (l2 ++ [S k])) in *.
    assert (HP : length P = S k) by (rewrite (Permutation_length P5), app_length; cbn; lia).
    assert (HF : firstn (S k) (P ++ skipn (S k) A5) = P) by now apply firstn_app_len.
    assert (L5 : length A5 = length A) by (unfold A5; now rewrite !set_length).
    assert (GB : forall x, S k <= x -> get (P ++ skipn (S k) A5) x = get A5 x) by (intros; now apply get_prefix_changed).
    split; [|split; [|split]].
    + rewrite app_length, skipn_length. lia.
    + rewrite HF, P5. symmetry. apply Permutation_cons_append.
    + rewrite HF. eapply (heap_ext _ _ _ _ ops); [|exact Hh6]. intros x Hx. symmetry. apply GB.
      apply (Permutation_in _ P5) in Hx. apply in_app_or in Hx as [Hx|[<-|[]]]; [|lia]. pose proof (In2 x Hx). lia.
    + intros x Hx. rewrite GB, G5 by assumption. now rewrite Hw.
Qed.

(** * The forest in the array *)
Variable ws : list nat.
Let n := length ws.
Inductive rep (A : list nat) (X : list nat) : tree -> nat -> Prop :=
  | rep_leaf i : rep A X (Leaf i) (n + i)
  | rep_node a b x y p : In x X -> In y X -> get A x = p -> get A y = p -> rep A X a x -> rep A X b y -> rep A X (Node a b) p.
Record inv (A : list nat) (h : nat) (Fs : list (nat * tree)) (X : list nat) : Prop := {
  i_len : length A = 2 * n;
  i_roots : Permutation (map fst Fs) (firstn h A);
  i_all : Permutation (map fst Fs ++ X) (seq h (2 * n - h));
  i_rep : forall r t, In (r, t) Fs -> rep A X t r /\ get A r = tw ws plus t;
  i_par : forall x, In x X -> h <= get A x < x;
  i_leaves : Permutation (concat (map (fun e => leaves (snd e)) Fs)) (seq 0 n);
  i_heap : is_heap (get A) (firstn h A)
}.
Lemma rep_mono A A' X X' t r : (forall x, In x X -> In x X' /\ get A' x = get A x) -> rep A X t r -> rep A' X' t r.
Proof.
  intros H R. induction R as [i|a b x y p Hx Hy Ex Ey R1 IH1 R2 IH2]; [constructor|].
  destruct (H x Hx) as [? Ex']. destruct (H y Hy) as [? Ey']. apply (rep_node A' X' a b x y p); try assumption; congruence.
Qed.
Lemma perm_map_cons {A B} (f : A -> B) L x l : Permutation (map f L) (x :: l) -> exists e L', Permutation L (e :: L') /\ f e = x /\ Permutation (map f L') l.
Proof.
  intros P. assert (Hin : In x (map f L)) by (eapply Permutation_in; [symmetry; exact P|now left]).
  apply in_map_iff in Hin as [e [Ee He]]. apply in_split in He as [l1 [l2 ->]]. exists e, (l1 ++ l2).
  assert (P0 : Permutation (l1 ++ e :: l2) (e :: l1 ++ l2)) by (symmetry; apply Permutation_middle).
  split; [exact P0|]. split; [exact Ee|]. apply (Permutation_map f) in P0. rewrite P in P0. cbn [map] in P0. rewrite Ee in P0.
  symmetry. now apply Permutation_cons_inv in P0.
Qed.
Lemma merge_inv A k Fs X : S (S k) <= n -> inv A (S (S k)) Fs X ->
  exists a b Fs' X', let B := merge plus pop push A (S (S k)) in
    Permutation (map snd Fs) (a :: b :: map snd Fs') /\
    (forall x, In x (b :: map snd Fs') -> tw ws plus a <= tw ws plus x) /\
    (forall x, In x (map snd Fs') -> tw ws plus b <= tw ws plus x) /\
    inv B (S k) ((S k, Node a b) :: Fs') X'.
Proof.
  intros Hk [Hlen Hroots Hall Hrep Hpar Hlv Hheap].
  assert (Hnd : NoDup (map fst Fs ++ X)) by (eapply Permutation_NoDup; [symmetry; exact Hall|apply seq_NoDup]).
  assert (Hr : forall x, In x (map fst Fs) \/ In x X -> S (S k) <= x < 2 * n).
  { intros x Hx. apply in_app_iff in Hx. apply (Permutation_in _ Hall) in Hx. apply in_seq in Hx. lia. }
  destruct (merge_spec A k) as [m1 [m2 [l [P [Hmin1 [Hmin2 HB]]]]]].
  - lia.
  - eapply Permutation_NoDup; [exact Hroots|]. clear - Hnd. induction (map fst Fs) as [|y m IH]; [constructor|].
    cbn in Hnd. inversion Hnd as [|? ? N1 N2]; subst. constructor; [|now apply IH]. intros C. apply N1. apply in_or_app. now left.
  - intros x Hx. rewrite Hlen. apply Hr. left. eapply Permutation_in; [symmetry; exact Hroots|assumption].
  - assumption.
  - cbn zeta in HB. set (B := merge plus pop push A (S (S k))) in *. destruct HB as [LB [PB [HhB GB]]].
    assert (P0 : Permutation (map fst Fs) (m1 :: m2 :: l)) by (now rewrite Hroots).
    destruct (perm_map_cons fst Fs _ _ P0) as [[r1 a] [F1 [PF1 [E1 P1]]]]. cbn in E1. subst r1.
    destruct (perm_map_cons fst F1 _ _ P1) as [[r2 b] [Fs' [PF2 [E2 P2]]]]. cbn in E2. subst r2.
    assert (PF : Permutation Fs ((m1, a) :: (m2, b) :: Fs')) by (rewrite PF1; now constructor).
    assert (HF : forall r t, In (r, t) ((m1, a) :: (m2, b) :: Fs') -> rep A X t r /\ get A r = tw ws plus t /\ S (S k) <= r < 2 * n).
    { intros r t Hin. apply (Permutation_in _ (Permutation_sym PF)) in Hin. destruct (Hrep r t Hin) as [R1 R2].
      split; [assumption|]. split; [assumption|]. apply Hr. left. apply (in_map fst) in Hin. exact Hin. }
    destruct (HF m1 a) as [Ra [Wa Ia]]; [now left|]. destruct (HF m2 b) as [Rb [Wb Ib]]; [right; now left|].
    assert (Hnd' : NoDup ((m1 :: m2 :: map fst Fs') ++ X)).
    { eapply Permutation_NoDup; [|exact Hnd]. apply Permutation_app_tail. apply (Permutation_map fst) in PF. exact PF. }
    assert (Hne : forall x, In x (map fst Fs') \/ In x X -> x <> m1 /\ x <> m2 /\ x <> S k).
    { intros x Hx. cbn [app] in Hnd'. inversion Hnd' as [|? ? N1 Hnd2]; subst. inversion Hnd2 as [|? ? N2 _]; subst.
      apply in_app_iff in Hx. split; [intros ->; apply N1; now right|]. split; [intros ->; contradiction|].
      intros ->. assert (S (S k) <= S k); [|lia]. apply Hr. apply in_app_or in Hx as [Hx|Hx]; [left|now right].
      eapply Permutation_in; [symmetry; apply (Permutation_map fst PF)|]. right. now right. }
    assert (GX : forall x, In x (map fst Fs') \/ In x X -> get B x = get A x).
    { intros x Hx. destruct (Hne x Hx) as [N1 [N2 N3]].
      assert (S (S k) <= x). { apply Hr. destruct Hx as [Hx|Hx]; [left|now right]. eapply Permutation_in; [symmetry; apply (Permutation_map fst PF)|]. right. now right. }
      rewrite GB by lia. destruct (Nat.eqb_spec x m1); [contradiction|]. destruct (Nat.eqb_spec x m2); [contradiction|].
      destruct (Nat.eqb_spec x (S k)); [contradiction|reflexivity]. }
    assert (Hmono : forall x, In x X -> In x (m1 :: m2 :: X) /\ get B x = get A x).
    { intros x Hx. split; [right; now right|]. apply GX. now right. }
    assert (GB1 : get B m1 = S k). { rewrite GB by lia. now rewrite Nat.eqb_refl. }
    assert (GB2 : get B m2 = S k). { rewrite GB by lia. rewrite Nat.eqb_refl, orb_true_r. reflexivity. }
    exists a, b, Fs', (m1 :: m2 :: X). cbn zeta. fold B.
    assert (HW : forall x, In x (map snd Fs') -> exists r, In r l /\ get A r = tw ws plus x).
    { intros x Hx. apply in_map_iff in Hx as [[r t] [E Hin]]. cbn in E. subst t. destruct (HF r x) as [_ [W _]]; [right; now right|].
      exists r. split; [|assumption]. eapply Permutation_in; [exact P2|]. apply (in_map fst) in Hin. exact Hin. }
    split; [apply (Permutation_map snd) in PF; exact PF|]. split; [|split].
    + intros x [<-|Hx]; [rewrite <- Wa, <- Wb; apply Hmin1; now left|]. destruct (HW x Hx) as [r [Hr1 <-]]. rewrite <- Wa. apply Hmin1. now right.
    + intros x Hx. destruct (HW x Hx) as [r [Hr1 <-]]. rewrite <- Wb. now apply Hmin2.
    + constructor.
      * lia.
      * cbn [map fst]. rewrite PB. now constructor.
      * cbn [map fst app]. replace (2 * n - S k) with (S (2 * n - S (S k))) by lia. cbn [seq]. constructor.
        rewrite <- Hall. rewrite (Permutation_map fst PF). cbn [map fst app].
        rewrite Permutation_app_comm. cbn [app]. constructor. constructor. apply Permutation_app_comm.
      * intros r t [[= <- <-]|Hin].
        -- split; [apply (rep_node B (m1 :: m2 :: X) a b m1 m2); try assumption; try (now left); try (right; now left)|].
           ++ eapply rep_mono; [exact Hmono|exact Ra].
           ++ eapply rep_mono; [exact Hmono|exact Rb].
           ++ rewrite GB by lia. destruct (Nat.eqb_spec (S k) m1); [lia|]. destruct (Nat.eqb_spec (S k) m2); [lia|]. cbn [orb].
              rewrite Nat.eqb_refl. cbn [tw]. now rewrite Wa, Wb.
        -- destruct (HF r t) as [R [W _]]; [right; now right|]. split; [eapply rep_mono; [exact Hmono|exact R]|].
           rewrite GX; [assumption|]. left. apply (in_map fst) in Hin. exact Hin.
      * intros x [<-|[<-|Hx]]; [rewrite GB1; lia|rewrite GB2; lia|]. rewrite GX by (now right). pose proof (Hpar x Hx). lia.
      * rewrite <- Hlv. cbn [map concat snd leaves]. symmetry.
        assert (PL : forall L L', Permutation L L' -> Permutation (concat (map (fun e : nat * tree => leaves (snd e)) L)) (concat (map (fun e => leaves (snd e)) L'))).
        { induction 1; cbn; [constructor|now apply Permutation_app_head| |etransitivity; eassumption].
          rewrite !app_assoc. apply Permutation_app_tail, Permutation_app_comm. }
        rewrite (PL _ _ PF). cbn [map concat snd]. now rewrite app_assoc.
      * assumption.
Qed.
Lemma merges_inv k : forall A Fs X, S k <= n -> inv A (S k) Fs X ->
  exists T X', huff ws plus (map snd Fs) T /\ inv (merges plus pop push A (S k)) 1 [(1, T)] X' \/
  (k = 0 /\ exists r T X', Fs = [(r, T)] /\ inv (merges plus pop push A (S k)) 1 [(r, T)] X' /\ huff ws plus (map snd Fs) T).
Proof.
  induction k as [|k IH]; intros A Fs X Hk H.
  - assert (Hl : length Fs = 1).
    { pose proof (Permutation_length (i_roots _ _ _ _ H)) as E. rewrite map_length, firstn_length, (i_len _ _ _ _ H) in E. lia. }
    destruct Fs as [|[r T] [|]]; cbn in Hl; try lia. exists T, X. right. split; [reflexivity|]. exists r, T, X. split; [reflexivity|]. split; [exact H|]. constructor.
  - destruct (merge_inv A k Fs X Hk H) as [a [b [Fs' [X' [P [Hm1 [Hm2 H']]]]]]].
    destruct (IH _ _ _ ltac:(lia) H') as [T [X'' [[Hh Hi]|[-> [r [T' [X3 [E [Hi Hh]]]]]]]]].
    + exists T, X''. left. split; [|exact Hi]. econstructor; eassumption.
    + injection E as <- <- ->. exists (Node a b), X3. left. split; [|exact Hi]. econstructor; try eassumption.
Qed.

(** * Depths *)
Lemma depths_length k : forall A i, length (depths A i k) = length A.
Proof. induction k as [|k IH]; intros A i; cbn; [reflexivity|]. now rewrite IH, set_length. Qed.
Lemma depths_spec k : forall A i, i + k <= length A -> (forall x, i <= x < i + k -> get A x < x) ->
  let D := depths A i k in
  (forall x, x < i -> get D x = get A x) /\ (forall x, i <= x < i + k -> get D x = get D (get A x) + 1).
Proof.
  induction k as [|k IH]; intros A i Hl Hp; cbn [depths]; [split; [reflexivity|lia]|].
  set (A' := set A i (get A (get A i) + 1)).
  assert (GA : forall x, get A' x = if x =? i then get A (get A i) + 1 else get A x) by (intros x; unfold A'; apply get_set; lia).
  destruct (IH A' (S i)) as [E1 E2].
  - unfold A'. rewrite set_length. lia.
  - intros x Hx. rewrite GA. destruct (Nat.eqb_spec x i); [lia|]. apply Hp. lia.
  - cbn zeta in *. split.
    + intros x Hx. rewrite E1 by lia. rewrite GA. destruct (Nat.eqb_spec x i); [lia|reflexivity].
    + intros x Hx. destruct (Nat.eq_dec x i) as [->|Hne].
      * pose proof (Hp i ltac:(lia)). rewrite (E1 i), (E1 (get A i)) by lia. rewrite !GA, Nat.eqb_refl.
        destruct (Nat.eqb_spec (get A i) i); [lia|reflexivity].
      * rewrite E2 by lia. rewrite GA. destruct (Nat.eqb_spec x i); [contradiction|reflexivity].
Qed.
Lemma rep_depth A X D t r : rep A X t r -> (forall x, In x X -> get D x = get D (get A x) + 1) ->
  forall i d, In (i, d) (dleaves (get D r) t) -> get D (n + i) = d.
Proof.
  intros R HD. induction R as [i|a b x y p Hx Hy Ex Ey R1 IH1 R2 IH2]; intros j d Hin; cbn [dleaves] in Hin.
  - destruct Hin as [[= <- <-]|[]]. reflexivity.
  - pose proof (HD x Hx) as Dx. pose proof (HD y Hy) as Dy. rewrite Ex in Dx. rewrite Ey in Dy.
    apply in_app_or in Hin as [Hin|Hin]; [apply IH1|apply IH2]; [rewrite Dx|rewrite Dy]; now rewrite Nat.add_1_r.
Qed.
Lemma dleaves_fst t : forall d, map fst (dleaves d t) = leaves t.
Proof. induction t as [i|a IHa b IHb]; intros d; cbn; [reflexivity|]. now rewrite map_app, IHa, IHb. Qed.
Lemma concat_single {B} (l : list B) : concat (map (fun x => [x]) l) = l.
Proof. induction l; cbn; congruence. Qed.
Lemma map_seq a m : forall s, map (fun x => a + x) (seq s m) = seq (a + s) m.
Proof. induction m as [|m IH]; intros s; cbn; [reflexivity|]. f_equal. rewrite IH. f_equal. lia. Qed.
Lemma calc_depths_spec : 2 <= n -> exists T, huff ws plus (map Leaf (seq 0 n)) T /\ Permutation (leaves T) (seq 0 n) /\
  length (calc_depths plus make pop push ws) = n /\
  forall i d, In (i, d) (dleaves 0 T) -> nth i (calc_depths plus make pop push ws) 0 = d.
Proof.
  intros Hn. set (A0 := map (fun i => n + i) (seq 0 n) ++ ws).
  set (A1 := on_prefix make A0 n).
  assert (Hm : length (map (fun i => n + i) (seq 0 n)) = n) by now rewrite map_length, seq_length.
  assert (F0 : firstn n A0 = map (fun i => n + i) (seq 0 n)) by now apply firstn_app_len.
  assert (S0 : skipn n A0 = ws) by now apply skipn_app_len.
  set (H := make (get A0) (map (fun i => n + i) (seq 0 n))).
  destruct (heap_make _ _ _ _ ops (get A0) (map (fun i => n + i) (seq 0 n))) as [PH HH]. fold H in PH, HH.
  assert (LH : length H = n) by (now rewrite (Permutation_length PH)).
  assert (EA1 : A1 = H ++ ws) by (unfold A1, on_prefix; now rewrite F0, S0).
  assert (F1 : firstn n A1 = H) by (rewrite EA1; now apply firstn_app_len).
  assert (G1 : forall x, n <= x -> get A1 x = get A0 x).
  { intros x Hx. rewrite EA1. unfold A0. now rewrite !get_app_r by lia; rewrite LH, Hm. }
  assert (I1 : inv A1 n (map (fun i => (n + i, Leaf i)) (seq 0 n)) []).
  { constructor.
    - rewrite EA1, app_length, LH. fold n. lia.
    - rewrite map_map. cbn [fst]. now rewrite F1, PH.
    - rewrite map_map. cbn [fst]. rewrite app_nil_r. replace (2 * n - n) with n by lia.
      rewrite map_seq, Nat.add_0_r. reflexivity.
    - intros r t Hin. apply in_map_iff in Hin as [i [[= <- <-] Hi]]. split; [constructor|]. rewrite G1 by lia. unfold A0. rewrite get_app_r by lia. cbn [tw].
      unfold get. f_equal. lia.
    - intros x [].
    - rewrite map_map. cbn [snd leaves]. now rewrite concat_single.
    - rewrite F1. eapply (heap_ext _ _ _ _ ops); [|exact HH]. intros x Hx. apply (Permutation_in _ PH) in Hx. apply in_map_iff in Hx as [i [<- _]].
      symmetry. apply G1. lia. }
  assert (En : exists k, n = S (S k)) by (exists (n - 2); lia). destruct En as [k En].
  pose proof (merges_inv (S k) A1 (map (fun i => (n + i, Leaf i)) (seq 0 n)) []) as M. rewrite <- En in M.
  destruct (M (le_n n) I1) as [T [X [[Hh HI]|[C _]]]]; [|discriminate]. clear M.
  set (A2 := merges plus pop push A1 n) in *. set (A3 := set A2 1 0). set (D := depths A3 2 (2 * n - 2)).
  assert (EC : calc_depths plus make pop push ws = skipn n D) by reflexivity.
  destruct HI as [Hlen Hroots Hall Hrep Hpar Hlv _]. cbn [map fst snd concat app] in *.
  assert (HX : Permutation X (seq 2 (2 * n - 2))).
  { replace (2 * n - 1) with (S (2 * n - 2)) in Hall by lia. cbn [seq] in Hall. now apply Permutation_cons_inv in Hall. }
  assert (HXr : forall x, In x X <-> 2 <= x < 2 * n).
  { intros x. split; intros Hx; [apply (Permutation_in _ HX) in Hx; apply in_seq in Hx; lia|].
    apply (Permutation_in _ (Permutation_sym HX)). apply in_seq. lia. }
  assert (G3 : forall x, get A3 x = if x =? 1 then 0 else get A2 x) by (intros x; unfold A3; apply get_set; lia).
  destruct (depths_spec (2 * n - 2) A3 2) as [D1 D2].
  - unfold A3. rewrite set_length. lia.
  - intros x Hx. rewrite G3. destruct (Nat.eqb_spec x 1); [lia|]. apply Hpar. apply HXr. lia.
  - fold D in D1, D2. exists T. rewrite app_nil_r in Hlv.
    split; [rewrite map_map in Hh; exact Hh|]. split; [exact Hlv|].
    assert (LD : length D = 2 * n) by (unfold D; rewrite depths_length; unfold A3; now rewrite set_length).
    rewrite EC. split; [rewrite skipn_length; lia|].
    intros i d Hin. destruct (Hrep 1 T) as [R _]; [now left|].
    assert (E1 : get D 1 = 0) by (rewrite D1, G3 by lia; reflexivity).
    rewrite <- E1 in Hin. apply (rep_depth A2 X D T 1 R) in Hin.
    + rewrite <- Hin. change (nth i (skipn n D) 0) with (get (skipn n D) i). rewrite <- (get_skip D n (n + i)) by lia. f_equal. lia.
    + intros x Hx. apply HXr in Hx. rewrite D2 by lia. rewrite G3. destruct (Nat.eqb_spec x 1); [lia|reflexivity].
Qed.
End Merge.

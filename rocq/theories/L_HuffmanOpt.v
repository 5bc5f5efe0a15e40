(** Lemmas about the trees of L_HuffmanTree.v: levels, depths and optimality. *)
From Coq Require Import List Arith NArith Bool Lia Permutation.
From Verif Require Import M_Huffman L_Huffman L_HuffmanTree.
Import ListNotations.

(** * Levels *)
Fixpoint inner (t : tree) (l : nat) : nat :=
  match t with Leaf _ => 0 | Node a b => match l with O => 1 | S l' => inner a l' + inner b l' end end.
Fixpoint outer (t : tree) (l : nat) : nat :=
  match t with Leaf _ => if l =? 0 then 1 else 0 | Node a b => match l with O => 0 | S l' => outer a l' + outer b l' end end.
Lemma cnt_app a b l : cnt (a ++ b) l = cnt a l + cnt b l.
Proof. apply count_occ_app. Qed.
Lemma outer_cnt t : forall d l, cnt (map snd (dleaves d t)) l = if d <=? l then outer t (l - d) else 0.
Proof.
  induction t as [i|a IHa b IHb]; intros d l; cbn [dleaves].
  - unfold cnt. cbn [map snd count_occ outer]. destruct (Nat.eq_dec d l) as [->|Hne].
    + rewrite Nat.leb_refl, Nat.sub_diag. reflexivity.
    + destruct (Nat.leb_spec d l); [|reflexivity]. destruct (Nat.eqb_spec (l - d) 0); [lia|reflexivity].
  - rewrite map_app, cnt_app, IHa, IHb. destruct (Nat.leb_spec (S d) l) as [C|C].
    + destruct (Nat.leb_spec d l); [|lia]. replace (l - d) with (S (l - S d)) by lia. reflexivity.
    + destruct (Nat.leb_spec d l); [|reflexivity]. replace (l - d) with 0 by lia. reflexivity.
Qed.
Lemma level0 t : inner t 0 + outer t 0 = 1.
Proof. destruct t; reflexivity. Qed.
Lemma level_step t : forall l, 2 * inner t l = inner t (S l) + outer t (S l).
Proof.
  induction t as [i|a IHa b IHb]; intros l; [reflexivity|]. cbn [inner outer]. destruct l as [|l].
  - pose proof (level0 a). pose proof (level0 b). lia.
  - pose proof (IHa l). pose proof (IHb l). lia.
Qed.
Lemma outer_some t : exists m, 0 < outer t m.
Proof. induction t as [i|a [m H] b _]; [exists 0; cbn; lia|]. exists (S m). cbn. lia. Qed.
Lemma inner_some t : forall l, 0 < inner t l -> exists m, l < m /\ 0 < outer t m.
Proof.
  induction t as [i|a IHa b IHb]; intros l H; cbn [inner] in H; [lia|]. destruct l as [|l].
  - destruct (outer_some a) as [m Hm]. exists (S m). cbn. lia.
  - assert (C : 0 < inner a l \/ 0 < inner b l) by lia. destruct C as [C|C]; [destruct (IHa _ C) as [m Hm]|destruct (IHb _ C) as [m Hm]]; exists (S m); cbn; lia.
Qed.
Lemma perm_cnt a b l : Permutation a b -> cnt a l = cnt b l.
Proof. intros P. unfold cnt. now apply Permutation_count_occ. Qed.
Lemma tree_levels T ls : 2 <= length (leaves T) -> Permutation ls (map snd (dleaves 0 T)) -> levels ls (inner T).
Proof.
  intros Hn P. assert (C : forall l, cnt ls l = outer T l).
  { intros l. rewrite (perm_cnt _ _ l P), outer_cnt. cbn [Nat.leb]. now rewrite Nat.sub_0_r. }
  split; [destruct T; [cbn in Hn; lia|reflexivity]|]. split.
  - intros l. rewrite C. apply level_step.
  - intros l Hl. destruct (Nat.eq_dec (inner T l) 0) as [E|E]; [assumption|]. exfalso.
    destruct (inner_some T l ltac:(lia)) as [m [Hm Ho]]. rewrite <- C in Ho. rewrite cnt_out in Ho; lia.
Qed.
Lemma assigned ls T : Permutation (leaves T) (seq 0 (length ls)) -> (forall i d, In (i, d) (dleaves 0 T) -> nth i ls 0 = d) ->
  Permutation ls (map snd (dleaves 0 T)).
Proof.
  intros P H.
  assert (E : map snd (dleaves 0 T) = map (fun i => nth i ls 0) (leaves T)).
  { rewrite <- (dleaves_fst T 0), map_map. apply map_ext_in. intros [i d] Hi. cbn. symmetry. now apply H. }
  rewrite E, P. clear. replace (map (fun i => nth i ls 0) (seq 0 (length ls))) with ls; [reflexivity|].
  induction ls as [|x ls IH]; [reflexivity|]. cbn [length seq map nth]. f_equal. rewrite <- seq_shift, map_map. exact IH.
Qed.

(** * Shapes: the depths of the leaves of a binary tree *)
Inductive shape : list nat -> Prop :=
  | shape_one : shape [0]
  | shape_split d ds : shape (d :: ds) -> shape (S d :: S d :: ds)
  | shape_perm ds ds' : Permutation ds ds' -> shape ds -> shape ds'.
Lemma shape_graft b : shape b -> forall d x, shape (d :: x) -> shape (map (Nat.add d) b ++ x).
Proof.
  induction 1 as [|e b H IH|b b' P H IH]; intros d x Hx.
  - cbn. now rewrite Nat.add_0_r.
  - cbn [map app]. rewrite Nat.add_succ_r. apply shape_split. apply (IH d x Hx).
  - eapply shape_perm; [apply Permutation_app_tail, Permutation_map; exact P|]. now apply IH.
Qed.
Lemma shape_node a b : shape a -> shape b -> shape (map S a ++ map S b).
Proof.
  intros Ha Hb. pose proof (shape_graft a Ha 1 [1] (shape_split 0 [] shape_one)) as H1.
  apply (shape_perm _ (1 :: map S a)) in H1; [|symmetry; apply Permutation_cons_append].
  pose proof (shape_graft b Hb 1 _ H1) as H2. eapply shape_perm; [|exact H2]. apply Permutation_app_comm.
Qed.
Lemma shape_nonempty ds : shape ds -> ds <> [].
Proof. induction 1 as [| |ds ds' P H IH]; try discriminate. intros ->. apply IH. now apply Permutation_nil, Permutation_sym. Qed.
(** Two deepest leaves are siblings. *)
Lemma shape_deepest ds : shape ds -> 2 <= length ds ->
  exists d ds', Permutation ds (S d :: S d :: ds') /\ shape (d :: ds') /\ forall x, In x ds -> x <= S d.
Proof.
  induction 1 as [|d ds H IH|ds ds' P H IH]; intros Hn.
  - cbn in Hn. lia.
  - destruct ds as [|y ds1] eqn:Eds.
    + exists d, []. split; [reflexivity|]. split; [assumption|]. intros x [<-|[<-|[]]]; lia.
    + rewrite <- Eds in *. destruct IH as [e [es [P [He Hmax]]]]; [rewrite Eds; cbn; lia|].
      destruct (Nat.eq_dec d (S e)) as [->|Hne].
      * exists (S e), ds. split; [reflexivity|]. split; [assumption|]. intros x [<-|[<-|Hx]]; try lia.
        pose proof (Hmax x ltac:(now right)). lia.
      * assert (Hd : d <= e) by (pose proof (Hmax d ltac:(now left)); lia).
        assert (Hin : In d es). { assert (In d (S e :: S e :: es)) as [C|[C|C]] by (eapply Permutation_in; [exact P|now left]); [congruence|congruence|assumption]. }
        apply in_split in Hin as [e1 [e2 ->]].
        assert (P0 : Permutation (e1 ++ d :: e2) (d :: e1 ++ e2)) by (symmetry; apply Permutation_middle).
        assert (P1 : Permutation ds (S e :: S e :: e1 ++ e2)).
        { apply (Permutation_cons_inv (a := d)). rewrite P, P0. transitivity (S e :: d :: S e :: e1 ++ e2); [constructor; apply perm_swap|apply perm_swap]. }
        exists e, (S d :: S d :: e1 ++ e2). split; [|split].
        -- transitivity (S d :: S d :: S e :: S e :: e1 ++ e2); [do 2 constructor; exact P1|].
           exact (Permutation_app_tail (e1 ++ e2) (Permutation_app_comm [S d; S d] [S e; S e])).
        -- eapply shape_perm; [|apply (shape_split d (e :: e1 ++ e2))].
           ++ transitivity (S d :: e :: S d :: e1 ++ e2); [constructor; apply perm_swap|apply perm_swap].
           ++ eapply shape_perm; [|exact He]. rewrite P0. apply perm_swap.
        -- intros x [<-|[<-|Hx]]; try lia. apply Hmax. now right.
  - destruct IH as [d [ds0 [P0 [H0 Hm]]]]; [now rewrite (Permutation_length P)|]. exists d, ds0. split; [now rewrite <- P|].
    split; [assumption|]. intros x Hx. apply Hm. eapply Permutation_in; [symmetry; exact P|assumption].
Qed.

(** * Huffman's theorem *)
Definition total (P : list (nat * nat)) : nat := list_sum (map (fun e => fst e * snd e) P).
Lemma total_cons e P : total (e :: P) = fst e * snd e + total P.
Proof. reflexivity. Qed.
Lemma list_sum_perm a b : Permutation a b -> list_sum a = list_sum b.
Proof. unfold list_sum. induction 1; cbn [fold_right] in *; lia. Qed.
Lemma total_perm P Q : Permutation P Q -> total P = total Q.
Proof. intros H. apply list_sum_perm, Permutation_map, H. Qed.
(** The sum of the weights merged. *)
Inductive hcost : list nat -> nat -> Prop :=
  | hcost_one w : hcost [w] 0
  | hcost_step ws a b ws' c : Permutation ws (a :: b :: ws') -> (forall x, In x (b :: ws') -> a <= x) ->
      (forall x, In x ws' -> b <= x) -> hcost (a + b :: ws') c -> hcost ws (c + a + b).
(** A least weight can be moved to a deepest place. *)
Lemma exchange Q x D a : (forall e, In e Q -> snd e <= D) -> In a (x :: map fst Q) -> (forall y, In y (x :: map fst Q) -> a <= y) ->
  exists Q', map snd Q' = map snd Q /\ Permutation (a :: map fst Q') (x :: map fst Q) /\ total ((a, D) :: Q') <= total ((x, D) :: Q).
Proof.
  intros HD Hin Hmin. destruct Hin as [->|Hin]; [exists Q; split; [reflexivity|split; reflexivity]|].
  apply in_map_iff in Hin as [[a' d] [E Hq]]. cbn in E. subst a'. apply in_split in Hq as [Q1 [Q2 ->]].
  exists (Q1 ++ (x, d) :: Q2). split; [now rewrite !map_app|]. split.
  - rewrite !map_app. cbn [map fst].
    transitivity (a :: x :: map fst Q1 ++ map fst Q2); [constructor; symmetry; apply Permutation_middle|].
    rewrite perm_swap. constructor. apply Permutation_middle.
  - assert (Hd : d <= D) by (apply (HD (a, d)); apply in_or_app; right; now left).
    assert (Ha : a <= x) by (apply Hmin; now left).
    rewrite !total_cons. cbn [fst snd].
    rewrite <- (total_perm _ _ (Permutation_middle Q1 Q2 (x, d))), <- (total_perm _ _ (Permutation_middle Q1 Q2 (a, d))).
    rewrite !total_cons. cbn [fst snd]. nia.
Qed.
Lemma perm_snd (P : list (nat * nat)) D ds : Permutation (map snd P) (D :: ds) -> exists x P', Permutation P ((x, D) :: P') /\ Permutation (map snd P') ds.
Proof. intros H. destruct (perm_map_cons snd P _ _ H) as [[x D'] [P' [H1 [H2 H3]]]]. cbn in H2. subst. eauto. Qed.
Theorem huffman_optimal ws c : hcost ws c -> forall P, shape (map snd P) -> Permutation (map fst P) ws -> c <= total P.
Proof.
  induction 1 as [w|ws a b ws' c Pw Ha Hb H IH]; intros P Hs Hp; [lia|].
  assert (HpL : Permutation (map fst P) (a :: b :: ws')) by (now rewrite Hp).
  assert (Hlen : length P = S (S (length ws'))) by (rewrite <- (map_length fst), (Permutation_length HpL); reflexivity).
  destruct (shape_deepest _ Hs) as [d [ds [Pd [Hsd Hmax]]]]; [rewrite map_length; lia|].
  destruct (perm_snd P _ _ Pd) as [x [P1 [Px Pd1]]].
  assert (HD : forall e, In e P -> snd e <= S d) by (intros e He; apply Hmax; now apply in_map).
  assert (W1 : Permutation (x :: map fst P1) (a :: b :: ws')) by (rewrite <- HpL, (Permutation_map fst Px); reflexivity).
  destruct (exchange P1 x (S d) a) as [Q1 [E1 [F1 T1]]].
  - intros e He. apply HD. eapply Permutation_in; [symmetry; exact Px|now right].
  - eapply Permutation_in; [symmetry; exact W1|now left].
  - intros y Hy. apply (Permutation_in _ W1) in Hy as [<-|Hy]; [lia|now apply Ha].
  - assert (WQ : Permutation (map fst Q1) (b :: ws')) by (apply (Permutation_cons_inv (a := a)); now rewrite F1).
    rewrite <- E1 in Pd1. destruct (perm_snd Q1 _ _ Pd1) as [y [P2 [Py Pd2]]].
    assert (W2 : Permutation (y :: map fst P2) (b :: ws')) by (rewrite <- WQ, (Permutation_map fst Py); reflexivity).
    destruct (exchange P2 y (S d) b) as [Q2 [E2 [F2 T2]]].
    + intros e He. assert (Hin : In (snd e) (map snd Q1)).
      { apply in_map. eapply Permutation_in; [symmetry; exact Py|now right]. }
      rewrite E1 in Hin. apply Hmax. eapply Permutation_in; [symmetry; exact Pd|].
      right. eapply Permutation_in; [|exact Hin]. rewrite <- E1. exact Pd1.
    + eapply Permutation_in; [symmetry; exact W2|now left].
    + intros z Hz. apply (Permutation_in _ W2) in Hz as [<-|Hz]; [lia|now apply Hb].
    + assert (WR : Permutation (map fst Q2) ws') by (apply (Permutation_cons_inv (a := b)); now rewrite F2).
      specialize (IH ((a + b, d) :: Q2)). cbn [map fst snd] in IH.
      assert (Hc : c <= total ((a + b, d) :: Q2)).
      { apply IH; [|now constructor]. eapply shape_perm; [|exact Hsd]. constructor. rewrite E2. now symmetry. }
      rewrite (total_perm _ _ Px). rewrite total_cons in *. cbn [fst snd] in *.
      rewrite (total_perm _ _ Py) in T1. rewrite !total_cons in *. cbn [fst snd] in *. lia.
Qed.

(** * The cost of the tree *)
Section Cost.
Variable ws : list nat.
Notation tw := (tw ws Nat.add).
Fixpoint tc (t : tree) : nat := match t with Leaf _ => 0 | Node a b => tc a + tc b + tw a + tw b end.
Lemma total_app P Q : total (P ++ Q) = total P + total Q.
Proof. unfold total. now rewrite map_app, list_sum_app. Qed.
Lemma tc_total t : forall d, total (map (fun e => (nth (fst e) ws 0, snd e)) (dleaves d t)) = tc t + d * tw t.
Proof.
  induction t as [i|a IHa b IHb]; intros d; cbn [dleaves tc L_HuffmanTree.tw].
  - cbn. lia.
  - rewrite map_app, total_app, IHa, IHb. lia.
Qed.
Lemma huff_hcost Fs T : huff ws Nat.add Fs T -> exists c, hcost (map tw Fs) c /\ tc T = list_sum (map tc Fs) + c.
Proof.
  induction 1 as [t|Fs a b F' T P Ha Hb H [c [Hc Ht]]].
  - exists 0. split; [constructor|cbn; lia].
  - exists (c + tw a + tw b). split.
    + eapply hcost_step; [apply (Permutation_map tw P)| | |exact Hc].
      * intros x [<-|Hx]; [apply Ha; now left|]. apply in_map_iff in Hx as [y [<- Hy]]. apply Ha. now right.
      * intros x Hx. apply in_map_iff in Hx as [y [<- Hy]]. now apply Hb.
    + rewrite Ht, (list_sum_perm _ _ (Permutation_map tc P)). unfold list_sum. cbn [map fold_right tc]. lia.
Qed.
(** * Depth *)
Fixpoint fib (k : nat) : nat := match k with O => 1 | S k' => match k' with O => 2 | S k'' => fib k' + fib k'' end end.
Fixpoint height (t : tree) : nat := match t with Leaf _ => 0 | Node a b => S (Nat.max (height a) (height b)) end.
Lemma fib_pos k : 1 <= fib k /\ fib k <= fib (S k).
Proof. induction k as [|k [H1 H2]]; [cbn; lia|]. split; [lia|]. change (fib (S (S k))) with (fib (S k) + fib k). lia. Qed.
Definition heavy (B : nat) (t : tree) : Prop := fib (height t) <= tw t /\ B <= tw t /\ fib (height t - 1) <= B.
Lemma huff_heavy Fs T : huff ws Nat.add Fs T -> forall B, 1 <= B -> (forall t, In t Fs -> heavy B t) -> fib (height T) <= tw T.
Proof.
  induction 1 as [t|Fs a b F' T P Ha Hb H IH]; intros B HB HF.
  - apply HF. now left.
  - assert (HFa : heavy B a) by (apply HF; eapply Permutation_in; [symmetry; exact P|now left]).
    assert (HFb : heavy B b) by (apply HF; eapply Permutation_in; [symmetry; exact P|right; now left]).
    assert (Hab : tw a <= tw b) by (apply Ha; now left).
    destruct HFa as [A1 [A2 A3]], HFb as [B1 [B2 B3]].
    apply (IH (tw b)); [lia|]. intros t [<-|Ht].
    + unfold heavy. cbn [height L_HuffmanTree.tw]. rewrite Nat.sub_succ, Nat.sub_0_r.
      assert (Hfib : forall x y : tree, height y <= height x -> fib (height x) <= tw x -> fib (height x - 1) <= tw y -> fib (S (height x)) <= tw x + tw y).
      { clear. intros x y _ H1 H2. destruct (height x) as [|k]; [change (fib 1) with 2; change (fib 0) with 1 in *; cbn in H2; lia|].
        change (fib (S (S k))) with (fib (S k) + fib k). rewrite Nat.sub_succ, Nat.sub_0_r in H2. lia. }
      destruct (Nat.max_spec (height a) (height b)) as [[C ->]|[C ->]].
      * split; [|lia]. rewrite Nat.add_comm. apply Hfib; lia.
      * split; [apply Hfib; lia|lia].
    + destruct (HF t) as [T1 [T2 T3]]; [eapply Permutation_in; [symmetry; exact P|right; now right]|].
      split; [assumption|]. split; [now apply Hb|]. lia.
Qed.
Lemma tw_sum t : tw t = list_sum (map (fun i => nth i ws 0) (leaves t)).
Proof. induction t as [i|a IHa b IHb]; cbn [leaves map L_HuffmanTree.tw]; [cbn; lia|]. now rewrite map_app, list_sum_app, IHa, IHb. Qed.
Lemma depth_height t : forall d i e, In (i, e) (dleaves d t) -> e <= d + height t.
Proof.
  induction t as [j|a IHa b IHb]; intros d i e H; cbn [dleaves height] in *.
  - destruct H as [[= _ <-]|[]]. lia.
  - apply in_app_or in H as [H|H]; [apply IHa in H|apply IHb in H]; lia.
Qed.
End Cost.

(** Fibonacci numbers in binary. *)
Fixpoint fibN (k : nat) : N * N := match k with O => (1, 2)%N | S k' => let '(a, b) := fibN k' in (b, a + b)%N end.
Lemma fibN_spec k : fibN k = (N.of_nat (fib k), N.of_nat (fib (S k))).
Proof.
  induction k as [|k IH]; [reflexivity|]. cbn [fibN]. rewrite IH. f_equal.
  change (fib (S (S k))) with (fib (S k) + fib k). lia.
Qed.
Lemma fib_large k : (44945570212853 <= fst (fibN k))%N -> (44945570212853 <= N.of_nat (fib k))%N.
Proof. now rewrite fibN_spec. Qed.
Lemma fib_mono a b : a <= b -> fib a <= fib b.
Proof. induction 1 as [|b H IH]; [lia|]. pose proof (fib_pos b). lia. Qed.

(** * Prefix-free codes have a tree *)
Definition prefix_free (cs : list (list bool)) : Prop :=
  forall i j a b x, nth_error cs i = Some a -> nth_error cs j = Some b -> b = a ++ x -> i = j.
Definition inc (a b : list bool) : Prop := (forall x, b <> a ++ x) /\ (forall x, a <> b ++ x).
Lemma inc_sym a b : inc a b -> inc b a.
Proof. intros [H1 H2]. now split. Qed.
Lemma prefix_free_pairs cs : prefix_free cs -> ForallOrdPairs inc cs.
Proof.
  induction cs as [|c cs IH]; intros H; constructor.
  - apply Forall_forall. intros b Hb. apply In_nth_error in Hb as [j Hj]. split; intros x E.
    + specialize (H 0 (S j) c b x eq_refl Hj E). discriminate.
    + specialize (H (S j) 0 b c x Hj eq_refl E). discriminate.
  - apply IH. intros i j a b x Hi Hj E. specialize (H (S i) (S j) a b x Hi Hj E). congruence.
Qed.
Lemma pairs_perm cs cs' : Permutation cs cs' -> ForallOrdPairs inc cs -> ForallOrdPairs inc cs'.
Proof.
  induction 1 as [|c cs cs' P IH|a b cs|cs1 cs2 cs3 P1 IH1 P2 IH2]; intros H; auto.
  - inversion H as [|? ? Hf Hp]; subst. constructor; [|auto]. eapply Permutation_Forall; eassumption.
  - inversion H as [|? ? Hf Hp]; subst. inversion Hp as [|? ? Hf2 Hp2]; subst. inversion Hf as [|? ? Hba Hf1]; subst.
    constructor; [|constructor; assumption]. constructor; [now apply inc_sym|assumption].
Qed.
Lemma pairs_app_l cs1 cs2 : ForallOrdPairs inc (cs1 ++ cs2) -> ForallOrdPairs inc cs1 /\ ForallOrdPairs inc cs2.
Proof.
  induction cs1 as [|c cs1 IH]; cbn; intros H; [split; [constructor|assumption]|]. inversion H as [|? ? Hf Hp]; subst.
  destruct (IH Hp) as [H1 H2]. split; [|assumption]. constructor; [|assumption]. apply Forall_app in Hf. apply Hf.
Qed.
Lemma pairs_tail b cs : ForallOrdPairs inc (map (cons b) cs) -> ForallOrdPairs inc cs.
Proof.
  induction cs as [|c cs IH]; cbn; intros H; [constructor|]. inversion H as [|? ? Hf Hp]; subst. constructor; [|auto].
  apply Forall_forall. intros d Hd. rewrite Forall_forall in Hf. destruct (Hf (b :: d)) as [H1 H2]; [now apply in_map|].
  split; intros x E; [apply (H1 x)|apply (H2 x)]; now rewrite E.
Qed.
Definition by_first (cs : list (list bool)) : list (list bool) * list (list bool) :=
  (concat (map (fun c => match c with false :: c' => [c'] | _ => [] end) cs), concat (map (fun c => match c with true :: c' => [c'] | _ => [] end) cs)).
Lemma by_first_perm cs : ~ In [] cs -> Permutation cs (map (cons false) (fst (by_first cs)) ++ map (cons true) (snd (by_first cs))).
Proof.
  induction cs as [|[|[|] c] cs IH]; intros H; cbn [by_first map concat fst snd app] in *; [constructor|exfalso; apply H; now left| |].
  - transitivity (([true :: c] ++ map (cons false) (fst (by_first cs))) ++ map (cons true) (snd (by_first cs))).
    + cbn [app]. constructor. apply IH. intros C. apply H. now right.
    + rewrite (Permutation_app_comm [true :: c]), <- app_assoc. reflexivity.
  - cbn [map app]. constructor. apply IH. intros C. apply H. now right.
Qed.
Lemma forall2_perm {A B} (R : A -> B -> Prop) l l' m : Permutation l l' -> Forall2 R m l' -> exists m', Permutation m' m /\ Forall2 R m' l.
Proof.
  intros P. revert m. induction P as [|x l l' P IH|x y l|l1 l2 l3 P1 IH1 P2 IH2]; intros m H.
  - inversion H; subst. exists []. now split.
  - inversion H as [|a ? m1 ? Hr Hm]; subst. destruct (IH m1 Hm) as [m' [Pm Hm']]. exists (a :: m'). split; [now constructor|now constructor].
  - inversion H as [|a ? m1 ? Hr Hm]; subst. inversion Hm as [|b ? m2 ? Hr2 Hm2]; subst. exists (b :: a :: m2). split; [apply perm_swap|].
    constructor; [assumption|]. now constructor.
  - destruct (IH2 m H) as [m2 [Q2 H2]]. destruct (IH1 m2 H2) as [m1 [Q1 H1]]. exists m1. split; [now rewrite Q1|assumption].
Qed.
Definition fits (d : nat) (c : list bool) : Prop := d <= length c.
Lemma total_len_perm (cs cs' : list (list bool)) : Permutation cs cs' -> list_sum (map (@length bool) cs) = list_sum (map (@length bool) cs').
Proof. intros P. apply list_sum_perm, Permutation_map, P. Qed.
Lemma map_cons_len b cs : list_sum (map (@length bool) (map (cons b) cs)) = list_sum (map (@length bool) cs) + length cs.
Proof. induction cs as [|c cs IH]; [reflexivity|]. unfold list_sum in *. cbn [map fold_right length] in *. lia. Qed.
Lemma prefix_shape N : forall cs, list_sum (map (@length bool) cs) <= N -> cs <> [] -> ForallOrdPairs inc cs ->
  exists ds, Forall2 fits ds cs /\ shape ds.
Proof.
  induction N as [N IH] using lt_wf_ind. intros cs HN Hne H. destruct cs as [|c1 [|c2 cs0]]; [congruence| |].
  - exists [0]. split; [|constructor]. constructor; [unfold fits; lia|constructor].
  - set (cs := c1 :: c2 :: cs0) in *.
    assert (He : ~ In [] cs).
    { intros [E|[E|E]]; unfold cs in H; inversion H as [|? ? Hf Hp]; subst.
      - inversion Hf as [|? ? [Hi _] _]; subst. now apply (Hi c2).
      - inversion Hf as [|? ? [_ Hi] _]; subst. now apply (Hi c1).
      - rewrite Forall_forall in Hf. destruct (Hf []) as [_ Hi]; [now right|]. now apply (Hi c1). }
    pose proof (by_first_perm cs He) as P. set (c0 := fst (by_first cs)) in *. set (c1' := snd (by_first cs)) in *.
    assert (Hl : list_sum (map (@length bool) cs) = list_sum (map (@length bool) c0) + length c0 + (list_sum (map (@length bool) c1') + length c1')).
    { rewrite (total_len_perm _ _ P), map_app, list_sum_app, !map_cons_len. lia. }
    assert (Hn : 2 <= length c0 + length c1').
    { apply Permutation_length in P. rewrite app_length, !map_length in P. change (length cs) with (S (S (length cs0))) in P. lia. }
    pose proof (pairs_perm _ _ P H) as Hp. apply pairs_app_l in Hp as [Hp0 Hp1].
    apply pairs_tail in Hp0, Hp1.
    assert (Hcons : forall b ds cs1, Forall2 fits ds cs1 -> Forall2 fits (map S ds) (map (cons b) cs1)).
    { clear. intros b ds cs1 H. induction H as [|d c ds cs1 Hd H IH]; cbn; constructor; [unfold fits in *; cbn; lia|assumption]. }
    assert (Hcons' : forall b ds cs1, Forall2 fits ds cs1 -> Forall2 fits ds (map (cons b) cs1)).
    { clear. intros b ds cs1 H. induction H as [|d c ds cs1 Hd H IH]; cbn; constructor; [unfold fits in *; cbn; lia|assumption]. }
    enough (G : exists ds, Forall2 fits ds (map (cons false) c0 ++ map (cons true) c1') /\ shape ds).
    { destruct G as [ds [Hd Hs]]. destruct (forall2_perm fits _ _ _ P Hd) as [ds' [Pd Hd']]. exists ds'. split; [assumption|].
      eapply shape_perm; [symmetry; exact Pd|assumption]. }
    clearbody c0 c1'.
    destruct c0 as [|x0 y0] eqn:E0; [|destruct c1' as [|x1 y1] eqn:E1].
    + destruct (IH (list_sum (map (@length bool) c1'))) with (cs := c1') as [ds [Hd Hs]]; [unfold list_sum in Hl at 2; cbn [map fold_right length] in Hl, Hn; lia|lia| |assumption|].
      * intros C. rewrite C in Hn. cbn in Hn. lia.
      * exists ds. split; [cbn; now apply Hcons'|assumption].
    + rewrite <- E0 in *. destruct (IH (list_sum (map (@length bool) c0))) with (cs := c0) as [ds [Hd Hs]]; [unfold list_sum in Hl at 3; cbn [map fold_right length] in Hl, Hn; lia|lia| |assumption|].
      * rewrite E0. discriminate.
      * exists ds. rewrite app_nil_r. split; [now apply Hcons'|assumption].
    + rewrite <- E0, <- E1 in *.
      destruct (IH (list_sum (map (@length bool) c0))) with (cs := c0) as [d0 [Hd0 Hs0]]; [rewrite E1 in *; cbn [length] in *; lia|lia|rewrite E0; discriminate|assumption|].
      destruct (IH (list_sum (map (@length bool) c1'))) with (cs := c1') as [d1 [Hd1 Hs1]]; [rewrite E0 in *; cbn [length] in *; lia|lia|rewrite E1; discriminate|assumption|].
      exists (map S d0 ++ map S d1). split; [apply Forall2_app; now apply Hcons|now apply shape_node].
Qed.
(** Weights times lengths. *)
Fixpoint weighted (ws ls : list nat) : nat := match ws, ls with w :: ws', l :: ls' => w * l + weighted ws' ls' | _, _ => 0 end.
Lemma weighted_total ws : forall ls, weighted ws ls = total (combine ws ls).
Proof. induction ws as [|w ws IH]; intros [|l ls]; cbn [weighted combine]; try reflexivity. rewrite IH, total_cons. reflexivity. Qed.
Lemma weighted_mono ws : forall ds cs, Forall2 fits ds cs -> weighted ws ds <= weighted ws (map (@length bool) cs).
Proof.
  induction ws as [|w ws IH]; intros ds cs H; [cbn; lia|]. destruct H as [|d c ds cs Hd H]; cbn [weighted map]; [lia|].
  specialize (IH _ _ H). unfold fits in Hd. nia.
Qed.
Lemma combine_map {A B} (l : list A) (m : list B) : length l = length m -> map fst (combine l m) = l /\ map snd (combine l m) = m.
Proof.
  revert m. induction l as [|x l IH]; intros [|y m] H; cbn in *; try lia; [now split|].
  destruct (IH m ltac:(lia)) as [-> ->]. now split.
Qed.

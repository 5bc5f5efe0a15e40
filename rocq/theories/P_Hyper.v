(** C73: sets of transformations and hyperedges. *)
From Coq Require Import String Ascii List ZArith NArith Bool PeanoNat Lia Permutation Sorted.
From Verif Require Import M_Hyper.
Import ListNotations.
Local Open Scope nat_scope.

(** ** The order of transformations *)
Lemma ascii_compare_n a b : Ascii.compare a b = N.compare (N_of_ascii a) (N_of_ascii b).
Proof. reflexivity. Qed.
Lemma ltb_irrefl s : (s <? s)%string = false.
Proof.
  unfold String.ltb. replace (String.compare s s) with Eq; [easy|].
  induction s as [|c s IH]; cbn [String.compare]; [easy|]. now rewrite ascii_compare_n, N.compare_refl.
Qed.
Lemma ltb_compare a b : (a <? b)%string = true <-> String.compare a b = Lt.
Proof. unfold String.ltb. destruct (String.compare a b); split; easy. Qed.
Lemma compare_trans a : forall b c, String.compare a b = Lt -> String.compare b c = Lt -> String.compare a c = Lt.
Proof.
  induction a as [|x a IH]; intros [|y b] [|z c]; cbn [String.compare]; try easy.
  rewrite !ascii_compare_n.
  destruct (N.compare_spec (N_of_ascii x) (N_of_ascii y)) as [E1|L1|L1]; try easy; intros A;
    destruct (N.compare_spec (N_of_ascii y) (N_of_ascii z)) as [E2|L2|L2]; try easy; intros B.
  - rewrite E1, E2, N.compare_refl. now apply (IH b c).
  - rewrite E1, (proj2 (N.compare_lt_iff _ _) L2). easy.
  - rewrite <- E2, (proj2 (N.compare_lt_iff _ _) L1). easy.
  - assert (L3 : (N_of_ascii x < N_of_ascii z)%N) by lia. rewrite (proj2 (N.compare_lt_iff _ _) L3). easy.
Qed.
Lemma ltb_trans a b c : (a <? b)%string = true -> (b <? c)%string = true -> (a <? c)%string = true.
Proof. rewrite !ltb_compare. apply compare_trans. Qed.
Lemma ltb_asym a b : (a <? b)%string = true -> (b <? a)%string = true -> False.
Proof. intros A B. pose proof (ltb_trans _ _ _ A B) as C. rewrite ltb_irrefl in C. discriminate. Qed.
Lemma ltb_total a b : (a <? b)%string = false -> (b <? a)%string = false -> a = b.
Proof.
  unfold String.ltb. rewrite (String.compare_antisym b a). destruct (String.compare a b) eqn:E; try easy.
  intros _ _. now apply String.compare_eq_iff.
Qed.
Lemma sorter_iff a b : sorter a b = true <-> (t_cost a < t_cost b)%Z \/ (t_str a <? t_str b)%string = true.
Proof. unfold sorter. rewrite orb_true_iff, Z.ltb_lt. easy. Qed.

(** The comparison of transformations is not an order. *)
Theorem C73_sorter_refuted : ~ (forall a b, sorter a b = true -> sorter b a = false).
Proof.
  intros H. specialize (H (Transf 1 "b") (Transf 2 "a") eq_refl). vm_compute in H. discriminate.
Qed.
Print Assumptions C73_sorter_refuted.
(** It is one, and tells all transformations apart, among transformations of which cheaper ones never have greater strings. *)
Theorem C73_sorter (S : transf -> Prop) :
  (forall a b, S a -> S b -> (t_cost a < t_cost b)%Z -> (t_str b <? t_str a)%string = false) ->
  (forall a b, S a -> S b -> sorter a b = true -> sorter b a = false)
  /\ (forall a b c, S a -> S b -> S c -> sorter a b = true -> sorter b c = true -> sorter a c = true)
  /\ (forall a b, S a -> S b -> sorter a b = false -> sorter b a = false -> a = b).
Proof.
  intros H. repeat split.
  - intros a b Sa Sb A. apply not_true_iff_false. intros B. apply sorter_iff in A, B.
    destruct A as [A|A], B as [B|B]; [lia| | |].
    + rewrite (H a b Sa Sb A) in B. discriminate.
    + rewrite (H b a Sb Sa B) in A. discriminate.
    + now apply (ltb_asym _ _ A).
  - intros a b c Sa Sb Sc A B. apply sorter_iff. apply sorter_iff in A, B.
    destruct (Z.lt_trichotomy (t_cost a) (t_cost c)) as [L|[E|L]]; [now left| |]; right.
    + destruct A as [A|A], B as [B|B]; [lia| | |now apply (ltb_trans _ (t_str b))].
      * (* a < b by cost, b < c by string, cost a = cost c *)
        exfalso. assert (C : (t_cost c < t_cost b)%Z) by lia. now rewrite (H c b Sc Sb C) in B.
      * exfalso. assert (C : (t_cost b < t_cost a)%Z) by lia. now rewrite (H b a Sb Sa C) in A.
    + destruct A as [A|A], B as [B|B]; [lia| | |now apply (ltb_trans _ (t_str b))].
      * exfalso. assert (C : (t_cost c < t_cost b)%Z) by lia. now rewrite (H c b Sc Sb C) in B.
      * exfalso. assert (C : (t_cost b < t_cost a)%Z) by lia. now rewrite (H b a Sb Sa C) in A.
  - intros [ca sa] [cb sb] Sa Sb A B. unfold sorter in *. cbn in *. apply orb_false_iff in A as [A1 A2], B as [B1 B2].
    apply Z.ltb_ge in A1, B1. rewrite (ltb_total _ _ A2 B2). f_equal. lia.
Qed.
Print Assumptions C73_sorter.
Example C73_sorter_some : exists a b, sorter a b = true /\ sorter b a = false /\ (t_cost a < t_cost b)%Z /\ (t_str b <? t_str a)%string = false.
Proof. exists (Transf 1 "a"), (Transf 2 "b"). repeat split. Qed.

(** ** Filling hyperedges *)
(** What is known of insert: it adds the transformation or, if there is one neither less nor greater, may do nothing. *)
Definition inserts (add : list transf -> transf -> list transf) : Prop :=
  forall q t, (add q t = q /\ exists u, In u q /\ sorter u t = false /\ sorter t u = false) \/ Permutation (add q t) (t :: q).
Lemma alike_eq u t : sorter u t = false -> sorter t u = false -> u = t.
Proof.
  destruct u as [cu su], t as [ct st]. unfold sorter. cbn. intros A B. apply orb_false_iff in A as [A1 A2], B as [B1 B2].
  apply Z.ltb_ge in A1, B1. rewrite (ltb_total _ _ A2 B2). f_equal. lia.
Qed.
Lemma inserts_in add : inserts add -> forall q t x, In x (add q t) <-> x = t \/ In x q.
Proof.
  intros I q t x. destruct (I q t) as [[-> (u & Iu & A & B)]|P].
  - rewrite (alike_eq u t A B) in Iu. split; [now right|intros [->|H]; easy].
  - split; intros H.
    + apply (Permutation_in _ P) in H as [<-|H]; [now left|now right].
    + apply (Permutation_in _ (Permutation_sym P)). destruct H as [->|H]; [now left|now right].
Qed.
Lemma inserts_len add : inserts add -> forall q t, length (add q t) <= S (length q).
Proof. intros I q t. destruct (I q t) as [[-> _]|P]; [lia|]. apply Permutation_length in P. cbn in P. lia. Qed.
Lemma take_len add max eps : inserts add -> forall ts t, length ts <= max -> length (take add max eps ts t) <= max.
Proof.
  intros I ts t L. unfold take. destruct (Nat.ltb_spec (length ts) max) as [K|K]; [|easy].
  pose proof (inserts_len add I ts t). destruct ts; [lia|]. destruct (_ <? _)%Z; [destruct (_ <=? _)%Z|]; lia.
Qed.
Lemma take_in add max eps : inserts add -> forall ts t x, In x (take add max eps ts t) -> x = t \/ In x ts.
Proof.
  intros I ts t x. unfold take. destruct (_ <? _); [|now right].
  destruct ts as [|b ts]; [apply inserts_in; easy|]. destruct (_ <? _)%Z; [destruct (_ <=? _)%Z; [|now right]|]; now apply inserts_in.
Qed.
(** A hyperedge gets at most max transformations, all of them from the list; without a threshold, and if they differ, the first
    ones. *)
Theorem C73_fill add max eps nts l : inserts add ->
  length (h_ts (fill add max eps nts l)) <= max
  /\ (forall t, In t (h_ts (fill add max eps nts l)) -> In t l)
  /\ ((eps <= 0)%Z -> NoDup l -> Permutation (h_ts (fill add max eps nts l)) (firstn max l)).
Proof.
  intros I. unfold fill. cbn [h_ts].
  assert (A : forall ts, length ts <= max -> length (fold_left (take add max eps) l ts) <= max).
  { induction l as [|t l IH]; intros ts L; cbn [fold_left]; [easy|]. apply IH. now apply take_len. }
  assert (B : forall ts t, In t (fold_left (take add max eps) l ts) -> In t l \/ In t ts).
  { clear A. induction l as [|u l IH]; intros ts t H; cbn [fold_left] in H; [now right|].
    apply IH in H as [H|H]; [left; now right|]. apply take_in in H as [->|H]; [left; now left|now right|easy]. }
  split; [apply A; cbn; lia|]. split; [intros t H; now apply B in H as [H|[]]|].
  clear A B. intros E N.
  assert (C : forall ts, length ts <= max -> NoDup (ts ++ l) -> Permutation (fold_left (take add max eps) l ts) (ts ++ firstn (max - length ts) l)).
  { clear N. induction l as [|t l IH]; intros ts L N; cbn [fold_left].
    - now rewrite firstn_nil, app_nil_r.
    - assert (Nt : ~ In t ts) by (intros H; apply NoDup_remove in N as [_ N]; apply N, in_app_iff; now left).
      assert (T : length ts < max -> Permutation (take add max eps ts t) (t :: ts)).
      { intros K. unfold take. rewrite (proj2 (Nat.ltb_lt _ _) K).
        assert (Pa : Permutation (add ts t) (t :: ts)).
        { destruct (I ts t) as [[_ (u & Iu & P & Q)]|P]; [|easy]. rewrite (alike_eq u t P Q) in Iu. easy. }
        destruct ts; [easy|]. replace (0 <? eps)%Z with false by (symmetry; apply Z.ltb_ge; lia). easy. }
      destruct (Nat.eq_dec (length ts) max) as [F|F].
      + assert (T' : take add max eps ts t = ts) by (unfold take; rewrite F, Nat.ltb_irrefl; easy). rewrite T'.
        rewrite IH; [|easy|].
        * replace (max - length ts) with 0 by lia. cbn [firstn]. easy.
        * now apply NoDup_remove in N as [N _].
      + specialize (T ltac:(lia)). rewrite IH.
        * rewrite (Permutation_length T). replace (max - length ts) with (S (max - S (length ts))) by lia. cbn [firstn length].
          rewrite T. cbn [app]. apply Permutation_middle.
        * rewrite (Permutation_length T). cbn. lia.
        * apply (Permutation_NoDup (l := ts ++ t :: l)); [|easy]. rewrite T. symmetry. apply Permutation_middle. }
  specialize (C [] ltac:(cbn; lia) N). cbn [app length] in C. now rewrite Nat.sub_0_r in C.
Qed.
Print Assumptions C73_fill.
(** An insert for examples: ordered by the comparison as far as it goes. *)
Fixpoint place (q : list transf) (t : transf) : list transf :=
  match q with [] => [t] | u :: q' => if sorter t u then t :: q else u :: place q' t end.
Definition add_t (q : list transf) (t : transf) : list transf :=
  if existsb (fun u => negb (sorter u t) && negb (sorter t u)) q then q else place q t.
Lemma add_t_inserts : inserts add_t.
Proof.
  intros q t. unfold add_t. destruct (existsb _ q) eqn:E.
  - left. split; [easy|]. apply existsb_exists in E as (u & I & E). apply andb_true_iff in E as [A B]. exists u.
    split; [easy|]. split; now apply negb_true_iff.
  - right. clear. induction q as [|u q IH]; cbn; [easy|]. destruct (sorter t u); [easy|]. rewrite IH. apply perm_swap.
Qed.
Definition five : list transf := [Transf 5 "a"; Transf 7 "b"; Transf 1 "c"]%string.
Example C73_fill_some : h_ts (fill add_t 2 (-1) "" five) = [Transf 5 "a"; Transf 7 "b"] /\ NoDup five.
Proof. split; [now vm_compute|]. repeat constructor; cbn; intuition discriminate. Qed.
(** So the cheapest may be left out. *)
Theorem C73_fill_refuted :
  ~ (forall add max eps nts l, inserts add -> forall t, In t l -> (forall u, In u l -> (t_cost t <= t_cost u)%Z) -> 0 < max ->
     In t (h_ts (fill add max eps nts l))).
Proof.
  intros H. specialize (H add_t 2 (-1)%Z ""%string five add_t_inserts (Transf 1 "c")).
  assert (I : In (Transf 1 "c") five) by (cbn; auto).
  assert (L : forall u, In u five -> (t_cost (Transf 1 "c") <= t_cost u)%Z) by (cbn; intros u [<-|[<-|[<-|[]]]]; cbn; lia).
  specialize (H I L ltac:(lia)). vm_compute in H. intuition discriminate.
Qed.
Print Assumptions C73_fill_refuted.

(** ** The hyperedges of a symbol *)
Definition cheaper (g h : edge) : Prop := (edge_cost g < edge_cost h)%Z.
Definition all_edges (l : list edge) : list edge := fold_left (fun s h => insert_edge h s) l [].
(** The first of its cost. *)
Definition first_of (l : list edge) (h : edge) : Prop := exists a b, l = a ++ h :: b /\ forall x, In x a -> edge_cost x <> edge_cost h.
Definition cheaper_costs (l : list edge) (h : edge) : nat :=
  length (nodup Z.eq_dec (filter (fun c => (c <? edge_cost h)%Z) (map edge_cost l))).

Lemma keep_firstn max h s : firstn max (insert_edge h (firstn max s)) = firstn max (insert_edge h s).
Proof.
  revert max. induction s as [|g s IH]; intros max; [now rewrite firstn_nil|]. destruct max as [|m]; [easy|].
  cbn [firstn insert_edge]. destruct (edge_cost h <? edge_cost g)%Z.
  - cbn [firstn]. f_equal. destruct m as [|m]; [easy|]. rewrite !(firstn_cons m g). f_equal. rewrite firstn_firstn. f_equal. lia.
  - destruct (edge_cost g <? edge_cost h)%Z; cbn [firstn]; [now rewrite IH|]. f_equal. now rewrite firstn_firstn, Nat.min_id.
Qed.
Lemma keep_all max l : forall s, fold_left (keep max) l (firstn max s) = firstn max (fold_left (fun s h => insert_edge h s) l s).
Proof.
  induction l as [|h l IH]; intros s; cbn [fold_left]; [easy|]. unfold keep at 2. rewrite keep_firstn. apply IH.
Qed.
Lemma insert_edge_in h s : StronglySorted cheaper s -> forall x, In x (insert_edge h s) <-> In x s \/ (x = h /\ forall g, In g s -> edge_cost g <> edge_cost h).
Proof.
  induction s as [|g s IH]; intros S x; cbn [insert_edge]; [cbn; intuition|]. apply StronglySorted_inv in S as [S H]. rewrite Forall_forall in H.
  destruct (Z.ltb_spec (edge_cost h) (edge_cost g)) as [A|A].
  - cbn [In]. split; [intros [<-|K]; [right|now left]|intros [K|[-> _]]; auto]. split; [easy|].
    intros g' [<-|I]; [lia|]. specialize (H g' I). unfold cheaper in H. lia.
  - destruct (Z.ltb_spec (edge_cost g) (edge_cost h)) as [B|B].
    + cbn [In]. rewrite (IH S x). split.
      * intros [<-|[K|[-> K]]]; [left; now left|left; now right|]. right. split; [easy|]. intros g' [<-|I]; [lia|now apply K].
      * intros [[<-|K]|[-> K]]; [now left|right; now left|right; right]. split; [easy|]. intros g' I. apply K. now right.
    + split; [now left|]. intros [K|[-> K]]; [easy|]. exfalso. apply (K g); [now left|lia].
Qed.
Lemma insert_edge_sorted h s : StronglySorted cheaper s -> StronglySorted cheaper (insert_edge h s).
Proof.
  induction s as [|g s IH]; intros S; cbn [insert_edge]; [repeat constructor|]. pose proof S as S0. apply StronglySorted_inv in S as [S H].
  destruct (Z.ltb_spec (edge_cost h) (edge_cost g)) as [A|A].
  - constructor; [easy|]. constructor; [easy|]. eapply Forall_impl; [|exact H]. unfold cheaper. intros; lia.
  - destruct (Z.ltb_spec (edge_cost g) (edge_cost h)) as [B|B]; [|easy]. constructor; [now apply IH|].
    rewrite Forall_forall in *. intros x Hx. apply insert_edge_in in Hx as [Hx|[-> _]]; [now apply H|easy|easy].
Qed.
Lemma all_edges_spec l : StronglySorted cheaper (all_edges l) /\ (forall h, In h (all_edges l) <-> first_of l h).
Proof.
  induction l as [|g l [IS IH]] using rev_ind.
  - split; [constructor|]. intros h. split; [easy|]. intros (a & b & E & _). now destruct a.
  - unfold all_edges in *. rewrite fold_left_app. cbn [fold_left]. split; [now apply insert_edge_sorted|]. intros h.
    rewrite (insert_edge_in g _ IS), IH. split.
    + intros [(a & b & -> & H)|[-> H]].
      * exists a, (b ++ [g]). split; [now rewrite <- app_assoc|easy].
      * exists l, []. split; [easy|]. intros x Hx Ec.
        (* the first of the cost of x is there *)
        assert (K : exists y, first_of l y /\ edge_cost y = edge_cost x).
        { clear -Hx. induction l as [|z l IHl]; [easy|]. destruct (Z.eq_dec (edge_cost z) (edge_cost x)) as [E|N].
          - exists z. split; [|easy]. exists [], l. split; [easy|]. now intros.
          - destruct Hx as [->|Hx]; [easy|]. destruct (IHl Hx) as (y & (a & b & -> & F) & E). exists y. split; [|easy]. exists (z :: a), b. split; [easy|].
            intros w [<-|Hw]; [congruence|now apply F]. }
        destruct K as (y & F & E). apply IH in F. apply (H y F). congruence.
    + intros (a & b & E & F). destruct (exists_last (l := h :: b)) as (b' & z & Eb); [easy|].
      rewrite Eb, app_assoc in E. apply app_inj_tail in E as [E ->].
      destruct b' as [|w b'].
      * cbn in Eb. inversion Eb; subst. right. split; [easy|]. intros x Hx. apply F. apply IH in Hx as (a' & b' & Ea & _). rewrite app_nil_r in Ea. rewrite Ea.
        apply in_app_iff. right. now left.
      * cbn in Eb. inversion Eb; subst. left. now exists a, b'.
Qed.
Lemma firstn_sorted_in max s h : StronglySorted cheaper s ->
  In h (firstn max s) <-> In h s /\ length (filter (fun c => (c <? edge_cost h)%Z) (map edge_cost s)) < max.
Proof.
  revert max. induction s as [|g s IH]; intros max S; [rewrite firstn_nil; easy|]. apply StronglySorted_inv in S as [S H]. rewrite Forall_forall in H.
  destruct max as [|m]; [split; [easy|lia]|]. cbn [firstn In map filter].
  destruct (Z.ltb_spec (edge_cost g) (edge_cost h)) as [L|L].
  - cbn [length]. rewrite (IH m S). split.
    + intros [->|[I K]]; [lia|]. split; [now right|lia].
    + intros [[->|I] K]; [lia|]. right. split; [easy|lia].
  - assert (Z0 : filter (fun c => (c <? edge_cost h)%Z) (map edge_cost s) = []).
    { clear -L H. induction s as [|x s IH]; [easy|]. cbn. pose proof (H x (or_introl eq_refl)) as K. unfold cheaper in K.
      replace (edge_cost x <? edge_cost h)%Z with false by (symmetry; apply Z.ltb_ge; lia). apply IH. intros y Hy. apply H. now right. }
    rewrite Z0. cbn [length]. split; [intros [K|K]; [split; [now left|lia]|]|].
    + assert (I : In h s) by (rewrite <- (firstn_skipn m s); apply in_app_iff; now left). specialize (H h I). unfold cheaper in H. lia.
    + intros [[K|K] _]; [now left|]. specialize (H h K). unfold cheaper in H. lia.
Qed.
(** The hyperedges of a symbol: of each of the max cheapest costs the one that came first, in the order of costs. *)
Theorem C73_keep max l :
  StronglySorted cheaper (fold_left (keep max) l [])
  /\ forall h, In h (fold_left (keep max) l []) <-> first_of l h /\ cheaper_costs l h < max.
Proof.
  pose proof (keep_all max l []) as E. rewrite firstn_nil in E. rewrite E. destruct (all_edges_spec l) as [S I]. fold (all_edges l). split.
  - clear -S. revert max. induction S as [|g s S IH H]; intros [|m]; cbn [firstn]; constructor; [apply IH|]. rewrite Forall_forall in *.
    intros x Hx. apply H. rewrite <- (firstn_skipn m s). apply in_app_iff. now left.
  - intros h. rewrite firstn_sorted_in, I by easy.
    assert (K : length (filter (fun c => (c <? edge_cost h)%Z) (map edge_cost (all_edges l))) = cheaper_costs l h).
    { unfold cheaper_costs. apply Permutation_length, NoDup_Permutation.
      - apply NoDup_filter. clear -S. induction S as [|g s S IH H]; cbn; constructor; [|easy]. intros K. apply in_map_iff in K as (x & Ex & Ix).
        rewrite Forall_forall in H. specialize (H x Ix). unfold cheaper in H. lia.
      - apply NoDup_nodup.
      - intros c. rewrite nodup_In, !filter_In, !in_map_iff. split; intros [(x & Ex & Ix) Lc]; (split; [|easy]).
        + apply I in Ix as (a & b & -> & _). exists x. split; [easy|]. apply in_app_iff. right. now left.
        + assert (Q : exists y, first_of l y /\ edge_cost y = edge_cost x).
          { clear -Ix. induction l as [|z l IHl]; [easy|]. destruct (Z.eq_dec (edge_cost z) (edge_cost x)) as [E|N].
            - exists z. split; [|easy]. exists [], l. split; [easy|]. now intros.
            - destruct Ix as [->|Hx]; [easy|]. destruct (IHl Hx) as (y & (a & b & -> & F) & E). exists y. split; [|easy]. exists (z :: a), b.
              split; [easy|]. intros w [<-|Hw]; [congruence|now apply F]. }
          destruct Q as (y & F & E'). exists y. split; [congruence|now apply I]. }
    now rewrite K.
Qed.
Print Assumptions C73_keep.
Definition mk (nts : string) (c : Z) : edge := Edge nts [Transf c nts].
Example C73_keep_some : map h_nts (fold_left (keep 3) [mk "a" 5; mk "b" 2; mk "c" 9; mk "d" 2; mk "e" 7; mk "f" 1]%string []) = ["f"; "b"; "a"]%string.
Proof. now vm_compute. Qed.
(** Of two hyperedges of the same cost one is lost, although there is room. *)
Theorem C73_equal_refuted : ~ (forall max l h, In h l -> length l <= max -> In h (fold_left (keep max) l [])).
Proof.
  intros H. specialize (H 5 [mk "a" 1; mk "b" 1] (mk "b" 1) ltac:(cbn; auto) ltac:(cbn; lia)). vm_compute in H.
  destruct H as [H|[]]. discriminate.
Qed.
Print Assumptions C73_equal_refuted.

(** Every symbol gets those of its own. *)
Lemma lookup_update sym f t s : lookup s (update sym f t) =
  if (sym =? s)%string then Some (f (match lookup s t with Some e => e | None => [] end)) else lookup s t.
Proof.
  unfold lookup. induction t as [|[k e] t IH]; cbn [update List.find fst].
  - destruct (String.eqb_spec sym s) as [->|N]; cbn; easy.
  - destruct (String.eqb_spec k sym) as [->|N]; cbn [List.find fst].
    + destruct (String.eqb_spec sym s) as [->|M]; [cbn; easy|easy].
    + destruct (String.eqb_spec k s) as [->|M].
      * destruct (String.eqb_spec sym s) as [->|M']; [easy|]. cbn. easy.
      * exact IH.
Qed.
Theorem C73_symbols max l s :
  lookup s (collect max l) =
  match filter (fun x => (fst x =? s)%string) l with
  | [] => None
  | own => Some (fold_left (keep max) (map snd own) [])
  end.
Proof.
  unfold collect.
  assert (K : forall t, lookup s (fold_left (fun t x => update (fst x) (fun e => keep max e (snd x)) t) l t) =
    match filter (fun x => (fst x =? s)%string) l with
    | [] => lookup s t
    | own => Some (fold_left (keep max) (map snd own) (match lookup s t with Some e => e | None => [] end))
    end).
  { induction l as [|[k e] l IH]; intros t; cbn [fold_left filter fst snd]; [easy|]. rewrite IH, lookup_update.
    destruct (String.eqb_spec k s) as [->|N]; [|easy]. cbn [map fold_left snd]. destruct (filter _ l); easy. }
  rewrite K. destruct (filter _ l); easy.
Qed.
Print Assumptions C73_symbols.
Example C73_symbols_some : option_map (map h_nts) (lookup "X" (collect 2 [("X", mk "a" 3); ("Y", mk "b" 1); ("X", mk "c" 2)])%string) = Some ["c"; "a"]%string.
Proof. now vm_compute. Qed.

(** ** Several sets of rules *)
Lemma merge_edge_in add h g t : inserts add -> In t (h_ts (merge_edge add h g)) <-> In t (h_ts h) \/ In t (h_ts g).
Proof.
  intros I. unfold merge_edge. cbn [h_ts]. revert t. generalize (h_ts h) as q. induction (h_ts g) as [|u l IH]; intros q t; cbn [fold_left In]; [intuition|].
  rewrite IH, (inserts_in add I). intuition (subst; auto).
Qed.
Lemma found_some nts s i : found nts s = Some i -> exists a h b, s = a ++ h :: b /\ length a = i /\ h_nts h = nts /\ Forall (fun x => h_nts x <> nts) b.
Proof.
  revert i. induction s as [|h s IH]; intros i E; [easy|]. cbn in E. destruct (found nts s) as [j|] eqn:F.
  - inversion E; subst. destruct (IH j eq_refl) as (a & g & b & -> & L & N & A). exists (h :: a), g, b. cbn. now rewrite L.
  - destruct (String.eqb_spec (h_nts h) nts) as [Eq|]; [|easy]. inversion E; subst. exists [], h, s. repeat split; auto.
    clear -F. induction s as [|g s IH]; constructor; cbn in F; destruct (found (h_nts h) s); try easy; destruct (String.eqb_spec (h_nts g) (h_nts h)); try easy. now apply IH.
Qed.
Lemma found_none nts s : found nts s = None -> Forall (fun x => h_nts x <> nts) s.
Proof.
  induction s as [|g s IH]; intros F; constructor; cbn in F; destruct (found nts s); try easy; destruct (String.eqb_spec (h_nts g) nts); try easy. now apply IH.
Qed.
Lemma sorted_remove (a : list edge) h b : StronglySorted cheaper (a ++ h :: b) -> StronglySorted cheaper (a ++ b).
Proof.
  induction a as [|x a IH]; cbn; intros S; [now apply StronglySorted_inv in S|]. apply StronglySorted_inv in S as [S H].
  constructor; [now apply IH|]. rewrite Forall_forall in *. intros y Hy. apply H. apply in_app_iff in Hy. apply in_app_iff. destruct Hy; [now left|right; now right].
Qed.
(** Taking a hyperedge of another set of rules: the last hyperedge with the same nonterminals gets its transformations, or else it
    is added; either way it is lost if another one has the cost it has then. *)
Theorem C73_merge add s g : inserts add -> StronglySorted cheaper s ->
  StronglySorted cheaper (merge_one add s g) /\
  ((Forall (fun h => h_nts h <> h_nts g) s /\
    forall x, In x (merge_one add s g) <-> In x s \/ (x = g /\ forall h, In h s -> edge_cost h <> edge_cost g))
   \/ exists a h b m, s = a ++ h :: b /\ h_nts h = h_nts g /\ Forall (fun x => h_nts x <> h_nts g) b /\
      h_nts m = h_nts g /\ (forall t, In t (h_ts m) <-> In t (h_ts h) \/ In t (h_ts g)) /\
      forall x, In x (merge_one add s g) <-> In x (a ++ b) \/ (x = m /\ forall h', In h' (a ++ b) -> edge_cost h' <> edge_cost m)).
Proof.
  intros I St. unfold merge_one. destruct (found (h_nts g) s) as [i|] eqn:F.
  - apply found_some in F as (a & h & b & -> & <- & N & A).
    rewrite nth_error_app2, Nat.sub_diag by lia. cbn [nth_error].
    rewrite firstn_app, Nat.sub_diag, firstn_all. cbn [firstn]. rewrite app_nil_r.
    replace (skipn (S (length a)) (a ++ h :: b)) with b.
    2:{ rewrite skipn_app, skipn_all2 by lia. replace (S (length a) - length a) with 1 by lia. easy. }
    pose proof (sorted_remove a h b St) as S'. split; [now apply insert_edge_sorted|].
    right. exists a, h, b, (merge_edge add h g). repeat split; auto.
    + intros H. now apply merge_edge_in in H.
    + intros H. now apply merge_edge_in.
    + now apply insert_edge_in.
    + now apply insert_edge_in.
  - split; [now apply insert_edge_sorted|]. left. split; [now apply found_none|]. now apply insert_edge_in.
Qed.
Print Assumptions C73_merge.
Example C73_merge_some :
  map (fun h => (h_nts h, map t_cost (h_ts h))) (merge_sets add_t [mk "a" 2; mk "b" 4; mk "c" 6] [mk "b" 1; mk "d" 5])
  = [("b"%string, [1; 4]%Z); ("a"%string, [2]%Z); ("d"%string, [5]%Z); ("c"%string, [6]%Z)].
Proof. now vm_compute. Qed.
(** So transformations of both sets of rules can be lost when merging. *)
Theorem C73_merge_refuted :
  ~ (forall add s g t, inserts add -> StronglySorted cheaper s -> (exists h, In h s /\ In t (h_ts h)) ->
     exists h, In h (merge_one add s g) /\ In t (h_ts h)).
Proof.
  intros H. specialize (H add_t [mk "a" 1; mk "b" 3] (mk "b" 1) (Transf 3 "b") add_t_inserts).
  assert (S : StronglySorted cheaper [mk "a" 1; mk "b" 3]) by (repeat constructor).
  specialize (H S). destruct H as (h & I & T).
  - exists (mk "b" 3). cbn. auto.
  - vm_compute in I. destruct I as [<-|[]]. vm_compute in T. destruct T as [T|[]]. discriminate.
Qed.
Print Assumptions C73_merge_refuted.
(** Tables are merged symbol by symbol. *)
Lemma copy_sorted s : StronglySorted cheaper s -> fold_left (fun s h => insert_edge h s) s [] = s.
Proof.
  enough (K : forall p, StronglySorted cheaper (p ++ s) -> fold_left (fun s h => insert_edge h s) s p = p ++ s) by (intros St; now apply (K [])).
  induction s as [|g s IH]; intros p St; cbn [fold_left]; [now rewrite app_nil_r|].
  assert (E : insert_edge g p = p ++ [g]).
  { clear -St. induction p as [|x p IH]; [easy|]. cbn [app] in St. apply StronglySorted_inv in St as [St H]. rewrite Forall_forall in H.
    assert (L : (edge_cost x < edge_cost g)%Z) by (apply H, in_app_iff; right; now left).
    cbn [insert_edge app]. replace (edge_cost g <? edge_cost x)%Z with false by (symmetry; apply Z.ltb_ge; lia).
    rewrite (proj2 (Z.ltb_lt _ _) L). now rewrite IH. }
  rewrite E, IH; now rewrite <- app_assoc.
Qed.
Theorem C73_tables add result next s : NoDup (map fst next) -> (forall k e, In (k, e) next -> StronglySorted cheaper e) ->
  lookup s (merge_tables add result next) =
  match lookup s result, lookup s next with
  | Some a, Some b => Some (merge_sets add a b)
  | None, b => b
  | a, None => a
  end.
Proof.
  unfold merge_tables. revert result. induction next as [|[k e] next IH]; intros result N St; cbn [fold_left fst snd].
  - cbn. now destruct (lookup s result).
  - cbn [map fst] in N. apply NoDup_cons_iff in N as [N1 N2].
    rewrite IH; [|easy|intros k' e' I; apply (St k'); now right].
    assert (Ln : lookup s ((k, e) :: next) = if (k =? s)%string then Some e else lookup s next).
    { unfold lookup. cbn [List.find fst]. now destruct (k =? s)%string. }
    rewrite Ln. assert (No : (k =? s)%string = true -> lookup s next = None).
    { intros E. apply String.eqb_eq in E as ->. unfold lookup. destruct (List.find _ next) as [[k' e']|] eqn:F; [|easy]. exfalso.
      apply find_some in F as [I E]. apply String.eqb_eq in E. cbn in E. subst k'. apply N1. apply in_map_iff. now exists (s, e'). }
    destruct (lookup k result) as [ek|] eqn:Lk; rewrite lookup_update; destruct (String.eqb_spec k s) as [->|M]; try easy.
    + rewrite Lk, (No eq_refl). easy.
    + rewrite Lk, (No eq_refl), copy_sorted by (apply (St s); now left). easy.
Qed.
Print Assumptions C73_tables.
Example C73_tables_some :
  let t := merge_tables add_t [("X", [mk "a" 2]); ("Y", [mk "b" 3])]%string [("X", [mk "c" 1]); ("Z", [mk "d" 1; mk "e" 4])]%string in
  map (fun s => option_map (map h_nts) (lookup s t)) ["X"; "Y"; "Z"; "W"]%string = [Some ["c"; "a"]; Some ["b"]; Some ["d"; "e"]; None]%string.
Proof. now vm_compute. Qed.

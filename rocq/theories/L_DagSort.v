(** Lemmas on the renumbering of the states: sorting, the arrays map and pri, saving. *)
From Coq Require Import List ZArith Bool Sorted Permutation Lia PeanoNat.
From Verif Require Import M_OrdSet L_OrdSet M_Fsa M_BinFsa L_BinFsa L_Daciuk M_HashFsa L_HashFsa M_Minfsa L_Minfsa M_Dag L_Dag.
Import ListNotations.
Local Open Scope nat_scope.

(** ** Sorting *)
Lemma merge_nil_l k : merge [] k = k.
Proof. now destruct k. Qed.
Lemma merge_nil_r l : merge l [] = l.
Proof. now destruct l. Qed.
Lemma merge_step x l y k : merge (x :: l) (y :: k) = if sort_pred y x then y :: merge (x :: l) k else x :: merge l (y :: k).
Proof. reflexivity. Qed.
Lemma merge_perm l : forall k, Permutation (l ++ k) (merge l k).
Proof.
  induction l as [|x l IHl]; intros k; [now rewrite merge_nil_l|]. induction k as [|y k IHk]; [now rewrite merge_nil_r, app_nil_r|].
  rewrite merge_step. destruct (sort_pred y x).
  - rewrite <- IHk. symmetry. apply (Permutation_middle (x :: l) k y).
  - cbn [app]. constructor. apply IHl.
Qed.
Lemma merged_perm l k : merged l k -> Permutation l k.
Proof. induction 1 as [|x|l1 l2 k1 k2 H1 IH1 H2 IH2]; [constructor|now constructor|]. rewrite IH1, IH2. apply merge_perm. Qed.
Lemma merged_head l k : merged l k -> forall x l', l = x :: l' -> (forall y, In y l' -> sort_pred y x = false) -> exists k', k = x :: k'.
Proof.
  induction 1 as [|z|l1 l2 k1 k2 H1 IH1 H2 IH2]; intros x l' E H; [discriminate|injection E as -> <-; now exists []|].
  destruct l1 as [|z l1].
  - apply merged_perm, Permutation_nil in H1. subst k1. rewrite merge_nil_l. now apply (IH2 x l').
  - injection E as -> <-. destruct (IH1 x l1 eq_refl) as (k1' & ->); [intros y Hy; apply H, in_app_iff; now left|].
    destruct k2 as [|y k2]; [rewrite merge_nil_r; now exists k1'|]. rewrite merge_step, H; [eexists; reflexivity|].
    apply in_app_iff. right. apply (Permutation_in _ (Permutation_sym (merged_perm _ _ H2))). now left.
Qed.
Lemma sort_list_merged l : merged l (sort_list l).
Proof. induction l as [|x l IH]; cbn [sort_list]; [constructor|]. change (x :: l) with ([x] ++ l). constructor; [constructor|assumption]. Qed.

(** ** The arrays *)
Lemma place_other l : forall i m p, (forall x, In x l -> fst x <> p) -> (forall x, In x l -> fst x < length m) -> nth p (place l i m) 0 = nth p m 0.
Proof.
  induction l as [|x l IH]; intros i m p H B; cbn [place]; [reflexivity|].
  rewrite IH; [| |intros y Hy; rewrite update_len; apply B; now right].
  - rewrite nth_upd by (apply B; now left). destruct (Nat.eqb_spec p (fst x)) as [->|]; [|reflexivity]. exfalso. now apply (H x (or_introl eq_refl)).
  - intros y Hy. apply H. now right.
Qed.
Lemma place_at l : forall i m, NoDup (map fst l) -> (forall x, In x l -> fst x < length m) -> forall j, j < length l -> nth (nth j (map fst l) 0) (place l i m) 0 = i + j.
Proof.
  induction l as [|x l IH]; intros i m N B j Hj; cbn [length] in Hj; [lia|]. inversion N as [|? ? Hx N']; subst. cbn [place map]. destruct j as [|j]; cbn [nth].
  - rewrite place_other.
    + rewrite nth_upd by (apply B; now left). rewrite Nat.eqb_refl. lia.
    + intros y Hy E. apply Hx. rewrite <- E. now apply in_map.
    + intros y Hy. rewrite update_len. apply B. now right.
  - rewrite (IH (S i)); [lia|assumption| |lia]. intros y Hy. rewrite update_len. apply B. now right.
Qed.

(** ** Saving *)
Section Save.
Context (A : auto) (g : dag) (R : rep A (bin_of g)) (D : forall p x, In x (a_arcs A p) -> snd x < length A).
Context (arcs : list warc) (Ea : map strip arcs = all_arcs A) (m pri : list nat).
Notation mf := (fun q => nth q m 0). Notation d0 := (Warc 0 0 0).
Definition moved (p : nat) : list arc * bool := (rename mf (a_arcs A p), a_end A p).
Definition moved_row (p : nat) : list warc :=
  map (fun x => Warc (x_sym x) (mf (x_dest x)) (x_wt x)) (firstn (length (a_arcs A p)) (skipn (offset A p) arcs)).
Lemma strip_firstn n l : map strip (firstn n l) = firstn n (map strip l).
Proof. symmetry. apply firstn_map. Qed.
Lemma moved_strip p : p < length A -> map strip (moved_row p) = rename mf (a_arcs A p).
Proof.
  intros Hp. unfold moved_row, rename. rewrite map_map.
  transitivity (map (fun x => (fst x, mf (snd x))) (map strip (firstn (length (a_arcs A p)) (skipn (offset A p) arcs)))); [now rewrite map_map|].
  f_equal. rewrite <- firstn_map, <- skipn_map, Ea. destruct (split_at A p Hp) as (A1 & l & e & A2 & EA & <-). rewrite EA.
  rewrite a_arcs_mid, offset_mid, all_arcs_app, skipn_app, skipn_all, Nat.sub_diag. cbn [skipn app all_arcs flat_map fst].
  rewrite firstn_app, firstn_all, Nat.sub_diag. apply app_nil_r.
Qed.
Lemma save_spec : forall l2 l1 h, (forall p, In p l2 -> p < length A) -> small (length (all_arcs (map moved (l1 ++ l2)))) ->
  g_states h = posns 0 (map moved l1) -> g_arcs h = flat_map moved_row l1 -> map strip (g_arcs h) = all_arcs (map moved l1) ->
  let h' := fold_left (save_state g arcs m) l2 h in
  g_states h' = posns 0 (map moved (l1 ++ l2)) /\ g_arcs h' = flat_map moved_row (l1 ++ l2) /\ map strip (g_arcs h') = all_arcs (map moved (l1 ++ l2)).
Proof.
  induction l2 as [|p l2 IH]; intros l1 h Hl Sm E1 E2 E3; cbn [fold_left]; [rewrite app_nil_r; now repeat split|].
  assert (Hp : p < length A) by (apply Hl; now left).
  assert (Ls : length (g_arcs h) = length (all_arcs (map moved l1))) by (rewrite <- E3; now rewrite map_length).
  assert (S1 : small (length (all_arcs (map moved l1)))) by (eapply small_le; [|exact Sm]; rewrite map_app, all_arcs_app, app_length; lia).
  replace (l1 ++ p :: l2) with ((l1 ++ [p]) ++ l2) in * by now rewrite <- app_assoc.
  assert (Es : save_state g arcs m h p = Dag (posns 0 (map moved (l1 ++ [p]))) (flat_map moved_row (l1 ++ [p]))).
  { unfold save_state. rewrite row_bin, (rep_range _ _ R p Hp), offset_succ, Nat.add_comm, Nat.add_sub by assumption.
    rewrite end_bin, (rep_end _ _ R p Hp), Ls, (enc_u32 _ S1). f_equal.
    - rewrite E1, map_app, posns_app. cbn [map posns moved]. f_equal. f_equal. rewrite Nat.add_0_l. destruct (a_end A p).
      + unfold set_last_bit. now rewrite lor_top.
      + unfold enc. now rewrite Z.add_0_r.
    - rewrite E2, flat_map_app. cbn [flat_map]. now rewrite app_nil_r. }
  rewrite Es. apply IH.
  - intros q Hq. apply Hl. now right.
  - assumption.
  - reflexivity.
  - reflexivity.
  - cbn [g_arcs]. rewrite flat_map_app, map_app, map_app, all_arcs_app. rewrite <- E2, E3. f_equal. cbn [flat_map map all_arcs moved fst].
    rewrite !app_nil_r. now apply moved_strip.
Qed.
Lemma flat_nth {X Y} (h : X -> list Y) (d : Y) (dx : X) l : forall j i, j < length l -> i < length (h (nth j l dx)) ->
  nth (length (flat_map h (firstn j l)) + i) (flat_map h l) d = nth i (h (nth j l dx)) d.
Proof.
  induction l as [|x l IH]; intros j i Hj Hi; cbn [length] in Hj; [lia|]. destruct j as [|j]; cbn [firstn flat_map nth].
  - cbn [length Nat.add]. now apply app_nth1.
  - rewrite app_length, <- Nat.add_assoc, app_nth2_plus. apply IH; [lia|assumption].
Qed.
End Save.
Lemma moved_total A m l : Permutation l (seq 0 (length A)) -> length (all_arcs (map (moved A m) l)) = length (all_arcs A).
Proof.
  intros Hp. unfold all_arcs. rewrite !flat_length, !map_map. unfold moved. cbn [fst].
  transitivity (list_sum (map (fun p => length (a_arcs A p)) l)).
  - f_equal. apply map_ext. intros p. unfold rename. apply map_length.
  - assert (G : forall a b : list nat, Permutation a b -> list_sum a = list_sum b) by (unfold list_sum; induction 1; cbn; lia).
    rewrite (G _ _ (Permutation_map (fun p => length (a_arcs A p)) Hp)). f_equal.
    apply (nth_ext_same 0); [now rewrite !map_length, seq_length|]. intros i Hi. rewrite map_length, seq_length in Hi.
    rewrite (nth_indep _ 0 ((fun p => length (a_arcs A p)) 0)) by now rewrite map_length, seq_length.
    rewrite (map_nth (fun p => length (a_arcs A p))), seq_nth by assumption.
    rewrite (nth_indep _ 0 ((fun x : list arc * bool => length (fst x)) ([], false))) by now rewrite map_length.
    rewrite (map_nth (fun x : list arc * bool => length (fst x))). reflexivity.
Qed.

(** ** The numbers of words *)
Lemma count_spec A g : rep A (bin_of g) -> sorted_view (aview A) -> closed_view (aview A) -> acyclic (aview A) -> 0 < length A ->
  (forall p, p < length A -> reach (aview A) 0 p) -> small31 (cnt (aview A) 0) ->
  exists arcs wno, count_words (S (length A)) g 0 (map arm (all_arcs A), repeat 0%Z (length A)) = Some (arcs, wno) /\
    map strip arcs = all_arcs A /\
    forall p, p < length A -> nth p wno 0%Z = Z.of_nat (cnt (aview A) p) /\ wts A arcs p = prefix_sums (aview A) p.
Proof.
  intros R HI HC HA H0 HR Sm. assert (D : forall p x, In x (a_arcs A p) -> snd x < length A).
  { intros p x Hx. destruct (Nat.lt_ge_cases p (length A)) as [L|L]; [now apply (HC p x L)|]. unfold a_arcs in Hx. rewrite nth_overflow in Hx by assumption. destruct Hx. }
  set (c := Counts (repeat 0%Z (length A)) (map (fun s => repeat 0%Z (length (a_arcs A s))) (seq 0 (length A)))).
  assert (Ew : forall t, t < length A -> nth t (c_weights c) [] = repeat 0%Z (length (a_arcs A t))).
  { intros t Ht. cbn [c c_weights]. rewrite (nth_indep _ [] (repeat 0%Z (length (a_arcs A 0)))) by (rewrite map_length, seq_length; lia).
    rewrite (map_nth (fun s => repeat 0%Z (length (a_arcs A s))) (seq 0 (length A)) 0 t), seq_nth by assumption. reflexivity. }
  assert (Si : sim A c (map arm (all_arcs A), repeat 0%Z (length A))).
  { split; [reflexivity|]. split; [cbn [fst]; apply strip_arm|]. split; [cbn; now rewrite map_length, seq_length|]. intros p Hp. rewrite (Ew p Hp). cbn [fst].
    unfold wts. apply (nth_ext_same 0%Z); [now rewrite repeat_length, map_length, seq_length|]. intros i Hi. rewrite repeat_length in Hi. rewrite nth_repeat.
    symmetry. rewrite (nth_indep _ 0%Z ((fun i => x_wt (nth (offset A p + i) (map arm (all_arcs A)) (Warc 0 0 0))) 0)) by now rewrite map_length, seq_length.
    rewrite (map_nth (fun i => x_wt (nth (offset A p + i) (map arm (all_arcs A)) (Warc 0 0 0)))).
    change (Warc 0 0 0) with (arm (0%Z, 0)). rewrite map_nth. reflexivity. }
  destruct (number_words_spec (aview A) HC HA u32 u32_small (S (length A)) 0 c H0) as (c' & E & _ & Dn & _).
  - intros (x & Hx & K). apply (goes_stops (aview A) HC HA (snd x)); [now apply (HC 0)|assumption].
  - assumption.
  - split; [cbn; now rewrite repeat_length|]. split; [cbn; now rewrite map_length, seq_length|]. intros t Ht. unfold c_wts. rewrite (Ew t Ht). apply repeat_length.
  - intros t _. left. unfold c_get, c. cbn. apply nth_repeat.
  - pose proof (sim_words A g R D (S (length A)) 0 c _ H0 Si) as F. rewrite E in F. destruct F as ([arcs wno] & -> & S1). exists arcs, wno. split; [reflexivity|].
    destruct S1 as (E1 & E2 & E3 & E4). cbn [fst snd] in *. split; [exact E2|]. intros p Hp. destruct (Dn p (HR p Hp)) as [K1 K2]. split.
    + rewrite E1. exact K1.
    + rewrite <- (E4 p Hp). exact K2.
Qed.

(** ** The automaton as it is saved *)
(** The states of [A] are stored in [g], the state p in the place [mf p]; the weights are the numbers of words before. *)
Definition laid (A : auto) (mf : nat -> nat) (g : dag) : Prop :=
  length (g_states g) = length A /\ mf 0 = 0 /\
  forall p, p < length A -> exists off, g_row g (mf p) = (off, off + length (a_arcs A p)) /\ g_is_end g (mf p) = a_end A p /\
    forall i a q, nth_error (a_arcs A p) i = Some (a, q) -> g_arc g (off + i) = Warc a (mf q) (Z.of_nat (total (aview A) (firstn i (a_arcs A p)))).
Lemma skipn_nth {X} (d : X) n : forall l i, nth i (skipn n l) d = nth (n + i) l d.
Proof. induction n as [|n IH]; intros [|x l] i; cbn [skipn Nat.add nth]; try reflexivity; [now destruct i|apply IH]. Qed.
Lemma firstn_nth {X} (d : X) n : forall l i, i < n -> nth i (firstn n l) d = nth i l d.
Proof. induction n as [|n IH]; intros [|x l] [|i] H; cbn [firstn nth]; try reflexivity; try lia. apply IH. lia. Qed.
Lemma save_laid A g arcs m pri : rep A (bin_of g) -> map strip arcs = all_arcs A -> 0 < length A ->
  (forall p, p < length A -> wts A arcs p = prefix_sums (aview A) p) ->
  Permutation pri (seq 0 (length A)) -> nth 0 pri 0 = 0 -> (forall j, j < length A -> nth (nth j pri 0) m 0 = j) ->
  laid A (fun p => nth p m 0) (sort_and_save g arcs m pri).
Proof.
  intros R Ea H0 Hw Hp P0 Hm. set (mf := fun p => nth p m 0). set (A' := map (moved A m) pri).
  assert (Lp : length pri = length A) by (rewrite (Permutation_length Hp); apply seq_length).
  assert (Ip : forall p, In p pri <-> p < length A) by (intros p; rewrite (Permutation_in' eq_refl Hp), in_seq; lia).
  assert (Hat : forall p, p < length A -> mf p < length A /\ nth (mf p) pri 0 = p).
  { intros p L. apply Ip, (In_nth _ _ 0) in L as (j & Lj & <-). unfold mf. rewrite Lp in Lj. rewrite Hm by assumption. now split. }
  assert (Sm : small (length (all_arcs A'))) by (unfold A'; rewrite moved_total by assumption; apply R).
  destruct (save_spec A g R arcs Ea m pri [] (Dag [] []) (fun p => proj1 (Ip p)) Sm eq_refl eq_refl eq_refl) as (E1 & E2 & E3).
  cbn [app] in *. fold A' in E1, E3. fold (sort_and_save g arcs m pri) in E1, E2, E3. set (g' := sort_and_save g arcs m pri) in *. clearbody g'.
  assert (R' : rep A' (bin_of g')) by (split; [exact E1|]; split; [exact E3|assumption]).
  assert (L' : length A' = length A) by (unfold A'; now rewrite map_length).
  split; [rewrite E1, posns_length; exact L'|]. split; [pose proof (Hm 0 H0) as K; now rewrite P0 in K|].
  intros p L. destruct (Hat p L) as [Lm Em].
  assert (En : nth (mf p) A' ([], false) = moved A m p).
  { unfold A'. rewrite (nth_indep _ _ (moved A m 0)) by now rewrite map_length, Lp. now rewrite map_nth, Em. }
  assert (Er : a_arcs A' (mf p) = rename mf (a_arcs A p)) by (unfold a_arcs at 1; now rewrite En).
  assert (Ln : length (a_arcs A' (mf p)) = length (a_arcs A p)) by (rewrite Er; apply map_length).
  exists (offset A' (mf p)). split; [|split].
  - rewrite row_bin, (rep_range _ _ R') by lia. rewrite offset_succ, Ln by lia. reflexivity.
  - rewrite end_bin, (rep_end _ _ R') by lia. unfold a_end at 1. now rewrite En.
  - intros i a q Hi. assert (Li : i < length (a_arcs A p)) by (apply nth_error_Some; rewrite Hi; discriminate).
    unfold g_arc. rewrite E2. assert (Eo : offset A' (mf p) = length (flat_map (moved_row A arcs m) (firstn (mf p) pri))).
    { unfold offset, A'. rewrite firstn_map. unfold all_arcs. rewrite !flat_length, map_map. f_equal. apply map_ext_in. intros x Hx.
      assert (Lx : x < length A) by (apply Ip; rewrite <- (firstn_skipn (mf p) pri); apply in_app_iff; now left).
      unfold moved. cbn [fst]. rewrite <- (moved_strip A arcs Ea m x Lx). now rewrite map_length. }
    assert (Lr : length (moved_row A arcs m p) = length (a_arcs A p)) by (rewrite <- (map_length strip), (moved_strip A arcs Ea m p L); apply map_length).
    rewrite Eo, (flat_nth (moved_row A arcs m) (Warc 0 0 0) 0 pri (mf p) i) by (rewrite ?Em; lia). rewrite Em.
    assert (Es : nth_error (map strip (moved_row A arcs m p)) i = Some (a, mf q)).
    { rewrite (moved_strip A arcs Ea m p L). exact (map_nth_error _ _ _ Hi). }
    assert (Ex : x_wt (nth i (moved_row A arcs m p) (Warc 0 0 0)) = x_wt (nth (offset A p + i) arcs (Warc 0 0 0))).
    { unfold moved_row in *. rewrite map_length in Lr. rewrite (nth_indep _ _ ((fun x => Warc (x_sym x) (nth (x_dest x) m 0) (x_wt x)) (Warc 0 0 0))) by (rewrite map_length; lia).
      rewrite (map_nth (fun x => Warc (x_sym x) (nth (x_dest x) m 0) (x_wt x))). cbn [x_wt]. rewrite firstn_nth, skipn_nth by assumption. reflexivity. }
    rewrite nth_error_map in Es. rewrite (nth_error_nth' _ (Warc 0 0 0)) in Es by lia. cbn [option_map] in Es.
    destruct (nth i (moved_row A arcs m p) (Warc 0 0 0)) as [s d w]. unfold strip in Es. cbn in Es, Ex. injection Es as -> ->. f_equal. rewrite Ex.
    assert (K : nth i (wts A arcs p) 0%Z = x_wt (nth (offset A p + i) arcs (Warc 0 0 0))).
    { unfold wts. rewrite (nth_indep _ 0%Z ((fun i => x_wt (nth (offset A p + i) arcs (Warc 0 0 0))) 0)) by (rewrite map_length, seq_length; lia).
      rewrite (map_nth (fun i => x_wt (nth (offset A p + i) arcs (Warc 0 0 0)))), seq_nth by assumption. reflexivity. }
    rewrite <- K, (Hw p L). apply (prefix_nth (aview A)). exact Li.
Qed.
(** compile *)
Lemma compile_laid A sort : small (length (all_arcs A)) -> (forall x, In x A -> fst x <> [] \/ snd x = true) ->
  sorted_view (aview A) -> closed_view (aview A) -> acyclic (aview A) -> 0 < length A ->
  (forall p, p < length A -> reach (aview A) 0 p) -> (forall p, p < length A -> 0 < cnt (aview A) p) -> small31 (cnt (aview A) 0) ->
  (forall l, merged l (sort l)) ->
  exists g mf, compile sort (tidy_lines A (seq 0 (length A))) = Some g /\ laid A mf g.
Proof.
  intros Sm Hn HI HC HA H0 HR HU S31 Hs. destruct (build_rep A Sm Hn) as [Eb R]. unfold compile. rewrite Eb in *. cbn [g_states g_arcs]. rewrite posns_length.
  destruct (count_spec A _ R HI HC HA H0 HR S31) as (arcs & wno & -> & Es & Hw).
  set (g := Dag (posns 0 A) (map arm (all_arcs A))) in *.
  destruct (accesses_bound A g R HI HC HA H0 HR HU S31 wno (fun p Hp => proj1 (Hw p Hp))) as [La Ua].
  set (acc := accesses g wno (branching g)) in *. clearbody acc. specialize (Hs (combine (seq 0 (length A)) acc)).
  set (l := combine (seq 0 (length A)) acc) in *. set (k := sort l) in *.
  assert (Ll : length l = length A) by (unfold l; rewrite combine_length, seq_length; lia).
  assert (Ef : map fst l = seq 0 (length A)).
  { unfold l. clear -La. revert La. generalize 0 at 1 2. generalize (length A). intros n. revert acc. induction n as [|n IH]; intros [|z acc] s La; cbn in *; try lia; [reflexivity|].
    f_equal. apply IH. lia. }
  pose proof (merged_perm _ _ Hs) as Hp. assert (Hp' : Permutation (map fst k) (seq 0 (length A))) by (rewrite <- Ef; apply Permutation_map, Permutation_sym, Hp).
  assert (Lk : length k = length A) by (rewrite <- (Permutation_length Hp); exact Ll).
  assert (Hk : nth 0 (map fst k) 0 = 0).
  { destruct (length A) as [|n] eqn:En; [lia|]. destruct acc as [|z acc]; [cbn in La; lia|].
    destruct (merged_head l k Hs (0, z) (combine (seq 1 n) acc) eq_refl) as (k' & ->); [|reflexivity].
    intros [q v] Hq. unfold sort_pred. cbn [fst snd]. pose proof (in_combine_l _ _ _ _ Hq) as Lq. apply in_seq in Lq. apply orb_false_iff. split; [|apply Nat.ltb_ge; lia].
    apply Z.ltb_ge. assert (Iv : nth q (z :: acc) 0%Z = v).
    { clear -Hq. assert (G : forall n s acc, In (q, v) (combine (seq s n) acc) -> s <= q /\ nth (q - s) acc 0%Z = v).
      { clear. induction n as [|n IH]; intros s [|z acc] H; cbn [seq combine] in H; [destruct H..|]. destruct H as [H|H].
        - injection H as -> ->. rewrite Nat.sub_diag. now split.
        - destruct (IH _ _ H) as [K1 K2]. split; [lia|]. replace (q - s) with (S (q - S s)) by lia. exact K2. }
      destruct (G _ _ _ Hq) as [K1 K2]. destruct q as [|q]; [lia|]. cbn [nth]. replace (S q - 1) with q in K2 by lia. exact K2. }
    rewrite <- Iv. apply (Ua q). lia. }
  eexists. exists (fun p => nth p (place k 0 (repeat 0 (length A))) 0). split; [reflexivity|].
  apply save_laid; [assumption|assumption|assumption|intros p Hq; now apply Hw|assumption|assumption|].
  intros j Hj. rewrite place_at; [reflexivity| | |lia].
  - apply (Permutation_NoDup (Permutation_sym Hp')), seq_NoDup.
  - intros x Hx. rewrite repeat_length. apply (in_map fst), (Permutation_in _ Hp'), in_seq in Hx. lia.
Qed.

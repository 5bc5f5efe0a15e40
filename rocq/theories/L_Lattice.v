(** Invariants of the lattice. *)
From Coq Require Import List ZArith NArith Bool Arith Lia.
From Verif Require M_Tags P_Tags M_Items P_Items.
From Verif Require Import M_Utf8 M_Cutter P_Cutter M_Lattice.
Import ListNotations.
Local Open Scope nat_scope.

(** * Small things *)
Lemma vertex_eqb_spec a b : vertex_eqb a b = true <-> a = b.
Proof.
  destruct a, b; cbn; try (split; discriminate); rewrite Nat.eqb_eq; split; congruence.
Qed.
Lemma vertex_eqb_refl a : vertex_eqb a a = true.
Proof. now apply vertex_eqb_spec. Qed.
Lemma vertex_eqb_false a b : vertex_eqb a b = false <-> a <> b.
Proof. rewrite <- not_true_iff_false, vertex_eqb_spec. tauto. Qed.
Lemma desc_eqb_spec a b : desc_eqb a b = true <-> a = b.
Proof. destruct a, b; cbn; try (split; discriminate); rewrite Nat.eqb_eq; split; congruence. Qed.
Lemma item_eqb_refl a : M_Items.item_eqb a a = true.
Proof. now apply P_Items.item_eqb_spec. Qed.
Lemma item_eqb_sym a b : M_Items.item_eqb a b = true -> M_Items.item_eqb b a = true.
Proof. rewrite !P_Items.item_eqb_spec. intros [H1 [H2 H3]]. repeat split; congruence. Qed.
Lemma item_eqb_trans a b c : M_Items.item_eqb a b = true -> M_Items.item_eqb b c = true -> M_Items.item_eqb a c = true.
Proof.
  rewrite !P_Items.item_eqb_spec. intros [H1 [H2 H3]] [K1 [K2 K3]]. split; [congruence|split; [congruence|]].
  intros i. now rewrite H3.
Qed.
Lemma key_eqb_spec a b : key_eqb a b = true <->
  fst (fst a) = fst (fst b) /\ snd (fst a) = snd (fst b) /\ M_Items.item_eqb (snd a) (snd b) = true.
Proof. unfold key_eqb. rewrite !andb_true_iff, !vertex_eqb_spec. tauto. Qed.
Lemma key_eqb_refl a : key_eqb a a = true.
Proof. apply key_eqb_spec. auto using item_eqb_refl. Qed.
Lemma key_eqb_sym a b : key_eqb a b = true -> key_eqb b a = true.
Proof. rewrite !key_eqb_spec. intros [H1 [H2 H3]]. auto using item_eqb_sym. Qed.
Lemma key_eqb_trans a b c : key_eqb a b = true -> key_eqb b c = true -> key_eqb a c = true.
Proof.
  rewrite !key_eqb_spec. intros [H1 [H2 H3]] [K1 [K2 K3]]. split; [congruence|split; [congruence|]].
  eapply item_eqb_trans; eassumption.
Qed.

Lemma set_bit_length l : forall p b, length (set_bit l p b) = length l.
Proof. induction l as [|x l IH]; intros [|p] b; cbn; auto. Qed.
Lemma bit_set l : forall p b q, bit (set_bit l p b) q = if (p =? q) && (p <? length l) then b else bit l q.
Proof.
  unfold bit. induction l as [|x l IH]; intros p b q.
  - replace (p <? length (@nil bool)) with false by (symmetry; apply Nat.ltb_ge; cbn; lia). rewrite andb_false_r. now destruct p.
  - destruct p as [|p], q as [|q]; cbn [set_bit nth length]; try reflexivity. rewrite IH. reflexivity.
Qed.
Lemma resize_length l n : length l <= n -> length (resize l n) = n.
Proof. intros H. unfold resize. rewrite app_length, repeat_length. lia. Qed.
Lemma bit_resize l n p : bit (resize l n) p = bit l p.
Proof.
  unfold bit, resize. destruct (Nat.lt_ge_cases p (length l)) as [H|H].
  - now rewrite app_nth1.
  - rewrite app_nth2 by assumption. rewrite nth_overflow with (l := l) by assumption.
    destruct (Nat.lt_ge_cases (p - length l) (n - length l)) as [K|K].
    + apply nth_repeat.
    + apply nth_overflow. rewrite repeat_length. lia.
Qed.

Lemma numbers_spec f es : forall i e, In e (numbers f i es) <->
  exists ed, i <= e /\ nth_error es (e - i) = Some ed /\ f ed = true.
Proof.
  induction es as [|x es IH]; intros i e; cbn [numbers].
  - split; [intros []|]. intros [ed [_ [H _]]]. destruct (e - i); discriminate.
  - rewrite in_app_iff, IH. split.
    + intros [H|[ed [H1 [H2 H3]]]].
      * destruct (f x) eqn:E; [|destruct H]. destruct H as [<-|[]]. exists x. rewrite Nat.sub_diag. auto.
      * exists ed. split; [lia|]. replace (e - i) with (S (e - S i)) by lia. auto.
    + intros [ed [H1 [H2 H3]]]. destruct (Nat.eq_dec e i) as [->|Hne].
      * left. rewrite Nat.sub_diag in H2. injection H2 as ->. rewrite H3. now left.
      * right. exists ed. split; [lia|]. replace (e - i) with (S (e - S i)) in H2 by lia. auto.
Qed.
Lemma numbers_app f es : forall i fs, numbers f i (es ++ fs) = numbers f i es ++ numbers f (i + length es) fs.
Proof.
  induction es as [|x es IH]; intros i fs; cbn [numbers length app].
  - now rewrite Nat.add_0_r.
  - rewrite IH, app_assoc. do 2 f_equal. lia.
Qed.
Lemma numbers_ext f g es fs : forall i, map f es = map g fs -> numbers f i es = numbers g i fs.
Proof.
  revert fs. induction es as [|x es IH]; intros [|y fs] i; cbn; intros H; try discriminate; [reflexivity|].
  injection H as H1 H2. rewrite H1. f_equal. now apply IH.
Qed.
Lemma graph_out_spec L v e : In e (graph_out L v) <-> exists ed, nth_error (edges L) e = Some ed /\ e_from ed = v.
Proof.
  unfold graph_out. rewrite numbers_spec. rewrite Nat.sub_0_r. split.
  - intros [ed [_ [H1 H2]]]. apply vertex_eqb_spec in H2. eauto.
  - intros [ed [H1 H2]]. exists ed. split; [lia|split; [assumption|now apply vertex_eqb_spec]].
Qed.
Lemma graph_in_spec L v e : In e (graph_in L v) <-> exists ed, nth_error (edges L) e = Some ed /\ e_to ed = v.
Proof.
  unfold graph_in. rewrite numbers_spec. rewrite Nat.sub_0_r. split.
  - intros [ed [_ [H1 H2]]]. apply vertex_eqb_spec in H2. eauto.
  - intros [ed [H1 H2]]. exists ed. split; [lia|split; [assumption|now apply vertex_eqb_spec]].
Qed.

Lemma update_edge_nth es : forall n f i, nth_error (update_edge es n f) i =
  if n =? i then option_map f (nth_error es i) else nth_error es i.
Proof.
  induction es as [|x es IH]; intros [|n] f [|i]; cbn; try reflexivity.
  - now destruct (n =? i).
  - apply IH.
Qed.
Lemma update_edge_length es : forall n f, length (update_edge es n f) = length es.
Proof. induction es as [|x es IH]; intros [|n] f; cbn; auto. Qed.
Lemma update_edge_map {B} (g : edge -> B) f : (forall e, g (f e) = g e) -> forall es n, map g (update_edge es n f) = map g es.
Proof. intros H. induction es as [|x es IH]; intros [|n]; cbn; [reflexivity|reflexivity|now rewrite H|]. now rewrite IH. Qed.

(** Association lists. *)
Section Assoc.
Context {K V : Type} (eqb : K -> K -> bool).
Hypothesis eqb_sym : forall a b, eqb a b = true -> eqb b a = true.
Hypothesis eqb_trans : forall a b c, eqb a b = true -> eqb b c = true -> eqb a c = true.
Lemma eqb_cong a b x : eqb a b = true -> eqb x a = eqb x b.
Proof using eqb_sym eqb_trans.
  intros H. destruct (eqb x a) eqn:E, (eqb x b) eqn:F; try reflexivity; exfalso.
  - assert (eqb x b = true) by (eapply eqb_trans; eassumption). congruence.
  - assert (eqb x a = true) by (eapply eqb_trans; [eassumption|now apply eqb_sym]). congruence.
Qed.
Lemma lookup_cong m a b : eqb a b = true -> lookup (V := V) eqb m a = lookup eqb m b.
Proof using eqb_sym eqb_trans.
  intros H. induction m as [|[x v] m IH]; cbn; [reflexivity|]. now rewrite (eqb_cong _ _ x H), IH.
Qed.
Lemma lookup_in (m : list (K * V)) k v : lookup eqb m k = Some v -> exists x, In (x, v) m /\ eqb x k = true.
Proof using.
  induction m as [|[x w] m IH]; cbn; [discriminate|]. destruct (eqb x k) eqn:E.
  - intros [= <-]. exists x. auto.
  - intros H. apply IH in H as [y [Hy Ey]]. eauto.
Qed.
Lemma lookup_adjust m k f k' : lookup (V := V) eqb (adjust eqb m k f) k' =
  if eqb k k' then option_map f (lookup eqb m k') else lookup eqb m k'.
Proof using eqb_sym eqb_trans.
  induction m as [|[x v] m IH]; cbn; [now destruct (eqb k k')|].
  destruct (eqb x k) eqn:E; cbn.
  - destruct (eqb x k') eqn:F.
    + assert (eqb k k' = true) as -> by (eapply eqb_trans; [apply eqb_sym; exact E|exact F]). reflexivity.
    + destruct (eqb k k') eqn:G; [|reflexivity].
      assert (eqb x k' = true) by (eapply eqb_trans; eassumption). congruence.
  - destruct (eqb x k') eqn:F.
    + destruct (eqb k k') eqn:G; [|reflexivity].
      assert (eqb x k = true) by (eapply eqb_trans; [eassumption|now apply eqb_sym]). congruence.
    + apply IH.
Qed.
Lemma lookup_insert m k (v : V) k' : lookup eqb (insert_new eqb m k v) k' =
  match lookup eqb m k' with Some w => Some w | None => if eqb k k' then Some v else None end.
Proof using eqb_sym eqb_trans.
  unfold insert_new. destruct (lookup eqb m k) as [w|] eqn:E.
  - destruct (lookup eqb m k') as [u|] eqn:F; [reflexivity|]. destruct (eqb k k') eqn:G; [|reflexivity].
    rewrite (lookup_cong _ _ _ G) in E. congruence.
  - clear E. induction m as [|[x u] m IH]; cbn; [reflexivity|]. now destruct (eqb x k').
Qed.
End Assoc.
Definition key_lookup_cong m a b := @lookup_cong key (list desc) key_eqb key_eqb_sym key_eqb_trans m a b.
Definition key_lookup_adjust m k f k' := @lookup_adjust key (list desc) key_eqb key_eqb_sym key_eqb_trans m k f k'.
Definition key_lookup_insert m k v k' := @lookup_insert key (list desc) key_eqb key_eqb_sym key_eqb_trans m k v k'.

(** Tags. *)
Definition included (a b : collection) : Prop := forall i, N.testbit a i = true -> N.testbit b i = true.
Lemma included_subset a b : included a b <-> M_Tags.subset a b = true.
Proof. symmetry. apply P_Tags.subset_bits. Qed.
Lemma included_refl a : included a a. Proof. intros i H. exact H. Qed.
Lemma included_trans a b c : included a b -> included b c -> included a c.
Proof. intros H K i Hi. auto. Qed.
Lemma included_union_l a b : included a (M_Tags.union a b).
Proof. intros i H. now rewrite P_Tags.union_bit, H. Qed.
Lemma included_union_r a b : included b (M_Tags.union a b).
Proof. intros i H. rewrite P_Tags.union_bit, H. apply orb_true_r. Qed.
Lemma matches_included a b m : included a b -> M_Tags.matches a m = true -> M_Tags.matches b m = true.
Proof.
  intros H. unfold M_Tags.matches. destruct (M_Tags.none m); [discriminate|]. destruct (M_Tags.any m); [auto|].
  intros E. apply existsb_exists in E as [x [Hx E]]. apply existsb_exists. exists x. split; [assumption|].
  apply included_subset in E. apply included_subset. eauto using included_trans.
Qed.
(** What a caller can have: a collection made by the manager of the lattice. *)
Record proper (m : M_Tags.manager) (c : collection) : Prop := {
  pr_bits : forall i, N.testbit c i = true -> exists n, nth_error (M_Tags.names m) (N.to_nat i) = Some n;
  pr_plane : forall i n, N.testbit c (N.of_nat i) = true -> nth_error (M_Tags.names m) i = Some n ->
             P_Tags.plane_name n -> N.testbit (M_Tags.planes m) (N.of_nat i) = true
}.
Lemma proper_union m a b : proper m a -> proper m b -> proper m (M_Tags.union a b).
Proof.
  intros [A1 A2] [B1 B2]. split.
  - intros i. rewrite P_Tags.union_bit, orb_true_iff. intros [H|H]; eauto.
  - intros i n. rewrite P_Tags.union_bit, orb_true_iff. intros [H|H]; eauto.
Qed.
Lemma proper_zero m : proper m 0%N.
Proof. split; intros i; [|intros n]; rewrite N.bits_0; discriminate. Qed.
Lemma proper_planes m c : proper m c -> proper m (M_Tags.only_planes m c).
Proof.
  intros [A1 A2]. split.
  - intros i. unfold M_Tags.only_planes. rewrite P_Tags.intersection_bit, andb_true_iff. intros [_ H]. eauto.
  - intros i n. unfold M_Tags.only_planes. rewrite P_Tags.intersection_bit, andb_true_iff. intros [_ H]. eauto.
Qed.
Lemma proper_later m m' c : P_Tags.later m m' -> proper m c -> proper m' c.
Proof.
  intros H [A1 A2]. split.
  - intros i Hi. apply A1 in Hi as [n Hn]. exists n. eapply P_Tags.nth_error_later; eassumption.
  - intros i n Hi Hn Hp. apply (P_Tags.lt_planes _ _ H). destruct (A1 (N.of_nat i) Hi) as [n' Hn'].
    rewrite Nnat.Nat2N.id in Hn'. pose proof (P_Tags.nth_error_later _ _ _ _ H Hn') as E.
    rewrite Hn in E. injection E as ->. eauto.
Qed.
Lemma planes_later m m' c : P_Tags.ok m' -> P_Tags.later m m' -> proper m c -> M_Tags.only_planes m' c = M_Tags.only_planes m c.
Proof.
  intros Hok H [A1 A2]. apply N.bits_inj. intros i. unfold M_Tags.only_planes. rewrite !P_Tags.intersection_bit.
  destruct (N.testbit c i) eqn:E; [|now rewrite !andb_false_r]. rewrite !andb_true_r.
  destruct (N.testbit (M_Tags.planes m) i) eqn:F.
  - now apply (P_Tags.lt_planes _ _ H).
  - destruct (N.testbit (M_Tags.planes m') i) eqn:G; [|reflexivity].
    apply (P_Tags.ok_planes _ Hok) in G as [n [Hn Hp]]. destruct (A1 _ E) as [n' Hn'].
    pose proof (P_Tags.nth_error_later _ _ _ _ H Hn') as E'. rewrite Hn in E'. injection E' as <-.
    rewrite <- (Nnat.N2Nat.id i) in E. specialize (A2 _ _ E Hn' Hp). rewrite Nnat.N2Nat.id in A2. congruence.
Qed.
Lemma same_plane_later m m' a b : P_Tags.ok m' -> P_Tags.later m m' -> proper m a -> proper m b ->
  M_Tags.same_plane m' a b = M_Tags.same_plane m a b.
Proof. intros Ho Hl Ha Hb. unfold M_Tags.same_plane. now rewrite !(planes_later _ _ _ Ho Hl). Qed.
Lemma planes_union m a b : M_Tags.only_planes m (M_Tags.union a b) = M_Tags.union (M_Tags.only_planes m a) (M_Tags.only_planes m b).
Proof.
  apply N.bits_inj. intros i. unfold M_Tags.only_planes. rewrite P_Tags.intersection_bit, !P_Tags.union_bit, !P_Tags.intersection_bit.
  apply andb_orb_distrib_r.
Qed.
Lemma union_same a : M_Tags.union a a = a.
Proof. apply N.bits_inj. intros i. rewrite P_Tags.union_bit. apply orb_diag. Qed.

(** * The invariant *)
Definition names_of (L : lattice) : list vertex := map n_name (nodes L).
(** The tags an edge was made with are those of its first partition. *)
Definition first_tags (L : lattice) (e : nat) : collection :=
  match nth_error (edges L) e with
  | Some ed => match e_partitions ed with p :: _ => p_tags p | [] => e_tags ed end
  | None => 0%N
  end.
(** [l] is a part of [all], in the same order, of edges which match [m]; all those are
    there which were made with tags that match [m]. *)
Definition picked (L : lattice) (m : mask) (l all : list nat) : Prop :=
  (exists sel, l = filter sel all) /\ (forall e, In e l -> M_Tags.matches (edge_tags L (Explicit e)) m = true) /\
  forall e, In e all -> M_Tags.matches (first_tags L e) m = true -> In e l.
Definition stands (L : lattice) (d : desc) (k : key) : Prop :=
  match d with
  | Implicit p => fst (fst k) = Text p /\ snd (fst k) = Text (p + symbol_len L p) /\ p + symbol_len L p <= length (text L)
  | Explicit e => exists ed, nth_error (edges L) e = Some ed /\ key_eqb (e_from ed, e_to ed, e_item ed) k = true
  end.
Record good (L : lattice) : Prop := {
  g_implicit : length (implicit L) = S (length (text L));
  g_hidden : length (hidden L) = S (length (text L));
  g_visible : length (visible L) = S (length (text L));
  g_bits : forall p, bit (implicit L) p = true -> p + symbol_len L p <= length (text L);
  g_nodup : NoDup (names_of L);
  g_names : forall v, In v (names_of L) -> valid L v = true;
  g_loose : forall k, k < n_loose L -> In (Loose k) (names_of L);
  g_edges : forall e ed, nth_error (edges L) e = Some ed ->
    In (e_from ed) (names_of L) /\ In (e_to ed) (names_of L) /\ e_from ed <> e_to ed /\ reversed (e_from ed) (e_to ed) = false;
  g_sizes : forall n, In n (nodes L) -> length (n_out n) = length (masks L) /\ length (n_in n) = length (masks L);
  g_index : forall n i m, In n (nodes L) -> nth_error (masks L) i = Some m ->
    picked L m (nth i (n_out n) []) (graph_out L (n_name n)) /\ picked L m (nth i (n_in n) []) (graph_in L (n_name n));
  g_vvc : forall k ds d, lookup key_eqb (vvc L) k = Some ds -> In d ds -> stands L d k;
  g_known : forall e ed, nth_error (edges L) e = Some ed ->
    exists ds, lookup key_eqb (vvc L) (e_from ed, e_to ed, e_item ed) = Some ds /\ In (Explicit e) ds;
  g_planes : forall k ds d e, lookup key_eqb (vvc L) k = Some ds -> In (Explicit d) ds -> In (Explicit e) ds -> d <> e ->
    M_Tags.same_plane (tags L) (edge_tags L (Explicit d)) (edge_tags L (Explicit e)) = false \/
    (exists p, In (Implicit p) ds) /\ M_Tags.only_planes (tags L) (edge_tags L (Explicit d)) = 0%N /\
    M_Tags.only_planes (tags L) (edge_tags L (Explicit e)) = 0%N;
  g_first : forall e ed, nth_error (edges L) e = Some ed -> exists p ps, e_partitions ed = p :: ps /\ included (p_tags p) (e_tags ed);
  g_proper : forall e ed, nth_error (edges L) e = Some ed -> proper (tags L) (e_tags ed);
  g_masks : forall m, In m (masks L) -> P_Tags.made m;
  g_tags : P_Tags.reachable (tags L);
  g_discarded : nth_error (M_Tags.names (tags L)) 1 = Some DISCARDED
}.

(** Nothing but the index, the visible bits and the counters have changed. *)
Record core (L L' : lattice) : Prop := {
  c_text : text L' = text L;
  c_edges : edges L' = edges L;
  c_implicit : implicit L' = implicit L;
  c_hidden : hidden L' = hidden L;
  c_loose : n_loose L' = n_loose L;
  c_vvc : vvc L' = vvc L;
  c_tags : tags L' = tags L;
  c_names : names_of L' = names_of L;
  c_masks : exists ms, masks L' = masks L ++ ms
}.
Lemma core_refl L : core L L.
Proof. split; try reflexivity. exists []. now rewrite app_nil_r. Qed.
Lemma core_trans L1 L2 L3 : core L1 L2 -> core L2 L3 -> core L1 L3.
Proof.
  intros [] []. split; try congruence. destruct c_masks0 as [a Ha], c_masks1 as [b Hb].
  exists (a ++ b). now rewrite Hb, Ha, app_assoc.
Qed.
Lemma core_valid L L' v : core L L' -> valid L' v = valid L v.
Proof. intros H. unfold valid. now rewrite (c_text _ _ H), (c_loose _ _ H). Qed.
Lemma core_edge_tags L L' d : core L L' -> edge_tags L' d = edge_tags L d.
Proof. intros H. unfold edge_tags. now rewrite (c_edges _ _ H). Qed.
Lemma core_graph_out L L' v : core L L' -> graph_out L' v = graph_out L v.
Proof. intros H. unfold graph_out. now rewrite (c_edges _ _ H). Qed.
Lemma core_graph_in L L' v : core L L' -> graph_in L' v = graph_in L v.
Proof. intros H. unfold graph_in. now rewrite (c_edges _ _ H). Qed.
Lemma core_symbol_len L L' p : core L L' -> symbol_len L' p = symbol_len L p.
Proof. intros H. unfold symbol_len. now rewrite (c_text _ _ H). Qed.
Lemma core_stands L L' d k : core L L' -> stands L d k -> stands L' d k.
Proof.
  intros H. destruct d; cbn.
  - now rewrite (core_symbol_len _ _ _ H), (c_text _ _ H).
  - now rewrite (c_edges _ _ H).
Qed.
Lemma core_picked L L' m l all : core L L' -> picked L m l all -> picked L' m l all.
Proof.
  intros H [H1 [H2 H3]]. split; [assumption|]. split.
  - intros e He. rewrite (core_edge_tags _ _ _ H). auto.
  - intros e He. unfold first_tags. rewrite (c_edges _ _ H). exact (H3 e He).
Qed.
Lemma first_included L e : good L -> included (first_tags L e) (edge_tags L (Explicit e)).
Proof.
  intros G. unfold first_tags, edge_tags. destruct (nth_error (edges L) e) as [ed|] eqn:E; [|apply included_refl].
  destruct (g_first _ G _ _ E) as [p [ps [-> H]]]. exact H.
Qed.

Lemma good_core L L' : good L -> core L L' -> length (visible L') = S (length (text L)) ->
  (forall n, In n (nodes L') -> length (n_out n) = length (masks L') /\ length (n_in n) = length (masks L')) ->
  (forall n i m, In n (nodes L') -> nth_error (masks L') i = Some m ->
    picked L m (nth i (n_out n) []) (graph_out L (n_name n)) /\ picked L m (nth i (n_in n) []) (graph_in L (n_name n))) ->
  (forall m, In m (masks L') -> P_Tags.made m) -> good L'.
Proof.
  intros G C Hv Hs Hi Hm. split.
  - rewrite (c_implicit _ _ C), (c_text _ _ C). apply G.
  - rewrite (c_hidden _ _ C), (c_text _ _ C). apply G.
  - now rewrite (c_text _ _ C).
  - intros p. rewrite (c_implicit _ _ C), (core_symbol_len _ _ _ C), (c_text _ _ C). apply G.
  - rewrite (c_names _ _ C). apply G.
  - intros v. rewrite (c_names _ _ C), (core_valid _ _ _ C). apply G.
  - intros k. rewrite (c_names _ _ C), (c_loose _ _ C). apply G.
  - intros e ed. rewrite (c_names _ _ C), (c_edges _ _ C). apply G.
  - exact Hs.
  - intros n i m Hn Hm'. destruct (Hi n i m Hn Hm') as [H1 H2].
    rewrite (core_graph_out _ _ _ C), (core_graph_in _ _ _ C). eauto using core_picked.
  - intros k ds d. rewrite (c_vvc _ _ C). intros H1 H2. eapply core_stands; [exact C|]. eapply g_vvc; eassumption.
  - intros e ed. rewrite (c_vvc _ _ C), (c_edges _ _ C). apply G.
  - intros k ds d e. rewrite (c_vvc _ _ C), (c_tags _ _ C), !(core_edge_tags _ _ _ C). apply G.
  - intros e ed. rewrite (c_edges _ _ C). apply G.
  - intros e ed. rewrite (c_edges _ _ C), (c_tags _ _ C). apply G.
  - exact Hm.
  - rewrite (c_tags _ _ C). apply G.
  - rewrite (c_tags _ _ C). apply G.
Qed.

(** * Queries *)
Definition query {A} (m : act A) : Prop := forall L L' r, good L -> m L = (L', r) -> r <> Undefined -> good L' /\ core L L'.
Lemma query_ret {A} (a : A) : query (ret a).
Proof. intros L L' r G [= <- <-] _. split; [assumption|apply core_refl]. Qed.
Lemma query_throw {A} e : query (@throw A e).
Proof. intros L L' r G [= <- <-] _. split; [assumption|apply core_refl]. Qed.
Lemma query_ask {A} (f : lattice -> res A) : query (ask f).
Proof. intros L L' r G [= <- <-] _. split; [assumption|apply core_refl]. Qed.
Lemma query_bind {A B} (m : act A) (f : A -> act B) : query m -> (forall a, query (f a)) -> query (bind m f).
Proof.
  intros Hm Hf L L' r G. unfold bind. destruct (m L) as [L1 [a|e|]] eqn:E.
  - intros E' Hr. destruct (Hm _ _ _ G E) as [G1 C1]; [discriminate|].
    destruct (Hf a _ _ _ G1 E' Hr) as [G2 C2]. split; [assumption|]. eapply core_trans; eassumption.
  - intros [= <- <-] _. apply (Hm _ _ _ G E). discriminate.
  - intros [= <- <-] H. now destruct H.
Qed.
Lemma query_catch m : query m -> query (catch_no_edge m).
Proof.
  intros Hm L L' r G. unfold catch_no_edge. destruct (m L) as [L1 [[]|e|]] eqn:E.
  - intros [= <- <-] H. apply (Hm _ _ _ G E H).
  - destruct e; intros [= <- <-] _; (apply (Hm _ _ _ G E); discriminate).
  - intros [= <- <-] H. now destruct H.
Qed.
Lemma query_first {A} (l : list A) : query (first l).
Proof. destruct l; [apply query_throw|apply query_ret]. Qed.
Lemma mask_index_nth ms m : forall i, mask_index ms m = Some i -> exists x, nth_error ms i = Some x /\ M_Tags.mask_eqb x m = true.
Proof.
  induction ms as [|x ms IH]; intros i; cbn; [discriminate|]. destruct (M_Tags.mask_eqb x m) eqn:E.
  - intros [= <-]. exists x. auto.
  - destruct (mask_index ms m) as [j|]; [|discriminate]. intros [= <-]. apply IH. reflexivity.
Qed.
Lemma filter_in {A} (f : A -> bool) l x : In x (filter f l) -> f x = true.
Proof. rewrite filter_In. tauto. Qed.
Lemma add_tag_mask_index_query m : P_Tags.made m -> query (add_tag_mask_index m).
Proof.
  intros Hm L L' r G. unfold add_tag_mask_index. destruct (mask_index (masks L) m) as [i|] eqn:E.
  - intros [= <- <-] _. split; [assumption|apply core_refl].
  - intros [= <- <-] _.
    assert (C : core L (set_masks (masks L ++ [m]) (set_nodes (map (fun n => Node (n_name n)
        (n_out n ++ [filter (fun e => M_Tags.matches (edge_tags L (Explicit e)) m) (graph_out L (n_name n))])
        (n_in n ++ [filter (fun e => M_Tags.matches (edge_tags L (Explicit e)) m) (graph_in L (n_name n))])) (nodes L)) L))).
    { split; try reflexivity.
      - unfold names_of. cbn. rewrite map_map. reflexivity.
      - exists [m]. reflexivity. }
    split; [|exact C]. apply (good_core L); [exact G|exact C|apply G| | |].
    + intros n. cbn. rewrite in_map_iff. intros [n0 [<- Hn]]. cbn. rewrite !app_length. cbn.
      destruct (g_sizes _ G _ Hn). lia.
    + intros n i m'. cbn. rewrite in_map_iff. intros [n0 [<- Hn]] Hi. cbn. destruct (g_sizes _ G _ Hn) as [S1 S2].
      destruct (Nat.lt_ge_cases i (length (masks L))) as [H|H].
      * rewrite !app_nth1 by lia. rewrite nth_error_app1 in Hi by assumption. now apply (g_index _ G).
      * rewrite nth_error_app2 in Hi by assumption. destruct (i - length (masks L)) as [|j] eqn:Ej.
        2:{ destruct j; discriminate Hi. }
        injection Hi as <-. rewrite !app_nth2 by lia. replace (i - length (n_out n0)) with 0 by lia.
        replace (i - length (n_in n0)) with 0 by lia. cbn. split.
        all: split; [eauto|]; split; intros e He; [apply filter_in in He; exact He|]; intros Hf; apply filter_In; split; [exact He|];
          revert Hf; apply matches_included, first_included, G.
    + intros m'. cbn. rewrite in_app_iff. intros [H|[<-|[]]]; [now apply (g_masks _ G)|assumption].
Qed.
Lemma out_edges_query v m : P_Tags.made m -> query (out_edges v m).
Proof.
  intros Hm L L' r G. unfold out_edges. destruct (negb (valid L v)); [intros [= <- <-] H; now destruct H|].
  destruct (M_Tags.any m).
  - intros [= <- <-] _. split; [assumption|apply core_refl].
  - revert L L' r G. apply query_bind; [now apply add_tag_mask_index_query|]. intros ix. apply query_ask.
Qed.
Lemma in_edges_query v m : P_Tags.made m -> query (in_edges v m).
Proof.
  intros Hm L L' r G. unfold in_edges. destruct (negb (valid L v)); [intros [= <- <-] H; now destruct H|].
  destruct (M_Tags.any m).
  - intros [= <- <-] _. split; [assumption|apply core_refl].
  - revert L L' r G. apply query_bind; [now apply add_tag_mask_index_query|]. intros ix. apply query_ask.
Qed.
Lemma symbol_mask_made : P_Tags.made symbol_mask.
Proof. left. now exists [1%N]. Qed.
Lemma first_out_query v m : P_Tags.made m -> query (first_out_edge v m).
Proof. intros H. apply query_bind; [now apply out_edges_query|intros l; apply query_first]. Qed.
Lemma first_in_query v m : P_Tags.made m -> query (first_in_edge v m).
Proof. intros H. apply query_bind; [now apply in_edges_query|intros l; apply query_first]. Qed.
Lemma packed_edge_query si : query (packed_edge si).
Proof.
  intros L L' r G. unfold packed_edge. destruct (length (text L) <? si).
  - intros [= <- <-] _. split; [assumption|apply core_refl].
  - apply first_out_query; [apply symbol_mask_made|exact G].
Qed.
Lemma packed_edges_query n : forall si e, query (packed_edges n si e).
Proof.
  induction n as [|n IH]; intros si e; cbn [packed_edges]; [apply query_ret|].
  destruct (si <? e); [|apply query_ret]. intros L. generalize (si + symbol_len L si). intros q.
  revert L. apply (query_bind (packed_edge si)); [apply packed_edge_query|]. intros d. apply query_bind; [apply IH|].
  intros ds. apply query_ret.
Qed.
Lemma usages_query s : query (usages s).
Proof. unfold usages. destruct (links s); [apply packed_edges_query|apply query_ret]. Qed.
Lemma packed_search_query n : forall si e d, query (packed_search n si e d).
Proof.
  induction n as [|n IH]; intros si e d; cbn [packed_search]; [apply query_ret|].
  destruct (si <? e); [|apply query_ret]. intros L. generalize (si + symbol_len L si). intros q.
  revert L. apply (query_bind (packed_edge si)); [apply packed_edge_query|]. intros x. destruct (desc_eqb x d); [apply query_ret|apply IH].
Qed.
Lemma refers_to_query s d : query (refers_to s d).
Proof. unfold refers_to. destruct (links s); [apply packed_search_query|apply query_ret]. Qed.
Lemma good_visible L v : good L -> length v = S (length (text L)) -> good (set_visible v L).
Proof. intros [] H. now split. Qed.
Lemma core_visible L v : core L (set_visible v L).
Proof. split; try reflexivity. exists []. now rewrite app_nil_r. Qed.
Lemma make_visible_query v : query (make_visible v).
Proof.
  destruct v as [p|k]; cbn [make_visible]; intros L L' r G.
  - intros [= <- <-] _. split; [|apply core_visible]. apply good_visible; [assumption|]. rewrite set_bit_length. apply G.
  - intros [= <- <-] H. now destruct H.
Qed.
Lemma update_visible_query a b t : query (update_visible a b t).
Proof.
  unfold update_visible. destruct (M_Tags.coll_eqb t symbol_tag); [|apply query_ret]. apply query_catch.
  apply query_bind; [apply first_out_query, symbol_mask_made|]. intros _.
  apply query_bind; [apply make_visible_query|]. intros _.
  apply query_bind; [apply first_in_query, symbol_mask_made|]. intros ed.
  apply query_bind; [apply query_ask|]. intros v. apply make_visible_query.
Qed.
Lemma count_edge_query pr : query (change (count_edge pr)).
Proof.
  intros L L' r G [= <- <-] _. split.
  - destruct G. now split.
  - split; try reflexivity. exists []. now rewrite app_nil_r.
Qed.

(** * Growth *)
Record extends (a b : edge) : Prop := {
  x_from : e_from b = e_from a;
  x_to : e_to b = e_to a;
  x_item : e_item b = e_item a;
  x_tags : included (e_tags a) (e_tags b);
  x_score : (e_score a <= e_score b)%Z;
  x_partitions : exists ps, e_partitions b = e_partitions a ++ ps
}.
Lemma extends_refl a : extends a a.
Proof. split; try reflexivity; [apply included_refl|exists []; now rewrite app_nil_r]. Qed.
Lemma extends_trans a b c : extends a b -> extends b c -> extends a c.
Proof.
  intros [] []. split; try congruence; [eauto using included_trans|lia|].
  destruct x_partitions0 as [p Hp], x_partitions1 as [q Hq]. exists (p ++ q). now rewrite Hq, Hp, app_assoc.
Qed.
Record grows (L L' : lattice) : Prop := {
  w_text : exists t, text L' = text L ++ t;
  w_edges : forall e ed, nth_error (edges L) e = Some ed -> exists ed', nth_error (edges L') e = Some ed' /\ extends ed ed';
  w_implicit : forall p, bit (implicit L) p = true -> p < length (text L) -> bit (implicit L') p = true \/
    exists e ed, nth_error (edges L') e = Some ed /\ e_from ed = Text p /\ e_to ed = Text (p + symbol_len L p) /\
                 included symbol_tag (e_tags ed);
  w_loose : n_loose L <= n_loose L';
  w_names : incl (names_of L) (names_of L');
  w_tags : P_Tags.later (tags L) (tags L')
}.
Lemma grows_symbol_len L L' p : (exists t, text L' = text L ++ t) -> p < length (text L) -> symbol_len L' p = symbol_len L p.
Proof. intros [t Ht] H. unfold symbol_len, symbol_length. rewrite Ht, app_nth1 by assumption. reflexivity. Qed.
Lemma grows_trans L1 L2 L3 : grows L1 L2 -> grows L2 L3 -> grows L1 L3.
Proof.
  intros A B. split.
  - destruct (w_text _ _ A) as [t Ht], (w_text _ _ B) as [u Hu]. exists (t ++ u). now rewrite Hu, Ht, app_assoc.
  - intros e ed H. apply (w_edges _ _ A) in H as [ed2 [H2 E2]]. apply (w_edges _ _ B) in H2 as [ed3 [H3 E3]].
    eauto using extends_trans.
  - intros p Hp Hl. destruct (w_text _ _ A) as [t Ht].
    assert (Hl2 : p < length (text L2)) by (rewrite Ht, app_length; lia).
    destruct (w_implicit _ _ A p Hp Hl) as [H|[e [ed [H1 [H2 [H3 H4]]]]]].
    + destruct (w_implicit _ _ B p H Hl2) as [K|[e [ed [K1 [K2 [K3 K4]]]]]]; [now left|right].
      exists e, ed. split; [assumption|]. split; [assumption|]. split; [|assumption].
      rewrite K3. do 2 f_equal. apply grows_symbol_len; [eauto|assumption].
    + right. apply (w_edges _ _ B) in H1 as [ed' [K1 K2]]. exists e, ed'. split; [assumption|].
      rewrite (x_from _ _ K2), (x_to _ _ K2). repeat (split; [assumption|]). eapply included_trans; [exact H4|apply K2].
  - pose proof (w_loose _ _ A). pose proof (w_loose _ _ B). lia.
  - eapply incl_tran; [apply A|apply B].
  - eapply P_Tags.later_trans; [apply A|apply B].
Qed.
Lemma core_grows L L' : core L L' -> grows L L'.
Proof.
  intros C. split.
  - exists []. now rewrite app_nil_r, (c_text _ _ C).
  - intros e ed H. rewrite (c_edges _ _ C). eauto using extends_refl.
  - intros p H _. left. now rewrite (c_implicit _ _ C).
  - now rewrite (c_loose _ _ C).
  - rewrite (c_names _ _ C). apply incl_refl.
  - rewrite (c_tags _ _ C). apply P_Tags.later_refl.
Qed.
Lemma grows_refl L : grows L L.
Proof. apply core_grows, core_refl. Qed.

(** * Changes *)
(** A call that throws because the text is not UTF-8 may have done harm. *)
Definition safe {A} (m : act A) : Prop := forall L L' r, good L -> m L = (L', r) -> r <> Undefined ->
  good L' /\ (r <> Throw NotUtf8 -> grows L L').
Lemma query_safe {A} (m : act A) : query m -> safe m.
Proof. intros H L L' r G E Hr. destruct (H _ _ _ G E Hr) as [G' C]. split; [assumption|intros _; now apply core_grows]. Qed.
Lemma safe_bind {A B} (m : act A) (f : A -> act B) : safe m -> (forall a, safe (f a)) -> safe (bind m f).
Proof.
  intros Hm Hf L L' r G. unfold bind. destruct (m L) as [L1 [a|e|]] eqn:E.
  - intros E' Hr. destruct (Hm _ _ _ G E) as [G1 C1]; [discriminate|].
    destruct (Hf a _ _ _ G1 E' Hr) as [G2 C2]. split; [assumption|]. intros Hu. eapply grows_trans; [|apply C2, Hu].
    apply C1. discriminate.
  - intros [= <- <-] _. destruct (Hm _ _ _ G E) as [G1 C1]; [discriminate|]. split; [assumption|]. intros H. apply C1. congruence.
  - intros [= <- <-] H. now destruct H.
Qed.

Lemma find_node_in L v : (exists n, find_node L v = Some n) <-> In v (names_of L).
Proof.
  unfold find_node, names_of. split.
  - intros [n H]. apply find_some in H as [H1 H2]. apply vertex_eqb_spec in H2. subst. now apply in_map.
  - intros H. apply in_map_iff in H as [n [<- Hn]].
    destruct (find (fun n0 => vertex_eqb (n_name n0) (n_name n)) (nodes L)) eqn:E; [eauto|].
    apply find_none with (x := n) in E; [|assumption]. rewrite vertex_eqb_refl in E. discriminate.
Qed.
Lemma find_node_none L v : find_node L v = None <-> ~ In v (names_of L).
Proof.
  rewrite <- find_node_in. destruct (find_node L v); split; try discriminate; try reflexivity.
  - intros H. exfalso. eauto.
  - intros _ [n H]. discriminate.
Qed.
Lemma find_node_some L v n : find_node L v = Some n -> In n (nodes L) /\ n_name n = v.
Proof. unfold find_node. intros H. apply find_some in H. now rewrite vertex_eqb_spec in H. Qed.
Lemma nth_no_index i n : nth i (no_index n) [] = [].
Proof.
  unfold no_index. destruct (Nat.lt_ge_cases i n) as [H|H]; [apply nth_repeat|]. apply nth_overflow. now rewrite repeat_length.
Qed.
Lemma graph_out_foreign L v : good L -> ~ In v (names_of L) -> graph_out L v = [].
Proof.
  intros G H. destruct (graph_out L v) as [|e l] eqn:E; [reflexivity|]. exfalso. apply H.
  assert (K : In e (graph_out L v)) by (rewrite E; now left). apply graph_out_spec in K as [ed [K1 <-]]. apply (g_edges _ G _ _ K1).
Qed.
Lemma graph_in_foreign L v : good L -> ~ In v (names_of L) -> graph_in L v = [].
Proof.
  intros G H. destruct (graph_in L v) as [|e l] eqn:E; [reflexivity|]. exfalso. apply H.
  assert (K : In e (graph_in L v)) by (rewrite E; now left). apply graph_in_spec in K as [ed [K1 <-]]. apply (g_edges _ G _ _ K1).
Qed.
Lemma picked_nil L m : picked L m [] [].
Proof. split; [exists (fun _ => true); reflexivity|split; intros e []]. Qed.

Lemma ensure_node_good L v : good L -> valid L v = true -> good (ensure_node v L) /\ grows L (ensure_node v L) /\ In v (names_of (ensure_node v L)).
Proof.
  intros G Hv. unfold ensure_node. destruct (find_node L v) as [n|] eqn:E.
  - split; [assumption|]. split; [apply grows_refl|]. apply find_node_in. eauto.
  - apply find_node_none in E.
    assert (Hn : names_of (set_nodes (nodes L ++ [Node v (no_index (length (masks L))) (no_index (length (masks L)))]) L) = names_of L ++ [v])
      by (unfold names_of; cbn; now rewrite map_app).
    split; [|split].
    + split; try apply G.
      * rewrite Hn. rewrite <- (rev_involutive (names_of L ++ [v])).
        apply NoDup_rev. rewrite rev_app_distr. cbn. constructor; [rewrite <- in_rev; assumption|]. apply NoDup_rev, G.
      * intros w. rewrite Hn, in_app_iff. intros [H|[<-|[]]]; [apply (g_names _ G _ H)|exact Hv].
      * intros k Hk. rewrite Hn, in_app_iff. left. now apply (g_loose _ G).
      * intros e ed He. rewrite Hn, !in_app_iff. destruct (g_edges _ G e ed He) as [H1 [H2 [H3 H4]]]. auto.
      * cbn. intros n. rewrite in_app_iff. intros [H|[<-|[]]]; [now apply (g_sizes _ G)|]. cbn. unfold no_index. now rewrite !repeat_length.
      * cbn [nodes set_nodes masks]. intros n i m. rewrite in_app_iff. intros [H|[<-|[]]] Hm; [now apply (g_index _ G)|].
        cbn [n_out n_in n_name]. rewrite !nth_no_index.
        pose proof (graph_out_foreign _ _ G E) as E1. pose proof (graph_in_foreign _ _ G E) as E2.
        unfold graph_out, graph_in in *. cbn [edges set_nodes]. rewrite E1, E2. split; apply picked_nil.
    + split; try apply (grows_refl L). rewrite Hn. apply incl_appl, incl_refl.
    + rewrite Hn, in_app_iff. right. now left.
Qed.

Lemma push_index_length t e ms : forall ix, length (push_index t e ms ix) = length ix.
Proof. induction ms as [|m ms IH]; intros [|l ix]; cbn; auto. Qed.
Lemma push_index_nth t e ms : forall ix i m, length ix = length ms -> nth_error ms i = Some m ->
  nth i (push_index t e ms ix) [] = if M_Tags.matches t m then nth i ix [] ++ [e] else nth i ix [].
Proof.
  induction ms as [|x ms IH]; intros [|l ix] [|i] m; cbn; intros Hl Hm; try discriminate.
  - now injection Hm as ->.
  - apply IH; [lia|assumption].
Qed.
(** The new edge is the last of its vertices. *)
Lemma picked_push L L' m l all e t : picked L m l all -> (forall x, In x all -> x < e) ->
  (forall x, In x all -> edge_tags L' (Explicit x) = edge_tags L (Explicit x)) -> edge_tags L' (Explicit e) = t ->
  (forall x, In x all -> first_tags L' x = first_tags L x) -> first_tags L' e = t ->
  picked L' m (if M_Tags.matches t m then l ++ [e] else l) (all ++ [e]).
Proof.
  intros [[sel ->] [H H3]] Hlt Hold Ht Hf0 Hf. split; [|split].
  - exists (fun x => if x =? e then M_Tags.matches t m else sel x).
    assert (F : filter (fun x => if x =? e then M_Tags.matches t m else sel x) all = filter sel all).
    { apply filter_ext_in. intros x Hx. apply Hlt in Hx. destruct (Nat.eqb_spec x e); [lia|reflexivity]. }
    rewrite filter_app, F. cbn [filter]. rewrite Nat.eqb_refl. destruct (M_Tags.matches t m); [reflexivity|now rewrite app_nil_r].
  - intros x Hx.
    assert (Hx' : In x (filter sel all) \/ x = e /\ M_Tags.matches t m = true).
    { destruct (M_Tags.matches t m); [|now left]. apply in_app_iff in Hx as [Hx|[<-|[]]]; auto. }
    destruct Hx' as [Hx'|[-> Hx']]; [|rewrite Ht; exact Hx'].
    rewrite Hold by (apply filter_In in Hx'; tauto). now apply H.
  - intros x Hx Hm. apply in_app_iff in Hx as [Hx|[<-|[]]].
    + rewrite Hf0 in Hm by assumption. pose proof (H3 _ Hx Hm). destruct (M_Tags.matches t m); [apply in_app_iff; now left|assumption].
    + rewrite Hf in Hm. rewrite Hm. apply in_app_iff. right. now left.
Qed.
Lemma picked_other L L' m l all : picked L m l all ->
  (forall x, In x all -> included (edge_tags L (Explicit x)) (edge_tags L' (Explicit x))) ->
  (forall x, In x all -> first_tags L' x = first_tags L x) -> picked L' m l all.
Proof.
  intros [[sel ->] [H H3]] Ht Hf. split; [eauto|]. split.
  - intros e He. pose proof (H e He) as K. revert K. apply matches_included. apply Ht. apply filter_In in He. tauto.
  - intros e He. rewrite Hf by assumption. now apply H3.
Qed.
Lemma same_plane_sym m a b : M_Tags.same_plane m a b = M_Tags.same_plane m b a.
Proof. apply N.eqb_sym. Qed.
Lemma in_index L from to t e x : In x (nodes (index_edge from to t e L)) <-> exists n, In n (nodes L) /\
  x = Node (n_name n) (if vertex_eqb (n_name n) from then push_index t e (masks L) (n_out n) else n_out n)
                      (if vertex_eqb (n_name n) to then push_index t e (masks L) (n_in n) else n_in n).
Proof. unfold index_edge. cbn. rewrite in_map_iff. split; intros [n [H1 H2]]; exists n; auto. Qed.
Lemma fold_set_length l : forall h, length (fold_left (fun h i => set_bit h i true) l h) = length h.
Proof. induction l as [|x l IH]; intros h; cbn; [reflexivity|]. now rewrite IH, set_bit_length. Qed.
Lemma hide_length L from to : length (hidden (hide_between from to L)) = length (hidden L).
Proof. destruct from, to; cbn; try reflexivity. apply fold_set_length. Qed.
Lemma edge_tags_old L L' e ed x : edges L' = edges L ++ [ed] -> e = length (edges L) -> x < e ->
  edge_tags L' (Explicit x) = edge_tags L (Explicit x).
Proof. intros H -> Hx. unfold edge_tags. rewrite H, nth_error_app1 by assumption. reflexivity. Qed.
Lemma edge_tags_new L L' ed : edges L' = edges L ++ [ed] -> edge_tags L' (Explicit (length (edges L))) = e_tags ed.
Proof. intros H. unfold edge_tags. rewrite H, nth_error_app2, Nat.sub_diag by lia. reflexivity. Qed.

Lemma ensure_node_fields v L : text (ensure_node v L) = text L /\ edges (ensure_node v L) = edges L /\
  implicit (ensure_node v L) = implicit L /\ hidden (ensure_node v L) = hidden L /\ visible (ensure_node v L) = visible L /\
  n_loose (ensure_node v L) = n_loose L /\ vvc (ensure_node v L) = vvc L /\ masks (ensure_node v L) = masks L /\
  tags (ensure_node v L) = tags L.
Proof. unfold ensure_node. destruct (find_node L v); cbn; repeat split. Qed.
Lemma insert_explicit_good L0 from to it t s sc rule choice ds :
  good L0 -> valid L0 from = true -> valid L0 to = true -> from <> to -> reversed from to = false ->
  proper (tags L0) t -> lookup key_eqb (vvc L0) (from, to, it) = Some ds ->
  ((forall e, In (Explicit e) ds -> M_Tags.same_plane (tags L0) t (edge_tags L0 (Explicit e)) = false) \/
   (exists p, In (Implicit p) ds) /\ M_Tags.only_planes (tags L0) t = 0%N) ->
  exists L', insert_explicit from to it t s sc rule choice L0 = (L', Ok (Explicit (length (edges L0)))) /\
    good L' /\ grows L0 L' /\ edges L' = edges L0 ++ [Edge from to it t sc [Partition t s sc rule choice]] /\
    implicit L' = implicit L0 /\ text L' = text L0 /\ tags L' = tags L0 /\ masks L' = masks L0.
Proof.
  intros G0 V1 V2 Hne Hrev Hp Hds Hpl.
  destruct (ensure_node_good _ _ G0 V1) as [G1 [W1 N1]].
  assert (V2' : valid (ensure_node from L0) to = true) by (unfold ensure_node; now destruct (find_node L0 from)).
  destruct (ensure_node_good _ _ G1 V2') as [G [W2 N2]].
  assert (N1' : In from (names_of (ensure_node to (ensure_node from L0)))) by now apply (w_names _ _ W2).
  pose proof (grows_trans _ _ _ W1 W2) as W. clear W1 W2 N1 G1 V2'.
  unfold insert_explicit. set (L := ensure_node to (ensure_node from L0)) in *.
  assert (EL : text L = text L0 /\ edges L = edges L0 /\ implicit L = implicit L0 /\ hidden L = hidden L0 /\ visible L = visible L0 /\
               n_loose L = n_loose L0 /\ vvc L = vvc L0 /\ masks L = masks L0 /\ tags L = tags L0).
  { unfold L. destruct (ensure_node_fields to (ensure_node from L0)) as [-> [-> [-> [-> [-> [-> [-> [-> ->]]]]]]]].
    apply ensure_node_fields. }
  destruct EL as [T0 [T1 [T2 [T3 [T4 [T5 [T6 [T7 T8]]]]]]]].
  rewrite <- T6 in Hds. rewrite <- T8 in Hp. rewrite <- T1.
  assert (V1' : valid L from = true) by (unfold valid in *; now rewrite T0, T5).
  assert (V2' : valid L to = true) by (unfold valid in *; now rewrite T0, T5).
  assert (Hpl' : (forall e, In (Explicit e) ds -> M_Tags.same_plane (tags L) t (edge_tags L (Explicit e)) = false) \/
                 (exists p, In (Implicit p) ds) /\ M_Tags.only_planes (tags L) t = 0%N).
  { destruct Hpl as [H|H]; [left|right; now rewrite T8]. intros e He. unfold edge_tags. rewrite T8, T1. now apply H. }
  clear Hpl V1 V2. clearbody L.
  set (ed := Edge from to it t sc [Partition t s sc rule choice]). set (e := length (edges L)).
  set (L' := push_vvc _ _ _). exists L'. split; [reflexivity|].
  assert (E0 : text L' = text L) by (destruct from, to; reflexivity).
  assert (E1 : edges L' = edges L ++ [ed]) by (destruct from, to; reflexivity).
  assert (E2 : implicit L' = implicit L) by (destruct from, to; reflexivity).
  assert (E4 : visible L' = visible L) by (destruct from, to; reflexivity).
  assert (E5 : n_loose L' = n_loose L) by (destruct from, to; reflexivity).
  assert (E6 : vvc L' = adjust key_eqb (vvc L) (from, to, it) (fun ds => ds ++ [Explicit e])) by (destruct from, to; reflexivity).
  assert (E7 : masks L' = masks L) by (destruct from, to; reflexivity).
  assert (E8 : tags L' = tags L) by (destruct from, to; reflexivity).
  assert (E9 : nodes L' = nodes (index_edge from to t e L)) by (destruct from, to; reflexivity).
  assert (E3 : length (hidden L') = length (hidden L)).
  { unfold L', push_vvc. cbn [hidden set_vvc]. now rewrite hide_length. }
  clearbody L'.
  assert (EN : names_of L' = names_of L).
  { unfold names_of. rewrite E9. unfold index_edge. cbn. rewrite map_map. reflexivity. }
  assert (ES : forall p, symbol_len L' p = symbol_len L p) by (intros p; unfold symbol_len; now rewrite E0).
  assert (Hold : forall x, x < e -> edge_tags L' (Explicit x) = edge_tags L (Explicit x)) by (intros x Hx; eapply edge_tags_old; eauto).
  assert (Hnew : edge_tags L' (Explicit e) = t) by (unfold e; rewrite (edge_tags_new _ _ _ E1); reflexivity).
  assert (Hof : forall x, x < e -> first_tags L' x = first_tags L x).
  { intros x Hx. unfold first_tags. now rewrite E1, nth_error_app1 by assumption. }
  assert (Hnf : first_tags L' e = t).
  { unfold first_tags, e. rewrite E1, nth_error_app2, Nat.sub_diag by lia. reflexivity. }
  assert (Hlt : forall d k, stands L (Explicit d) k -> d < e).
  { intros d k [x [Hx _]]. apply nth_error_Some. congruence. }
  assert (Hst : forall d k, stands L d k -> stands L' d k).
  { intros [p|d] k Hd; cbn in *; [now rewrite ES, E0|]. destruct Hd as [x [Hx Hk]]. exists x. split; [|assumption].
    rewrite E1, nth_error_app1; [assumption|]. apply nth_error_Some. congruence. }
  assert (Hgo : forall v, graph_out L' v = graph_out L v ++ (if vertex_eqb from v then [e] else [])).
  { intros v. unfold graph_out. rewrite E1, numbers_app. cbn. now rewrite app_nil_r. }
  assert (Hgi : forall v, graph_in L' v = graph_in L v ++ (if vertex_eqb to v then [e] else [])).
  { intros v. unfold graph_in. rewrite E1, numbers_app. cbn. now rewrite app_nil_r. }
  assert (Hgl : forall v x, In x (graph_out L v) -> x < e).
  { intros v x Hx. apply graph_out_spec in Hx as [y [Hy _]]. apply nth_error_Some. congruence. }
  assert (Hil : forall v x, In x (graph_in L v) -> x < e).
  { intros v x Hx. apply graph_in_spec in Hx as [y [Hy _]]. apply nth_error_Some. congruence. }
  assert (Hnth : forall x y, nth_error (edges L') x = Some y -> nth_error (edges L) x = Some y /\ x < e \/ x = e /\ y = ed).
  { intros x y. rewrite E1. destruct (Nat.lt_ge_cases x (length (edges L))) as [H|H].
    - rewrite nth_error_app1 by assumption. auto.
    - rewrite nth_error_app2 by assumption. destruct (x - length (edges L)) as [|[]] eqn:Ex; try discriminate. cbn.
      intros [= <-]. right. unfold e. split; [lia|reflexivity]. }
  assert (G' : good L').
  { split.
    - rewrite E2, E0. apply G.
    - rewrite E3, E0. apply G.
    - rewrite E4, E0. apply G.
    - intros p. rewrite E2, ES, E0. apply G.
    - rewrite EN. apply G.
    - intros v. rewrite EN. unfold valid. rewrite E0, E5. apply G.
    - intros k. rewrite EN, E5. apply G.
    - intros x y Hx. rewrite EN. apply Hnth in Hx as [[Hx _]|[-> ->]]; [now apply (g_edges _ G _ _ Hx)|].
      cbn. auto.
    - intros n. rewrite E9, in_index, E7. intros [n0 [Hn ->]]. cbn. destruct (g_sizes _ G _ Hn).
      destruct (vertex_eqb (n_name n0) from), (vertex_eqb (n_name n0) to); rewrite ?push_index_length; auto.
    - intros n i m. rewrite E9, in_index, E7. intros [n0 [Hn ->]] Hm. cbn [n_out n_in n_name].
      destruct (g_sizes _ G _ Hn) as [S1 S2]. destruct (g_index _ G _ _ _ Hn Hm) as [P1 P2]. rewrite Hgo, Hgi. split.
      + destruct (vertex_eqb (n_name n0) from) eqn:Ev.
        * apply vertex_eqb_spec in Ev. rewrite Ev, vertex_eqb_refl, <- Ev. rewrite (push_index_nth _ _ _ _ _ m) by assumption.
          eapply picked_push; eauto.
        * apply vertex_eqb_false in Ev. assert (vertex_eqb from (n_name n0) = false) as -> by (apply vertex_eqb_false; congruence).
          rewrite app_nil_r. eapply picked_other; [exact P1| |eauto]. intros x Hx. rewrite Hold by eauto. apply included_refl.
      + destruct (vertex_eqb (n_name n0) to) eqn:Ev.
        * apply vertex_eqb_spec in Ev. rewrite Ev, vertex_eqb_refl, <- Ev. rewrite (push_index_nth _ _ _ _ _ m) by assumption.
          eapply picked_push; eauto.
        * apply vertex_eqb_false in Ev. assert (vertex_eqb to (n_name n0) = false) as -> by (apply vertex_eqb_false; congruence).
          rewrite app_nil_r. eapply picked_other; [exact P2| |eauto]. intros x Hx. rewrite Hold by eauto. apply included_refl.
    - intros k ds' d. rewrite E6, key_lookup_adjust. destruct (key_eqb (from, to, it) k) eqn:Ek.
      + destruct (lookup key_eqb (vvc L) k) as [ds0|] eqn:Hk; [|discriminate]. cbn [option_map]. intros [= <-]. rewrite in_app_iff.
        intros [Hd|[<-|[]]]; [eapply Hst, g_vvc; eassumption|]. cbn. exists ed. split; [|exact Ek].
        rewrite E1, nth_error_app2, Nat.sub_diag by (unfold e; lia). reflexivity.
      + intros Hk Hd. eapply Hst, g_vvc; eassumption.
    - intros x y Hx. rewrite E6, key_lookup_adjust. apply Hnth in Hx as [[Hx _]|[-> ->]].
      + destruct (g_known _ G _ _ Hx) as [ds0 [H1 H2]].
        destruct (key_eqb (from, to, it) (e_from y, e_to y, e_item y)) eqn:Ek; rewrite H1; cbn; [|eauto].
        eexists. split; [reflexivity|]. apply in_app_iff. now left.
      + cbn [e_from e_to e_item ed]. rewrite key_eqb_refl, Hds. cbn. eexists. split; [reflexivity|]. apply in_app_iff. right. now left.
    - intros k ds' a b. rewrite E6, key_lookup_adjust, E8. destruct (key_eqb (from, to, it) k) eqn:Ek.
      + pose proof (key_lookup_cong (vvc L) _ _ Ek) as Hk. rewrite Hds in Hk. rewrite <- Hk. cbn [option_map]. intros [= <-].
        rewrite !in_app_iff. intros [Ha|[Ha|[]]] [Hb|[Hb|[]]] Hab.
        * destruct (g_planes _ G k ds a b (eq_sym Hk) Ha Hb Hab) as [H|[[p H] H']].
          -- left. rewrite !Hold; [assumption| |]; eapply Hlt, (g_vvc _ G); eauto.
          -- right. split; [exists p; apply in_app_iff; now left|]. rewrite !Hold; [assumption| |]; eapply Hlt, (g_vvc _ G); eauto.
        * injection Hb as <-. rewrite Hnew, Hold by (eapply Hlt, (g_vvc _ G); eauto).
          destruct (M_Tags.same_plane (tags L) (edge_tags L (Explicit a)) t) eqn:Esp; [right|now left].
          destruct Hpl' as [H|[[p H] H']]; [apply H in Ha; rewrite same_plane_sym in Ha; congruence|].
          split; [exists p; apply in_app_iff; now left|]. apply N.eqb_eq in Esp. split; congruence.
        * injection Ha as <-. rewrite Hnew, Hold by (eapply Hlt, (g_vvc _ G); eauto).
          destruct (M_Tags.same_plane (tags L) t (edge_tags L (Explicit b))) eqn:Esp; [right|now left].
          destruct Hpl' as [H|[[p H] H']]; [apply H in Hb; congruence|].
          split; [exists p; apply in_app_iff; now left|]. apply N.eqb_eq in Esp. split; congruence.
        * congruence.
      + intros Hk Ha Hb Hab. destruct (g_planes _ G k ds' a b Hk Ha Hb Hab) as [H|H]; [left|right];
          (rewrite !Hold; [assumption| |]; eapply Hlt, (g_vvc _ G); eauto).
    - intros x y Hx. apply Hnth in Hx as [[Hx _]|[-> ->]]; [now apply (g_first _ G _ _ Hx)|].
      cbn. eexists. eexists. split; [reflexivity|]. cbn. apply included_refl.
    - intros x y Hx. rewrite E8. apply Hnth in Hx as [[Hx _]|[-> ->]]; [now apply (g_proper _ G _ _ Hx)|exact Hp].
    - rewrite E7. apply G.
    - rewrite E8. apply G.
    - rewrite E8. apply G. }
  split; [exact G'|]. split.
  - eapply grows_trans; [exact W|]. split.
    + exists []. now rewrite app_nil_r, E0.
    + intros x y Hx. exists y. split; [|apply extends_refl]. rewrite E1, nth_error_app1; [assumption|]. apply nth_error_Some. congruence.
    + intros p Hb _. left. now rewrite E2.
    + now rewrite E5.
    + rewrite EN. apply incl_refl.
    + rewrite E8. apply P_Tags.later_refl.
  - rewrite E1, E2, E0, E8, E7. repeat split; congruence.
Qed.

Lemma insert_implicit_good L p to it ds :
  good L -> to = Text (p + symbol_len L p) -> valid L to = true -> lookup key_eqb (vvc L) (Text p, to, it) = Some ds ->
  let L' := push_vvc (Text p, to, it) (Implicit p) (set_implicit (set_bit (implicit L) p true) L) in
  good L' /\ grows L L'.
Proof.
  intros G Et Hv Hds L'. subst to. cbn in Hv. apply Nat.leb_le in Hv.
  assert (Hb : forall q, bit (implicit L') q = true -> q = p \/ bit (implicit L) q = true).
  { intros q. change (implicit L') with (set_bit (implicit L) p true). rewrite bit_set. destruct (Nat.eqb_spec p q); [now left|]. now right. }
  split.
  - split; try apply G.
    + change (implicit L') with (set_bit (implicit L) p true). rewrite set_bit_length. apply G.
    + intros q Hq. apply Hb in Hq as [->|Hq]; [exact Hv|]. now apply (g_bits _ G).
    + cbn [vvc L' push_vvc set_vvc set_implicit]. intros k ds' d. rewrite key_lookup_adjust.
      destruct (key_eqb (Text p, Text (p + symbol_len L p), it) k) eqn:Ek.
      * destruct (lookup key_eqb (vvc L) k) as [ds0|] eqn:Hk; [|discriminate]. cbn [option_map]. intros [= <-]. rewrite in_app_iff.
        intros [Hd|[<-|[]]].
        -- pose proof (g_vvc _ G _ _ _ Hk Hd) as H. destruct d; exact H.
        -- apply key_eqb_spec in Ek as [E1 [E2 _]]. cbn in E1, E2 |- *. auto.
      * intros Hk Hd. pose proof (g_vvc _ G _ _ _ Hk Hd) as H. destruct d; exact H.
    + intros e ed He. destruct (g_known _ G e ed He) as [ds0 [H1 H2]]. cbn [vvc L' push_vvc set_vvc set_implicit].
      rewrite key_lookup_adjust.
      destruct (key_eqb (Text p, Text (p + symbol_len L p), it) (e_from ed, e_to ed, e_item ed)); rewrite H1; cbn; [|eauto].
      eexists. split; [reflexivity|]. apply in_app_iff. now left.
    + cbn [vvc L' push_vvc set_vvc set_implicit]. intros k ds' a b. rewrite key_lookup_adjust.
      destruct (key_eqb (Text p, Text (p + symbol_len L p), it) k) eqn:Ek.
      * destruct (lookup key_eqb (vvc L) k) as [ds0|] eqn:Hk; [|discriminate]. cbn [option_map]. intros [= <-].
        rewrite !in_app_iff. intros [Ha|[Ha|[]]] [Hb'|[Hb'|[]]] Hab; try discriminate.
        destruct (g_planes _ G _ _ _ _ Hk Ha Hb' Hab) as [H|[_ H]]; [now left|right]. split; [|exact H].
        exists p. apply in_app_iff. right. now left.
      * intros Hk Ha Hb' Hab. apply (g_planes _ G _ _ _ _ Hk Ha Hb' Hab).
  - split; try apply (grows_refl L). intros q Hq _. left. change (implicit L') with (set_bit (implicit L) p true). rewrite bit_set. destruct ((p =? q) && _); [reflexivity|assumption].
Qed.
Lemma is_implicit_symbol_spec L from to t p : is_implicit_symbol L from to t = Some p ->
  from = Text p /\ to = Text (p + symbol_len L p) /\ t = symbol_tag /\ bit (implicit L) p = false.
Proof.
  unfold is_implicit_symbol. destruct from as [q|], to as [r|]; try discriminate.
  destruct (M_Tags.coll_eqb t symbol_tag) eqn:E1; [|discriminate]. destruct (Nat.eqb_spec (q + symbol_len L q) r); [|discriminate].
  destruct (bit (implicit L) q) eqn:E2; [discriminate|]. cbn. intros [= <-]. apply N.eqb_eq in E1. subst. auto.
Qed.

(** What the addition of a new edge does. *)
Definition inserted (from to : vertex) (it : item) (t : collection) (s : sequence) (sc : score) (rule choice : Z)
  (L L' : lattice) (r : res desc) : Prop :=
  match r with
  | Ok (Implicit p) => from = Text p /\ to = Text (p + symbol_len L p) /\ t = symbol_tag /\ bit (implicit L) p = false /\
                       implicit L' = set_bit (implicit L) p true /\ edges L' = edges L
  | Ok (Explicit e) => e = length (edges L) /\ edges L' = edges L ++ [Edge from to it t sc [Partition t s sc rule choice]] /\
                       implicit L' = implicit L
  | Throw _ => core L L'
  | Undefined => False
  end.
Lemma insert_edge_good L from to it t s sc rule choice ds L' r :
  good L -> valid L from = true -> valid L to = true -> from <> to -> reversed from to = false ->
  proper (tags L) t -> lookup key_eqb (vvc L) (from, to, it) = Some ds ->
  ((forall e, In (Explicit e) ds -> M_Tags.same_plane (tags L) t (edge_tags L (Explicit e)) = false) \/
   (exists p, In (Implicit p) ds) /\ M_Tags.only_planes (tags L) t = 0%N) ->
  insert_edge from to it t s sc rule choice L = (L', r) -> r <> Undefined ->
  good L' /\ grows L L' /\ text L' = text L /\ tags L' = tags L /\ inserted from to it t s sc rule choice L L' r.
Proof.
  intros G V1 V2 Hne Hrev Hp Hds Hpl. unfold insert_edge.
  assert (Q : query (bind (change (count_edge (from, to))) (fun _ => update_visible from to t))).
  { apply query_bind; [apply count_edge_query|]. intros _. apply update_visible_query. }
  unfold bind at 1. cbn [change]. unfold bind. specialize (Q L). unfold bind in Q. cbn [change] in Q.
  destruct (update_visible from to t (count_edge (from, to) L)) as [L1 [[]|e|]].
  - destruct (Q _ _ G eq_refl) as [G1 C]; [discriminate|]. clear Q. intros E Hr.
    assert (V1' : valid L1 from = true) by now rewrite (core_valid _ _ _ C).
    assert (V2' : valid L1 to = true) by now rewrite (core_valid _ _ _ C).
    assert (Hp' : proper (tags L1) t) by now rewrite (c_tags _ _ C).
    assert (Hds' : lookup key_eqb (vvc L1) (from, to, it) = Some ds) by now rewrite (c_vvc _ _ C).
    assert (Hpl' : (forall e, In (Explicit e) ds -> M_Tags.same_plane (tags L1) t (edge_tags L1 (Explicit e)) = false) \/
       (exists p, In (Implicit p) ds) /\ M_Tags.only_planes (tags L1) t = 0%N).
    { destruct Hpl as [H|H]; [left|right; now rewrite (c_tags _ _ C)]. intros e He. rewrite (c_tags _ _ C), (core_edge_tags _ _ _ C). auto. }
    destruct (is_implicit_symbol L1 from to t) as [p|] eqn:Ei.
    + injection E as <- <-. apply is_implicit_symbol_spec in Ei as [-> [Et [-> Hb]]].
      destruct (insert_implicit_good L1 p to it ds G1 Et V2' Hds') as [G2 W2].
      split; [exact G2|]. split; [eapply grows_trans; [apply core_grows; exact C|exact W2]|].
      split; [apply (c_text _ _ C)|]. split; [apply (c_tags _ _ C)|]. cbn.
      rewrite (c_implicit _ _ C) in Hb. rewrite (core_symbol_len _ _ _ C) in Et. rewrite (c_implicit _ _ C), (c_edges _ _ C). auto 10.
    + destruct (insert_explicit_good L1 from to it t s sc rule choice ds G1 V1' V2' Hne Hrev Hp' Hds' Hpl')
        as [L2 [E2 [G2 [W2 [F1 [F2 [F3 [F4 F5]]]]]]]].
      rewrite E in E2. injection E2 as -> ->.
      split; [exact G2|]. split; [eapply grows_trans; [apply core_grows; exact C|exact W2]|].
      split; [rewrite F3; apply (c_text _ _ C)|]. split; [rewrite F4; apply (c_tags _ _ C)|]. cbn.
      rewrite F1, F2, (c_edges _ _ C), (c_implicit _ _ C). auto.
  - destruct (Q _ _ G eq_refl) as [G1 C]; [discriminate|]. intros [= <- <-] _. split; [assumption|].
    split; [now apply core_grows|]. split; [apply C|]. split; [apply C|]. exact C.
  - intros [= <- <-] H. now destruct H.
Qed.

Lemma reachable_ok L : good L -> P_Tags.ok (tags L).
Proof. intros G. apply P_Tags.reachable_ok, G. Qed.
Lemma symbol_proper L : good L -> proper (tags L) symbol_tag.
Proof.
  intros G. pose proof (P_Tags.ok_symbol _ (reachable_ok _ G)) as H0. split.
  - intros i Hi. destruct i as [|p]; [now exists M_Tags.SYMBOL|]. destruct p; discriminate Hi.
  - intros i n Hi Hn Hpl. destruct i as [|i]; [rewrite H0 in Hn; injection Hn as <-; discriminate Hpl|].
    cbn in Hi. destruct (Pos.of_succ_nat i); discriminate Hi.
Qed.
Lemma discarded_proper L : good L -> proper (tags L) discarded_tag.
Proof.
  intros G. pose proof (g_discarded _ G) as H0. split.
  - intros i Hi. destruct i as [|[p|p|]]; try discriminate Hi. now exists DISCARDED. 
  - intros i n Hi Hn Hpl. destruct i as [|[|i]]; [discriminate Hi|rewrite H0 in Hn; injection Hn as <-; discriminate Hpl|].
    cbn in Hi. destruct (Pos.of_succ_nat i); discriminate Hi.
Qed.
Lemma edge_tags_proper L d : good L -> proper (tags L) (edge_tags L d).
Proof.
  intros G. destruct d as [p|e]; cbn; [now apply symbol_proper|]. destruct (nth_error (edges L) e) as [ed|] eqn:E.
  - now apply (g_proper _ G _ _ E).
  - apply proper_zero.
Qed.
Lemma gather_proper L s : good L -> proper (tags L) (gather_plane_tags L s).
Proof.
  intros G. unfold gather_plane_tags. destruct (links s) as [|u us]; [apply proper_zero|].
  assert (H : forall (us : list usage) c, proper (tags L) c ->
    proper (tags L) (fold_left (fun c w => M_Tags.union c (M_Tags.only_planes (tags L) (edge_tags L (fst w)))) us c)).
  { clear us. induction us as [|w us IH]; intros c Hc; cbn [fold_left]; [assumption|]. apply IH, proper_union; [assumption|].
    now apply proper_planes, edge_tags_proper. }
  apply H. now apply proper_planes, edge_tags_proper.
Qed.

Lemma symbol_planes L : good L -> M_Tags.only_planes (tags L) symbol_tag = 0%N.
Proof.
  intros G. apply N.bits_inj_0. intros i. unfold M_Tags.only_planes. rewrite P_Tags.intersection_bit.
  destruct i as [|[]]; try apply andb_false_r. destruct (N.testbit (M_Tags.planes (tags L)) 0) eqn:E; [|reflexivity].
  destruct (P_Tags.ok_planes _ (reachable_ok _ G) _ E) as [n [Hn Hp]]. change (N.to_nat 0) with 0 in Hn.
  rewrite (P_Tags.ok_symbol _ (reachable_ok _ G)) in Hn. injection Hn as <-. discriminate Hp.
Qed.
(** The tags the edge gets: with no plane tag, those of the parts are inherited. *)
Definition inherited (L : lattice) (t : collection) (s : sequence) : collection :=
  if M_Tags.is_empty (M_Tags.only_planes (tags L) t) then M_Tags.union t (gather_plane_tags L s) else t.
Lemma inherited_proper L t s : good L -> proper (tags L) t -> proper (tags L) (inherited L t s).
Proof.
  intros G H. unfold inherited. destruct (M_Tags.is_empty _); [|assumption]. apply proper_union; [assumption|now apply gather_proper].
Qed.
Lemma inherited_included L t s : included t (inherited L t s).
Proof. unfold inherited. destruct (M_Tags.is_empty _); [apply included_union_l|apply included_refl]. Qed.

Lemma merge_extends t s sc rule choice ed : extends ed (merge_into t s sc rule choice ed).
Proof.
  split; try reflexivity; cbn.
  - destruct (M_Tags.coll_eqb t (e_tags ed)) eqn:E; [apply N.eqb_eq in E; subst; apply included_refl|apply included_union_l].
  - destruct (Z.ltb_spec (e_score ed) sc); lia.
  - eexists. reflexivity.
Qed.
Lemma merge_tags t s sc rule choice ed : e_tags (merge_into t s sc rule choice ed) = M_Tags.union (e_tags ed) t.
Proof. cbn. destruct (M_Tags.coll_eqb t (e_tags ed)) eqn:E; [|reflexivity]. apply N.eqb_eq in E. subst. now rewrite union_same. Qed.
Lemma same_plane_eq m a b : M_Tags.same_plane m a b = true <-> M_Tags.only_planes m a = M_Tags.only_planes m b.
Proof. apply N.eqb_eq. Qed.
Lemma merge_planes m t s sc rule choice ed : M_Tags.same_plane m t (e_tags ed) = true ->
  M_Tags.only_planes m (e_tags (merge_into t s sc rule choice ed)) = M_Tags.only_planes m (e_tags ed).
Proof. intros H. apply same_plane_eq in H. rewrite merge_tags, planes_union, H. apply union_same. Qed.

Lemma merge_good L e ed t s sc rule choice : good L -> nth_error (edges L) e = Some ed -> proper (tags L) t ->
  M_Tags.same_plane (tags L) t (e_tags ed) = true ->
  good (set_edges (update_edge (edges L) e (merge_into t s sc rule choice)) L) /\
  grows L (set_edges (update_edge (edges L) e (merge_into t s sc rule choice)) L).
Proof.
  intros G He Hp Hs. set (f := merge_into t s sc rule choice). set (L' := set_edges _ L).
  assert (Hnth : forall x y, nth_error (edges L') x = Some y -> exists z, nth_error (edges L) x = Some z /\ extends z y /\
             (y = z \/ y = f ed /\ z = ed)).
  { intros x y. cbn. rewrite update_edge_nth. destruct (Nat.eqb_spec e x) as [->|].
    - rewrite He. cbn. intros [= <-]. exists ed. split; [reflexivity|]. split; [apply merge_extends|now right].
    - intros H. exists y. split; [assumption|]. split; [apply extends_refl|now left]. }
  assert (Hfw : forall x z, nth_error (edges L) x = Some z -> exists y, nth_error (edges L') x = Some y /\ extends z y /\
             (y = z \/ y = f ed /\ z = ed)).
  { intros x z Hz. cbn. rewrite update_edge_nth. destruct (Nat.eqb_spec e x) as [->|].
    - rewrite He in Hz. injection Hz as <-. rewrite He. cbn. exists (f ed). split; [reflexivity|]. split; [apply merge_extends|now right].
    - exists z. split; [assumption|]. split; [apply extends_refl|now left]. }
  assert (Hpl : forall x, M_Tags.only_planes (tags L) (edge_tags L' (Explicit x)) = M_Tags.only_planes (tags L) (edge_tags L (Explicit x))).
  { intros x. unfold edge_tags. cbn [edges L' set_edges]. rewrite update_edge_nth. destruct (Nat.eqb_spec e x) as [->|]; [|reflexivity].
    rewrite He. cbn [option_map]. now apply merge_planes. }
  assert (Hin : forall x, included (edge_tags L (Explicit x)) (edge_tags L' (Explicit x))).
  { intros x. unfold edge_tags. cbn [edges L' set_edges]. rewrite update_edge_nth. destruct (Nat.eqb_spec e x) as [->|]; [|apply included_refl].
    rewrite He. cbn [option_map]. apply merge_extends. }
  assert (Hff : forall x, first_tags L' x = first_tags L x).
  { intros x. unfold first_tags. cbn [edges L' set_edges]. rewrite update_edge_nth. destruct (Nat.eqb_spec e x) as [->|]; [|reflexivity].
    rewrite He. cbn [option_map f merge_into e_partitions]. destruct (g_first _ G _ _ He) as [p0 [ps [-> _]]]. reflexivity. }
  assert (Hgo : forall v, graph_out L' v = graph_out L v).
  { intros v. unfold graph_out. apply numbers_ext. cbn. apply (update_edge_map (fun e0 => vertex_eqb (e_from e0) v)). reflexivity. }
  assert (Hgi : forall v, graph_in L' v = graph_in L v).
  { intros v. unfold graph_in. apply numbers_ext. cbn. apply (update_edge_map (fun e0 => vertex_eqb (e_to e0) v)). reflexivity. }
  split.
  - split; try apply G.
    + intros x y Hx. apply Hnth in Hx as [z [Hz [X _]]]. rewrite (x_from _ _ X), (x_to _ _ X). apply (g_edges _ G _ _ Hz).
    + intros n i m Hn Hm. rewrite Hgo, Hgi. destruct (g_index _ G n i m Hn Hm) as [P1 P2].
      split; (eapply picked_other; [eassumption|intros x _; apply Hin|intros x _; apply Hff]).
    + intros k ds d Hk Hd. pose proof (g_vvc _ G _ _ _ Hk Hd) as H. destruct d as [p|x]; [exact H|].
      destruct H as [z [Hz Hk']]. apply Hfw in Hz as [y [Hy [X _]]]. exists y. split; [assumption|].
      now rewrite (x_from _ _ X), (x_to _ _ X), (x_item _ _ X).
    + intros x y Hx. apply Hnth in Hx as [z [Hz [X _]]]. rewrite (x_from _ _ X), (x_to _ _ X), (x_item _ _ X). apply (g_known _ G _ _ Hz).
    + intros k ds a b Hk Ha Hb Hab. change (tags L') with (tags L). unfold M_Tags.same_plane. rewrite !Hpl.
      apply (g_planes _ G k ds a b Hk Ha Hb Hab).
    + intros x y Hx. apply Hnth in Hx as [z [Hz [X _]]]. destruct (g_first _ G _ _ Hz) as [p0 [ps [E0 H0]]].
      destruct (x_partitions _ _ X) as [qs Eq]. exists p0, (ps ++ qs). split; [rewrite Eq, E0; reflexivity|].
      eapply included_trans; [exact H0|apply X].
    + intros x y Hx. apply Hnth in Hx as [z [Hz [X [->|[-> ->]]]]]; [apply (g_proper _ G _ _ Hz)|].
      unfold f. rewrite merge_tags. apply proper_union; [apply (g_proper _ G _ _ Hz)|assumption].
  - split; try apply (grows_refl L).
    + intros x z Hz. apply Hfw in Hz as [y [Hy [X _]]]. eauto.
    + intros p Hb _. now left.
Qed.

(** What addEdge does. *)
Inductive addition (from to : vertex) (it : item) (t : collection) (s : sequence) (sc : score) (rule choice : Z)
  (L L' : lattice) : res desc -> Prop :=
  | A_loop : from = to -> L' = L -> addition from to it t s sc rule choice L L' (Throw LoopEdge)
  | A_reversed : from <> to -> reversed from to = true -> L' = L -> addition from to it t s sc rule choice L L' (Throw ReversedEdge)
  | A_refused : forall x, x <> NotUtf8 -> edges L' = edges L -> implicit L' = implicit L ->
      addition from to it t s sc rule choice L L' (Throw x)
  | A_bytes : edges L' = edges L -> addition from to it t s sc rule choice L L' (Throw NotUtf8)
  | A_merged : forall e ed, nth_error (edges L) e = Some ed -> key_eqb (e_from ed, e_to ed, e_item ed) (from, to, it) = true ->
      M_Tags.same_plane (tags L) t (e_tags ed) = true ->
      edges L' = update_edge (edges L) e (merge_into t s sc rule choice) -> implicit L' = implicit L ->
      addition from to it t s sc rule choice L L' (Ok (Explicit e))
  | A_symbol : forall p, from = Text p -> to = Text (p + symbol_len L p) -> included t symbol_tag -> edges L' = edges L ->
      (forall q, bit (implicit L') q = if p =? q then true else bit (implicit L) q) ->
      addition from to it t s sc rule choice L L' (Ok (Implicit p))
  | A_new : edges L' = edges L ++ [Edge from to it t sc [Partition t s sc rule choice]] -> implicit L' = implicit L ->
      (forall ds e, lookup key_eqb (vvc L) (from, to, it) = Some ds -> In (Explicit e) ds ->
         M_Tags.same_plane (tags L) t (edge_tags L (Explicit e)) = false) ->
      addition from to it t s sc rule choice L L' (Ok (Explicit (length (edges L))))
  | A_unfold : forall p ds t', from = Text p -> to = Text (p + symbol_len L p) ->
      lookup key_eqb (vvc L) (from, to, it) = Some ds -> In (Implicit p) ds ->
      t' = M_Tags.union symbol_tag t -> M_Tags.same_plane (tags L) t symbol_tag = true ->
      edges L' = edges L ++ [Edge from to it t' sc [Partition t' s sc rule choice]] ->
      implicit L' = set_bit (implicit L) p false ->
      addition from to it t s sc rule choice L L' (Ok (Explicit (length (edges L)))).

Lemma insert_vvc_good L k : good L -> good (set_vvc (insert_new key_eqb (vvc L) k []) L).
Proof.
  intros G. split; try apply G; cbn [vvc set_vvc].
  - intros k' ds d. rewrite key_lookup_insert. destruct (lookup key_eqb (vvc L) k') as [ds0|] eqn:Hk.
    + intros [= <-] Hd. pose proof (g_vvc _ G _ _ _ Hk Hd) as H. destruct d; exact H.
    + destruct (key_eqb k k'); [intros [= <-] []|discriminate].
  - intros e ed He. destruct (g_known _ G e ed He) as [ds [H1 H2]]. rewrite key_lookup_insert, H1. eauto.
  - intros k' ds a b. rewrite key_lookup_insert. destruct (lookup key_eqb (vvc L) k') as [ds0|] eqn:Hk.
    + intros [= <-]. exact (g_planes _ G _ _ _ _ Hk).
    + destruct (key_eqb k k'); [intros [= <-] []|discriminate].
Qed.
Lemma clear_bit_good L p : good L -> good (set_implicit (set_bit (implicit L) p false) L).
Proof.
  intros G. split; try apply G; cbn [implicit set_implicit].
  - rewrite set_bit_length. apply G.
  - intros q. rewrite bit_set. destruct ((p =? q) && _); [discriminate|]. now apply (g_bits _ G).
Qed.

Definition only_bytes {A} (m : act A) : Prop := forall L L' x, m L = (L', Throw x) -> x = NoEdge \/ x = NotUtf8.
Lemma only_bytes_bind {A B} (m : act A) (f : A -> act B) : only_bytes m -> (forall a, only_bytes (f a)) -> only_bytes (bind m f).
Proof.
  intros Hm Hf L L' x. unfold bind. destruct (m L) as [L1 [a|e|]] eqn:E; [apply Hf|intros [= <- <-]; eapply Hm; eassumption|discriminate].
Qed.
Lemma only_bytes_first {A} (l : list A) : only_bytes (first l).
Proof. intros L L' x. destruct l; cbn; [intros [= <- <-]; auto|discriminate]. Qed.
Lemma only_bytes_index m : only_bytes (add_tag_mask_index m).
Proof. intros L L' x. unfold add_tag_mask_index. destruct (mask_index _ _); discriminate. Qed.
Lemma prior_vertex_throws L p x : prior_vertex L p = Throw x -> x = NoVertex \/ x = NotUtf8.
Proof.
  unfold prior_vertex. destruct (p =? 0); [intros [= <-]; auto|]. destruct (prior _) as [[cp ?]|]; [|intros [= <-]; auto].
  destruct (append cp); [discriminate|intros [= <-]; auto].
Qed.
Lemma implicit_in_throws L p x : implicit_in L p = Throw x -> x = NotUtf8.
Proof.
  unfold implicit_in. destruct (prior_vertex L p) as [|e|] eqn:E; try discriminate. destruct (prior_vertex_throws _ _ _ E) as [->| ->]; [discriminate|].
  now intros [= <-].
Qed.
Lemma only_bytes_out v m : only_bytes (out_edges v m).
Proof.
  intros L L' x. unfold out_edges. destruct (negb _); [discriminate|]. destruct (M_Tags.any m).
  - unfold ask, all_out_edges. destruct (valid L v); discriminate.
  - apply (only_bytes_bind _ _ (only_bytes_index m)). intros a L1 L2 y. discriminate.
Qed.
Lemma only_bytes_in v m : only_bytes (in_edges v m).
Proof.
  intros L L' x. unfold in_edges. destruct (negb _); [discriminate|]. destruct (M_Tags.any m).
  - unfold ask, all_in_edges. destruct (valid L v); [|discriminate]. destruct v; [|discriminate].
    destruct (implicit_in L p) eqn:E; try discriminate. intros [= _ <-]. apply implicit_in_throws in E as ->. auto.
  - apply (only_bytes_bind _ _ (only_bytes_index m)). intros a L1 L2 y. unfold ask. destruct v; [|discriminate].
    destruct (implicit_in L1 p) eqn:E; try discriminate. intros [= _ <-]. apply implicit_in_throws in E as ->. auto.
Qed.
Lemma catch_throws m L L' x : only_bytes m -> catch_no_edge m L = (L', Throw x) -> x = NotUtf8.
Proof.
  intros H. unfold catch_no_edge. destruct (m L) as [L1 [u|e|]] eqn:E; try discriminate.
  destruct (H _ _ _ E) as [->| ->]; [discriminate|]. now intros [= <- <-].
Qed.
Lemma update_visible_throws from to t L L' x : update_visible from to t L = (L', Throw x) -> x = NotUtf8.
Proof.
  unfold update_visible. destruct (M_Tags.coll_eqb t symbol_tag); [|discriminate]. apply catch_throws.
  assert (M : forall v, only_bytes (make_visible v)) by (intros []; discriminate).
  apply only_bytes_bind; [apply only_bytes_bind; [apply only_bytes_out|intros; apply only_bytes_first]|]. intros _.
  apply only_bytes_bind; [apply M|]. intros _.
  apply only_bytes_bind; [apply only_bytes_bind; [apply only_bytes_in|intros; apply only_bytes_first]|]. intros d.
  apply only_bytes_bind; [|exact M]. intros L1 L2 y. unfold ask, source. destruct d; [discriminate|]. destruct (nth_error _ _); discriminate.
Qed.
Lemma insert_edge_throws from to it t s sc rule choice L L' x :
  insert_edge from to it t s sc rule choice L = (L', Throw x) -> x = NotUtf8.
Proof.
  unfold insert_edge, bind. cbn [change]. destruct (update_visible from to t (count_edge (from, to) L)) as [L1 [u|e|]] eqn:E; [|intros [= <- <-]|discriminate].
  - destruct (is_implicit_symbol _ _ _ _); discriminate.
  - eapply update_visible_throws, E.
Qed.

Lemma add_edge_spec from to it t0 s sc rule choice L L' r :
  good L -> proper (tags L) t0 -> add_edge from to it t0 s sc rule choice L = (L', r) -> r <> Undefined ->
  good L' /\ (r <> Throw NotUtf8 -> grows L L') /\ text L' = text L /\ tags L' = tags L /\
  addition from to it (inherited L t0 s) s sc rule choice L L' r.
Proof.
  intros G Hp. unfold add_edge. fold (inherited L t0 s).
  pose proof (inherited_proper _ _ s G Hp) as Hpt. set (t := inherited L t0 s) in *. clearbody t. clear Hp t0.
  destruct (vertex_eqb from to) eqn:Ev.
  { intros [= <- <-] _. apply vertex_eqb_spec in Ev. split; [assumption|]. split; [intros; apply grows_refl|].
    do 2 (split; [reflexivity|]). now constructor. }
  assert (Hne : from <> to) by (intros ->; now rewrite vertex_eqb_refl in Ev). clear Ev. destruct (reversed from to) eqn:Er.
  { intros [= <- <-] _. split; [assumption|]. split; [intros; apply grows_refl|]. do 2 (split; [reflexivity|]). now constructor. }
  destruct (negb (valid L from && valid L to)) eqn:Va; [intros [= <- <-] H; now destruct H|].
  apply negb_false_iff, andb_true_iff in Va as [V1 V2].
  set (k := (from, to, it)). set (L1 := set_vvc _ L). cbv zeta.
  assert (G1 : good L1) by now apply insert_vvc_good.
  assert (W1 : grows L L1) by (split; apply (grows_refl L)).
  assert (Hk1 : exists ds, lookup key_eqb (vvc L1) k = Some ds /\
            (lookup key_eqb (vvc L) k = Some ds \/ lookup key_eqb (vvc L) k = None /\ ds = [])).
  { cbn [vvc L1 set_vvc]. rewrite key_lookup_insert. destruct (lookup key_eqb (vvc L) k); [eauto|]. rewrite key_eqb_refl. eauto. }
  destruct Hk1 as [ds [Hk1 Hk0]]. rewrite Hk1.
  destruct (find (fun d => M_Tags.same_plane (tags L) t (edge_tags L d)) ds) as [d|] eqn:Ef.
  - apply find_some in Ef as [Hd Hs].
    pose proof (refers_to_query s d) as Q. unfold bind at 1. destruct (refers_to s d L1) as [L2 [self|x|]] eqn:Erf.
    2:{ destruct (Q _ _ _ G1 Erf) as [G2 C]; [discriminate|]. intros [= <- <-] _. split; [assumption|].
        split; [intros _; eapply grows_trans; [exact W1|now apply core_grows]|]. split; [apply C|]. split; [apply C|].
        destruct (match x with NotUtf8 => true | _ => false end) eqn:Ex.
        - destruct x; try discriminate. apply A_bytes. apply (c_edges _ _ C).
        - apply A_refused; [intros ->; discriminate|apply (c_edges _ _ C)|apply (c_implicit _ _ C)]. }
    2:{ intros [= <- <-] H. now destruct H. }
    destruct (Q _ _ _ G1 Erf) as [G2 C]; [discriminate|]. clear Q Erf.
    assert (W2 : grows L L2) by (eapply grows_trans; [exact W1|now apply core_grows]).
    destruct self.
    { intros [= <- <-] _. split; [assumption|]. split; [auto|]. split; [apply C|]. split; [apply C|].
      apply A_refused; [discriminate|apply (c_edges _ _ C)|apply (c_implicit _ _ C)]. }
    pose proof (g_vvc _ G1 _ _ _ Hk1 Hd) as Hst.
    destruct d as [p|e].
    + (* an implicit edge becomes explicit *)
      destruct Hst as [F1 [F2 F3]]. cbn in F1, F2. subst from. 
      assert (HS : forall q, symbol_len L1 q = symbol_len L q) by reflexivity. rewrite HS in F2, F3.
      set (t' := if M_Tags.coll_eqb t symbol_tag then t else M_Tags.union symbol_tag t).
      assert (Ht' : t' = M_Tags.union symbol_tag t).
      { unfold t'. destruct (M_Tags.coll_eqb t symbol_tag) eqn:E; [|reflexivity]. apply N.eqb_eq in E. subst t. now rewrite union_same. }
      unfold bind. cbn [change]. set (L3 := set_implicit (set_bit (implicit L2) p false) L2). intros E Hr.
      assert (G3 : good L3) by now apply clear_bit_good.
      assert (C2 : core L1 L2) by exact C.
      destruct (insert_edge_good L3 (Text p) to it t' s sc rule choice ds L' r) as [G' [W' [E1 [E2 I]]]]; try assumption.
      * unfold valid in *. cbn [text n_loose L3 set_implicit]. rewrite (c_text _ _ C2). exact V1.
      * unfold valid in *. cbn [text n_loose L3 set_implicit]. rewrite (c_text _ _ C2), (c_loose _ _ C2). exact V2.
      * cbn [tags L3 set_implicit]. rewrite (c_tags _ _ C2), Ht'. apply proper_union; [now apply (symbol_proper L1)|exact Hpt].
      * cbn [vvc L3 set_implicit]. rewrite (c_vvc _ _ C2). exact Hk1.
      * right. split; [eauto|]. cbn [tags L3 set_implicit]. rewrite (c_tags _ _ C2), Ht', planes_union.
        change (edge_tags L (Implicit p)) with symbol_tag in Hs. apply same_plane_eq in Hs.
        assert (E0 : M_Tags.only_planes (tags L1) symbol_tag = 0%N) by now apply (symbol_planes L1).
        change (tags L1) with (tags L) in *. rewrite Hs, E0. reflexivity.
      * assert (Ei : implicit L3 = set_bit (implicit L) p false) by (cbn [implicit L3 set_implicit]; now rewrite (c_implicit _ _ C2)).
        assert (Ee : edges L3 = edges L) by (cbn [edges L3 set_implicit]; now rewrite (c_edges _ _ C2)).
        assert (Et : text L3 = text L) by (cbn [text L3 set_implicit]; now rewrite (c_text _ _ C2)).
        assert (Es : forall q, symbol_len L3 q = symbol_len L q) by (intros q; unfold symbol_len; now rewrite Et).
        assert (Hlt : p < length (implicit L)).
        { rewrite (g_implicit _ G). change (text L1) with (text L) in F3. lia. }
        assert (Hlk : lookup key_eqb (vvc L) (Text p, to, it) = Some ds).
        { destruct Hk0 as [H|[_ ->]]; [exact H|destruct Hd]. }
        split; [exact G'|]. split; [|split; [congruence|split; [cbn in E2; rewrite E2; apply C2|]]].
        -- intros Hu.
           assert (Hbits : forall q, bit (implicit L) q = true -> bit (implicit L3) q = true \/ q = p).
           { intros q Hq. rewrite Ei, bit_set. destruct (Nat.eqb_spec p q); [now right|]. now left. }
           split; try apply W'.
           ++ exists []. rewrite app_nil_r. congruence.
           ++ intros x ed Hx. rewrite <- Ee in Hx. now apply (w_edges _ _ W').
           ++ intros q Hq Hl. destruct (Hbits q Hq) as [H| ->].
              ** rewrite <- Et in Hl. destruct (w_implicit _ _ W' q H Hl) as [K|K]; [now left|]. right. now rewrite <- Es.
              ** destruct r as [[p'|e]|x|]; unfold inserted in I.
                 --- destruct I as [I1 [I2 [I3 [I4 [I5 I6]]]]]. injection I1 as <-. left. rewrite I5, Ei, bit_set, Nat.eqb_refl, set_bit_length. now apply Nat.ltb_lt in Hlt as ->.
                 --- destruct I as [I1 [I2 I3]]. right. exists e. eexists. split; [rewrite I2, nth_error_app2, I1, Nat.sub_diag by lia; reflexivity|].
                     cbn. split; [reflexivity|]. split; [exact F2|]. rewrite Ht'. apply included_union_l.
                 --- exfalso. apply Hu. apply insert_edge_throws in E. now subst.
                 --- now destruct Hr.
           ++ eapply Nat.le_trans; [apply W2|]. apply (w_loose _ _ W').
           ++ eapply incl_tran; [apply W2|]. apply (w_names _ _ W').
           ++ eapply P_Tags.later_trans; [apply W2|]. apply (w_tags _ _ W').
        -- destruct r as [[p'|e]|x|]; unfold inserted in I.
           ++ destruct I as [I1 [I2 [I3 [I4 [I5 I6]]]]]. injection I1 as <-. eapply A_symbol; try reflexivity.
              ** exact F2.
              ** rewrite <- I3, Ht'. apply included_union_r.
              ** congruence.
              ** intros q. rewrite I5, Ei, !bit_set, set_bit_length.
                 apply Nat.ltb_lt in Hlt. rewrite Hlt. now destruct (p =? q).
           ++ destruct I as [-> [I2 I3]]. rewrite Ee in *. eapply A_unfold; eauto. congruence.
           ++ pose proof (insert_edge_throws _ _ _ _ _ _ _ _ _ _ _ E) as ->. apply A_bytes. rewrite (c_edges _ _ I). exact Ee.
           ++ now destruct Hr.
    + destruct Hst as [ed [He Hke]].
      assert (He2 : nth_error (edges L2) e = Some ed) by (rewrite (c_edges _ _ C); exact He).
      assert (Hse : M_Tags.same_plane (tags L) t (e_tags ed) = true).
      { cbn [edge_tags] in Hs. change (edges L1) with (edges L) in He. now rewrite He in Hs. }
      destruct (merge_good L2 e ed t s sc rule choice G2 He2) as [G3 W3].
      { rewrite (c_tags _ _ C). exact Hpt. } { rewrite (c_tags _ _ C). exact Hse. }
      unfold bind. cbn [change ret]. intros [= <- <-] _. split; [exact G3|]. split; [intros _; eapply grows_trans; eassumption|].
      split; [apply (c_text _ _ C)|]. split; [apply (c_tags _ _ C)|].
      eapply A_merged; [exact He| |exact Hse| |].
      * exact Hke.
      * cbn. now rewrite (c_edges _ _ C).
      * apply (c_implicit _ _ C).
  - intros E Hr.
    assert (Hn : forall d, In d ds -> M_Tags.same_plane (tags L) t (edge_tags L d) = false) by (intros d Hd; exact (find_none _ _ Ef d Hd)).
    destruct (insert_edge_good L1 from to it t s sc rule choice ds L' r) as [G' [W' [E1 [E2 I]]]]; try assumption.
    + left. intros e He. exact (Hn (Explicit e) He).
    + split; [exact G'|]. split; [intros _; eapply grows_trans; eassumption|]. split; [exact E1|]. split; [exact E2|].
      destruct r as [[p|e]|x|]; unfold inserted in I.
      * destruct I as [I1 [I2 [I3 [I4 [I5 I6]]]]]. eapply A_symbol; [exact I1|exact I2|rewrite I3; apply included_refl|exact I6|].
        intros q. rewrite I5, bit_set. change (implicit L1) with (implicit L). destruct (Nat.eqb_spec p q); [|reflexivity].
        assert (p <? length (implicit L) = true) as ->; [|reflexivity]. apply Nat.ltb_lt. rewrite (g_implicit _ G).
        rewrite I1 in V1. cbn in V1. apply Nat.leb_le in V1. lia.
      * destruct I as [-> [I2 I3]]. change (edges L1) with (edges L). apply A_new; [exact I2|exact I3|].
        intros ds' e Hl He. apply Hn. fold k in Hl. destruct Hk0 as [H|[H ->]]; rewrite H in Hl; [|discriminate]. now injection Hl as <-.
      * pose proof (insert_edge_throws _ _ _ _ _ _ _ _ _ _ _ E) as ->. apply A_bytes. apply (c_edges _ _ I).
      * now destruct Hr.
Qed.

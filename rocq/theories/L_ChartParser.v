(** Lemmas for C38: what the chart does to its lattice. *)
From Coq Require Import ZArith NArith List Bool Lia Permutation.
From Verif Require Import M_Utf8 S_Utf8 L_Utf8 M_Tags M_Items M_Cutter M_Lattice P_Tags P_Cutter L_Lattice S_Lattice L_LatticeOps L_LatticeTidy.
From Verif Require Import P_Lattice M_LatticeWalk L_LatticeNodes P_LatticeWalk M_ChartParser.
Import ListNotations.
Local Open Scope nat_scope.

(** * The counters *)
Lemma pair_eqb_spec a b : pair_eqb a b = true <-> a = b.
Proof.
  unfold pair_eqb. destruct a as [a1 a2], b as [b1 b2]. cbn [fst snd]. rewrite andb_true_iff, !vertex_eqb_spec. split.
  - intros [-> ->]. reflexivity.
  - intros [= -> ->]. auto.
Qed.
Lemma pair_sym a b : pair_eqb a b = true -> pair_eqb b a = true.
Proof. rewrite !pair_eqb_spec. congruence. Qed.
Lemma pair_trans a b c : pair_eqb a b = true -> pair_eqb b c = true -> pair_eqb a c = true.
Proof. rewrite !pair_eqb_spec. congruence. Qed.
Lemma count_same L L' u v : counter L' = counter L -> count_edges L' u v = count_edges L u v.
Proof. intros E. unfold count_edges. now rewrite E. Qed.
Lemma count_more L L' u v : counter L' = counter (count_edge (u, v) L) -> count_edges L' u v = S (count_edges L u v).
Proof.
  intros E. unfold count_edges. rewrite E. unfold count_edge. cbn [counter set_counter].
  rewrite (@lookup_adjust _ nat pair_eqb pair_sym pair_trans), (@lookup_insert _ nat pair_eqb pair_sym pair_trans).
  assert (pair_eqb (u, v) (u, v) = true) as -> by now apply pair_eqb_spec.
  now destruct (lookup pair_eqb (counter L) (u, v)).
Qed.

(** * An edge with links and with tags that are not those of a symbol *)
Definition more_than_symbol (t : collection) : Prop := exists i, i <> 0%N /\ N.testbit t i = true.
Lemma more_not_symbol t : more_than_symbol t -> M_Tags.coll_eqb t symbol_tag = false.
Proof.
  intros [i [Hi Ht]]. apply N.eqb_neq. intros ->. unfold symbol_tag in Ht. destruct i; [congruence|]. cbn in Ht. discriminate.
Qed.
Lemma insert_edge_plain from to it t s sc rule choice L : more_than_symbol t ->
  exists L', insert_edge from to it t s sc rule choice L = (L', Ok (Explicit (length (edges L)))) /\
    counter L' = counter (count_edge (from, to) L) /\
    (forall k ds p, lookup key_eqb (vvc L') k = Some ds -> In (Implicit p) ds ->
       exists ds', lookup key_eqb (vvc L) k = Some ds' /\ In (Implicit p) ds').
Proof.
  intros Ht. apply more_not_symbol in Ht. unfold insert_edge, bind, change, update_visible. rewrite Ht. cbn [ret].
  set (L1 := count_edge (from, to) L). assert (is_implicit_symbol L1 from to t = None) as ->.
  { unfold is_implicit_symbol. rewrite Ht. destruct from, to; reflexivity. }
  unfold insert_explicit. destruct (ensure_node_fields from L1) as [E1 [E2 R1]]. destruct (ensure_node_fields to (ensure_node from L1)) as [F1 [F2 R2]].
  eexists. split; [|split].
  - rewrite F2, E2. reflexivity.
  - cbn. unfold push_vvc, hide_between, index_edge. cbn. destruct from, to; cbn; unfold ensure_node; repeat (destruct (find_node _ _)); reflexivity.
  - assert (Ev : forall v M, vvc (ensure_node v M) = vvc M) by (intros v M; unfold ensure_node; destruct (find_node M v); reflexivity).
    intros k ds p. unfold push_vvc. cbn [vvc set_vvc]. rewrite key_lookup_adjust.
    assert (E : forall X, vvc (hide_between from to X) = vvc X) by (intros X; unfold hide_between; destruct from, to; reflexivity).
    rewrite E. unfold index_edge. cbn [vvc set_nodes set_edges]. rewrite !Ev. change (vvc L1) with (vvc L).
    destruct (lookup key_eqb (vvc L) k) as [ds0|]; [|destruct (key_eqb _ _); discriminate].
    destruct (key_eqb _ _); intros [= <-] Hi; exists ds0; split; try reflexivity; [|assumption].
    apply in_app_iff in Hi as [Hi|[Hi|[]]]; [assumption|discriminate].
Qed.
Lemma more_union_l a b : more_than_symbol a -> more_than_symbol (M_Tags.union a b).
Proof. intros [i [Hi Ht]]. exists i. split; [assumption|]. rewrite union_bit, Ht. reflexivity. Qed.
Lemma more_union_r a b : more_than_symbol b -> more_than_symbol (M_Tags.union a b).
Proof. intros [i [Hi Ht]]. exists i. split; [assumption|]. rewrite union_bit, Ht. now destruct (N.testbit a i). Qed.
Lemma inherited_more L t s : more_than_symbol t -> more_than_symbol (inherited L t s).
Proof. intros H. unfold inherited. destruct (M_Tags.is_empty _); [now apply more_union_l|assumption]. Qed.

(** What the call answers; the lattice is described by [add_edge_spec]. *)
Inductive answer (from to : vertex) (it : item) (s : sequence) (L L' : lattice) : res desc -> Prop :=
  | W_new : counter L' = counter (count_edge (from, to) L) -> answer from to it s L L' (Ok (Explicit (length (edges L))))
  | W_merged e : counter L' = counter L -> length (edges L') = length (edges L) -> e < length (edges L) ->
      answer from to it s L L' (Ok (Explicit e))
  | W_self d ds : counter L' = counter L -> lookup key_eqb (vvc L) (from, to, it) = Some ds -> In d ds -> In d (map fst (links s)) ->
      answer from to it s L L' (Throw SelfReference).
Lemma add_edge_answer from to it t s sc rule choice L : good L -> more_than_symbol t -> from <> to -> reversed from to = false ->
  valid L from = true -> valid L to = true -> links s <> [] ->
  exists L' r, add_edge from to it t s sc rule choice L = (L', r) /\ answer from to it s L L' r /\
    (forall k ds p, lookup key_eqb (vvc L') k = Some ds -> In (Implicit p) ds ->
       exists ds', lookup key_eqb (vvc L) k = Some ds' /\ In (Implicit p) ds').
Proof.
  intros G Ht Hne Hr V1 V2 Hl. apply (inherited_more L t s) in Ht. unfold add_edge. fold (inherited L t s). set (t1 := inherited L t s) in *. clearbody t1. clear t.
  apply vertex_eqb_false in Hne. rewrite Hne, Hr, V1, V2. cbn [andb negb]. cbv zeta.
  set (L1 := set_vvc _ L).
  assert (Hk : exists ds, lookup key_eqb (vvc L1) (from, to, it) = Some ds /\
            (lookup key_eqb (vvc L) (from, to, it) = Some ds \/ ds = [])).
  { cbn [vvc L1 set_vvc]. rewrite key_lookup_insert. destruct (lookup key_eqb (vvc L) _); [eauto|]. rewrite key_eqb_refl. eauto. }
  assert (K1 : forall k ds p, lookup key_eqb (vvc L1) k = Some ds -> In (Implicit p) ds ->
             exists ds', lookup key_eqb (vvc L) k = Some ds' /\ In (Implicit p) ds').
  { intros k ds p. cbn [vvc L1 set_vvc]. rewrite key_lookup_insert. destruct (lookup key_eqb (vvc L) k); [intros [= ->]; eauto|].
    destruct (key_eqb _ _); [intros [= <-] []|discriminate]. }
  destruct Hk as [ds [Hk Hk0]]. rewrite Hk. destruct (find _ ds) as [d|] eqn:Ef.
  - apply find_some in Ef as [Hd _]. unfold bind at 1. unfold refers_to. destruct (links s) as [|u us] eqn:El; [congruence|].
    cbn [ret]. destruct (existsb (fun u0 => desc_eqb (fst u0) d) (u :: us)) eqn:Ex.
    + eexists _, _. split; [reflexivity|]. split; [|exact K1]. destruct Hk0 as [Hk0| ->]; [|destruct Hd].
      eapply W_self; [reflexivity|exact Hk0|exact Hd|]. apply existsb_exists in Ex as [x [X1 X2]]. apply desc_eqb_spec in X2. subst d.
      rewrite El. now apply in_map.
    + destruct d as [p|e].
      * unfold bind, change. set (L2 := match from with Text _ => _ | Loose _ => _ end).
        destruct (insert_edge_plain from to it (if M_Tags.coll_eqb t1 symbol_tag then t1 else M_Tags.union symbol_tag t1) s sc rule choice L2) as [L' [E [Ec Ev]]].
        { rewrite (more_not_symbol _ Ht). now apply more_union_r. }
        exists L', (Ok (Explicit (length (edges L2)))). split; [exact E|]. assert (edges L2 = edges L) as -> by (unfold L2; destruct from; reflexivity).
        split.
        -- apply W_new. rewrite Ec. unfold L2. destruct from; reflexivity.
        -- intros k ds' p' H1 H2. destruct (Ev k ds' p' H1 H2) as [ds'' [H3 H4]].
           assert (E2 : vvc L2 = vvc L1) by (unfold L2; destruct from; reflexivity). rewrite E2 in H3. eauto.
      * unfold bind, change, ret. eexists _, _. split; [reflexivity|]. split.
        -- apply W_merged; [reflexivity|cbn; apply update_edge_length|].
           assert (G1 : good L1) by now apply insert_vvc_good. destruct (g_vvc _ G1 _ _ _ Hk Hd) as [ed [He _]].
           apply nth_error_Some. change (edges L) with (edges L1). congruence.
        -- exact K1.
  - destruct (insert_edge_plain from to it t1 s sc rule choice L1 Ht) as [L' [E [Ec Ev]]]. exists L', (Ok (Explicit (length (edges L)))).
    split; [exact E|]. split; [now apply W_new|]. intros k ds' p H1 H2. destruct (Ev k ds' p H1 H2) as [ds'' [H3 H4]]. eauto.
Qed.

(** * The frame of a parse *)
Section Frame.
Variable ch : chart.
Definition from_output (L : lattice) (i : N) : Prop := N.testbit (output ch) i = true \/ N.testbit (planes (tags L)) i = true \/ i = 0%N.
Record frame (L L' : lattice) : Prop := {
  f_good : good L';
  f_tidy : tidy L';
  f_text : M_Lattice.text L' = M_Lattice.text L;
  f_tags : tags L' = tags L;
  f_loose : n_loose L' = n_loose L;
  f_edges : forall e ed, nth_error (edges L) e = Some ed -> exists ed', nth_error (edges L') e = Some ed' /\ extends ed ed' /\
    forall i, N.testbit (e_tags ed') i = true -> N.testbit (e_tags ed) i = true \/ N.testbit (output ch) i = true;
  f_new : forall e ed, nth_error (edges L') e = Some ed -> length (edges L) <= e ->
    included (output ch) (e_tags ed) /\ forall i, N.testbit (e_tags ed) i = true -> from_output L i;
  f_symbols : forall k ds p, lookup key_eqb (vvc L') k = Some ds -> In (Implicit p) ds ->
    exists ds', lookup key_eqb (vvc L) k = Some ds' /\ In (Implicit p) ds';
  f_grows : grows L L'
}.
Lemma frame_refl L : good L -> tidy L -> frame L L.
Proof.
  intros G T. split; try assumption; try reflexivity.
  - intros e ed H. exists ed. split; [assumption|]. split; [apply extends_refl|auto].
  - intros e ed H Hl. assert (e < length (edges L)) by (apply nth_error_Some; congruence). lia.
  - eauto.
  - apply grows_refl.
Qed.
Lemma frame_trans L1 L2 L3 : frame L1 L2 -> frame L2 L3 -> frame L1 L3.
Proof.
  intros A K. split.
  - apply K.
  - apply K.
  - rewrite (f_text _ _ K). apply A.
  - rewrite (f_tags _ _ K). apply A.
  - rewrite (f_loose _ _ K). apply A.
  - intros e ed H. destruct (f_edges _ _ A _ _ H) as [ed2 [H2 [X2 T2]]]. destruct (f_edges _ _ K _ _ H2) as [ed3 [H3 [X3 T3]]].
    exists ed3. split; [assumption|]. split; [eapply extends_trans; eassumption|]. intros i Hi. apply T3 in Hi as [Hi|Hi]; [auto|now right].
  - intros e ed H Hl. destruct (nth_error (edges L2) e) as [ed2|] eqn:E2.
    + destruct (f_edges _ _ K _ _ E2) as [ed3 [H3 [X3 T3]]]. rewrite H in H3. injection H3 as <-.
      destruct (f_new _ _ A _ _ E2 Hl) as [N1 N2]. split; [eapply included_trans; [exact N1|apply X3]|].
      intros i Hi. apply T3 in Hi as [Hi|Hi]; [auto|now left].
    + apply nth_error_None in E2. destruct (f_new _ _ K _ _ H E2) as [N1 N2]. split; [assumption|]. intros i Hi. apply N2 in Hi.
      unfold from_output in *. now rewrite (f_tags _ _ A) in Hi.
  - intros k ds p H1 H2. destruct (f_symbols _ _ K _ _ _ H1 H2) as [ds' [H3 H4]]. eapply (f_symbols _ _ A); eassumption.
  - eapply grows_trans; [apply A|apply K].
Qed.
Lemma frame_core L L' : good L -> tidy L -> core L L' -> good L' -> frame L L'.
Proof.
  intros G T C G'. split; try apply C; try assumption.
  - split; rewrite ?(c_text _ _ C), ?(c_implicit _ _ C), ?(c_edges _ _ C); try apply T.
    intros e ed H. destruct (t_edges _ T _ _ H). split; (apply (place_text L); [apply C|assumption]).
  - intros e ed H. exists ed. rewrite (c_edges _ _ C). split; [assumption|]. split; [apply extends_refl|auto].
  - intros e ed H Hl. rewrite (c_edges _ _ C) in H. assert (e < length (edges L)) by (apply nth_error_Some; congruence). lia.
  - rewrite (c_vvc _ _ C). eauto.
  - now apply core_grows.
Qed.
Lemma frame_length L L' : frame L L' -> length (edges L) <= length (edges L').
Proof.
  intros F. destruct (Nat.le_gt_cases (length (edges L)) (length (edges L'))) as [H|H]; [assumption|].
  destruct (nth_error (edges L) (length (edges L'))) as [ed|] eqn:E.
  - destruct (f_edges _ _ F _ _ E) as [ed' [H' _]]. assert (length (edges L') < length (edges L')) by (apply nth_error_Some; congruence). lia.
  - apply nth_error_None in E. lia.
Qed.

(** * Masks the output tags have nothing to do with *)
Definition apart (L : lattice) (m : mask) : Prop :=
  exists cs, m = M_Tags.mask_of cs /\ forall c, In c cs -> exists i, (forall j, N.testbit c j = N.eqb j i) /\ ~ from_output L i.
Lemma single_subset c i t : (forall j, N.testbit c j = N.eqb j i) -> M_Tags.subset c t = N.testbit t i.
Proof.
  intros H. apply eq_true_iff_eq. rewrite <- included_subset. split.
  - intros K. apply K. rewrite H. apply N.eqb_refl.
  - intros K j Hj. rewrite H in Hj. apply N.eqb_eq in Hj. now subst.
Qed.
Lemma apart_same L m t t' : apart L m -> (forall i, N.testbit t i = true -> N.testbit t' i = true) ->
  (forall i, N.testbit t' i = true -> N.testbit t i = true \/ N.testbit (output ch) i = true) ->
  M_Tags.matches t' m = M_Tags.matches t m.
Proof.
  intros [cs [-> Hc]] H1 H2. unfold M_Tags.matches, M_Tags.mask_of. cbn [M_Tags.none M_Tags.any M_Tags.alts].
  apply eq_true_iff_eq. rewrite !existsb_exists. split; intros [c [Hi Hs]]; exists c; (split; [assumption|]); destruct (Hc c Hi) as [i [S1 S2]];
    rewrite (single_subset _ _ t S1), (single_subset _ _ t' S1) in *.
  - apply H2 in Hs as [Hs|Hs]; [assumption|]. destruct S2. now left.
  - auto.
Qed.
Lemma apart_new L m t : apart L m -> (forall i, N.testbit t i = true -> from_output L i) -> M_Tags.matches t m = false.
Proof.
  intros [cs [-> Hc]] H. unfold M_Tags.matches, M_Tags.mask_of. cbn [M_Tags.none M_Tags.any M_Tags.alts].
  apply not_true_is_false. rewrite existsb_exists. intros [c [Hi Hs]]. destruct (Hc c Hi) as [i [S1 S2]].
  rewrite (single_subset _ _ _ S1) in Hs. now apply S2, H.
Qed.

Record fits (L : lattice) : Prop := {
  fit_proper : proper (tags L) (output ch);
  fit_planes : M_Tags.only_planes (tags L) (output ch) = 0%N;
  fit_more : more_than_symbol (output ch)
}.
Lemma fits_tags L L' : tags L' = tags L -> fits L -> fits L'.
Proof. intros E []. split; rewrite ?E; assumption. Qed.

(** The tags of a new edge. *)
Lemma gather_planes L s i : N.testbit (gather_plane_tags L s) i = true -> N.testbit (planes (tags L)) i = true.
Proof.
  unfold gather_plane_tags. destruct (links s) as [|u us]; [now rewrite N.bits_0|].
  assert (O : forall c, N.testbit (M_Tags.only_planes (tags L) c) i = true -> N.testbit (planes (tags L)) i = true).
  { intros c. unfold M_Tags.only_planes. rewrite intersection_bit. now intros [H _]%andb_true_iff. }
  assert (K : forall (ws : list usage) c, (N.testbit c i = true -> N.testbit (planes (tags L)) i = true) ->
            N.testbit (fold_left (fun c w => M_Tags.union c (M_Tags.only_planes (tags L) (edge_tags L (fst w)))) ws c) i = true ->
            N.testbit (planes (tags L)) i = true).
  { induction ws as [|w ws IH]; intros c Hc; [exact Hc|]. cbn [fold_left]. apply IH. rewrite union_bit. intros [H|H]%orb_true_iff; [auto|].
    now apply (O (edge_tags L (fst w))). }
  apply K. apply O.
Qed.
Lemma inherited_bits L s i : N.testbit (inherited L (output ch) s) i = true -> from_output L i.
Proof.
  unfold inherited. destruct (M_Tags.is_empty _); [|now left]. rewrite union_bit. intros [H|H]%orb_true_iff; [now left|].
  right. left. now apply (gather_planes L s).
Qed.
Lemma inherited_in_plane L s t i : M_Tags.same_plane (tags L) (inherited L (output ch) s) t = true ->
  N.testbit (inherited L (output ch) s) i = true -> N.testbit t i = true \/ N.testbit (output ch) i = true.
Proof.
  intros Hs Hi. destruct (N.testbit (output ch) i) eqn:Ho; [now right|left].
  assert (Hp : N.testbit (planes (tags L)) i = true).
  { unfold inherited in Hi. destruct (M_Tags.is_empty _); [|congruence]. rewrite union_bit, Ho in Hi. cbn in Hi. now apply (gather_planes L s). }
  apply same_plane_eq in Hs. apply (f_equal (fun c => N.testbit c i)) in Hs. unfold M_Tags.only_planes in Hs. rewrite !intersection_bit, Hp, Hi in Hs.
  now symmetry in Hs.
Qed.

Section Add.
Context {C : Type}.
Variable to_item : C -> item.
(** An edge for a category. *)
Definition present (L : lattice) (u v : vertex) (c : C) : Prop :=
  exists e ed, nth_error (edges L) e = Some ed /\ key_eqb (e_from ed, e_to ed, e_item ed) (u, v, to_item c) = true.
Lemma present_frame L L' u v c : frame L L' -> present L u v c -> present L' u v c.
Proof.
  intros F [e [ed [H1 H2]]]. destruct (f_edges _ _ F _ _ H1) as [ed' [K1 [X _]]]. exists e, ed'. split; [assumption|].
  now rewrite (x_from _ _ X), (x_to _ _ X), (x_item _ _ X).
Qed.
Definition fresh (L L' : lattice) : list desc := map Explicit (seq (length (edges L)) (length (edges L') - length (edges L))).
Lemma fresh_core L L' : core L L' -> fresh L L' = [].
Proof. intros K. unfold fresh. now rewrite (c_edges _ _ K), Nat.sub_diag. Qed.
Lemma fresh_trans L1 L2 L3 : frame L1 L2 -> frame L2 L3 -> fresh L1 L3 = fresh L1 L2 ++ fresh L2 L3.
Proof.
  intros F1 F2. apply frame_length in F1, F2. unfold fresh. rewrite <- map_app. f_equal.
  replace (length (edges L3) - length (edges L1)) with ((length (edges L2) - length (edges L1)) + (length (edges L3) - length (edges L2))) by lia.
  rewrite seq_app. do 2 f_equal. lia.
Qed.

Lemma build_explicit L es : es <> [] -> build_all L (map (fun d => (d, M_Items.ZNull)) (map Explicit es)) =
  Sequence (map (fun e => (Explicit e, M_Items.ZNull)) es) 0 0.
Proof.
  intros H. destruct es as [|e es]; [congruence|]. unfold build_all. rewrite map_map. cbn [map fold_left].
  assert (K : forall es ls, fold_left (build_add L) (map (fun x => (Explicit x, M_Items.ZNull)) es) (Builder ls 1 0) =
            Builder (ls ++ map (fun x => (Explicit x, M_Items.ZNull)) es) 1 0).
  { induction es0 as [|x es0 IH]; intros ls; cbn [map fold_left]; [now rewrite app_nil_r|]. unfold build_add at 2. cbn [fst b_links].
    rewrite IH, <- app_assoc. reflexivity. }
  unfold build_add at 2. cbn [fst new_builder b_links app]. rewrite K. reflexivity.
Qed.
(** A partition for a rule, with the edges it was applied to. *)
Variable W : lattice -> vertex -> vertex -> found C -> list nat -> Prop.
Hypothesis W_mono : forall L L' u v r es, frame L L' -> W L u v r es -> W L' u v r es.
Definition by_rule (L : lattice) (ed : edge) (x : partition) (r : found C) (es : list nat) : Prop :=
  W L (e_from ed) (e_to ed) r es /\ M_Items.item_eqb (e_item ed) (to_item (r_category r)) = true /\
  links (p_sequence x) = map (fun e => (Explicit e, M_Items.ZNull)) es /\ p_rule x = r_no r /\ p_choice x = r_choice r.
(** The partitions that are new are those of rules. *)
Definition changed_by (L L' : lattice) : Prop :=
  forall e ed', nth_error (edges L') e = Some ed' ->
    exists ps, e_partitions ed' = match nth_error (edges L) e with Some ed => e_partitions ed | None => [] end ++ ps /\
      Forall (fun x => exists r es, by_rule L' ed' x r es) ps /\
      (nth_error (edges L) e = None -> exists x r es, In x ps /\ by_rule L' ed' x r es /\ e_item ed' = to_item (r_category r)).
Lemma by_rule_frame L L' ed ed' x r es : frame L L' -> extends ed ed' -> by_rule L ed x r es -> by_rule L' ed' x r es.
Proof.
  intros F X [H1 [H2 H3]]. unfold by_rule. rewrite (x_from _ _ X), (x_to _ _ X), (x_item _ _ X). split; [now apply (W_mono L)|]. auto.
Qed.
Definition edge_key (ed : edge) : key := (e_from ed, e_to ed, e_item ed).
(** New edges are not like those before them, where there are no planes and no implicit
    edges for their items. *)
Definition unlike (L L' : lattice) : Prop :=
  planes (tags L) = 0%N -> forall e ed, nth_error (edges L') e = Some ed -> length (edges L) <= e ->
  (forall ds i, lookup key_eqb (vvc L) (edge_key ed) = Some ds -> ~ In (Implicit i) ds) ->
  forall j x, j < e -> nth_error (edges L') j = Some x -> key_eqb (edge_key x) (edge_key ed) = false.
Record step (L L' : lattice) : Prop := {
  st_frame : frame L L';
  st_changed : changed_by L L';
  st_unlike : unlike L L'
}.
Lemma step_core L L' : good L -> tidy L -> core L L' -> good L' -> step L L'.
Proof.
  intros G T K G'. split; [now apply frame_core| |].
  - intros e ed' H. rewrite (c_edges _ _ K) in H. rewrite H. exists []. split; [now rewrite app_nil_r|]. split; [constructor|discriminate].
  - intros _ e ed H Hl. rewrite (c_edges _ _ K) in H. assert (e < length (edges L)) by (apply nth_error_Some; congruence). lia.
Qed.
Lemma step_refl L : good L -> tidy L -> step L L.
Proof. intros G T. apply step_core; [assumption|assumption|apply core_refl|assumption]. Qed.
Lemma step_trans L1 L2 L3 : step L1 L2 -> step L2 L3 -> step L1 L3.
Proof.
  intros [F1 K1 U1] [F2 K2 U2]. split; [eapply frame_trans; eassumption| |].
  2:{ intros Hp e ed3 H3 Hl Hs j x Hj Hx. destruct (nth_error (edges L2) e) as [ed2|] eqn:H2.
      - destruct (f_edges _ _ F2 _ _ H2) as [y [Hy [Y _]]]. rewrite H3 in Hy. injection Hy as <-.
        assert (Hj2 : j < length (edges L2)) by (assert (e < length (edges L2)) by (apply nth_error_Some; congruence); lia).
        destruct (nth_error (edges L2) j) as [x2|] eqn:Ex2; [|apply nth_error_None in Ex2; lia].
        destruct (f_edges _ _ F2 _ _ Ex2) as [z [Hz [Z _]]]. rewrite Hx in Hz. injection Hz as <-. unfold edge_key in *.
        rewrite (x_from _ _ Y), (x_to _ _ Y), (x_item _ _ Y), (x_from _ _ Z), (x_to _ _ Z), (x_item _ _ Z) in *.
        exact (U1 Hp e ed2 H2 Hl Hs j x2 Hj Ex2).
      - apply nth_error_None in H2. apply (U2 ltac:(rewrite (f_tags _ _ F1); exact Hp) e ed3 H3 H2) with (j := j); try assumption.
        intros ds i H4 H5. destruct (f_symbols _ _ F1 _ _ _ H4 H5) as [ds' [H6 H7]]. exact (Hs _ _ H6 H7). }
  intros e ed3 H3. destruct (K2 _ _ H3) as [ps2 [E2 [A2 N2]]]. destruct (nth_error (edges L2) e) as [ed2|] eqn:H2.
  - destruct (f_edges _ _ F2 _ _ H2) as [x [Hx [X _]]]. rewrite H3 in Hx. injection Hx as <-.
    destruct (K1 _ _ H2) as [ps1 [E1 [A1 N1]]]. exists (ps1 ++ ps2). split; [rewrite E2, E1; apply eq_sym, app_assoc|]. split.
    + apply Forall_app. split; [|assumption]. eapply Forall_impl; [|exact A1]. cbn. intros y [r [es H]]. exists r, es.
      now apply (by_rule_frame L2 L3 ed2).
    + intros H1. destruct (N1 H1) as [y [r [es [Y1 [Y2 Y3]]]]]. exists y, r, es. split; [apply in_app_iff; now left|].
      split; [now apply (by_rule_frame L2 L3 ed2)|]. now rewrite (x_item _ _ X).
  - assert (H1 : nth_error (edges L1) e = None).
    { apply nth_error_None. apply nth_error_None in H2. pose proof (frame_length _ _ F1). lia. }
    rewrite H1. exists ps2. split; [exact E2|]. split; [assumption|]. intros _. now apply N2.
Qed.
Variable is_allowed : Z -> Z -> bool.
Lemma chart_add_spec L p q r sc es L' x : good L -> tidy L -> fits L -> boundary (M_Lattice.text L) p -> boundary (M_Lattice.text L) q -> p < q -> es <> [] -> W L (Text p) (Text q) r es ->
  chart_add to_item is_allowed ch (Text p) (Text q) r sc (map Explicit es) L = (L', x) ->
  step L L' /\
  (exists o, x = Ok o /\ opt_list o = fresh L L') /\
  (limited is_allowed L (Text p) (Text q) = false -> present L' (Text p) (Text q) (r_category r)).
Proof.
  intros G T F Bp Bq Hpq Hes HW. unfold chart_add. destruct (limited is_allowed L (Text p) (Text q)) eqn:El.
  { intros [= <- <-]. split; [now apply step_refl|]. split; [|discriminate]. exists None. split; [reflexivity|].
    symmetry. apply fresh_core, core_refl. }
  rewrite (build_explicit L es Hes). set (s := Sequence _ 0 0).
  destruct (add_edge_answer (Text p) (Text q) (to_item (r_category r)) (output ch) s sc (r_no r) (r_choice r) L) as [L1 [y [E [An Sy]]]]; try assumption.
  { apply F. } { intros [= ->]. lia. } { cbn. apply Nat.ltb_ge. lia. }
  { cbn. apply Nat.leb_le. apply boundary_wf in Bp. tauto. } { cbn. apply Nat.leb_le. apply boundary_wf in Bq. tauto. }
  { destruct es; [congruence|discriminate]. }
  assert (Hy : y <> Undefined) by (inversion An; discriminate). assert (Hu : y <> Throw NotUtf8) by (inversion An; discriminate).
  rewrite E. destruct (add_edge_spec _ _ _ _ _ _ _ _ _ _ _ G (fit_proper _ F) E Hy) as [G1 [Gr [Et [Eg A]]]]. specialize (Gr Hu).
  destruct (add_edge_tidy (Text p) (Text q) _ _ _ _ _ _ _ _ _ G T (fit_proper _ F) Bp Bq E Hy) as [T1 _].
  assert (El1 : n_loose L1 = n_loose L).
  { eapply firm_add_edge; exact E. }
  assert (New : forall t', included (output ch) t' -> (forall i, N.testbit t' i = true -> from_output L i) ->
      edges L1 = edges L ++ [Edge (Text p) (Text q) (to_item (r_category r)) t' sc [Partition t' s sc (r_no r) (r_choice r)]] ->
      (planes (tags L) = 0%N -> (forall ds i, lookup key_eqb (vvc L) (Text p, Text q, to_item (r_category r)) = Some ds -> ~ In (Implicit i) ds) ->
         forall j z, nth_error (edges L) j = Some z -> key_eqb (edge_key z) (Text p, Text q, to_item (r_category r)) = false) ->
      step L L1 /\ [Explicit (length (edges L))] = fresh L L1 /\
      present L1 (Text p) (Text q) (r_category r)).
  { intros t' Ho Hb EE HU.
    assert (Nth : forall e ed, nth_error (edges L1) e = Some ed -> nth_error (edges L) e = Some ed \/
              e = length (edges L) /\ ed = Edge (Text p) (Text q) (to_item (r_category r)) t' sc [Partition t' s sc (r_no r) (r_choice r)]).
    { intros e ed. rewrite EE. destruct (Nat.lt_ge_cases e (length (edges L))); [rewrite nth_error_app1 by assumption; now left|].
      rewrite nth_error_app2 by assumption. destruct (e - length (edges L)) as [|[]] eqn:Ed; try discriminate. intros [= <-]. right. split; [lia|reflexivity]. }
    assert (Fr : frame L L1).
    { split; try assumption.
      + intros e ed H. exists ed. rewrite EE, nth_error_app1 by (apply nth_error_Some; congruence). split; [assumption|].
        split; [apply extends_refl|auto].
      + intros e ed H Hl. destruct (Nth _ _ H) as [K|[-> ->]]; [|now split].
        assert (e < length (edges L)) by (apply nth_error_Some; congruence). lia. }
    split; [|split].
    - split; [assumption| |].
      + intros e ed H. destruct (Nth _ _ H) as [K|[-> ->]].
        * rewrite K. exists []. split; [now rewrite app_nil_r|]. split; [constructor|discriminate].
        * assert (nth_error (edges L) (length (edges L)) = None) as -> by now apply nth_error_None. eexists. split; [reflexivity|].
          assert (BR : by_rule L1 (Edge (Text p) (Text q) (to_item (r_category r)) t' sc [Partition t' s sc (r_no r) (r_choice r)])
                    (Partition t' s sc (r_no r) (r_choice r)) r es).
          { split; [now apply (W_mono L)|]. split; [apply item_eqb_refl|]. auto. }
          split; [constructor; [|constructor]; eauto|]. intros _. exists (Partition t' s sc (r_no r) (r_choice r)), r, es. split; [now left|]. auto.
      + intros Hp e ed H Hl Hs j z Hj Hz. destruct (Nth _ _ H) as [K|[-> ->]]; [assert (e < length (edges L)) by (apply nth_error_Some; congruence); lia|].
        destruct (Nth _ _ Hz) as [K|[-> _]]; [|lia]. now apply (HU Hp Hs j).
    - unfold fresh. rewrite EE, app_length. cbn [length]. replace (length (edges L) + 1 - length (edges L)) with 1 by lia. reflexivity.
    - exists (length (edges L)). eexists. split; [rewrite EE, nth_error_app2, Nat.sub_diag by lia; reflexivity|]. apply key_eqb_refl. }
  destruct An as [Wc|e Wc Wl We|d ds Wc W1 W2 W3].
  - assert (count_edges L (Text p) (Text q) <? count_edges L1 (Text p) (Text q) = true) as ->.
    { apply Nat.ltb_lt. rewrite (count_more L L1 _ _ Wc). lia. }
    intros [= <- <-].
    assert (K : step L L1 /\ [Explicit (length (edges L))] = fresh L L1 /\
      present L1 (Text p) (Text q) (r_category r)).
    { inversion A as [| | | |e ed He Hk Hs EE EI Er| |EE EI HU Er|i ds t' F1 F2 F3 F4 F5 F6 EE EI Er]; subst.
      - assert (length (edges L) < length (edges L)) by (apply nth_error_Some; congruence). lia.
      - eapply New; [apply inherited_included|apply inherited_bits|exact EE|]. intros Hp _ j z Hz. apply not_true_is_false. intros Hk.
        destruct (g_known _ G _ _ Hz) as [ds [D1 D2]]. rewrite (key_lookup_cong _ _ _ Hk) in D1. specialize (HU ds j D1 D2).
        unfold M_Tags.same_plane, M_Tags.only_planes in HU. rewrite Hp in HU. discriminate.
      - eapply New; [| |exact EE|].
        + eapply included_trans; [apply inherited_included|apply included_union_r].
        + intros j. rewrite union_bit. intros [H|H]%orb_true_iff; [|now apply (inherited_bits L s)]. right. right. destruct j; [reflexivity|discriminate].
        + intros Hp Hs. exfalso. exact (Hs ds i F3 F4). }
    destruct K as [K1 [K2 K3]]. split; [assumption|]. split; [|auto]. eexists. split; [reflexivity|]. exact K2.
  - assert (count_edges L (Text p) (Text q) <? count_edges L1 (Text p) (Text q) = false) as ->.
    { apply Nat.ltb_ge. rewrite (count_same L L1 _ _ Wc). lia. }
    intros [= <- <-].
    inversion A as [| | | |e' ed He Hk Hs EE EI Er| |EE EI HU Er|i ds t' F1 F2 F3 F4 F5 F6 EE EI Er]; subst; try lia.
    assert (Nth : forall j z, nth_error (edges L1) j = Some z -> exists y, nth_error (edges L) j = Some y /\
              (j <> e /\ z = y \/ j = e /\ y = ed /\ z = merge_into (inherited L (output ch) s) s sc (r_no r) (r_choice r) ed)).
    { intros j z. rewrite EE, update_edge_nth. destruct (Nat.eqb_spec e j) as [<-|Hn].
      - rewrite He. intros [= <-]. exists ed. auto.
      - intros H. exists z. auto. }
    assert (Fr : frame L L1).
    { split; try assumption.
      * intros j z H. rewrite EE. setoid_rewrite update_edge_nth. destruct (Nat.eqb_spec e j) as [<-|Hn].
        -- rewrite H. eexists. split; [reflexivity|]. split; [apply merge_extends|]. intros i. rewrite merge_tags, union_bit.
           intros [K|K]%orb_true_iff; [auto|]. rewrite He in H. injection H as <-. now apply (inherited_in_plane L s).
        -- exists z. split; [assumption|]. split; [apply extends_refl|auto].
      * intros j z H Hl. assert (j < length (edges L1)) by (apply nth_error_Some; congruence). lia. }
    split; [|split].
    + split; [assumption| |].
      * intros j z H. destruct (Nth _ _ H) as [y' [Hy' [[Hj ->]|[-> [-> ->]]]]]; rewrite Hy'.
        -- exists []. split; [now rewrite app_nil_r|]. split; [constructor|discriminate].
        -- apply key_eqb_spec in Hk as [K1 [K2 K3]]. cbn in K1, K2, K3. eexists.
           split; [reflexivity|]. split; [|discriminate]. constructor; [|constructor]. exists r, es. split; [|split; [exact K3|auto]].
           cbn [e_from e_to merge_into]. rewrite K1, K2. now apply (W_mono L).
      * intros Hp j z H Hl. assert (j < length (edges L1)) by (apply nth_error_Some; congruence). lia.
    + exists None. split; [reflexivity|]. unfold fresh. now rewrite Wl, Nat.sub_diag.
    + intros _. exists e. eexists. split; [rewrite EE, update_edge_nth, Nat.eqb_refl, He; reflexivity|]. exact Hk.
  - intros [= <- <-]. inversion A as [| |x Hx EE EI Er| | | | |]; subst.
    assert (Fr : frame L L1).
    { split; try assumption.
      * intros j z H. exists z. rewrite EE. split; [assumption|]. split; [apply extends_refl|auto].
      * intros j z H Hl. rewrite EE in H. assert (j < length (edges L)) by (apply nth_error_Some; congruence). lia. }
    split; [|split].
    + split; [assumption| |].
      * intros j z H. rewrite EE in H. rewrite H. exists []. split; [now rewrite app_nil_r|]. split; [constructor|discriminate].
      * intros Hp j z H Hl. rewrite EE in H. assert (j < length (edges L)) by (apply nth_error_Some; congruence). lia.
    + exists None. split; [reflexivity|]. unfold fresh. now rewrite EE, Nat.sub_diag.
    + intros _. cbn [links s] in W3. rewrite map_map in W3. cbn [fst] in W3. apply in_map_iff in W3 as [e [<- He]].
      destruct (g_vvc _ G _ _ _ W1 W2) as [ed [H1 H2]]. exists e, ed. rewrite EE. auto.
Qed.
End Add.
End Frame.

(** C16: the symbol edges spell the text. *)
From Coq Require Import ZArith List Bool Lia.
From Verif Require Import M_Utf8 S_Utf8 L_Utf8 M_Tags M_Items M_Cutter M_Lattice P_Tags P_Cutter L_Lattice S_Lattice L_LatticeOps L_LatticeTidy.
From Verif Require Import P_Lattice M_LatticeWalk L_LatticeNodes P_LatticeWalk P_LatticeVertices.
Import ListNotations.
Local Open Scope nat_scope.

(** * Specification *)
(** Calls that do not make symbol edges of their own. *)
Definition annotating (o : op) : Prop :=
  match o with
  | AppendString _ | AddSymbols _ _ => False
  | AddEdge _ _ _ t _ _ _ _ | AddPartition _ t _ _ _ _ => N.testbit t 0 = false
  | _ => True
  end.
(** Programs that append the texts [ts] with symbols, before there are loose vertices, and
    annotate in between. *)
Inductive spelled (topo : list vertex -> list (vertex * vertex) -> option (list vertex)) : list (list Z) -> lattice -> Prop :=
  | Sp_start : spelled topo [] new_lattice
  | Sp_append ts L t L' r : spelled topo ts L -> n_loose L = 0 -> well_formed t -> append_with_symbols topo t L = (L', r) ->
      spelled topo (ts ++ [t]) L'
  | Sp_call ts L o L' r : spelled topo ts L -> annotating o -> allowed L o -> tidy_op L o -> exec o L = (L', r) -> r <> Undefined ->
      spelled topo ts L'.

(** * The invariant *)
Definition has_symbol (L : lattice) (p : nat) : Prop :=
  bit (implicit L) p = true \/ exists e ed, nth_error (edges L) e = Some ed /\ e_from ed = Text p /\ N.testbit (first_tags L e) 0 = true.
(** All characters before [b] have symbol edges. *)
Record spells (b : nat) (L : lattice) : Prop := {
  sp_span : forall e ed, nth_error (edges L) e = Some ed -> N.testbit (e_tags ed) 0 = true ->
    exists p, e_from ed = Text p /\ e_to ed = Text (p + symbol_len L p);
  sp_all : forall p, boundary (text L) p -> p < b -> has_symbol L p
}.
Lemma planes_no_symbol L c : good L -> N.testbit (M_Tags.only_planes (tags L) c) 0 = false.
Proof.
  intros G. pose proof (symbol_planes L G) as H. apply (f_equal (fun n => N.testbit n 0)) in H. unfold M_Tags.only_planes in *.
  rewrite P_Tags.intersection_bit in *. change (N.testbit symbol_tag 0) with true in H. rewrite N.bits_0 in H.
  rewrite andb_true_r in H. now rewrite H.
Qed.
Lemma gather_no_symbol L s : good L -> N.testbit (gather_plane_tags L s) 0 = false.
Proof.
  intros G. unfold gather_plane_tags. destruct (links s) as [|u us]; [reflexivity|].
  assert (K : forall us c, N.testbit c 0 = false ->
    N.testbit (fold_left (fun c (w : usage) => M_Tags.union c (M_Tags.only_planes (tags L) (edge_tags L (fst w)))) us c) 0 = false).
  { clear us. induction us as [|w us IH]; intros c Hc; cbn [fold_left]; [assumption|]. apply IH. rewrite P_Tags.union_bit, Hc.
    now apply planes_no_symbol. }
  apply K. now apply planes_no_symbol.
Qed.
Lemma inherited_no_symbol L t s : good L -> N.testbit (inherited L t s) 0 = N.testbit t 0.
Proof.
  intros G. unfold inherited. destruct (M_Tags.is_empty _); [|reflexivity]. rewrite P_Tags.union_bit, (gather_no_symbol _ _ G). apply orb_false_r.
Qed.
Lemma first_tags_app L L' x : edges L' = edges L ++ [x] -> forall e ed, nth_error (edges L) e = Some ed -> first_tags L' e = first_tags L e.
Proof.
  intros E e ed He. unfold first_tags. rewrite E, nth_error_app1; [reflexivity|]. apply nth_error_Some. congruence.
Qed.
Lemma nth_snoc {A} (l : list A) x e y : nth_error (l ++ [x]) e = Some y -> nth_error l e = Some y \/ e = length l /\ y = x.
Proof.
  destruct (Nat.lt_ge_cases e (length l)).
  - rewrite nth_error_app1 by assumption. auto.
  - rewrite nth_error_app2 by assumption. destruct (e - length l) as [|[|]] eqn:E; try discriminate. intros [= <-]. right. split; [lia|reflexivity].
Qed.
Lemma spells_same b L L' : text L' = text L -> edges L' = edges L -> (forall p, bit (implicit L) p = true -> bit (implicit L') p = true) -> spells b L -> spells b L'.
Proof.
  intros E1 E2 E3 [S1 S2]. assert (F : forall e, first_tags L' e = first_tags L e) by (intros e; unfold first_tags; now rewrite E2). split.
  - rewrite E2. unfold symbol_len. rewrite E1. exact S1.
  - rewrite E1. intros p Hb Hp. destruct (S2 p Hb Hp) as [K|[e [ed [K1 [K2 K3]]]]]; [left; auto|]. right. exists e, ed. now rewrite F, E2.
Qed.
(** A new edge; if it is a symbol edge it spans one character, and it may replace the bit. *)
Lemma spells_new b L L' from to it t sc s rule choice : spells b L -> text L' = text L ->
  edges L' = edges L ++ [Edge from to it t sc [Partition t s sc rule choice]] ->
  (N.testbit t 0 = true -> exists p, from = Text p /\ to = Text (p + symbol_len L p)) ->
  (forall p, bit (implicit L) p = true -> bit (implicit L') p = true \/ from = Text p /\ N.testbit t 0 = true) -> spells b L'.
Proof.
  intros [S1 S2] ET EE Ht Hi. split.
  - intros e ed He Hb. rewrite EE in He. unfold symbol_len. rewrite ET. apply nth_snoc in He as [He|[-> ->]]; [now apply (S1 e)|]. apply Ht, Hb.
  - intros p Hb Hp. rewrite ET in Hb. destruct (S2 p Hb Hp) as [K|[e [ed [K1 [K2 K3]]]]].
    + destruct (Hi p K) as [K'|[K1 K2]]; [now left|]. right. exists (length (edges L)). eexists. unfold first_tags. rewrite EE, nth_error_app2, Nat.sub_diag by lia.
      cbn. split; [reflexivity|]. auto.
    + right. exists e, ed. rewrite (first_tags_app L L' _ EE e ed K1), EE, nth_error_app1; [auto|]. apply nth_error_Some. congruence.
Qed.
Lemma merge_tags t s sc rule choice ed : N.testbit (e_tags (merge_into t s sc rule choice ed)) 0 = N.testbit (e_tags ed) 0 || N.testbit t 0.
Proof.
  unfold merge_into. cbn [e_tags]. destruct (M_Tags.coll_eqb t (e_tags ed)) eqn:E.
  - apply N.eqb_eq in E. subst. now rewrite orb_diag.
  - now rewrite P_Tags.union_bit.
Qed.
Lemma spells_merged b L L' e t s sc rule choice : good L -> spells b L -> text L' = text L -> N.testbit t 0 = false ->
  edges L' = update_edge (edges L) e (merge_into t s sc rule choice) -> implicit L' = implicit L -> spells b L'.
Proof.
  intros G [S1 S2] ET Ht EE EI. split.
  - intros x ed Hx Hb. rewrite EE, update_edge_nth in Hx. unfold symbol_len. rewrite ET.
    destruct (nth_error (edges L) x) as [y|] eqn:Ey; [|destruct (e =? x); discriminate]. cbn [option_map] in Hx.
    destruct (e =? x); injection Hx as <-; [|now apply (S1 x)]. rewrite merge_tags, Ht, orb_false_r in Hb. exact (S1 x y Ey Hb).
  - intros p Hb Hp. rewrite ET in Hb. destruct (S2 p Hb Hp) as [K|[x [ed [K1 [K2 K3]]]]]; [left; now rewrite EI|]. right. exists x.
    unfold first_tags in *. rewrite EE, update_edge_nth. rewrite K1 in *. destruct (e =? x); cbn [option_map]; [|eauto].
    eexists. split; [reflexivity|]. split; [assumption|]. destruct (g_first _ G _ _ K1) as [q [ps [Eq _]]]. cbn [merge_into e_partitions]. rewrite Eq in *. exact K3.
Qed.
Lemma add_edge_spells b from to it t s sc rule choice L L' r : good L -> spells b L -> proper (tags L) t -> N.testbit t 0 = false -> place L to ->
  add_edge from to it t s sc rule choice L = (L', r) -> r <> Undefined -> spells b L'.
Proof.
  intros G Sp Hp Ht P2 E Hr. pose proof (calm_add_edge _ _ _ _ _ _ _ _ _ _ _ G P2 E) as Hu.
  destruct (add_edge_spec _ _ _ _ _ _ _ _ _ _ _ G Hp E Hr) as [G' [_ [Et [_ A]]]].
  assert (Hi : N.testbit (inherited L t s) 0 = false) by now rewrite inherited_no_symbol.
  destruct A as [F EL|F1 F2 EL|x Hx EE EI|EE|e ed He Hk Hs EE EI|p F1 F2 F3 EE EI|EE EI _|p ds t' F1 F2 F3 F4 F5 F6 EE EI].
  - now subst.
  - now subst.
  - apply (spells_same b L); try assumption. now rewrite EI.
  - now destruct Hu.
  - exact (spells_merged b L L' e _ s sc rule choice G Sp Et Hi EE EI).
  - apply (spells_same b L); try assumption. intros q Hq. rewrite EI, Hq. now destruct (p =? q).
  - eapply spells_new; [exact Sp|exact Et|exact EE| |]; [congruence|]. rewrite EI. auto.
  - assert (Hs : N.testbit t' 0 = true) by (subst t'; now rewrite P_Tags.union_bit).
    eapply spells_new; [exact Sp|exact Et|exact EE| |]; [eauto|]. intros q Hq. rewrite EI, bit_set.
    destruct (Nat.eqb_spec p q) as [<-|]; cbn [andb]; [|auto]. right. auto.
Qed.
Lemma query_spells b {A} (m : act A) L L' r : query m -> good L -> spells b L -> m L = (L', r) -> r <> Undefined -> spells b L'.
Proof.
  intros Q G Sp E Hr. destruct (Q _ _ _ G E Hr) as [_ C]. apply (spells_same b L); [apply C|apply C| |assumption]. now rewrite (c_implicit _ _ C).
Qed.
Lemma drop_result {A} (m : act A) L L' r : drop m L = (L', r) -> r <> Undefined -> exists r', m L = (L', r') /\ r' <> Undefined.
Proof.
  unfold drop, bind. destruct (m L) as [L1 [a|e|]] eqn:E; cbn [ret]; intros [= <- <-] Hr; eexists; split; try reflexivity; try discriminate. now destruct Hr.
Qed.
Lemma add_partition_spells b d t s sc rule choice L L' r : good L -> tidy L -> spells b L -> proper (tags L) t -> N.testbit t 0 = false -> is_edge L d ->
  add_partition_to_edge d t s sc rule choice L = (L', r) -> r <> Undefined -> spells b L'.
Proof.
  intros G T Sp Hp Ht Hd. destruct (edge_ends L d Hd) as [v [w [Ea Eb]]]. destruct (edge_place L d v w G T Hd Ea Eb) as [P1 P2].
  unfold add_partition_to_edge. unfold bind, ask. rewrite Ea, Eb. destruct (annotation_item L d) as [it|e|] eqn:Ei.
  - apply add_edge_spells; try assumption.
    + apply proper_union; [assumption|]. now apply proper_planes, edge_tags_proper.
    + rewrite P_Tags.union_bit, Ht. now apply planes_no_symbol.
  - intros [= <- <-] _. assumption.
  - intros [= <- <-] H. now destruct H.
Qed.
Lemma call_spells b o L L' r : good L -> tidy L -> spells b L -> annotating o -> allowed L o -> tidy_op L o -> exec o L = (L', r) -> r <> Undefined -> spells b L'.
Proof.
  intros G T Sp Ha Hal Ht E Hr. destruct o; cbn [exec annotating allowed tidy_op] in *; try tauto.
  - injection E as <- _. apply (spells_same b L); auto.
  - apply drop_result in E as [r' [E Hr']]; [|assumption]. eapply add_edge_spells; try eassumption; [now apply known_proper|apply Ht].
  - apply drop_result in E as [r' [E Hr']]; [|assumption]. eapply (add_partition_spells b d); try eassumption. now apply known_proper.
  - unfold discard in E. unfold bind in E at 1. destruct (add_partition_to_edge _ _ _ _ _ _ L) as [L1 [a|e|]] eqn:E1; injection E as <- <-; try (now destruct Hr);
      (eapply (add_partition_spells b d); try eassumption; [|reflexivity|discriminate]); apply discarded_proper; assumption.
  - apply drop_result in E as [r' [E Hr']]; [|assumption]. eapply query_spells; try eassumption. now apply out_edges_query.
  - apply drop_result in E as [r' [E Hr']]; [|assumption]. eapply query_spells; try eassumption. now apply in_edges_query.
  - apply drop_result in E as [r' [E Hr']]; [|assumption]. eapply query_spells; try eassumption. now apply first_out_query.
  - apply drop_result in E as [r' [E Hr']]; [|assumption]. eapply query_spells; try eassumption. now apply first_in_query.
  - apply drop_result in E as [r' [E Hr']]; [|assumption]. eapply query_spells; try eassumption. apply usages_query.
  - unfold tag_call, change in E. injection E as <- _. apply (spells_same b L); try assumption; destruct (M_Tags.step _ _); auto.
Qed.
Lemma add_partition_text d t s sc rule choice L L' r : good L -> proper (tags L) t -> is_edge L d ->
  add_partition_to_edge d t s sc rule choice L = (L', r) -> r <> Undefined -> text L' = text L.
Proof.
  intros G Hp Hd. destruct (edge_ends L d Hd) as [v [w [Ea Eb]]].
  unfold add_partition_to_edge. unfold bind, ask. rewrite Ea, Eb. destruct (annotation_item L d) as [it|e|] eqn:Ei.
  - intros E Hr. eapply add_edge_spec; [exact G| |exact E|exact Hr]. apply proper_union; [assumption|]. now apply proper_planes, edge_tags_proper.
  - now intros [= <- <-] _.
  - intros [= <- <-] H. now destruct H.
Qed.
Lemma query_text {A} (m : act A) L L' r : query m -> good L -> m L = (L', r) -> r <> Undefined -> text L' = text L.
Proof. intros Q G E Hr. destruct (Q _ _ _ G E Hr) as [_ C]. apply C. Qed.
Lemma call_text o L L' r : good L -> annotating o -> allowed L o -> tidy_op L o -> exec o L = (L', r) -> r <> Undefined -> text L' = text L.
Proof.
  intros G Ha Hal Ho E Hr. destruct o; cbn [exec annotating allowed tidy_op] in *; try tauto.
  - now injection E as <- _.
  - apply drop_result in E as [r' [E Hr']]; [|assumption]. eapply add_edge_spec; [exact G| |exact E|exact Hr']. now apply known_proper.
  - apply drop_result in E as [r' [E Hr']]; [|assumption]. eapply (add_partition_text d); try eassumption. now apply known_proper.
  - unfold discard in E. unfold bind in E at 1. destruct (add_partition_to_edge _ _ _ _ _ _ L) as [L1 [a|e|]] eqn:E1; injection E as <- <-; try (now destruct Hr);
      (eapply (add_partition_text d); try eassumption; [|discriminate]); apply discarded_proper; assumption.
  - apply drop_result in E as [r' [E Hr']]; [|assumption]. eapply query_text; try eassumption. now apply out_edges_query.
  - apply drop_result in E as [r' [E Hr']]; [|assumption]. eapply query_text; try eassumption. now apply in_edges_query.
  - apply drop_result in E as [r' [E Hr']]; [|assumption]. eapply query_text; try eassumption. now apply first_out_query.
  - apply drop_result in E as [r' [E Hr']]; [|assumption]. eapply query_text; try eassumption. now apply first_in_query.
  - apply drop_result in E as [r' [E Hr']]; [|assumption]. eapply query_text; try eassumption. apply usages_query.
  - unfold tag_call, change in E. injection E as <- _. destruct (M_Tags.step _ _); reflexivity.
Qed.

(** * Appending a text with its symbols succeeds *)
Lemma source_text L d v : good L -> n_loose L = 0 -> is_edge L d -> source L d = Ok v -> exists p, v = Text p.
Proof.
  intros G H0 He E. destruct d as [p|e]; cbn in He, E; [injection E as <-; eauto|]. destruct (nth_error (edges L) e) as [ed|] eqn:Ee; [|discriminate].
  injection E as <-. destruct (g_edges _ G _ _ Ee) as [K _]. apply (g_names _ G) in K. destruct (e_from ed) as [p|k]; [eauto|]. cbn in K. apply Nat.ltb_lt in K. lia.
Qed.
Lemma update_visible_defined L p q t : good L -> tidy L -> n_loose L = 0 -> p <= length (text L) -> boundary (text L) q ->
  snd (update_visible (Text p) (Text q) t L) <> Undefined.
Proof.
  intros G T H0 Hp Hq. unfold update_visible. destruct (M_Tags.coll_eqb t symbol_tag); [|discriminate].
  assert (Hvp : valid L (Text p) = true) by now apply Nat.leb_le.
  unfold catch_no_edge, bind, first_out_edge, first_in_edge. unfold bind.
  destruct (out_edges_total L (Text p) symbol_mask Hvp) as [L1 [l E]]. rewrite E.
  destruct (out_edges_query (Text p) symbol_mask symbol_mask_made _ _ _ G E) as [G1 C1]; [discriminate|].
  destruct l as [|d l]; cbn [first throw ret]; [discriminate|]. cbn [make_visible change].
  set (L2 := set_visible _ L1). assert (G2 : good L2) by (destruct G1; split; try assumption; cbn; now rewrite set_bit_length).
  assert (C2 : core L1 L2) by (destruct C1 as [? ? ? ? ? ? ? ? [ms Hms]]; split; try reflexivity; exists []; now rewrite app_nil_r).
  assert (ET : text L2 = text L) by (change (text L1 = text L); apply C1).
  assert (EI : implicit L2 = implicit L) by (change (implicit L1 = implicit L); apply C1).
  assert (EE : edges L2 = edges L) by (change (edges L1 = edges L); apply C1).
  assert (EL : n_loose L2 = 0) by (change (n_loose L1 = 0); now rewrite (c_loose _ _ C1)).
  clearbody L2. assert (T2 : tidy L2).
  { destruct T as [T1 T2 T3]. split.
    - now rewrite ET.
    - intros r. rewrite ET, EI. apply T2.
    - intros e ed. rewrite EE. intros He. destruct (T3 e ed He). split; now apply (place_text L). }
  assert (Hvq : valid L2 (Text q) = true) by (cbn; rewrite ET; apply Nat.leb_le; apply (boundary_wf _ _ Hq)).
  assert (Pq : place L2 (Text q)) by (cbn; now rewrite ET).
  destruct (in_edges_total L2 (Text q) symbol_mask G2 Hvq Pq) as [L3 [l' E']]. rewrite E'.
  destruct l' as [|d' l']; cbn [first throw ret]; [discriminate|].
  destruct (in_edges_query (Text q) symbol_mask symbol_mask_made _ _ _ G2 E') as [G3 C3]; [discriminate|].
  destruct (in_selection L2 (Text q) symbol_mask L3 _ G2 symbol_mask_made E') as [all [A1 [[sel A2] _ _]]].
  apply (all_in_spec _ _ _ G2 T2 Pq) in A1 as [_ A1].
  assert (K : In d' all) by (assert (K : In d' (filter sel all)) by (rewrite <- A2; now left); now apply filter_In in K).
  apply A1 in K as [K1 K2]. assert (Ed : is_edge L3 d') by (destruct d'; cbn in *; rewrite ?(c_implicit _ _ C3), ?(c_edges _ _ C3); assumption).
  destruct (edge_ends L3 d' Ed) as [a [b [Ea _]]]. unfold ask. rewrite Ea.
  destruct (source_text L3 d' a G3) as [r ->]; [|assumption|assumption|discriminate].
  now rewrite (c_loose _ _ C3).
Qed.
Lemma insert_ok L p q it t s sc rule choice : good L -> tidy L -> n_loose L = 0 -> p <= length (text L) -> boundary (text L) q ->
  exists L' d, insert_edge (Text p) (Text q) it t s sc rule choice L = (L', Ok d).
Proof.
  intros G T H0 Hp Hq. destruct (insert_edge (Text p) (Text q) it t s sc rule choice L) as [L' [d|x|]] eqn:E; [eauto| |].
  - pose proof (insert_edge_throws _ _ _ _ _ _ _ _ _ _ _ E). subst. exfalso. revert E. intros E.
    apply (calm_insert _ _ _ _ _ _ _ _ _ _ _ G) in E; [now destruct E|]. intros r [= <-]. exact Hq.
  - exfalso. unfold insert_edge, bind in E. cbn [change] in E.
    destruct (count_edge_query (Text p, Text q) L _ _ G eq_refl) as [G1 C]; [discriminate|].
    assert (T1 : tidy (count_edge (Text p, Text q) L)) by (destruct T as [T1 T2 T3]; split; try assumption).
    pose proof (update_visible_defined (count_edge (Text p, Text q) L) p q t G1 T1 H0 Hp Hq) as K.
    destruct (update_visible (Text p) (Text q) t (count_edge (Text p, Text q) L)) as [L1 [u|e|]]; cbn in K; [|discriminate|now destruct K].
    destruct (is_implicit_symbol _ _ _ _); discriminate.
Qed.
Lemma symbol_edge_ok L p q it sc rule choice : good L -> tidy L -> n_loose L = 0 -> boundary (text L) p -> boundary (text L) q -> p < q ->
  exists L' d, add_edge (Text p) (Text q) it symbol_tag empty_sequence sc rule choice L = (L', Ok d).
Proof.
  intros G T H0 Hp Hq Hlt. unfold add_edge. rewrite (symbol_planes _ G). change (M_Tags.is_empty 0%N) with true. cbv iota.
  change (M_Tags.union symbol_tag (gather_plane_tags L empty_sequence)) with symbol_tag. cbv zeta.
  assert (vertex_eqb (Text p) (Text q) = false) as -> by (cbn; apply Nat.eqb_neq; lia).
  assert (reversed (Text p) (Text q) = false) as -> by (cbn; apply Nat.ltb_ge; lia).
  pose proof (boundary_wf _ _ Hp) as [_ Hpl]. pose proof (boundary_wf _ _ Hq) as [_ Hql].
  assert (valid L (Text p) && valid L (Text q) = true) as -> by (cbn; apply andb_true_iff; split; apply Nat.leb_le; lia). cbn [negb].
  set (L1 := set_vvc _ L). assert (G1 : good L1) by now apply insert_vvc_good.
  assert (T1 : tidy L1) by (destruct T as [T1 T2 T3]; split; assumption).
  assert (P1 : boundary (text L1) q) by exact Hq. assert (N1 : n_loose L1 = 0) by exact H0. assert (Q1 : p <= length (text L1)) by exact Hpl.
  destruct (find _ _) as [d|]; [|now apply insert_ok].
  change (refers_to empty_sequence d) with (@ret bool false). unfold bind at 1. cbn [ret]. destruct d as [x|e]; unfold bind; cbn [change ret]; [|unfold ret; eauto].
  apply insert_ok; try assumption; [now apply clear_bit_good|]. destruct T1 as [T2 T3 T4]. split; [exact T2| |exact T4]. cbn [implicit set_implicit].
  intros r. rewrite bit_set. destruct ((p =? r) && _); [discriminate|apply T3].
Qed.
Definition before_p (p : nat) (L : lattice) : Prop := forall e ed, nth_error (edges L) e = Some ed -> exists q, e_from ed = Text q /\ q < p.
Lemma spells_more L p : spells p L -> boundary (text L) p -> p < length (text L) -> has_symbol L p -> spells (p + symbol_len L p) L.
Proof.
  intros [S1 S2] Hb Hl Hs. split; [assumption|]. intros q Hq Hlt. destruct (Nat.lt_trichotomy q p) as [K|[->|K]]; [auto|assumption|].
  pose proof (next_boundary _ _ _ Hb Hq K). unfold symbol_len in Hlt. lia.
Qed.
Lemma symbol_step L p it sc rule choice L' d : good L -> tidy L -> n_loose L = 0 -> boundary (text L) p -> p < length (text L) ->
  spells p L -> before_p p L -> add_edge (Text p) (Text (p + symbol_len L p)) it symbol_tag empty_sequence sc rule choice L = (L', Ok d) ->
  good L' /\ tidy L' /\ n_loose L' = n_loose L /\ text L' = text L /\ spells (p + symbol_len L p) L' /\ before_p (p + symbol_len L p) L'.
Proof.
  intros G T H0 Hb Hl Sp Bp E. pose proof (symbol_len_pos L p) as Hpos.
  assert (Hq : boundary (text L) (p + symbol_len L p)) by (apply boundary_step; [apply T|assumption|assumption]).
  assert (Hpr : proper (tags L) symbol_tag) by now apply symbol_proper.
  destruct (add_edge_tidy _ _ _ _ _ _ _ _ _ _ _ G T Hpr (Hb : place L (Text p)) (Hq : place L (Text _)) E) as [T' _]; [discriminate|].
  destruct (add_edge_spec _ _ _ _ _ _ _ _ _ _ _ G Hpr E) as [G' [Gr [Et [_ A]]]]; [discriminate|].
  assert (HL : n_loose L' = n_loose L) by (eapply firm_add_edge; exact E).
  assert (Es : symbol_len L' p = symbol_len L p) by (unfold symbol_len; now rewrite Et).
  assert (Hin : N.testbit (inherited L symbol_tag empty_sequence) 0 = true) by now rewrite inherited_no_symbol.
  split; [assumption|]. split; [assumption|]. split; [assumption|]. split; [assumption|].
  assert (More : spells p L' -> has_symbol L' p -> spells (p + symbol_len L p) L').
  { intros S1 S2. rewrite <- Es. apply spells_more; try assumption; now rewrite Et. }
  assert (Bm : forall x, edges L' = edges L ++ [x] -> e_from x = Text p -> before_p (p + symbol_len L p) L').
  { intros x EE Hx e ed He. rewrite EE in He. apply nth_snoc in He as [He|[-> ->]]; [|exists p; split; [assumption|lia]].
    destruct (Bp e ed He) as [q [Q1 Q2]]. exists q. split; [assumption|lia]. }
  assert (Bs : edges L' = edges L -> before_p (p + symbol_len L p) L').
  { intros EE e ed He. rewrite EE in He. destruct (Bp e ed He) as [q [Q1 Q2]]. exists q. split; [assumption|lia]. }
  assert (Hn : forall t sc s rule choice, edges L' = edges L ++ [Edge (Text p) (Text (p + symbol_len L p)) it t sc [Partition t s sc rule choice]] -> N.testbit t 0 = true -> has_symbol L' p).
  { intros t sc' s rule' choice' EE Ht. right. exists (length (edges L)). unfold first_tags. rewrite EE, nth_error_app2, Nat.sub_diag by lia. cbn. eauto. }
  remember (Ok d) as r eqn:Er.
  destruct A as [F EL|F1 F2 EL|x Hx EE EI|EE|e ed He Hk Hs EE EI|p' F1 F2 F3 EE EI|EE EI _|p' ds t' F1 F2 F3 F4 F5 F6 EE EI]; try discriminate Er.
  - exfalso. unfold key_eqb in Hk. apply andb_true_iff in Hk as [Hk _]. apply andb_true_iff in Hk as [Hk _]. apply vertex_eqb_spec in Hk.
    destruct (Bp e ed He) as [q [Q1 Q2]]. cbn in Hk. rewrite Q1 in Hk. injection Hk as ->. lia.
  - injection F1 as <-. split; [|now apply Bs]. apply More.
    + apply (spells_same p L); try assumption. intros q Hbq. rewrite EI, Hbq. now destruct (p =? q).
    + left. now rewrite EI, Nat.eqb_refl.
  - split; [|eapply Bm; [exact EE|reflexivity]]. apply More; [|eapply Hn; [exact EE|assumption]].
    eapply spells_new; [exact Sp|exact Et|exact EE|eauto|]. rewrite EI. auto.
  - assert (Ht' : N.testbit t' 0 = true) by (subst t'; now rewrite P_Tags.union_bit).
    split; [|eapply Bm; [exact EE|reflexivity]]. apply More; [|eapply Hn; [exact EE|assumption]].
    eapply spells_new; [exact Sp|exact Et|exact EE|eauto|]. injection F1 as <-. intros q Hbq. rewrite EI, bit_set.
    destruct (Nat.eqb_spec p q) as [<-|]; cbn [andb]; auto.
Qed.

Lemma symbols_loop n : forall p cps tail L, good L -> tidy L -> n_loose L = 0 -> boundary (text L) p -> Forall scalar cps ->
  skipn p (text L) = flat_map enc cps ++ tail -> length (flat_map enc cps) <= n -> spells p L -> before_p p L ->
  exists L', add_symbols_loop n p (flat_map enc cps) L = (L', Ok tt) /\ text L' = text L /\ spells (p + length (flat_map enc cps)) L'.
Proof.
  induction n as [|n IH]; intros p cps tail L G T H0 Hb Hc Hs Hn Sp Bp.
  - destruct (flat_map enc cps); [|cbn in Hn; lia]. exists L. cbn. rewrite Nat.add_0_r. auto.
  - destruct cps as [|cp cps]; [exists L; cbn; rewrite Nat.add_0_r; auto|]. inversion Hc as [|? ? Hcp Hc']; subst. cbn [flat_map] in *.
    rewrite <- app_assoc in Hs. pose proof (enc_length cp) as He.
    assert (Hl : p < length (text L)).
    { destruct (Nat.lt_ge_cases p (length (text L))) as [|K]; [assumption|]. rewrite skipn_all2 in Hs by assumption.
      apply (f_equal (@length Z)) in Hs. rewrite app_length in Hs. cbn in Hs. lia. }
    destruct (char_at _ _ Hb Hl) as [cp' [rest [Hcp2 [E2 [El [Hb2 Hle]]]]]].
    assert (cp' = cp) as ->.
    { assert (N : next (skipn p (text L)) = Some (cp', rest)) by (rewrite E2; now apply next_enc).
      rewrite Hs, (next_enc _ _ Hcp) in N. now injection N. }
    fold (symbol_len L p) in El.
    assert (Hrest : skipn (p + symbol_len L p) (text L) = flat_map enc cps ++ tail).
    { rewrite El, Nat.add_comm, <- skipn_twice, Hs, skipn_app, skipn_all, Nat.sub_diag. reflexivity. }
    destruct (symbol_edge_ok L p (p + symbol_len L p) (M_Items.new_item (39%Z :: enc cp) []) 0%Z (-1)%Z (-1)%Z G T H0 Hb) as [L1 [d E1]]; [now rewrite El|lia|].
    destruct (symbol_step _ _ _ _ _ _ _ _ G T H0 Hb Hl Sp Bp E1) as [G1 [T1 [N1 [X1 [S1 B1]]]]].
    destruct (IH (p + symbol_len L p) cps tail L1) as [L' [E' [X' S']]]; try assumption.
    + congruence.
    + rewrite X1, El. exact Hb2.
    + now rewrite X1.
    + rewrite app_length in Hn. lia.
    + exists L'. split; [|split; [congruence|rewrite app_length, Nat.add_assoc, <- El; exact S']].
      assert (Hn0 : enc cp ++ flat_map enc cps <> []) by (intros K; apply app_eq_nil in K as [K _]; now apply enc_nonempty in K).
      destruct (enc cp ++ flat_map enc cps) as [|y l] eqn:Ey; [congruence|]. cbn [add_symbols_loop].
      rewrite <- Ey, (next_enc _ _ Hcp), (append_scalar _ Hcp). unfold bind. rewrite El in E1, E'. rewrite E1. exact E'.
Qed.
Lemma boundary_prefix a t p : well_formed a -> well_formed t -> boundary (a ++ t) p -> p <= length a -> boundary a p.
Proof.
  intros Ha Ht Hb Hp. assert (Hw : well_formed (a ++ t)) by now apply wf_app.
  pose proof (boundary_between (a ++ t) 0 p (boundary_0 _ Hw) Hb) as W1.
  assert (He : boundary (a ++ t) (p + (length a - p))).
  { replace (p + (length a - p)) with (length a) by lia. exists a, t. auto. }
  pose proof (boundary_between _ p _ Hb He) as W2. unfold sub in W1, W2. cbn [skipn] in W1.
  rewrite firstn_app in W1. replace (p - length a) with 0 in W1 by lia. cbn [firstn] in W1. rewrite app_nil_r in W1.
  rewrite skipn_app in W2. replace (p - length a) with 0 in W2 by lia. cbn [skipn] in W2.
  rewrite firstn_app, skipn_length, Nat.sub_diag in W2. cbn [firstn] in W2. rewrite app_nil_r, firstn_all2 in W2 by (rewrite skipn_length; lia).
  exists (firstn p a), (skipn p a). split; [now rewrite firstn_skipn|]. split; [assumption|]. split; [assumption|]. rewrite firstn_length. lia.
Qed.
Lemma last_vertex topo L : good L -> n_loose L = 0 -> get_last_vertex topo L = (L, Ok (Text (length (text L)))).
Proof.
  intros G H0. unfold get_last_vertex, bind, ask. assert (Hv : valid L (Text (length (text L))) = true) by (cbn; apply Nat.leb_refl).
  rewrite (all_out_form _ _ G Hv). destruct (bit (implicit L) (length (text L))) eqn:Eb.
  { apply (bit_in_text _ _ G) in Eb. lia. }
  cbn [when app]. destruct (graph_out L (Text (length (text L)))) as [|e l] eqn:Eg; [reflexivity|]. exfalso.
  assert (He : In e (graph_out L (Text (length (text L))))) by (rewrite Eg; now left).
  apply graph_out_spec in He as [ed [E1 E2]]. destruct (g_edges _ G _ _ E1) as [K1 [K2 [K3 K4]]]. apply (g_names _ G) in K2.
  rewrite E2 in K3, K4. destruct (e_to ed) as [q|k]; cbn in K2, K4.
  - apply Nat.leb_le in K2. apply Nat.ltb_ge in K4. apply K3. f_equal. lia.
  - apply Nat.ltb_lt in K2. lia.
Qed.
Lemma append_ok topo t L : careful_program L -> n_loose L = 0 -> spells (length (text L)) L -> well_formed t ->
  exists L', append_with_symbols topo t L = (L', Ok tt) /\ careful_program L' /\ text L' = text L ++ t /\ spells (length (text L')) L'.
Proof.
  intros HL H0 Sp Ht. destruct (careful_tidy _ HL) as [G T]. unfold append_with_symbols. unfold bind at 1. rewrite (last_vertex topo L G H0).
  set (L1 := resize_structures (set_text (text L ++ t) L)).
  assert (HL1 : careful_program L1) by (apply (C_call L L1 (AppendString t) (Ok tt)); [assumption|exact I|exact Ht|reflexivity|discriminate]).
  destruct (careful_tidy _ HL1) as [G1 T1]. assert (N1 : n_loose L1 = 0) by exact H0. assert (X1 : text L1 = text L ++ t) by reflexivity.
  change (append_string t L) with (L1, Ok tt). unfold bind. change (append_string t L) with (L1, @Ok unit tt). cbv iota beta.
  rewrite (last_vertex topo L1 G1 N1). unfold add_symbols.
  assert (Hlen : length (text L1) = length (text L) + length t) by (rewrite X1; apply app_length).
  destruct (Nat.leb_spec (length (text L)) (length (text L1))); [|lia]. rewrite Nat.leb_refl. cbn [andb].
  assert (Hsub : sub (text L1) (length (text L)) (length (text L1) - length (text L)) = t).
  { unfold sub. rewrite X1, skipn_app, skipn_all, Nat.sub_diag. cbn [skipn app]. rewrite firstn_all2; [reflexivity|]. rewrite app_length. lia. }
  rewrite Hsub. destruct Ht as [cps [Hc ->]].
  assert (Hb : boundary (text L1) (length (text L))).
  { rewrite X1. exists (text L), (flat_map enc cps). repeat split; [apply T|now exists cps]. }
  assert (Hlb : forall p, p < length (text L) -> symbol_len L1 p = symbol_len L p).
  { intros p Hp. apply grows_symbol_len; [eexists; exact X1|assumption]. }
  destruct (symbols_loop (length (text L1) - length (text L)) (length (text L)) cps [] L1 G1 T1 N1 Hb Hc) as [L' [E [X' S']]].
  - rewrite X1, skipn_app, skipn_all, Nat.sub_diag, app_nil_r. reflexivity.
  - lia.
  - split.
    + intros e ed He Hbit. change (edges L1) with (edges L) in He. destruct (sp_span _ _ Sp e ed He Hbit) as [p [P1 P2]]. exists p. split; [assumption|].
      rewrite Hlb; [assumption|]. destruct (g_edges _ G _ _ He) as [_ [K _]]. apply (g_names _ G) in K. rewrite P2 in K. cbn in K. apply Nat.leb_le in K.
      pose proof (symbol_len_pos L p). lia.
    + intros p Hp Hlt. assert (Hp' : boundary (text L) p).
      { rewrite X1 in Hp. apply (boundary_prefix (text L) (flat_map enc cps)); [apply T|now exists cps|assumption|lia]. }
      destruct (sp_all _ _ Sp p Hp' Hlt) as [K|K]; [|right; exact K]. left. change (implicit L1) with (resize (implicit L) (length (text L ++ flat_map enc cps) + 1)).
      rewrite bit_resize. exact K.
  - intros e ed He. change (edges L1) with (edges L) in He. destruct (g_edges _ G _ _ He) as [K1 [K2 [K3 K4]]]. apply (g_names _ G) in K1, K2.
    destruct (e_from ed) as [a|k]; [|cbn in K1; apply Nat.ltb_lt in K1; lia]. destruct (e_to ed) as [b|k]; [|cbn in K2; apply Nat.ltb_lt in K2; lia].
    exists a. split; [reflexivity|]. cbn in K2, K4. apply Nat.leb_le in K2. apply Nat.ltb_ge in K4. assert (a <> b) by congruence. lia.
  - exists L'. split; [exact E|]. split; [|split; [congruence|]].
    + apply (C_call L1 L' (AddSymbols (Text (length (text L))) (Text (length (text L1)))) (Ok tt)); [assumption|exact I| | |discriminate].
      * split; [exact Hb|]. apply boundary_end, T1.
      * cbn [exec]. unfold add_symbols. destruct (Nat.leb_spec (length (text L)) (length (text L1))); [|lia]. rewrite Nat.leb_refl. cbn [andb]. now rewrite Hsub.
    + rewrite X'. rewrite Hlen. exact S'.
Qed.

Lemma spelled_spells topo ts L : spelled topo ts L -> careful_program L /\ text L = concat ts /\ spells (length (text L)) L.
Proof.
  induction 1 as [|ts L t L' r H [HL [X Sp]] H0 Ht E|ts L o L' r H [HL [X Sp]] Ha Hal Ho E Hr].
  - split; [constructor|]. split; [reflexivity|]. split; [intros [|e] ed K; discriminate K|]. intros p _ Hp. cbn in Hp. lia.
  - destruct (append_ok topo t L HL H0 Sp Ht) as [L1 [E1 [HL1 [X1 S1]]]]. rewrite E1 in E. injection E as <- _.
    split; [assumption|]. split; [|assumption]. rewrite X1, X, concat_app. cbn. now rewrite app_nil_r.
  - destruct (careful_tidy _ HL) as [G T]. assert (HL' : careful_program L') by (eapply C_call; eassumption).
    pose proof (call_text _ _ _ _ G Ha Hal Ho E Hr) as X'. split; [assumption|]. split; [congruence|]. rewrite X'. eapply call_spells; eassumption.
Qed.

(** * The path *)
Lemma symbol_matches t : M_Tags.matches t symbol_mask = N.testbit t 0.
Proof.
  unfold M_Tags.matches. cbn [M_Tags.none M_Tags.any M_Tags.alts symbol_mask M_Tags.mask_of existsb]. rewrite orb_false_r.
  destruct (M_Tags.subset 1%N t) eqn:E.
  - apply P_Tags.subset_bits with (i := 0%N) in E; [now rewrite E|reflexivity].
  - destruct (N.testbit t 0) eqn:E2; [|reflexivity]. rewrite <- E. apply P_Tags.subset_bits. intros [|i] Hi; [assumption|].
    destruct i; discriminate.
Qed.
Lemma symbol_made : P_Tags.made symbol_mask.
Proof. left. now eexists. Qed.
Lemma out_visible v m L L' r : out_edges v m L = (L', r) -> visible L' = visible L.
Proof.
  unfold out_edges. destruct (negb (valid L v)); [now intros [= <- _]|]. destruct (M_Tags.any m); [now intros [= <- _]|].
  unfold bind, add_tag_mask_index. destruct (mask_index _ _); unfold ask; intros [= <- _]; reflexivity.
Qed.
Lemma symbol_edges b L p L' l : good L -> spells b L -> out_edges (Text p) symbol_mask L = (L', Ok l) ->
  (forall d, In d l -> is_edge L d /\ source L d = Ok (Text p) /\ target L d = Ok (Text (p + symbol_len L p))) /\
  (boundary (text L) p -> p < b -> l <> []).
Proof.
  intros G Sp E. destruct (out_selection _ _ _ _ _ G symbol_made E) as [all [A [[sel S1] S2 S3]]]. destruct (all_out_spec _ _ _ G A) as [_ M]. split.
  - intros d Hd. assert (Ha : In d all) by (rewrite S1 in Hd; apply filter_In in Hd; tauto). apply M in Ha as [He Hs].
    split; [assumption|]. split; [assumption|]. apply S2 in Hd. rewrite symbol_matches in Hd. destruct d as [q|e]; cbn [source target] in *; [now injection Hs as ->|].
    cbn [edge_tags] in Hd. destruct (nth_error (edges L) e) as [ed|] eqn:Ee; [|discriminate]. injection Hs as Hs.
    destruct (sp_span _ _ Sp e ed Ee Hd) as [q [Q1 Q2]]. rewrite Q1 in Hs. injection Hs as ->. now rewrite Q2.
  - intros Hb Hp ->. destruct (sp_all _ _ Sp p Hb Hp) as [K|[e [ed [K1 [K2 K3]]]]].
    + apply (S3 (Implicit p)).
      * apply M. split; [exact K|reflexivity].
      * rewrite symbol_matches. reflexivity.
      * intros _ _. repeat constructor.
    + apply (S3 (Explicit e)).
      * apply M. split; [apply nth_error_Some; congruence|]. cbn [source]. rewrite K1. now rewrite K2.
      * rewrite symbol_matches, made_with_explicit. exact K3.
      * discriminate.
Qed.
Lemma build_add_core L L' b u : core L L' -> visible L' = visible L -> build_add L' b u = build_add L b u.
Proof.
  intros C V. unfold build_add, edge_hidden. rewrite V, (c_hidden _ _ C). destruct (fst u); [|reflexivity].
  now rewrite (core_symbol_len _ _ _ C).
Qed.
Lemma fold_add_core L L' us : core L L' -> visible L' = visible L -> forall b, fold_left (build_add L') us b = fold_left (build_add L) us b.
Proof. intros C V. induction us as [|u us IH]; intros b; [reflexivity|]. cbn [fold_left]. now rewrite (build_add_core _ _ _ _ C V). Qed.
Lemma core_source L L' d : core L L' -> source L' d = source L d.
Proof. intros C. unfold source. now rewrite (c_edges _ _ C). Qed.
Lemma core_target L L' d : core L L' -> target L' d = target L d.
Proof. intros C. unfold target. rewrite (c_edges _ _ C). destruct d; [|reflexivity]. now rewrite (core_symbol_len _ _ _ C). Qed.
Lemma core_edge_text L L' d : core L L' -> edge_text L' d = edge_text L d.
Proof.
  intros C. unfold edge_text, edge_length. rewrite (core_source _ _ _ C), (core_target _ _ _ C), (c_text _ _ C).
  destruct d; [|reflexivity]. now rewrite (core_symbol_len _ _ _ C).
Qed.
Lemma core_is_edge L L' d : core L L' -> is_edge L' d <-> is_edge L d.
Proof. intros C. unfold is_edge. rewrite (c_edges _ _ C), (c_implicit _ _ C). tauto. Qed.
Lemma core_chain L L' ds : core L L' -> chain L' ds <-> chain L ds.
Proof.
  intros C. induction ds as [|d ds IH]; [tauto|]. cbn [chain]. rewrite IH. destruct ds as [|e ds]; [tauto|].
  now rewrite (core_source _ _ _ C), (core_target _ _ _ C).
Qed.
Lemma core_spells b L L' : core L L' -> spells b L -> spells b L'.
Proof. intros C. apply spells_same; [apply C|apply C|]. now rewrite (c_implicit _ _ C). Qed.
Lemma last_in {A} (l : list A) x : In (last l x) (x :: l).
Proof.
  revert x. induction l as [|y l IH]; intros x; [now left|]. destruct l as [|z l]; [right; now left|].
  change (In (last (z :: l) x) (x :: y :: z :: l)). specialize (IH x). destruct IH as [<-|IH]; [now left|right; now right].
Qed.
Record path_result (L : lattice) (p : nat) (cps : list Z) (us : list usage) : Prop := {
  pr_chain : chain L (map fst us);
  pr_begin : us = [] \/ begins_at L (map fst us) (Text p);
  pr_edges : forall u, In u us -> is_edge L (fst u);
  pr_texts : Forall2 (fun u cp => edge_text L (fst u) = Ok (enc cp)) us cps
}.
Lemma path_walk n : forall p cps b L, careful_program L -> spells (length (text L)) L -> boundary (text L) p -> Forall scalar cps ->
  skipn p (text L) = flat_map enc cps -> length cps < n ->
  exists L' us, path_from n (Text p) symbol_mask b L = (L', Ok (fold_left (build_add L) us b, Text (length (text L)))) /\
    careful_program L' /\ core L L' /\ visible L' = visible L /\ path_result L p cps us.
Proof.
  induction n as [|n IH]; intros p cps b L HL Sp Hb Hc Hs Hn; [lia|]. destruct (careful_tidy _ HL) as [G T].
  assert (Hle : p <= length (text L)) by now apply boundary_wf in Hb.
  assert (Hv : valid L (Text p) = true) by (cbn; now apply Nat.leb_le).
  destruct (out_edges_total L (Text p) symbol_mask Hv) as [L1 [l E]]. destruct (symbol_edges _ _ _ _ _ G Sp E) as [K1 K2].
  destruct (query_op L L1 (OutEdges (Text p) symbol_mask) (out_edges (Text p) symbol_mask) l (out_edges_query _ _ symbol_made) eq_refl HL symbol_made Hb E) as [HL1 C1].
  pose proof (out_visible _ _ _ _ _ E) as V1. cbn [path_from]. unfold bind at 1. rewrite E. destruct cps as [|cp cps].
  - assert (p = length (text L)) as -> by (apply (f_equal (@length Z)) in Hs; rewrite skipn_length in Hs; cbn in Hs; lia).
    destruct l as [|d l].
    + exists L1, []. split; [reflexivity|]. split; [assumption|]. split; [assumption|]. split; [assumption|]. split; [exact I|now left|intros u []|constructor].
    + exfalso. destruct (K1 d (or_introl eq_refl)) as [D1 [D2 D3]]. destruct (edge_place L d _ _ G T D1 D2 D3) as [_ D4]. apply boundary_wf in D4 as [_ D4].
      pose proof (symbol_len_pos L (length (text L))). lia.
  - inversion Hc as [|? ? Hcp Hc']; subst. cbn [flat_map] in Hs. pose proof (enc_length cp) as He.
    assert (Hlt : p < length (text L)).
    { destruct (Nat.lt_ge_cases p (length (text L))) as [|K]; [assumption|]. rewrite skipn_all2 in Hs by assumption.
      apply (f_equal (@length Z)) in Hs. rewrite app_length in Hs. cbn in Hs. lia. }
    destruct l as [|d l]; [now destruct (K2 Hb Hlt)|]. cbv zeta. set (best := last l d).
    destruct (K1 best (last_in l d)) as [D1 [D2 D3]]. unfold bind at 1, ask at 1. unfold bind at 1, ask at 1.
    rewrite (core_target _ _ _ C1), D3.
    destruct (char_at _ _ Hb Hlt) as [cp' [rest [Hcp2 [E2 [El [Hb2 Hle2]]]]]].
    assert (cp' = cp) as ->.
    { assert (N : next (skipn p (text L)) = Some (cp', rest)) by (rewrite E2; now apply next_enc).
      rewrite Hs, (next_enc _ _ Hcp) in N. now injection N. }
    fold (symbol_len L p) in El.
    destruct (IH (p + symbol_len L p) cps (build_add L1 b (best, M_Items.ZNull)) L1) as [L' [us [E' [HL' [C' [V' [P1 P2 P3 P4]]]]]]]; try assumption.
    + rewrite (c_text _ _ C1). now apply (core_spells _ L).
    + rewrite (c_text _ _ C1), El. exact Hb2.
    + rewrite (c_text _ _ C1), El, Nat.add_comm, <- skipn_twice, Hs, skipn_app, skipn_all, Nat.sub_diag. reflexivity.
    + cbn in Hn. lia.
    + exists L', ((best, M_Items.ZNull) :: us). rewrite E', (c_text _ _ C1), (fold_add_core _ _ _ C1 V1), (build_add_core _ _ _ _ C1 V1).
      split; [reflexivity|]. split; [assumption|]. split; [eapply core_trans; eassumption|]. split; [congruence|]. split.
      * cbn [map fst chain]. split; [|now apply (core_chain _ _ _ C1)]. destruct us as [|u us]; [exact I|]. cbn [map]. destruct P2 as [P2|P2]; [discriminate|].
        cbn [map begins_at] in P2. rewrite (core_source _ _ _ C1) in P2. congruence.
      * right. exact D2.
      * intros u [<-|Hu]; [exact D1|]. apply (core_is_edge _ _ _ C1). now apply P3.
      * constructor.
        -- cbn [fst]. unfold edge_text. rewrite D2, D3. 
           assert (Ln : edge_length L best = Ok (symbol_len L p)).
           { unfold edge_length. rewrite D2, D3. destruct best as [q|e]; [cbn in D2; now injection D2 as ->|]. f_equal. lia. }
           rewrite Ln. destruct (Nat.leb_spec p (length (text L))); [|lia]. unfold sub. rewrite Hs, El, firstn_app, firstn_all, Nat.sub_diag. cbn [firstn]. now rewrite app_nil_r.
        -- clear -P4 C1. induction P4; constructor; [|assumption]. now rewrite <- (core_edge_text _ _ _ C1).
Qed.
Lemma edge_texts_spec L cps (us : list usage) : Forall2 (fun u cp => edge_text L (fst u) = Ok (enc cp)) us cps -> edge_texts L (map fst us) = Ok (flat_map enc cps).
Proof. induction 1 as [|u cp us cps E H IH]; [reflexivity|]. cbn [map edge_texts flat_map]. now rewrite E, IH. Qed.
Lemma forall2_fst {B} (P : desc -> B -> Prop) (us vs : list usage) (cs : list B) : map fst us = map fst vs -> Forall2 (fun u c => P (fst u) c) vs cs -> Forall2 (fun u c => P (fst u) c) us cs.
Proof.
  intros E H. revert us E. induction H as [|v c vs cs Hv H IH]; intros [|u us] E; try discriminate; constructor; injection E as E1 E2; [now rewrite E1|now apply IH].
Qed.
Lemma forall2_len {A B} (P : A -> B -> Prop) l m : Forall2 P l m -> length l = length m.
Proof. induction 1; cbn; congruence. Qed.

(** * C16 *)
(** Appending a well-formed text with its symbols does not fail. *)
Theorem C16_append topo ts L t : spelled topo ts L -> n_loose L = 0 -> well_formed t ->
  exists L', append_with_symbols topo t L = (L', Ok tt) /\ spelled topo (ts ++ [t]) L' /\ text L' = concat ts ++ t.
Proof.
  intros H H0 Ht. destruct (spelled_spells _ _ _ H) as [HL [X Sp]]. destruct (append_ok topo t L HL H0 Sp Ht) as [L' [E [_ [X' _]]]].
  exists L'. split; [assumption|]. split; [eapply Sp_append; eassumption|]. congruence.
Qed.
Print Assumptions C16_append.
(** The walk over the symbol edges from the start ends at the end of the text; its edges
    follow one another and stand for the characters of the appended texts. *)
Theorem C16_path topo ts L n : spelled topo ts L -> length (concat ts) < n ->
  exists cps s L' us,
    encodes cps (concat ts) /\ text L = concat ts /\
    get_path n (Text 0) symbol_mask L = (L', Ok (s, Text (length (concat ts)))) /\
    snd (usages s L') = Ok us /\ chain L (map fst us) /\
    Forall2 (fun u cp => edge_text L (fst u) = Ok (enc cp)) us cps /\
    snd (sequence_text s L') = Ok (concat ts) /\
    sequence_size L' s = Ok (length cps).
Proof.
  intros H Hn. destruct (spelled_spells _ _ _ H) as [HL [X Sp]]. destruct (careful_tidy _ HL) as [G T].
  assert (Hw : well_formed (text L)) by apply T. destruct (Hw) as [cps [Hc Ec]].
  destruct (path_walk n 0 cps new_builder L HL Sp (boundary_0 _ Hw) Hc Ec) as [L' [us [E [HL' [C [V [P1 P2 P3 P4]]]]]]].
  { rewrite <- X, Ec in Hn. assert (length cps <= length (flat_map enc cps)); [|lia]. clear. induction cps as [|c cps IH]; [auto|].
    cbn. rewrite app_length. pose proof (enc_length c). lia. }
  destruct (careful_tidy _ HL') as [G' T'].
  assert (P1' : chain L' (map fst us)) by now apply (core_chain _ _ _ C).
  assert (P3' : forall u, In u us -> is_edge L' (fst u)) by (intros u Hu; apply (core_is_edge _ _ _ C); auto).
  destruct (C41_reads_back L' us (careful_is_program _ HL') P3' (or_introl P1')) as [L2 [us' [E2 [E3 _]]]].
  destruct (C41_members L' us HL' P3' (or_introl P1')) as [Z1 _].
  destruct (usages_query _ _ _ _ G' E2) as [G2 C2]; [discriminate|].
  assert (P4' : Forall2 (fun u cp => edge_text L (fst u) = Ok (enc cp)) us' cps) by (apply (forall2_fst (fun d cp => edge_text L d = Ok (enc cp)) us' us); assumption).
  exists cps, (build_all L' us), L', us'. split; [split; congruence|]. split; [assumption|]. rewrite <- X.
  split; [|split; [now rewrite E2|split; [now rewrite E3|split; [assumption|split]]]].
  - unfold get_path, bind. rewrite E. cbn [fst snd]. unfold ret, build_all. now rewrite (fold_add_core _ _ _ C V).
  - unfold sequence_text, bind, ask. rewrite E2. cbn [snd]. rewrite Ec. apply edge_texts_spec.
    clear -P4' C C2. induction P4'; constructor; [|assumption]. rewrite (core_edge_text _ _ _ C2), (core_edge_text _ _ _ C). assumption.
  - rewrite Z1. f_equal. eapply forall2_len; eassumption.
Qed.
Print Assumptions C16_path.
(** While there are no loose vertices the ends of the walk are those of the lattice. *)
Theorem C16_ends topo ts L : spelled topo ts L -> n_loose L = 0 ->
  get_first_vertex topo L = (L, Ok (Text 0)) /\ get_last_vertex topo L = (L, Ok (Text (length (concat ts)))).
Proof.
  intros H H0. destruct (spelled_spells _ _ _ H) as [HL [X Sp]]. destruct (careful_tidy _ HL) as [G T]. split; [|rewrite <- X; now apply last_vertex].
  unfold get_first_vertex, bind, ask.
  destruct (all_in_edges L (Text 0)) as [l|e|] eqn:E.
  - destruct l as [|d l]; [reflexivity|]. exfalso. destruct (all_in_spec _ _ _ G T (boundary_0 _ (t_text _ T) : place L (Text 0)) E) as [_ M].
    assert (Hd : In d (d :: l)) by now left. apply M in Hd as [He Ht]. destruct (edge_ends L d He) as [a [b [Ea Eb]]]. rewrite Ht in Eb. injection Eb as <-.
    destruct (source_text _ _ _ G H0 He Ea) as [p ->]. destruct d as [q|e]; cbn [source target] in *.
    + injection Ht as Ht. pose proof (symbol_len_pos L q). lia.
    + destruct (nth_error (edges L) e) as [ed|] eqn:Ee; [|discriminate]. destruct (g_edges _ G _ _ Ee) as [_ [_ [K3 K4]]].
      injection Ea as Ea. injection Ht as Ht. rewrite Ea, Ht in K3, K4. destruct p; [now apply K3|discriminate K4].
  - destruct (all_in_form L (Text 0) G T eq_refl (boundary_0 _ (t_text _ T))) as [q [Eq _]]. congruence.
  - destruct (all_in_form L (Text 0) G T eq_refl (boundary_0 _ (t_text _ T))) as [q [Eq _]]. congruence.
Qed.
Print Assumptions C16_ends.

(** An example: two texts, an annotation over the first character and a word in between. *)
Definition no_sort (vs : list vertex) (es : list (vertex * vertex)) : option (list vertex) := None.
Definition spelled_calls : list op :=
  [TagCall (M_Tags.Create [[112]; [113]]%Z); AddEdge (Text 0) (Text 2) (ex_item WORD [97; 98]%Z) 4%N empty_sequence 5%Z (-1) (-1);
   AddPartition (Implicit 0) 4%N empty_sequence 5%Z (-1) (-1)].
Definition spelled_1 : lattice := fst (append_with_symbols no_sort [97; 98]%Z new_lattice).
Definition spelled_2 : lattice := fold_left (fun L o => fst (exec o L)) spelled_calls spelled_1.
Definition spelled_3 : lattice := fst (append_with_symbols no_sort [196; 133; 98]%Z spelled_2).
Ltac annotate := match goal with |- spelled _ _ (fst (exec ?o ?L)) =>
  apply (Sp_call no_sort _ L o _ (snd (exec o L)));
    [|first [exact I|vm_compute; reflexivity]|cbn [allowed]; first [exact I|apply known_check_ok; vm_compute; reflexivity|left; eexists; reflexivity]
     |cbn [tidy_op]; first [exact I|split; places|places|vm_compute; reflexivity|vm_compute; lia]
     |apply surjective_pairing|vm_compute; discriminate] end.
Example C16_example_spelled : spelled no_sort [[97; 98]; [196; 133; 98]]%Z spelled_3.
Proof.
  unfold spelled_3. apply (Sp_append no_sort [[97; 98]%Z] spelled_2 [196; 133; 98]%Z _ (Ok tt)); [|vm_compute; reflexivity|apply wf_check; vm_compute; reflexivity|vm_compute; reflexivity].
  unfold spelled_2, spelled_calls. cbn [fold_left]. do 3 annotate.
  unfold spelled_1. apply (Sp_append no_sort [] new_lattice [97; 98]%Z _ (Ok tt)); [constructor|reflexivity|apply wf_check; vm_compute; reflexivity|vm_compute; reflexivity].
Qed.
Example C16_example : snd (get_path 6 (Text 0) symbol_mask spelled_3) =
    Ok (Sequence [(Implicit 0, M_Items.ZNull); (Implicit 1, M_Items.ZNull); (Implicit 2, M_Items.ZNull); (Implicit 4, M_Items.ZNull)] 0 0, Text 5) /\
  edge_texts spelled_3 [Implicit 0; Implicit 1; Implicit 2; Implicit 4] = Ok [97; 98; 196; 133; 98]%Z.
Proof. split; vm_compute; reflexivity. Qed.

(** Another call that gives the tag of symbols to a longer edge changes the walk: that
    the other calls do not use this tag is needed. *)
Definition long_symbol : op := AddEdge (Text 0) (Text 2) (ex_item WORD [98]%Z) 1%N empty_sequence 0%Z (-1) (-1).
Theorem C16_symbol_tag_refuted :
  ~ (forall topo ts L o L1 r n L2 s v cps, spelled topo ts L -> allowed L o -> tidy_op L o -> (forall t, o <> AppendString t) ->
       exec o L = (L1, r) -> r <> Undefined -> encodes cps (concat ts) ->
       get_path n (Text 0) symbol_mask L1 = (L2, Ok (s, v)) -> sequence_size L2 s = Ok (length cps)).
Proof.
  intros H. pose (L1 := fst (exec long_symbol spelled_3)). pose (X := get_path 6 (Text 0) symbol_mask L1).
  assert (E : sequence_size (fst X) (Sequence [(Explicit 2, M_Items.ZNull); (Implicit 2, M_Items.ZNull); (Implicit 4, M_Items.ZNull)] 0 0) = Ok 4).
  { apply (H no_sort [[97; 98]; [196; 133; 98]]%Z spelled_3 long_symbol L1 (snd (exec long_symbol spelled_3)) 6 (fst X) _ (Text 5) [97; 98; 261; 98]%Z).
    - apply C16_example_spelled.
    - apply known_check_ok. vm_compute. reflexivity.
    - split; places.
    - discriminate.
    - apply surjective_pairing.
    - vm_compute. discriminate.
    - split; [repeat constructor; vm_compute; intuition discriminate|vm_compute; reflexivity].
    - vm_compute. reflexivity. }
  vm_compute in E. discriminate.
Qed.
Print Assumptions C16_symbol_tag_refuted.

(** lattice.hpp lines 617-625 promises the edge with the best score; the last one is taken. *)
Definition scored_calls : list op :=
  [AppendString ex_text; TagCall (M_Tags.Create [[112]; [113]]%Z);
   AddEdge (Text 0) (Text 2) (ex_item WORD [97; 98]%Z) 4%N empty_sequence 9%Z (-1) (-1);
   AddEdge (Text 0) (Text 1) (ex_item WORD [97]%Z) 4%N empty_sequence 3%Z (-1) (-1)].
Definition scored_lattice : lattice := after scored_calls new_lattice.
Theorem C16_best_refuted :
  ~ (forall L v m n L' s v' l d e, careful_program L -> P_Tags.made m -> place L v -> get_path n v m L = (L', Ok (s, v')) ->
       snd (out_edges v m L) = Ok l -> snd (first_edge s L') = Ok d -> In e l -> (edge_score L e <= edge_score L d)%Z).
Proof.
  intros H. assert (HL : careful_program scored_lattice) by (unfold scored_lattice, scored_calls; careful).
  pose (X := get_path 5 (Text 0) (M_Tags.mask_of [4%N]) scored_lattice).
  specialize (H scored_lattice (Text 0) (M_Tags.mask_of [4%N]) 5 (fst X) (Sequence [(Explicit 1, M_Items.ZNull)] 0 0) (Text 1) [Explicit 0; Explicit 1] (Explicit 1) (Explicit 0) HL).
  assert (K : (edge_score scored_lattice (Explicit 0) <= edge_score scored_lattice (Explicit 1))%Z).
  { apply H; [left; eexists; reflexivity|places|vm_compute; reflexivity|vm_compute; reflexivity|vm_compute; reflexivity|now left]. }
  vm_compute in K. now apply K.
Qed.
Print Assumptions C16_best_refuted.

(** With loose vertices the edges may form a cycle, and then the walk does not end. *)
Definition round_calls : list op :=
  [AppendString ex_text; TagCall (M_Tags.Create [[112]; [113]]%Z); AddLooseVertex;
   AddEdge (Text 0) (Loose 0) (ex_item WORD [97; 98]%Z) 4%N empty_sequence 9%Z (-1) (-1);
   AddEdge (Loose 0) (Text 0) (ex_item WORD [97]%Z) 4%N empty_sequence 3%Z (-1) (-1); OutEdges (Text 0) (M_Tags.mask_of [4%N])].
Definition round_lattice : lattice := after round_calls new_lattice.
Lemma round_step n b : path_from (S (S n)) (Text 0) (M_Tags.mask_of [4%N]) b round_lattice =
  path_from n (Text 0) (M_Tags.mask_of [4%N]) (Builder (b_links b ++ [(Explicit 0, M_Items.ZNull); (Explicit 1, M_Items.ZNull)]) 1 0) round_lattice.
Proof.
  cbn [path_from].
  assert (E0 : out_edges (Text 0) (M_Tags.mask_of [4%N]) round_lattice = (round_lattice, Ok [Explicit 0])) by (vm_compute; reflexivity).
  assert (E1 : out_edges (Loose 0) (M_Tags.mask_of [4%N]) round_lattice = (round_lattice, Ok [Explicit 1])) by (vm_compute; reflexivity).
  assert (T0 : target round_lattice (Explicit 0) = Ok (Loose 0)) by (vm_compute; reflexivity).
  assert (T1 : target round_lattice (Explicit 1) = Ok (Text 0)) by (vm_compute; reflexivity).
  unfold bind at 1. rewrite E0. cbv zeta. cbn [last]. unfold bind at 1, ask at 1. unfold bind at 1, ask at 1. rewrite T0.
  unfold bind at 1. rewrite E1. cbv zeta. cbn [last]. unfold bind at 1, ask at 1. unfold bind at 1, ask at 1. rewrite T1.
  unfold build_add. cbn [fst b_links]. now rewrite <- app_assoc.
Qed.
Theorem C16_endless_refuted :
  ~ (forall L v m, careful_program L -> P_Tags.made m -> place L v -> exists n, snd (get_path n v m L) <> Undefined).
Proof.
  intros H. destruct (H round_lattice (Text 0) (M_Tags.mask_of [4%N])) as [n Hn].
  - unfold round_lattice, round_calls. careful.
  - left. eexists. reflexivity.
  - places.
  - apply Hn. unfold get_path, bind. clear Hn.
    assert (K : forall k b, snd (path_from k (Text 0) (M_Tags.mask_of [4%N]) b round_lattice) = Undefined).
    { intros k. induction k as [k IH] using (well_founded_induction lt_wf). intros b. destruct k as [|[|k]].
      - reflexivity.
      - assert (E0 : out_edges (Text 0) (M_Tags.mask_of [4%N]) round_lattice = (round_lattice, Ok [Explicit 0])) by (vm_compute; reflexivity).
        cbn [path_from]. unfold bind at 1. rewrite E0. cbv zeta. cbn [last]. unfold bind, ask.
        assert (T0 : target round_lattice (Explicit 0) = Ok (Loose 0)) by (vm_compute; reflexivity). rewrite T0. reflexivity.
      - rewrite round_step. apply IH. lia. }
    specialize (K n new_builder). destruct (path_from n _ _ _ _) as [L' [x|e|]]; cbn in K |- *; try discriminate. reflexivity.
Qed.
Print Assumptions C16_endless_refuted.

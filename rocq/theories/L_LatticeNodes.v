(** Every vertex of the graph over the text is an end of an edge. *)
From Coq Require Import ZArith List Bool Lia.
From Verif Require Import M_Utf8 M_Tags M_Items M_Cutter M_Lattice L_Lattice S_Lattice.
Import ListNotations.
Local Open Scope nat_scope.

Definition still {A} (m : act A) : Prop := forall L L' r, m L = (L', r) -> edges L' = edges L /\ names_of L' = names_of L /\ n_loose L' = n_loose L.
Lemma still_ret {A} (a : A) : still (ret a).
Proof. now intros L L' r [= <- _]. Qed.
Lemma still_ask {A} (f : lattice -> res A) : still (ask f).
Proof. now intros L L' r [= <- _]. Qed.
Lemma still_throw {A} e : still (@throw A e).
Proof. now intros L L' r [= <- _]. Qed.
Lemma still_undefined {A} : still (@undefined A).
Proof. now intros L L' r [= <- _]. Qed.
Lemma still_bind {A B} (m : act A) (f : A -> act B) : still m -> (forall a, still (f a)) -> still (bind m f).
Proof.
  intros Hm Hf L L' r. unfold bind. destruct (m L) as [L1 [a|e|]] eqn:E; apply Hm in E as [E1 [E2 E3]]; intros H.
  - apply Hf in H as [H1 [H2 H3]]. split; [congruence|]. split; congruence.
  - injection H as <- _. auto.
  - injection H as <- _. auto.
Qed.
Lemma still_index m : still (add_tag_mask_index m).
Proof.
  intros L L' r. unfold add_tag_mask_index. destruct (mask_index (masks L) m); intros [= <- _]; [auto|].
  split; [reflexivity|]. split; [|reflexivity]. unfold names_of. cbn [nodes set_masks set_nodes]. rewrite map_map. reflexivity.
Qed.
Lemma still_out v m : still (out_edges v m).
Proof.
  intros L L' r. unfold out_edges. destruct (negb (valid L v)); [intros [= <- _]; auto|]. destruct (M_Tags.any m); [apply still_ask|].
  apply still_bind; [apply still_index|intros ix; apply still_ask].
Qed.
Lemma still_in v m : still (in_edges v m).
Proof.
  intros L L' r. unfold in_edges. destruct (negb (valid L v)); [intros [= <- _]; auto|]. destruct (M_Tags.any m); [apply still_ask|].
  apply still_bind; [apply still_index|intros ix; apply still_ask].
Qed.
Lemma still_first {A} (l : list A) : still (first l).
Proof. destruct l; [apply still_throw|apply still_ret]. Qed.
Lemma still_first_out v m : still (first_out_edge v m).
Proof. apply still_bind; [apply still_out|intros; apply still_first]. Qed.
Lemma still_first_in v m : still (first_in_edge v m).
Proof. apply still_bind; [apply still_in|intros; apply still_first]. Qed.
Lemma still_packed si : still (packed_edge si).
Proof. intros L L' r. unfold packed_edge. destruct (_ <? _); [intros [= <- _]; auto|apply still_first_out]. Qed.
Lemma still_packed_edges n : forall si e, still (packed_edges n si e).
Proof.
  induction n as [|n IH]; intros si e; cbn [packed_edges]; [apply still_ret|]. destruct (si <? e); [|apply still_ret].
  intros L. generalize (si + symbol_len L si). intros q. revert L. apply still_bind; [apply still_packed|]. intros d.
  apply still_bind; [apply IH|intros; apply still_ret].
Qed.
Lemma still_usages s : still (usages s).
Proof. unfold usages. destruct (links s); [apply still_packed_edges|apply still_ret]. Qed.
Lemma still_search n : forall si e d, still (packed_search n si e d).
Proof.
  induction n as [|n IH]; intros si e d; cbn [packed_search]; [apply still_ret|]. destruct (si <? e); [|apply still_ret].
  intros L. generalize (si + symbol_len L si). intros q. revert L. apply (still_bind (packed_edge si)); [apply still_packed|]. intros x.
  destruct (desc_eqb x d); [apply still_ret|apply IH].
Qed.
Lemma still_refers s d : still (refers_to s d).
Proof. unfold refers_to. destruct (links s); [apply still_search|apply still_ret]. Qed.
Lemma still_visible v : still (make_visible v).
Proof. destruct v; [now intros L L' r [= <- _]|apply still_undefined]. Qed.
Lemma still_update from to t : still (update_visible from to t).
Proof.
  unfold update_visible. destruct (M_Tags.coll_eqb t symbol_tag); [|apply still_ret].
  assert (S : still (do _ <- first_out_edge from symbol_mask; do _ <- make_visible from; do ed <- first_in_edge to symbol_mask;
                     do v <- ask (fun L => source L ed); make_visible v)).
  { apply still_bind; [apply still_first_out|]. intros _. apply still_bind; [apply still_visible|]. intros _.
    apply still_bind; [apply still_first_in|]. intros ed. apply still_bind; [apply still_ask|]. intros v. apply still_visible. }
  intros L L' r. unfold catch_no_edge.
  destruct ((do _ <- first_out_edge from symbol_mask; do _ <- make_visible from; do ed <- first_in_edge to symbol_mask;
             do v <- ask (fun L => source L ed); make_visible v) L) as [L1 [a|e|]] eqn:E; apply S in E; [|destruct e|]; intros [= <- _]; exact E.
Qed.

Definition touched (L : lattice) (v : vertex) : Prop :=
  exists e ed, nth_error (edges L) e = Some ed /\ (e_from ed = v \/ e_to ed = v).
Definition noded (L : lattice) : Prop := forall v, In v (names_of L) -> is_loose v = true \/ touched L v.
Definition keeps {A} (m : act A) : Prop := forall L L' r, noded L -> m L = (L', r) -> noded L'.
Lemma noded_same L L' : edges L' = edges L -> names_of L' = names_of L -> noded L -> noded L'.
Proof. intros E1 E2 H v. unfold touched. rewrite E1, E2. apply H. Qed.
Lemma keeps_still {A} (m : act A) : still m -> keeps m.
Proof. intros S L L' r H E. apply S in E as [E1 [E2 _]]. now apply (noded_same L). Qed.
Lemma keeps_bind {A B} (m : act A) (f : A -> act B) : keeps m -> (forall a, keeps (f a)) -> keeps (bind m f).
Proof.
  intros Hm Hf L L' r H. unfold bind. destruct (m L) as [L1 [a|e|]] eqn:E; apply (Hm _ _ _ H) in E; intros K.
  - now apply (Hf a L1 L' r).
  - now injection K as <- _.
  - now injection K as <- _.
Qed.
Lemma names_ensure v L x : In x (names_of (ensure_node v L)) -> In x (names_of L) \/ x = v.
Proof.
  unfold ensure_node. destruct (find_node L v); [auto|]. unfold names_of. cbn [nodes set_nodes]. rewrite map_app, in_app_iff. cbn.
  intros [H|[<-|[]]]; auto.
Qed.
Lemma edges_ensure v L : edges (ensure_node v L) = edges L.
Proof. unfold ensure_node. now destruct (find_node L v). Qed.
Lemma keeps_explicit from to it t s sc rule choice : keeps (insert_explicit from to it t s sc rule choice).
Proof.
  intros L L' r H. unfold insert_explicit. intros [= <- _]. set (L1 := ensure_node to (ensure_node from L)).
  intros v Hv. assert (K : In v (names_of L1)).
  { unfold names_of in *. cbn [nodes push_vvc set_vvc hide_between] in Hv. destruct from, to; cbn in Hv; rewrite map_map in Hv; exact Hv. }
  assert (E : edges (push_vvc (from, to, it) (Explicit (length (edges L1))) (hide_between from to (index_edge from to t (length (edges L1))
     (set_edges (edges L1 ++ [Edge from to it t sc [Partition t s sc rule choice]]) L1)))) = edges L ++ [Edge from to it t sc [Partition t s sc rule choice]]).
  { destruct from, to; cbn; unfold L1; now rewrite !edges_ensure. }
  unfold touched. rewrite E.
  assert (New : v = from \/ v = to -> exists e ed, nth_error (edges L ++ [Edge from to it t sc [Partition t s sc rule choice]]) e = Some ed /\ (e_from ed = v \/ e_to ed = v)).
  { intros Hn. exists (length (edges L)). eexists. rewrite nth_error_app2, Nat.sub_diag by lia. split; [reflexivity|]. cbn. destruct Hn; auto. }
  apply names_ensure in K as [K| ->]; [|right; apply New; now right]. apply names_ensure in K as [K| ->]; [|right; apply New; now left].
  destruct (H v K) as [Hl|[e [ed [He1 He2]]]]; [now left|]. right. exists e, ed. split; [|assumption]. rewrite nth_error_app1; [assumption|].
  apply nth_error_Some. congruence.
Qed.
Lemma keeps_insert from to it t s sc rule choice : keeps (insert_edge from to it t s sc rule choice).
Proof.
  unfold insert_edge. apply keeps_bind; [apply keeps_still; now intros L L' r [= <- _]|]. intros _.
  apply keeps_bind; [apply keeps_still, still_update|]. intros _ L L' r H.
  destruct (is_implicit_symbol L from to t); [intros [= <- _]; exact H|now apply keeps_explicit].
Qed.
Lemma keeps_add_edge from to it t s sc rule choice : keeps (add_edge from to it t s sc rule choice).
Proof.
  intros L L' r H. unfold add_edge. destruct (vertex_eqb from to); [now intros [= <- _]|]. destruct (reversed from to); [now intros [= <- _]|].
  destruct (negb _); [now intros [= <- _]|]. cbv zeta. set (L1 := set_vvc _ L). assert (H1 : noded L1) by exact H. clearbody L1. clear H.
  destruct (find _ _) as [d|]; [|now apply keeps_insert]. revert L1 L' r H1. apply keeps_bind; [apply keeps_still, still_refers|].
  intros [|]; [apply keeps_still, still_throw|]. destruct d as [p|e].
  - apply keeps_bind; [|intros _; apply keeps_insert]. apply keeps_still. intros L1 L' r [= <- _]. now destruct from.
  - apply keeps_bind; [|intros _; apply keeps_still, still_ret]. intros L1 L' r H [= <- _] v Hv.
    destruct (H v Hv) as [K|[e' [ed [E1 E2]]]]; [now left|]. right. exists e'. cbn [edges set_edges]. rewrite update_edge_nth.
    rewrite E1. destruct (e =? e'); [|eauto]. cbn [option_map]. eexists. split; [reflexivity|]. exact E2.
Qed.
Lemma keeps_add_partition d t s sc rule choice : keeps (add_partition_to_edge d t s sc rule choice).
Proof.
  unfold add_partition_to_edge. repeat (apply keeps_bind; [apply keeps_still, still_ask|]; intros ?). apply keeps_add_edge.
Qed.
Lemma keeps_drop {A} (m : act A) : keeps m -> keeps (drop m).
Proof. intros H. apply keeps_bind; [assumption|]. intros. apply keeps_still, still_ret. Qed.
Lemma keeps_symbols n : forall p rest, keeps (add_symbols_loop n p rest).
Proof.
  induction n as [|n IH]; intros p [|x rest]; cbn [add_symbols_loop]; try apply keeps_still, still_ret; [apply keeps_still, still_undefined|].
  destruct (next (x :: rest)) as [[cp rest']|]; [|apply keeps_still, still_throw]. destruct (append cp); [|apply keeps_still, still_throw].
  apply keeps_bind; [apply keeps_add_edge|intros _; apply IH].
Qed.
Lemma keeps_exec o : keeps (exec o).
Proof.
  destruct o; cbn [exec]; try match goal with |- keeps (drop _) => apply keeps_drop end;
    try (apply keeps_still; first [apply still_out|apply still_in|apply still_first_out|apply still_first_in|apply still_usages]).
  - apply keeps_still. now intros L L' r [= <- _].
  - destruct a, b; cbn [add_symbols]; try apply keeps_still, still_throw. intros L L' r H.
    destruct (_ && _); [now apply keeps_symbols|now intros [= <- _]].
  - intros L L' r H. unfold add_loose_vertex. intros [= <- _] v. unfold names_of. cbn [nodes set_loose set_nodes]. rewrite map_app, in_app_iff. cbn.
    intros [K|[<-|[]]]; [exact (H v K)|now left].
  - apply keeps_add_edge.
  - apply keeps_add_partition.
  - unfold discard. apply keeps_bind; [apply keeps_add_partition|intros _; apply keeps_still, still_ret].
  - intros L L' r H. unfold tag_call. cbv zeta. intros E. apply (f_equal fst) in E. unfold change in E. cbn [fst] in E. subst. now destruct (M_Tags.step (tags L) c).
Qed.
Lemma program_noded L : lattice_of_program L -> noded L.
Proof.
  unfold lattice_of_program. remember new_lattice as L0. induction 1 as [L|L1 L2 L3 o r H IH Ha E Hr]; subst; [intros v []|].
  eapply keeps_exec; [|exact E]. auto.
Qed.

(** Only addLooseVertex makes loose vertices. *)
Definition firm {A} (m : act A) : Prop := forall L L' r, m L = (L', r) -> n_loose L' = n_loose L.
Lemma firm_still {A} (m : act A) : still m -> firm m.
Proof. intros S L L' r E. now apply S in E. Qed.
Lemma firm_bind {A B} (m : act A) (f : A -> act B) : firm m -> (forall a, firm (f a)) -> firm (bind m f).
Proof.
  intros Hm Hf L L' r. unfold bind. destruct (m L) as [L1 [a|e|]] eqn:E; apply Hm in E; intros H; [apply Hf in H; congruence| |]; injection H as <- _; exact E.
Qed.
Lemma loose_ensure v L : n_loose (ensure_node v L) = n_loose L.
Proof. unfold ensure_node. now destruct (find_node L v). Qed.
Lemma firm_insert from to it t s sc rule choice : firm (insert_edge from to it t s sc rule choice).
Proof.
  unfold insert_edge. apply firm_bind; [apply firm_still; now intros L L' r [= <- _]|]. intros _.
  apply firm_bind; [apply firm_still, still_update|]. intros _ L L' r.
  destruct (is_implicit_symbol L from to t); [intros [= <- _]; reflexivity|]. unfold insert_explicit. intros [= <- _].
  destruct from, to; cbn; now rewrite !loose_ensure.
Qed.
Lemma firm_add_edge from to it t s sc rule choice : firm (add_edge from to it t s sc rule choice).
Proof.
  intros L L' r. unfold add_edge. destruct (vertex_eqb from to); [now intros [= <- _]|]. destruct (reversed from to); [now intros [= <- _]|].
  destruct (negb _); [now intros [= <- _]|]. cbv zeta. set (L1 := set_vvc _ L). change (n_loose L) with (n_loose L1). clearbody L1.
  destruct (find _ _) as [d|]; [|apply firm_insert]. revert L1 L' r. apply firm_bind; [apply firm_still, still_refers|].
  intros [|]; [apply firm_still, still_throw|]. destruct d as [p|e].
  - apply firm_bind; [|intros _; apply firm_insert]. apply firm_still. intros L1 L' r [= <- _]. now destruct from.
  - apply firm_bind; [|intros _; apply firm_still, still_ret]. now intros L1 L' r [= <- _].
Qed.

(** The lattice: symbol edges that come from addSymbols carry the items of symbols. *)
From Coq Require Import ZArith List Bool Lia.
From Verif Require Import M_Utf8 S_Utf8 L_Utf8 M_Tags M_Items M_Cutter M_Lattice P_Tags P_Cutter L_Lattice S_Lattice L_LatticeOps L_LatticeTidy.
From Verif Require Import P_Lattice M_LatticeWalk L_LatticeNodes P_LatticeWalk P_LatticeVertices P_LatticePath.
Import ListNotations.
Local Open Scope nat_scope.

(** The items of symbols: the category begins with an apostrophe. *)
Definition quoted (it : item) : Prop := hd 0%Z (M_Items.category it) = 39%Z.
(** Programs that add symbol edges by addSymbols only. *)
Definition plain_op (o : op) : Prop :=
  match o with
  | AddEdge _ _ _ t _ _ _ _ | AddPartition _ t _ _ _ _ => N.testbit t 0 = false
  | _ => True
  end.
Inductive symbol_program : lattice -> Prop :=
  | SP_start : symbol_program new_lattice
  | SP_call L L' o r : symbol_program L -> plain_op o -> allowed L o -> tidy_op L o -> exec o L = (L', r) -> r <> Undefined ->
      symbol_program L'.
Lemma symbol_careful L : symbol_program L -> careful_program L.
Proof. induction 1; [constructor|]. eapply C_call; eassumption. Qed.

Lemma quoted_eq a b : M_Items.item_eqb a b = true -> quoted a -> quoted b.
Proof.
  unfold M_Items.item_eqb, quoted. intros H K. apply andb_true_iff in H as [H _]. apply andb_true_iff in H as [H _].
  unfold M_Items.str_eqb in H. destruct (list_eq_dec _ _ _) as [E|]; [|discriminate]. now rewrite <- E.
Qed.
Definition marks (L : lattice) : Prop := forall k ds p, lookup key_eqb (vvc L) k = Some ds -> In (Implicit p) ds -> quoted (snd k).
Record marked (L : lattice) : Prop := {
  mk_spells : spells 0 L;
  mk_items : forall e ed, nth_error (edges L) e = Some ed -> N.testbit (e_tags ed) 0 = true -> quoted (e_item ed);
  mk_vvc : marks L
}.
Lemma span_spells L : (forall e ed, nth_error (edges L) e = Some ed -> N.testbit (e_tags ed) 0 = true ->
    exists p, e_from ed = Text p /\ e_to ed = Text (p + symbol_len L p)) -> spells 0 L.
Proof. intros H. split; [exact H|]. intros p _ K. lia. Qed.
Lemma marked_same L L' : text L' = text L -> edges L' = edges L -> vvc L' = vvc L -> marked L -> marked L'.
Proof.
  intros E1 E2 E3 [M1 M2 M3]. split.
  - apply span_spells. rewrite E2. unfold symbol_len. rewrite E1. apply M1.
  - now rewrite E2.
  - unfold marks. now rewrite E3.
Qed.
Lemma marked_core L L' : core L L' -> marked L -> marked L'.
Proof. intros C. apply marked_same; apply C. Qed.

(** ** The entries of the hash map *)
Lemma marks_insert L k : marks L -> marks (set_vvc (insert_new key_eqb (vvc L) k []) L).
Proof.
  intros M k' ds p. cbn [vvc set_vvc]. rewrite key_lookup_insert. destruct (lookup key_eqb (vvc L) k') as [ds0|] eqn:E.
  - intros [= <-]. now apply M.
  - destruct (key_eqb k k'); [intros [= <-] []|discriminate].
Qed.
Lemma marks_push k d L : marks L -> (forall p, d = Implicit p -> quoted (snd k)) -> marks (push_vvc k d L).
Proof.
  intros M H k' ds p. cbn [vvc push_vvc set_vvc]. rewrite key_lookup_adjust. destruct (key_eqb k k') eqn:Ek; [|apply M].
  destruct (lookup key_eqb (vvc L) k') as [ds0|] eqn:E; [|discriminate]. cbn. intros [= <-] Hp. apply in_app_iff in Hp as [Hp|[->|[]]]; [now apply (M k' ds0 p)|].
  specialize (H p eq_refl). apply key_eqb_spec in Ek as [_ [_ Ek]]. now apply quoted_eq in Ek.
Qed.
Lemma marks_vvc L L' : vvc L' = vvc L -> marks L -> marks L'.
Proof. intros E. unfold marks. now rewrite E. Qed.
Lemma insert_explicit_marks from to it t s sc rule choice L L' r : marks L -> insert_explicit from to it t s sc rule choice L = (L', r) -> marks L'.
Proof.
  intros M [= <- _]. apply marks_push; [|discriminate]. apply (marks_vvc L); [|assumption].
  destruct (ensure_node_fields from L) as [_ [_ [_ [_ [_ [_ [F1 _]]]]]]].
  destruct (ensure_node_fields to (ensure_node from L)) as [_ [_ [_ [_ [_ [_ [F2 _]]]]]]]. rewrite <- F1, <- F2.
  destruct from, to; reflexivity.
Qed.
Lemma insert_edge_marks from to it t s sc rule choice L L' r : good L -> marks L -> (t = symbol_tag -> quoted it) ->
  insert_edge from to it t s sc rule choice L = (L', r) -> r <> Undefined -> marks L'.
Proof.
  intros G M Hq E Hr. unfold insert_edge in E. unfold bind at 1 in E. cbn [change] in E. unfold bind in E.
  destruct (count_edge_query (from, to) L (count_edge (from, to) L) (Ok tt) G eq_refl) as [G0 C0]; [discriminate|].
  destruct (update_visible from to t (count_edge (from, to) L)) as [L1 r1] eqn:E1.
  destruct r1 as [a|x|]; [|injection E as <- <-|injection E as <- <-; now destruct Hr];
    (destruct (update_visible_query _ _ _ _ _ _ G0 E1) as [G1 C1]; [discriminate|]);
    (assert (M1 : marks L1) by (apply (marks_vvc L); [rewrite (c_vvc _ _ C1); apply C0|assumption])); [|assumption].
  destruct (is_implicit_symbol L1 from to t) as [p|] eqn:Ep; [|now apply insert_explicit_marks in E].
  injection E as <- <-. apply marks_push; [exact M1|]. intros _ _. cbn [snd]. apply Hq. now apply is_implicit_symbol_spec in Ep.
Qed.
Lemma add_edge_marks from to it t s sc rule choice L L' r : good L -> marks L -> (N.testbit t 0 = true -> quoted it) ->
  add_edge from to it t s sc rule choice L = (L', r) -> r <> Undefined -> marks L'.
Proof.
  intros G M Hq E Hr. unfold add_edge in E. fold (inherited L t s) in E.
  assert (Hi : N.testbit (inherited L t s) 0 = true -> quoted it) by now rewrite inherited_no_symbol. set (t1 := inherited L t s) in *. clearbody t1.
  destruct (vertex_eqb from to); [injection E as <- <-; assumption|]. destruct (reversed from to); [injection E as <- <-; assumption|].
  destruct (negb _); [injection E as <- <-; now destruct Hr|].
  assert (M1 : marks (set_vvc (insert_new key_eqb (vvc L) (from, to, it) []) L)) by now apply marks_insert.
  assert (G1 : good (set_vvc (insert_new key_eqb (vvc L) (from, to, it) []) L)) by now apply insert_vvc_good.
  set (L1 := set_vvc _ L) in *. cbv zeta in E. destruct (lookup key_eqb (vvc L1) (from, to, it)) as [ds|] eqn:Ed.
  2:{ cbn [find] in E. refine (insert_edge_marks _ _ _ _ _ _ _ _ _ _ _ G1 M1 _ E Hr). intros ->. now apply Hi. }
  destruct (find _ ds) as [d|] eqn:Ef.
  2:{ refine (insert_edge_marks _ _ _ _ _ _ _ _ _ _ _ G1 M1 _ E Hr). intros ->. now apply Hi. }
  apply find_some in Ef as [Hd _]. unfold bind at 1 in E. destruct (refers_to s d L1) as [L2 r2] eqn:E2.
  destruct r2 as [self|x|]; [|injection E as <- <-|injection E as <- <-; now destruct Hr];
    (destruct (refers_to_query _ _ _ _ _ G1 E2) as [G2 C2]; [discriminate|]);
    (assert (M2 : marks L2) by (apply (marks_vvc L1); [apply C2|assumption])); [|assumption].
  destruct self; [injection E as <- <-; assumption|]. destruct d as [p|e].
  - unfold bind in E. cbn [change] in E.
    assert (Q : quoted it) by (apply (M1 _ _ _ Ed Hd)).
    destruct from as [q|q]; refine (insert_edge_marks _ _ _ _ _ _ _ _ _ _ _ _ _ _ E Hr); auto.
    now apply clear_bit_good.
  - unfold bind in E. cbn [change ret] in E. injection E as <- <-. exact M2.
Qed.

(** ** The calls *)
Lemma add_edge_marked from to it t s sc rule choice L L' r : good L -> marked L -> proper (tags L) t -> place L to ->
  (N.testbit t 0 = true -> quoted it /\ exists p, from = Text p /\ to = Text (p + symbol_len L p)) ->
  add_edge from to it t s sc rule choice L = (L', r) -> r <> Undefined -> marked L'.
Proof.
  intros G [M1 M2 M3] Hp P2 Ht E Hr. pose proof (calm_add_edge _ _ _ _ _ _ _ _ _ _ _ G P2 E) as Hu.
  destruct (add_edge_spec _ _ _ _ _ _ _ _ _ _ _ G Hp E Hr) as [G' [_ [Et [_ A]]]].
  assert (M3' : marks L') by (refine (add_edge_marks _ _ _ _ _ _ _ _ _ _ _ G M3 _ E Hr); intros K; now apply Ht).
  assert (Hi : N.testbit (inherited L t s) 0 = true -> quoted it /\ exists p, from = Text p /\ to = Text (p + symbol_len L p)) by now rewrite inherited_no_symbol.
  set (t1 := inherited L t s) in *. clearbody t1.
  assert (New : forall t2, edges L' = edges L ++ [Edge from to it t2 sc [Partition t2 s sc rule choice]] ->
    (N.testbit t2 0 = true -> quoted it /\ exists p, from = Text p /\ to = Text (p + symbol_len L p)) -> marked L').
  { intros t2 EE K. split; [apply span_spells| |assumption]; intros e ed; rewrite EE; intros He Hb; apply nth_snoc in He as [He|[_ ->]].
    - unfold symbol_len. rewrite Et. now apply (sp_span _ _ M1 e).
    - unfold symbol_len. rewrite Et. now apply K.
    - now apply (M2 e).
    - now apply K. }
  assert (Same : edges L' = edges L -> marked L').
  { intros EE. split; [apply span_spells|now rewrite EE|assumption]. unfold symbol_len. rewrite EE, Et. apply M1. }
  destruct A as [F EL|F1 F2 EL|x Hx EE EI|EE|e ed He Hk Hs EE EI|p F1 F2 F3 EE EI|EE EI _|p ds t' F1 F2 F3 F4 F5 F6 EE EI]; try (now apply Same).
  - apply Same. now subst.
  - apply Same. now subst.
  - apply key_eqb_spec in Hk as [K1 [K2 K3]]. cbn [fst snd] in K1, K2, K3.
    assert (Old : forall x xd, nth_error (edges L') x = Some xd -> exists yd, nth_error (edges L) x = Some yd /\
      (xd = yd \/ yd = ed /\ xd = merge_into t1 s sc rule choice ed)).
    { intros x xd. rewrite EE, update_edge_nth. destruct (Nat.eqb_spec e x) as [<-|]; [|eauto]. rewrite He. cbn. intros [= <-]. eauto. }
    split; [apply span_spells| |assumption]; intros x xd Hx Hb; destruct (Old x xd Hx) as [yd [Hy [->|[-> ->]]]].
    + unfold symbol_len. rewrite Et. now apply (sp_span _ _ M1 x).
    + unfold symbol_len. rewrite Et. cbn [merge_into e_from e_to]. rewrite K1, K2.
      rewrite P_LatticePath.merge_tags in Hb. apply orb_true_iff in Hb as [Hb|Hb]; [rewrite <- K1, <- K2; now apply (sp_span _ _ M1 x)|now apply Hi].
    + now apply (M2 x).
    + cbn [merge_into e_item]. rewrite P_LatticePath.merge_tags in Hb. apply orb_true_iff in Hb as [Hb|Hb]; [now apply (M2 x)|].
      apply item_eqb_sym in K3. apply (quoted_eq _ _ K3). now apply Hi.
  - now apply (New t1).
  - apply (New t' EE). intros _. split; [now apply (M3 _ _ _ F3) in F4|eauto].
Qed.
Lemma add_partition_marked d t s sc rule choice L L' r : good L -> tidy L -> marked L -> proper (tags L) t -> N.testbit t 0 = false -> is_edge L d ->
  add_partition_to_edge d t s sc rule choice L = (L', r) -> r <> Undefined -> marked L'.
Proof.
  intros G T Sp Hp Ht Hd. destruct (edge_ends L d Hd) as [v [w [Ea Eb]]]. destruct (edge_place L d v w G T Hd Ea Eb) as [P1 P2].
  unfold add_partition_to_edge. unfold bind, ask. rewrite Ea, Eb. destruct (annotation_item L d) as [it|e|] eqn:Ei.
  - apply add_edge_marked; try assumption.
    + apply proper_union; [assumption|]. now apply proper_planes, edge_tags_proper.
    + rewrite P_Tags.union_bit, Ht, planes_no_symbol by assumption. discriminate.
  - intros [= <- <-] _. assumption.
  - intros [= <- <-] H. now destruct H.
Qed.
Lemma add_symbols_loop_marked n : forall p cps tail L L' r, good L -> tidy L -> marked L -> boundary (text L) p -> Forall scalar cps ->
  skipn p (text L) = flat_map enc cps ++ tail -> add_symbols_loop n p (flat_map enc cps) L = (L', r) -> r <> Undefined -> marked L'.
Proof.
  induction n as [|n IH]; intros p cps tail L L' r G T M Hb Hc Hs E Hr.
  - destruct (flat_map enc cps); cbn in E; injection E as <- <-; [assumption|now destruct Hr].
  - destruct cps as [|cp cps]; [cbn in E; injection E as <- <-; assumption|].
    inversion Hc as [|? ? Hcp Hc']; subst. cbn [flat_map] in E, Hs.
    assert (Hl : p < length (text L)).
    { destruct (Nat.lt_ge_cases p (length (text L))) as [|H]; [assumption|]. rewrite skipn_all2 in Hs by assumption.
      pose proof (enc_length cp). destruct (enc cp); [cbn in *; lia|discriminate]. }
    destruct (char_at _ _ Hb Hl) as [cp' [rest [Hcp2 [E2 [El [Hb2 Hle]]]]]].
    assert (cp' = cp).
    { assert (N : next (enc cp ++ (flat_map enc cps ++ tail)) = Some (cp', rest)) by (rewrite app_assoc, <- Hs, E2; now apply next_enc).
      rewrite (next_enc _ _ Hcp) in N. now injection N. }
    subst cp'.
    assert (Hrest : skipn (p + length (enc cp)) (text L) = flat_map enc cps ++ tail).
    { rewrite <- app_assoc in Hs. replace (p + length (enc cp)) with (length (enc cp) + p) by lia.
      rewrite <- skipn_twice. rewrite Hs. rewrite skipn_app, skipn_all, Nat.sub_diag. reflexivity. }
    destruct (enc cp ++ flat_map enc cps) as [|y l] eqn:El0; [destruct (enc_nonempty cp); now apply app_eq_nil in El0|].
    cbn [add_symbols_loop] in E. rewrite <- El0, (next_enc _ _ Hcp), (append_scalar _ Hcp) in E.
    unfold bind in E.
    destruct (add_edge (Text p) (Text (p + length (enc cp))) (M_Items.new_item (39%Z :: enc cp) []) symbol_tag empty_sequence 0%Z (-1) (-1) L)
      as [L1 r1] eqn:E1.
    assert (Hr1 : r1 <> Undefined) by (intros ->; injection E as <- <-; now destruct Hr).
    destruct (add_edge_tidy (Text p) (Text (p + length (enc cp))) _ _ _ _ _ _ _ _ _ G T (symbol_proper _ G) Hb Hb2 E1 Hr1) as [T1 U1].
    destruct (add_edge_spec _ _ _ _ _ _ _ _ _ _ _ G (symbol_proper _ G) E1 Hr1) as [G1 [_ [Et _]]].
    assert (M1 : marked L1).
    { refine (add_edge_marked (Text p) (Text (p + length (enc cp))) _ _ _ _ _ _ _ _ _ G M (symbol_proper _ G) Hb2 _ E1 Hr1). intros _. split; [reflexivity|].
      exists p. unfold symbol_len. now rewrite El. }
    destruct r1 as [d|x|]; [|injection E as <- <-; assumption|now destruct Hr1].
    eapply (IH (p + length (enc cp)) cps tail L1); eauto; now rewrite Et.
Qed.
Lemma query_marked {A} (m : act A) L L' r : query m -> good L -> marked L -> m L = (L', r) -> r <> Undefined -> marked L'.
Proof. intros Q G M E Hr. destruct (Q _ _ _ G E Hr) as [_ C]. now apply (marked_core L). Qed.
Lemma call_marked o L L' r : good L -> tidy L -> marked L -> plain_op o -> allowed L o -> tidy_op L o -> exec o L = (L', r) -> r <> Undefined -> marked L'.
Proof.
  intros G T M Ha Hal Ht E Hr. destruct o; cbn [exec plain_op allowed tidy_op] in *.
  - injection E as <- <-. destruct M as [M1 M2 M3]. split; [apply span_spells|assumption|assumption].
    intros e ed He Hb. destruct (sp_span _ _ M1 e ed He Hb) as [p [K1 K2]]. exists p. split; [assumption|]. rewrite K2. do 2 f_equal. symmetry.
    apply grows_symbol_len; [exists t; reflexivity|]. destruct (t_edges _ T e ed He) as [_ K3]. rewrite K2 in K3. cbn in K3. apply boundary_wf in K3 as [_ K3].
    pose proof (symbol_len_pos L p). lia.
  - destruct a as [p|]; [|injection E as <- <-; assumption].
    destruct b as [q|]; [|injection E as <- <-; assumption].
    cbn in Ht. destruct Ht as [Hp Hq]. unfold add_symbols in E.
    destruct ((p <=? q) && (q <=? length (text L))) eqn:Eb; [|injection E as <- <-; now destruct Hr].
    apply andb_true_iff in Eb as [E1 E2]. apply Nat.leb_le in E1, E2.
    assert (Hw : well_formed (sub (text L) p (q - p))).
    { apply boundary_between; [assumption|]. now replace (p + (q - p)) with q by lia. }
    destruct Hw as [cps [Hc Ec]]. rewrite Ec in E.
    refine (add_symbols_loop_marked _ p cps (skipn (q - p) (skipn p (text L))) _ _ _ G T M Hp Hc _ E Hr).
    rewrite <- Ec. unfold sub. symmetry. apply firstn_skipn.
  - injection E as <- _. apply (marked_same L); auto.
  - apply drop_result in E as [r' [E Hr']]; [|assumption]. eapply add_edge_marked; try eassumption; [now apply known_proper|apply Ht|]. rewrite Ha. discriminate.
  - apply drop_result in E as [r' [E Hr']]; [|assumption]. eapply (add_partition_marked d); try eassumption. now apply known_proper.
  - unfold discard in E. unfold bind in E at 1. destruct (add_partition_to_edge _ _ _ _ _ _ L) as [L1 [a|e|]] eqn:E1; injection E as <- <-; try (now destruct Hr);
      (eapply (add_partition_marked d); try eassumption; [|reflexivity|discriminate]); apply discarded_proper; assumption.
  - apply drop_result in E as [r' [E Hr']]; [|assumption]. eapply query_marked; try eassumption. now apply out_edges_query.
  - apply drop_result in E as [r' [E Hr']]; [|assumption]. eapply query_marked; try eassumption. now apply in_edges_query.
  - apply drop_result in E as [r' [E Hr']]; [|assumption]. eapply query_marked; try eassumption. now apply first_out_query.
  - apply drop_result in E as [r' [E Hr']]; [|assumption]. eapply query_marked; try eassumption. now apply first_in_query.
  - apply drop_result in E as [r' [E Hr']]; [|assumption]. eapply query_marked; try eassumption. apply usages_query.
  - unfold tag_call, change in E. injection E as <- _. destruct (M_Tags.step _ _); [|assumption]. apply (marked_same L); auto.
Qed.
Lemma symbol_marked L : symbol_program L -> good L /\ tidy L /\ marked L.
Proof.
  induction 1 as [|L L' o r HL [G [T M]] Hp Ha Ht E Hr].
  - split; [apply new_lattice_good|]. destruct (careful_tidy _ C_start) as [G T]. split; [assumption|]. split; [apply span_spells| |].
    + intros e ed He. now destruct e.
    + intros e ed He. now destruct e.
    + intros k ds p He. discriminate.
  - split; [now apply (exec_good o L L' r)|]. split; [now apply (exec_tidy o L L' r)|now apply (call_marked o L L' r)].
Qed.

(** Lemmas on the corrections of the text of a lattice. *)
From Coq Require Import ZArith List Bool Lia.
From Verif Require Import M_Utf8 S_Utf8 L_Utf8 M_Tags M_Items M_Cutter M_Lattice P_Tags P_Cutter L_Lattice S_Lattice L_LatticeOps L_LatticeTidy.
From Verif Require Import P_Lattice M_LatticeWalk L_LatticeNodes P_LatticeWalk P_LatticeVertices P_LatticePath L_LatticeMarks M_LatticeCorrect.
Import ListNotations.
Local Open Scope nat_scope.
Notation text := M_Lattice.text.

(** ** The items that implicit edges were added with *)
Section Implicits.
Variable P : item -> Prop.
Hypothesis P_eq : forall a b, M_Items.item_eqb a b = true -> P a -> P b.
Definition implicits (L : lattice) : Prop := forall k ds p, lookup key_eqb (vvc L) k = Some ds -> In (Implicit p) ds -> P (snd k).
Lemma implicits_vvc L L' : vvc L' = vvc L -> implicits L -> implicits L'.
Proof. intros E. unfold implicits. now rewrite E. Qed.
Lemma implicits_insert L k : implicits L -> implicits (set_vvc (insert_new key_eqb (vvc L) k []) L).
Proof.
  intros M k' ds p. cbn [vvc set_vvc]. rewrite key_lookup_insert. destruct (lookup key_eqb (vvc L) k') as [ds0|] eqn:E.
  - intros [= <-]. now apply M.
  - destruct (key_eqb k k'); [intros [= <-] []|discriminate].
Qed.
Lemma implicits_push k d L : implicits L -> (forall p, d = Implicit p -> P (snd k)) -> implicits (push_vvc k d L).
Proof.
  intros M H k' ds p. cbn [vvc push_vvc set_vvc]. rewrite key_lookup_adjust. destruct (key_eqb k k') eqn:Ek; [|apply M].
  destruct (lookup key_eqb (vvc L) k') as [ds0|] eqn:E; [|discriminate]. cbn. intros [= <-] Hp. apply in_app_iff in Hp as [Hp|[->|[]]]; [now apply (M k' ds0 p)|].
  specialize (H p eq_refl). apply key_eqb_spec in Ek as [_ [_ Ek]]. now apply P_eq in Ek.
Qed.
Lemma insert_explicit_implicits from to it t s sc rule choice L L' r : implicits L -> insert_explicit from to it t s sc rule choice L = (L', r) -> implicits L'.
Proof.
  intros M [= <- _]. apply implicits_push; [|discriminate]. apply (implicits_vvc L); [|assumption].
  destruct (ensure_node_fields from L) as [_ [_ [_ [_ [_ [_ [F1 _]]]]]]].
  destruct (ensure_node_fields to (ensure_node from L)) as [_ [_ [_ [_ [_ [_ [F2 _]]]]]]]. rewrite <- F1, <- F2.
  destruct from, to; reflexivity.
Qed.
Lemma insert_edge_implicits from to it t s sc rule choice L L' r : good L -> implicits L ->
  (t = symbol_tag -> P it \/ forall p, from = Text p -> to = Text (p + symbol_len L p) -> bit (implicit L) p = true) ->
  insert_edge from to it t s sc rule choice L = (L', r) -> r <> Undefined -> implicits L'.
Proof.
  intros G M Hq E Hr. unfold insert_edge in E. unfold bind at 1 in E. cbn [change] in E. unfold bind in E.
  destruct (count_edge_query (from, to) L (count_edge (from, to) L) (Ok tt) G eq_refl) as [G0 C0]; [discriminate|].
  destruct (update_visible from to t (count_edge (from, to) L)) as [L1 r1] eqn:E1.
  destruct r1 as [a|x|]; [|injection E as <- <-|injection E as <- <-; now destruct Hr];
    (destruct (update_visible_query _ _ _ _ _ _ G0 E1) as [G1 C1]; [discriminate|]);
    (assert (M1 : implicits L1) by (apply (implicits_vvc L); [rewrite (c_vvc _ _ C1); apply C0|assumption])); [|assumption].
  destruct (is_implicit_symbol L1 from to t) as [p|] eqn:Ep; [|now apply insert_explicit_implicits in E].
  injection E as <- <-. apply implicits_push; [exact M1|]. intros _ _. cbn [snd]. apply is_implicit_symbol_spec in Ep as [F1 [F2 [F3 F4]]].
  destruct (Hq F3) as [H|H]; [assumption|]. exfalso. rewrite (c_implicit _ _ C1), (c_implicit _ _ C0) in F4. rewrite (H p F1) in F4; [discriminate|].
  rewrite F2. do 2 f_equal. rewrite (core_symbol_len _ _ _ C1). apply (core_symbol_len _ _ _ C0).
Qed.
Lemma add_edge_implicits from to it t s sc rule choice L L' r : good L -> implicits L ->
  (N.testbit t 0 = true -> P it \/ forall p, from = Text p -> to = Text (p + symbol_len L p) -> bit (implicit L) p = true) ->
  add_edge from to it t s sc rule choice L = (L', r) -> r <> Undefined -> implicits L'.
Proof.
  intros G M Hq E Hr. unfold add_edge in E. fold (inherited L t s) in E.
  rewrite <- (inherited_no_symbol L t s G) in Hq. set (t1 := inherited L t s) in *. clearbody t1.
  destruct (vertex_eqb from to); [injection E as <- <-; assumption|]. destruct (reversed from to); [injection E as <- <-; assumption|].
  destruct (negb _); [injection E as <- <-; now destruct Hr|].
  assert (M1 : implicits (set_vvc (insert_new key_eqb (vvc L) (from, to, it) []) L)) by now apply implicits_insert.
  assert (G1 : good (set_vvc (insert_new key_eqb (vvc L) (from, to, it) []) L)) by now apply insert_vvc_good.
  set (L1 := set_vvc _ L) in *. cbv zeta in E. destruct (lookup key_eqb (vvc L1) (from, to, it)) as [ds|] eqn:Ed.
  2:{ cbn [find] in E. refine (insert_edge_implicits _ _ _ _ _ _ _ _ _ _ _ G1 M1 _ E Hr). intros ->. now apply Hq. }
  destruct (find _ ds) as [d|] eqn:Ef.
  2:{ refine (insert_edge_implicits _ _ _ _ _ _ _ _ _ _ _ G1 M1 _ E Hr). intros ->. now apply Hq. }
  apply find_some in Ef as [Hd _]. unfold bind at 1 in E. destruct (refers_to s d L1) as [L2 r2] eqn:E2.
  destruct r2 as [self|x|]; [|injection E as <- <-|injection E as <- <-; now destruct Hr];
    (destruct (refers_to_query _ _ _ _ _ G1 E2) as [G2 C2]; [discriminate|]);
    (assert (M2 : implicits L2) by (apply (implicits_vvc L1); [apply C2|assumption])); [|assumption].
  destruct self; [injection E as <- <-; assumption|]. destruct d as [p|e].
  - unfold bind in E. cbn [change] in E.
    assert (Q : P it) by (apply (M1 _ _ _ Ed Hd)).
    destruct from as [q|q]; refine (insert_edge_implicits _ _ _ _ _ _ _ _ _ _ _ _ _ _ E Hr); auto.
    now apply clear_bit_good.
  - unfold bind in E. cbn [change ret] in E. injection E as <- <-. exact M2.
Qed.
Lemma query_implicits {A} (m : act A) L L' r : query m -> good L -> implicits L -> m L = (L', r) -> r <> Undefined -> implicits L'.
Proof. intros Q G M E Hr. destruct (Q _ _ _ G E Hr) as [_ C]. apply (implicits_vvc L); [apply C|assumption]. Qed.
Lemma add_partition_implicits d t s sc rule choice L L' r : good L -> implicits L -> N.testbit t 0 = false -> is_edge L d ->
  add_partition_to_edge d t s sc rule choice L = (L', r) -> r <> Undefined -> implicits L'.
Proof.
  intros G M Ht Hd. destruct (edge_ends L d Hd) as [v [w [Ea Eb]]].
  unfold add_partition_to_edge. unfold bind, ask. rewrite Ea, Eb. destruct (annotation_item L d) as [it|e|] eqn:Ei.
  - apply add_edge_implicits; try assumption. rewrite P_Tags.union_bit, Ht, planes_no_symbol by assumption. discriminate.
  - intros [= <- <-] _. assumption.
  - intros [= <- <-] H. now destruct H.
Qed.
Lemma add_symbols_loop_implicits n : (forall s, P (M_Items.new_item (39%Z :: s) [])) -> forall p rest L L' r, good L -> implicits L ->
  add_symbols_loop n p rest L = (L', r) -> r <> Undefined -> implicits L'.
Proof.
  intros HP. induction n as [|n IH]; intros p rest L L' r G M E Hr.
  - destruct rest; cbn in E; injection E as <- <-; [assumption|now destruct Hr].
  - destruct rest as [|y l]; [cbn in E; injection E as <- <-; assumption|]. cbn [add_symbols_loop] in E.
    destruct (next (y :: l)) as [[cp rest']|]; [|injection E as <- <-; assumption].
    destruct (append cp) as [s|]; [|injection E as <- <-; assumption]. unfold bind in E.
    destruct (add_edge _ _ _ _ _ _ _ _ L) as [L1 [d|x|]] eqn:E1; [|injection E as <- <-|injection E as <- <-; now destruct Hr].
    + destruct (add_edge_spec _ _ _ _ _ _ _ _ _ _ _ G (symbol_proper _ G) E1) as [G1 _]; [discriminate|].
      refine (IH _ _ _ _ _ G1 _ E Hr). refine (add_edge_implicits _ _ _ _ _ _ _ _ _ _ _ G M _ E1 _); [auto|discriminate].
    + refine (add_edge_implicits _ _ _ _ _ _ _ _ _ _ _ G M _ E1 _); [auto|discriminate].
Qed.
Lemma call_implicits o L L' r : (forall s, P (M_Items.new_item (39%Z :: s) [])) -> good L -> implicits L -> plain_op o -> allowed L o -> tidy_op L o ->
  exec o L = (L', r) -> r <> Undefined -> implicits L'.
Proof.
  intros HP G M Ha Hal Ht E Hr. destruct o; cbn [exec plain_op allowed tidy_op] in *.
  - injection E as <- <-. exact M.
  - destruct a as [p|]; [|injection E as <- <-; assumption].
    destruct b as [q|]; [|injection E as <- <-; assumption]. unfold add_symbols in E.
    destruct ((p <=? q) && (q <=? length (text L))); [|injection E as <- <-; now destruct Hr]. now apply add_symbols_loop_implicits in E.
  - injection E as <- _. exact M.
  - apply drop_result in E as [r' [E Hr']]; [|assumption]. refine (add_edge_implicits _ _ _ _ _ _ _ _ _ _ _ G M _ E Hr'). rewrite Ha. discriminate.
  - apply drop_result in E as [r' [E Hr']]; [|assumption]. exact (add_partition_implicits _ _ _ _ _ _ _ _ _ G M Ha Ht E Hr').
  - unfold discard in E. unfold bind in E at 1. destruct (add_partition_to_edge _ _ _ _ _ _ L) as [L1 [a|e|]] eqn:E1; injection E as <- <-; try (now destruct Hr);
      (refine (add_partition_implicits _ _ _ _ _ _ _ _ _ G M _ Ht E1 _); [reflexivity|discriminate]).
  - apply drop_result in E as [r' [E Hr']]; [|assumption]. eapply query_implicits; try eassumption. now apply out_edges_query.
  - apply drop_result in E as [r' [E Hr']]; [|assumption]. eapply query_implicits; try eassumption. now apply in_edges_query.
  - apply drop_result in E as [r' [E Hr']]; [|assumption]. eapply query_implicits; try eassumption. now apply first_out_query.
  - apply drop_result in E as [r' [E Hr']]; [|assumption]. eapply query_implicits; try eassumption. now apply first_in_query.
  - apply drop_result in E as [r' [E Hr']]; [|assumption]. eapply query_implicits; try eassumption. apply usages_query.
  - unfold tag_call, change in E. injection E as <- _. destruct (M_Tags.step _ _); assumption.
Qed.
End Implicits.
(** Those of addSymbols have no text. *)
Definition no_text (it : item) : Prop := M_Items.text it = [].
Lemma no_text_eq a b : M_Items.item_eqb a b = true -> no_text a -> no_text b.
Proof.
  unfold M_Items.item_eqb, no_text. intros H K. apply andb_true_iff in H as [H _]. apply andb_true_iff in H as [_ H].
  unfold M_Items.str_eqb in H. destruct (list_eq_dec _ _ _) as [E|]; [|discriminate]. now rewrite <- E.
Qed.
Definition typed := implicits no_text.

(** ** Symbol edges as arcs *)
Definition arc (L : lattice) (v : vertex) (x : item) (w : vertex) : Prop :=
  exists d it, is_edge L d /\ M_Tags.matches (edge_tags L d) symbol_mask = true /\ source L d = Ok v /\ target L d = Ok w /\
    annotation_item L d = Ok it /\ M_Items.item_eqb it x = true.
Lemma arc_same L L' : text L' = text L -> edges L' = edges L -> implicit L' = implicit L -> forall v x w, arc L' v x w <-> arc L v x w.
Proof.
  intros E1 E2 E3 v x w. unfold arc, is_edge, edge_tags, source, target, annotation_item, symbol_len. rewrite E1, E2, E3. reflexivity.
Qed.
Lemma core_arc L L' : core L L' -> forall v x w, arc L' v x w <-> arc L v x w.
Proof. intros C. apply arc_same; apply C. Qed.
Lemma symbol_inherited L : good L -> inherited L symbol_tag empty_sequence = symbol_tag.
Proof. intros G. unfold inherited. now rewrite (symbol_planes _ G). Qed.

(** ** The addition of one symbol edge *)
Definition no_symbols_from (L : lattice) (v : vertex) : Prop := forall x w, ~ arc L v x w.
Lemma listed_arc L d v w : good L -> tidy L -> is_edge L d -> M_Tags.matches (edge_tags L d) symbol_mask = true -> source L d = Ok v -> target L d = Ok w ->
  exists x, annotation_item L d = Ok x /\ arc L v x w.
Proof.
  intros G T Hd Hm Hs Ht. assert (K : exists x, annotation_item L d = Ok x).
  { destruct d as [p|e]; cbn in Hd.
    - destruct (item_at L p) as [cp [_ [_ K]]]; [now apply (t_bits _ T)|now apply bit_in_text|]. eauto.
    - cbn. apply nth_error_Some in Hd. destruct (nth_error (edges L) e); [eauto|congruence]. }
  destruct K as [x K]. exists x. split; [assumption|]. exists d, x. repeat (split; [assumption|]). apply item_eqb_refl.
Qed.
Lemma no_out_listed L v L' l : good L -> tidy L -> no_symbols_from L v -> out_edges v symbol_mask L = (L', Ok l) -> l = [].
Proof.
  intros G T H E. destruct l as [|d l]; [reflexivity|]. exfalso.
  destruct (out_selection _ _ _ _ _ G symbol_mask_made E) as [all [A S]].
  pose proof (s_sound _ _ _ _ S d (or_introl eq_refl)) as Hm. destruct (s_part _ _ _ _ S) as [sel Es].
  assert (K : In d (filter sel all)) by (rewrite <- Es; now left). apply filter_In in K as [K _].
  apply (all_out_spec _ _ _ G A) in K as [K1 K2]. destruct (edge_ends L d K1) as [a [b [Ea Eb]]].
  destruct (listed_arc L d v b G T K1 Hm K2 Eb) as [x [_ X]]. exact (H _ _ X).
Qed.
Definition no_symbols_into (L : lattice) (w : vertex) : Prop := forall v x, ~ arc L v x w.
Lemma no_in_listed L w L' l : good L -> tidy L -> place L w -> no_symbols_into L w -> in_edges w symbol_mask L = (L', Ok l) -> l = [].
Proof.
  intros G T Pw H E. destruct l as [|d l]; [reflexivity|]. exfalso.
  destruct (in_selection _ _ _ _ _ G symbol_mask_made E) as [all [A S]].
  pose proof (s_sound _ _ _ _ S d (or_introl eq_refl)) as Hm. destruct (s_part _ _ _ _ S) as [sel Es].
  assert (K : In d (filter sel all)) by (rewrite <- Es; now left). apply filter_In in K as [K _].
  apply (all_in_spec _ _ _ G T Pw A) in K as [K1 K2]. destruct (edge_ends L d K1) as [a [b [Ea Eb]]].
  destruct (listed_arc L d a w G T K1 Hm Ea K2) as [x [_ X]]. exact (H _ _ X).
Qed.
Lemma core_tidy L L' : core L L' -> tidy L -> tidy L'.
Proof.
  intros C [T1 T2 T3]. split.
  - now rewrite (c_text _ _ C).
  - intros p. rewrite (c_text _ _ C), (c_implicit _ _ C). apply T2.
  - intros e ed. rewrite (c_edges _ _ C). intros He. destruct (T3 e ed He). split; now apply (place_text L _ _ (c_text _ _ C)).
Qed.
(** The first symbol edge into the end of a character is the implicit one. *)
Lemma in_implicit_first L q : good L -> tidy L -> bit (implicit L) q = true ->
  exists L' l, in_edges (Text (q + symbol_len L q)) symbol_mask L = (L', Ok (Implicit q :: l)).
Proof.
  intros G T Hb. pose proof (t_bits _ T q Hb) as B. pose proof (g_bits _ G q Hb) as Hle. pose proof (symbol_len_pos L q).
  unfold in_edges. assert (valid L (Text (q + symbol_len L q)) = true) as -> by now apply Nat.leb_le. cbn [negb].
  change (M_Tags.any symbol_mask) with false. cbv iota. unfold bind. destruct (add_tag_mask_index symbol_mask L) as [L1 r] eqn:E.
  assert (exists ix, r = Ok ix) as [ix ->] by (unfold add_tag_mask_index in E; destruct (mask_index _ _); injection E as _ <-; eauto).
  destruct (add_tag_mask_index_query _ symbol_mask_made _ _ _ G E) as [_ C]; [discriminate|]. unfold ask.
  rewrite <- (core_symbol_len _ _ q C). rewrite implicit_in_at; [|rewrite (c_text _ _ C); assumption|rewrite (c_text _ _ C); lia].
  rewrite (c_implicit _ _ C), Hb. change (M_Tags.can_be_applied_to_implicit_symbol symbol_mask) with true. cbn [when app]. eauto.
Qed.
Lemma out_implicit_first L q : good L -> bit (implicit L) q = true ->
  exists L' l, out_edges (Text q) symbol_mask L = (L', Ok (Implicit q :: l)).
Proof.
  intros G Hb. pose proof (bit_in_text _ _ G Hb) as Hl.
  unfold out_edges. assert (valid L (Text q) = true) as -> by (apply Nat.leb_le; lia). cbn [negb].
  change (M_Tags.any symbol_mask) with false. cbv iota. unfold bind. destruct (add_tag_mask_index symbol_mask L) as [L1 r] eqn:E.
  assert (exists ix, r = Ok ix) as [ix ->] by (unfold add_tag_mask_index in E; destruct (mask_index _ _); injection E as _ <-; eauto).
  destruct (add_tag_mask_index_query _ symbol_mask_made _ _ _ G E) as [_ C]; [discriminate|]. unfold ask.
  rewrite (c_implicit _ _ C), Hb. change (M_Tags.can_be_applied_to_implicit_symbol symbol_mask) with true. cbn [when app andb]. eauto.
Qed.
Definition can_show (L : lattice) (from to : vertex) : Prop :=
  no_symbols_from L from \/
  (exists p, from = Text p) /\ (no_symbols_into L to \/ exists q, to = Text (q + symbol_len L q) /\ bit (implicit L) q = true).
Lemma can_show_core L L' from to : core L L' -> can_show L from to -> can_show L' from to.
Proof.
  intros C [H|[H1 [H2|[q [H2 H3]]]]].
  - left. intros x w K. apply (core_arc _ _ C) in K. now apply H in K.
  - right. split; [assumption|]. left. intros v x K. apply (core_arc _ _ C) in K. now apply H2 in K.
  - right. split; [assumption|]. right. exists q. now rewrite (core_symbol_len _ _ _ C), (c_implicit _ _ C).
Qed.
Lemma update_visible_ok L from to : good L -> tidy L -> valid L from = true -> valid L to = true -> place L to -> can_show L from to ->
  exists L', update_visible from to symbol_tag L = (L', Ok tt).
Proof.
  intros G T V1 V2 P2 H. unfold update_visible. change (M_Tags.coll_eqb symbol_tag symbol_tag) with true. cbv iota.
  unfold catch_no_edge, bind, first_out_edge, first_in_edge. unfold bind.
  destruct (out_edges_total L from symbol_mask V1) as [L1 [l E]]. rewrite E.
  destruct (out_edges_query from symbol_mask symbol_mask_made _ _ _ G E) as [G1 C1]; [discriminate|].
  destruct l as [|d l]; cbn [first]; unfold throw, ret; [eauto|].
  destruct H as [H|[[p ->] H]]; [now apply (no_out_listed _ _ _ _ G T H) in E|].
  cbn [make_visible]. unfold change. set (L2 := set_visible _ L1).
  assert (G2 : good L2) by (apply good_visible; [assumption|rewrite set_bit_length; apply G1]).
  assert (C2 : core L L2) by (eapply core_trans; [exact C1|apply core_visible]). pose proof (core_tidy _ _ C2 T) as T2. clearbody L2.
  assert (H' : no_symbols_into L2 to \/ exists q, to = Text (q + symbol_len L2 q) /\ bit (implicit L2) q = true).
  { destruct (can_show_core _ _ (Text p) to C2 (or_intror (conj (ex_intro _ p eq_refl) H))) as [K|[_ K]]; [|exact K].
    exfalso. assert (N : no_symbols_from L (Text p)) by (intros x w W; apply (K x w); now apply (core_arc _ _ C2)).
    now apply (no_out_listed _ _ _ _ G T N) in E. }
  assert (Vt : valid L2 to = true) by (rewrite (L_Lattice.core_valid _ _ _ C2); assumption).
  assert (Pt : place L2 to) by now apply (place_text L _ _ (c_text _ _ C2)).
  destruct H' as [N|[q [-> Hq]]].
  - destruct (in_edges_total L2 to symbol_mask G2 Vt Pt) as [L3 [l' E']]. rewrite E'. rewrite (no_in_listed _ _ _ _ G2 T2 Pt N E'). cbn [first]. unfold throw. eauto.
  - destruct (in_implicit_first L2 q G2 T2 Hq) as [L3 [l' E']]. rewrite E'. cbn [first]. unfold ret, ask. cbn [source make_visible]. unfold change. eauto.
Qed.
Lemma key_eq_ends a b c a' b' c' : key_eqb (a, b, c) (a', b', c') = true -> a = a' /\ b = b' /\ M_Items.item_eqb c c' = true.
Proof. intros H. apply key_eqb_spec in H. cbn in H. exact H. Qed.
Record symbol_added (from to : vertex) (it : item) (L L' : lattice) : Prop := {
  sa_careful : careful_program L';
  sa_typed : typed L';
  sa_text : text L' = text L;
  sa_implicit : implicit L' = implicit L;
  sa_loose : n_loose L' = n_loose L;
  sa_arcs : forall v x w, arc L' v x w <-> arc L v x w \/ v = from /\ w = to /\ M_Items.item_eqb it x = true
}.
Lemma add_symbol L from to it : careful_program L -> typed L -> valid L from = true -> valid L to = true -> place L from -> place L to -> from <> to -> reversed from to = false ->
  (forall p, from = Text p -> to = Text (p + symbol_len L p) -> bit (implicit L) p = true /\ M_Items.text it <> []) -> can_show L from to ->
  exists L' e, add_symbol_edge from to it L = (L', Ok (Explicit e)) /\ symbol_added from to it L L'.
Proof.
  intros HL Ty V1 V2 P1 P2 Hne Hrev Hone Hv. destruct (careful_tidy _ HL) as [G T].
  assert (Hno : forall ds p, lookup key_eqb (vvc L) (from, to, it) = Some ds -> ~ In (Implicit p) ds).
  { intros ds p Hl Hp. destruct (g_vvc _ G _ _ _ Hl Hp) as [F1 [F2 _]]. cbn in F1, F2. destruct (Hone p F1 F2) as [_ K]. apply K. exact (Ty _ _ _ Hl Hp). }
  assert (Hex : exists L' e, add_symbol_edge from to it L = (L', Ok (Explicit e))).
  { unfold add_symbol_edge, add_edge. fold (inherited L symbol_tag empty_sequence). rewrite (symbol_inherited _ G).
    apply vertex_eqb_false in Hne. rewrite Hne, Hrev, V1, V2. cbn [andb negb]. cbv zeta.
    set (L1 := set_vvc _ L). assert (G1 : good L1) by now apply insert_vvc_good. assert (T1 : tidy L1) by (destruct T as [T1 T2 T3]; split; assumption).
    destruct (lookup key_eqb (vvc L1) (from, to, it)) as [ds|] eqn:Ed.
    2:{ exfalso. cbn [L1 vvc set_vvc] in Ed. rewrite key_lookup_insert, key_eqb_refl in Ed. destruct (lookup key_eqb (vvc L) (from, to, it)); discriminate. }
    destruct (find _ ds) as [d|] eqn:Ef.
    - apply find_some in Ef as [Hd _]. change (refers_to empty_sequence d) with (@ret bool false). unfold bind at 1. cbn [ret].
      destruct d as [p|e]; unfold bind; cbn [change ret]; [|unfold ret; eauto]. exfalso.
      cbn [L1 vvc set_vvc] in Ed. rewrite key_lookup_insert in Ed. destruct (lookup key_eqb (vvc L) (from, to, it)) as [ds0|] eqn:E0.
      + injection Ed as <-. now apply (Hno _ _ eq_refl) in Hd.
      + rewrite key_eqb_refl in Ed. injection Ed as <-. destruct Hd.
    - unfold insert_edge, bind. cbn [change].
      destruct (count_edge_query (from, to) L1 (count_edge (from, to) L1) (Ok tt) G1 eq_refl) as [G2 C2]; [discriminate|].
      set (L2 := count_edge (from, to) L1) in *. pose proof (core_tidy _ _ C2 T1) as T2.
      destruct (update_visible_ok L2 from to G2 T2 V1 V2 P2 (can_show_core L1 L2 from to C2 Hv)) as [L3 E3].
        rewrite E3. destruct (update_visible_query _ _ _ _ _ _ G2 E3) as [G3 C3]; [discriminate|].
        destruct (is_implicit_symbol L3 from to symbol_tag) as [p|] eqn:Ep; [|unfold insert_explicit; eauto].
        exfalso. apply is_implicit_symbol_spec in Ep as [F1 [F2 [_ F4]]].
        assert (C : core L1 L3) by (eapply core_trans; eassumption).
        rewrite (core_symbol_len _ _ _ C) in F2. rewrite (c_implicit _ _ C) in F4. destruct (Hone p F1 F2) as [K _]. change (implicit L1) with (implicit L) in F4. congruence. }
  destruct Hex as [L' [e E]]. exists L', e. split; [assumption|].
  destruct (add_edge_spec _ _ _ _ _ _ _ _ _ _ _ G (symbol_proper _ G) E) as [G' [_ [Et [_ A]]]]; [discriminate|]. rewrite (symbol_inherited _ G) in A.
  assert (Hl : n_loose L' = n_loose L) by (eapply firm_add_edge; exact E).
  assert (HL' : careful_program L').
  { apply (C_call L L' (AddEdge from to it symbol_tag empty_sequence 0%Z (-1)%Z (-1)%Z) (Ok tt)); try assumption.
    - apply proper_known, symbol_proper, G.
    - now split.
    - cbn [exec]. unfold drop, bind. unfold add_symbol_edge in E. rewrite E. reflexivity.
    - discriminate. }
  assert (Ty' : typed L').
  { refine (add_edge_implicits no_text no_text_eq _ _ _ _ _ _ _ _ _ _ _ G Ty _ E _); [|discriminate]. intros _. right. intros p F1 F2. now apply Hone. }
  remember (Ok (Explicit e)) as r eqn:Er.
  destruct A as [F EL|F1 F2 EL|x Hx EE EI|EE|e0 ed He Hk Hs EE EI|p F1 F2 F3 EE EI|EE EI _|p ds t' F1 F2 F3 F4 F5 F6 EE EI]; try discriminate Er.
  - (* merged *)
    split; try assumption. apply key_eq_ends in Hk as [K1 [K2 K3]]. intros v x w. split.
    + intros [d [y [D1 [D2 [D3 [D4 [D5 D6]]]]]]]. destruct d as [p|z].
      * left. exists (Implicit p), y. cbn in *. unfold symbol_len in *. rewrite Et in *. rewrite EI in D1. auto 10.
      * cbn [is_edge edge_tags source target annotation_item] in *. rewrite EE in *. rewrite update_edge_length in D1. rewrite !update_edge_nth in *.
        destruct (Nat.eqb_spec e0 z) as [<-|Hz].
        -- rewrite He in *. cbn [option_map] in *. injection D3 as <-. injection D4 as <-. injection D5 as <-. right. cbn [merge_into e_from e_to e_item] in *.
           split; [assumption|]. split; [assumption|]. apply item_eqb_sym in K3. eapply item_eqb_trans; eassumption.
        -- left. exists (Explicit z), y. cbn. auto 10.
    + intros [[d [y [D1 [D2 [D3 [D4 [D5 D6]]]]]]]|[-> [-> Hx]]].
      * destruct d as [p|z].
        -- exists (Implicit p), y. cbn in *. unfold symbol_len in *. rewrite Et. rewrite EI. auto 10.
        -- exists (Explicit z), y. cbn [is_edge edge_tags source target annotation_item] in *. rewrite EE. rewrite update_edge_length, !update_edge_nth.
           destruct (Nat.eqb_spec e0 z) as [<-|Hz]; [|auto 10]. rewrite He in *. cbn [option_map merge_into e_from e_to e_item e_tags]. split; [assumption|]. split; [|auto].
           eapply matches_included; [|exact D2]. destruct (M_Tags.coll_eqb _ _) eqn:Eq; [apply N.eqb_eq in Eq; rewrite Eq; apply included_refl|apply included_union_l].
      * exists (Explicit e0), (e_item ed). cbn [is_edge edge_tags source target annotation_item]. rewrite EE, update_edge_length, update_edge_nth, Nat.eqb_refl, He.
        cbn [option_map merge_into e_from e_to e_item]. split; [apply nth_error_Some; congruence|]. rewrite K1, K2.
        split; [|split; [reflexivity|split; [reflexivity|split; [reflexivity|eapply item_eqb_trans; eassumption]]]].
        rewrite symbol_matches. rewrite (P_LatticePath.merge_tags symbol_tag empty_sequence 0%Z (-1)%Z (-1)%Z ed). apply orb_true_r.
  - (* new *)
    split; try assumption. intros v x w. split.
    + intros [d [y [D1 [D2 [D3 [D4 [D5 D6]]]]]]]. destruct d as [p|z].
      * left. exists (Implicit p), y. cbn in *. unfold symbol_len in *. rewrite Et in *. rewrite EI in D1. auto 10.
      * cbn [is_edge edge_tags source target annotation_item] in *. rewrite EE in *. destruct (nth_error (edges L ++ _) z) as [zd|] eqn:Ez; [|discriminate].
        apply nth_snoc in Ez as [Ez|[-> ->]].
        -- left. exists (Explicit z), y. cbn. rewrite Ez. split; [apply nth_error_Some; congruence|]. auto.
        -- right. cbn in D3, D4, D5. injection D3 as <-. injection D4 as <-. injection D5 as <-. auto.
    + intros [[d [y [D1 [D2 [D3 [D4 [D5 D6]]]]]]]|[-> [-> Hx]]].
      * destruct d as [p|z].
        -- exists (Implicit p), y. cbn in *. unfold symbol_len in *. rewrite Et. rewrite EI. auto 10.
        -- exists (Explicit z), y. cbn [is_edge edge_tags source target annotation_item] in *. rewrite EE, app_length. rewrite nth_error_app1 by assumption. split; [lia|]. auto.
      * exists (Explicit (length (edges L))), it. cbn [is_edge edge_tags source target annotation_item]. rewrite EE, app_length, nth_error_app2, Nat.sub_diag by lia. cbn.
        split; [lia|]. split; [reflexivity|]. auto.
  - exfalso. exact (Hno _ _ F3 F4).
Qed.

(** The lattice: what addEdge does, and what the other calls leave alone. *)
From Coq Require Import ZArith List Bool Lia.
From Verif Require Import M_Utf8 S_Utf8 L_Utf8 M_Tags M_Items M_Cutter M_Lattice P_Tags P_Cutter L_Lattice S_Lattice L_LatticeOps L_LatticeTidy.
Import ListNotations.
Local Open Scope nat_scope.

(** ** Example programs *)
Lemma proper_known L t : proper (tags L) t -> known_tags L t.
Proof. intros [H1 H2]. exists (P_Tags.has (tags L) t). split; [reflexivity|assumption|assumption]. Qed.
Definition known_check (m : M_Tags.manager) (t : collection) : bool :=
  (N.to_nat (N.size t) <=? length (M_Tags.names m)) &&
  forallb (fun i => match nth_error (M_Tags.names m) i with
                    | Some (c :: _) => negb (N.testbit t (N.of_nat i) && Z.eqb c 33) || N.testbit (M_Tags.planes m) (N.of_nat i)
                    | _ => true end) (seq 0 (length (M_Tags.names m))).
Lemma size_bit t i : N.testbit t i = true -> (i < N.size t)%N.
Proof.
  intros H. destruct (N.eq_dec t 0) as [->|Ht]; [rewrite N.bits_0 in H; discriminate|]. rewrite (N.size_log2 _ Ht).
  destruct (N.lt_ge_cases (N.log2 t) i) as [K|K]; [rewrite (N.bits_above_log2 _ _ K) in H; discriminate|lia].
Qed.
Lemma known_check_ok L t : known_check (tags L) t = true -> known_tags L t.
Proof.
  unfold known_check. rewrite andb_true_iff, Nat.leb_le, forallb_forall. intros [H1 H2]. apply proper_known. split.
  - intros i Hi. apply size_bit in Hi. destruct (nth_error (M_Tags.names (tags L)) (N.to_nat i)) as [n|] eqn:E; [eauto|].
    apply nth_error_None in E. lia.
  - intros i n Hi Hn Hp. specialize (H2 i). rewrite Hn in H2.
    assert (Hl : i < length (M_Tags.names (tags L))) by (apply nth_error_Some; congruence).
    unfold P_Tags.plane_name in Hp. destruct n as [|c n]; [discriminate Hp|]. cbn in Hp. subst c. rewrite Hi in H2. cbn in H2. apply H2. apply in_seq. lia.
Qed.
(** The lattice after a list of calls. *)
Fixpoint after (os : list op) (L : lattice) : lattice :=
  match os with [] => L | o :: os' => after os' (fst (exec o L)) end.
Fixpoint results (os : list op) (L : lattice) : list (res unit) :=
  match os with [] => [] | o :: os' => snd (exec o L) :: results os' (fst (exec o L)) end.
Fixpoint all_allowed (os : list op) (L : lattice) : Prop :=
  match os with [] => True | o :: os' => allowed L o /\ snd (exec o L) <> Undefined /\ all_allowed os' (fst (exec o L)) end.
Lemma after_program os : forall L, lattice_of_program L -> all_allowed os L -> lattice_of_program (after os L).
Proof.
  induction os as [|o os IH]; intros L HL; cbn; [auto|]. intros [H1 [H2 H3]]. apply IH; [|assumption].
  apply (R_call defined _ L _ o (snd (exec o L))); try assumption. apply surjective_pairing.
Qed.
Ltac program := apply after_program; [constructor|]; cbn [all_allowed];
  repeat match goal with
  | |- _ /\ _ => split
  | |- True => exact I
  | |- _ <> _ => vm_compute; discriminate
  | |- allowed _ _ => cbn [allowed]; first [exact I|apply known_check_ok; vm_compute; reflexivity|left; eexists; reflexivity]
  end.

(** "abą" with symbols, a token over "ab" and a loose vertex. *)
Definition ex_text : list Z := [97; 98; 196; 133]%Z.
Definition ex_item (c : list Z) (t : list Z) : item := M_Items.new_item c t.
Definition WORD : list Z := [119; 111; 114; 100]%Z.
Definition ex_calls : list op :=
  [AppendString ex_text; AddSymbols (Text 0) (Text 4); AddLooseVertex; TagCall (M_Tags.Create [[33; 112]%Z]);
   AddEdge (Text 0) (Text 2) (ex_item WORD [97; 98]%Z) 4%N empty_sequence 5%Z (-1) (-1);
   AddEdge (Text 2) (Loose 0) (ex_item WORD [97; 98]%Z) 4%N empty_sequence 5%Z (-1) (-1)].
Definition ex_lattice : lattice := after ex_calls new_lattice.
Example ex_program : lattice_of_program ex_lattice.
Proof. unfold ex_lattice, ex_calls. program. Qed.
Example ex_results : results ex_calls new_lattice = repeat (Ok tt) 6.
Proof. vm_compute. reflexivity. Qed.

(** ** C12 *)
Lemma valid_find_out L e ed : good L -> nth_error (edges L) e = Some ed ->
  exists l, all_out_edges L (e_from ed) = Ok l /\ In (Explicit e) l.
Proof.
  intros G He. destruct (g_edges _ G _ _ He) as [H1 [H2 _]]. unfold all_out_edges. rewrite (g_names _ G _ H1).
  eexists. split; [reflexivity|].
  assert (Hin : In (Explicit e) (map Explicit (graph_out L (e_from ed)))) by (apply in_map, graph_out_spec; eauto).
  destruct (e_from ed) as [p|k]; [|exact Hin]. apply find_node_in in H1 as [n ->]. apply in_app_iff. now right.
Qed.
Lemma explicit_in L e ed l : good L -> nth_error (edges L) e = Some ed -> all_in_edges L (e_to ed) = Ok l -> In (Explicit e) l.
Proof.
  intros G He. destruct (g_edges _ G _ _ He) as [H1 [H2 _]]. unfold all_in_edges. rewrite (g_names _ G _ H2).
  assert (Hin : In (Explicit e) (map Explicit (graph_in L (e_to ed)))) by (apply in_map, graph_in_spec; eauto).
  destruct (e_to ed) as [p|k]; [|intros [= <-]; exact Hin]. destruct (implicit_in L p) as [i|x|]; try discriminate.
  apply find_node_in in H2 as [n ->]. intros [= <-]. apply in_app_iff. now right.
Qed.
Lemma all_in_ok L v : valid L v = true -> place L v -> exists l, all_in_edges L v = Ok l.
Proof.
  intros Hv Hp. unfold all_in_edges. rewrite Hv. destruct v as [p|k]; [|eauto]. destruct (implicit_in_ok L p Hp) as [l ->]. eauto.
Qed.
(** The edge that addEdge returned. *)
Definition has_data (L' : lattice) (d : desc) (from to : vertex) (it : item) (t : collection) (s : sequence) (sc : score)
  (rule choice : Z) : Prop :=
  source L' d = Ok from /\ target L' d = Ok to /\ (forall i, N.testbit t i = true -> N.testbit (edge_tags L' d) i = true) /\
  forall e, d = Explicit e ->
    (exists it', annotation_item L' d = Ok it' /\ M_Items.item_eqb it' it = true) /\
    (sc <= edge_score L' d)%Z /\ exists t', In (Partition t' s sc rule choice) (edge_partitions L' d).
Lemma addition_data from to it t0 s sc rule choice L L' d :
  good L -> good L' -> text L' = text L -> addition from to it (inherited L t0 s) s sc rule choice L L' (Ok d) ->
  has_data L' d from to it t0 s sc rule choice /\ is_edge L' d.
Proof.
  intros G G' Et A. pose proof (inherited_included L t0 s) as Hi. set (t := inherited L t0 s) in *. clearbody t.
  assert (New : forall t' k, t' = M_Tags.union k t \/ t' = t ->
      nth_error (edges L') (length (edges L)) = Some (Edge from to it t' sc [Partition t' s sc rule choice]) ->
      has_data L' (Explicit (length (edges L))) from to it t0 s sc rule choice /\ is_edge L' (Explicit (length (edges L)))).
  { intros t' k Ht E. split; [|cbn; apply nth_error_Some; congruence]. unfold has_data. cbn. rewrite E. cbn.
    split; [reflexivity|]. split; [reflexivity|]. split.
    - intros i H. apply Hi in H. destruct Ht as [->| ->]; [|assumption]. revert i H. apply included_union_r.
    - intros e [= <-]. split; [exists it; split; [reflexivity|apply item_eqb_refl]|]. split; [lia|]. exists t'. now left. }
  inversion A as [| | | |e ed He Hk Hs EE EI|p F1 F2 F3 EE EI|EE EI _|p ds t' F1 F2 F3 F4 F5 F6 EE EI]; subst.
  - assert (E : nth_error (edges L') e = Some (merge_into t s sc rule choice ed)) by (rewrite EE, update_edge_nth, Nat.eqb_refl, He; reflexivity).
    split; [|cbn; apply nth_error_Some; congruence].
    apply key_eqb_spec in Hk as [K1 [K2 K3]]. cbn in K1, K2, K3. unfold has_data. cbn [source target]. rewrite E. cbn [merge_into e_from e_to].
    split; [congruence|]. split; [congruence|]. split.
    + intros i H. cbn [edge_tags]. rewrite E, merge_tags. apply Hi in H. revert i H. apply included_union_r.
    + intros x [= <-]. cbn [annotation_item edge_score edge_partitions]. rewrite E. cbn [merge_into e_item e_score e_partitions].
      split; [eexists; split; [reflexivity|assumption]|]. split; [destruct (Z.ltb_spec (e_score ed) sc); lia|].
      eexists. apply in_app_iff. right. left. reflexivity.
  - split.
    + split; [reflexivity|]. split; [cbn; unfold symbol_len; now rewrite Et|]. split; [|discriminate].
      intros i H. apply F3, Hi, H.
    + cbn. rewrite EI, Nat.eqb_refl. reflexivity.
  - apply (New t 0%N); [now right|]. rewrite EE, nth_error_app2, Nat.sub_diag by lia. reflexivity.
  - eapply New; [left; reflexivity|]. rewrite EE, nth_error_app2, Nat.sub_diag by lia. reflexivity.
Qed.
(** The returned edge has the given ends and at least the given tags, and is enumerated
    among the edges of both; a stored edge has an equal item, a score that is not lower
    and a partition with the given parts. *)
Theorem C12_returned_edge L from to it t s sc rule choice L' d :
  lattice_of_program L -> known_tags L t -> add_edge from to it t s sc rule choice L = (L', Ok d) ->
  has_data L' d from to it t s sc rule choice /\
  (exists l, all_out_edges L' from = Ok l /\ In d l) /\
  forall e l, d = Explicit e -> all_in_edges L' to = Ok l -> In d l.
Proof.
  intros HL Ht E. apply program_good in HL. apply known_proper in Ht.
  destruct (add_edge_spec _ _ _ _ _ _ _ _ _ _ _ HL Ht E) as [G' [_ [Et [_ A]]]]; [discriminate|].
  destruct (addition_data _ _ _ _ _ _ _ _ _ _ _ HL G' Et A) as [D HE]. split; [assumption|].
  destruct D as [D1 [D2 _]]. split.
  - destruct d as [p|e]; cbn in D1, HE.
    + injection D1 as <-. pose proof (g_bits _ G' p HE). unfold all_out_edges.
      assert (valid L' (Text p) = true) as -> by (cbn; apply Nat.leb_le; lia). eexists. split; [reflexivity|].
      rewrite HE. now left.
    + destruct (nth_error (edges L') e) as [ed|] eqn:Ee; [|discriminate]. injection D1 as <-. now apply valid_find_out.
  - intros e l -> Hl. cbn in D2. destruct (nth_error (edges L') e) as [ed|] eqn:Ee; [|discriminate]. injection D2 as <-.
    eapply explicit_in; eassumption.
Qed.
Print Assumptions C12_returned_edge.

Lemma careful_tidy L : careful_program L -> good L /\ tidy L.
Proof.
  induction 1 as [|L L' o r H [G T] Ha Ho E Hr].
  - split; [apply new_lattice_good|]. split; [apply well_formed_nil| |].
    + intros [|[]]; discriminate.
    + intros e ed H. now apply nth_nil in H.
  - destruct (exec_good _ _ _ _ G Ha E Hr) as [G' _]. destruct (exec_tidy _ _ _ _ G T Ha Ho E Hr) as [T' _]. now split.
Qed.
(** Over well-formed texts also implicit edges are among the edges that come in. *)
Theorem C12_incoming L from to it t s sc rule choice L' d :
  careful_program L -> known_tags L t -> place L from -> place L to ->
  add_edge from to it t s sc rule choice L = (L', Ok d) -> exists l, all_in_edges L' to = Ok l /\ In d l.
Proof.
  intros HL Ht P1 P2 E. apply careful_tidy in HL as [G T]. apply known_proper in Ht.
  destruct (add_edge_tidy _ _ _ _ _ _ _ _ _ _ _ G T Ht P1 P2 E) as [T' _]; [discriminate|].
  destruct (add_edge_spec _ _ _ _ _ _ _ _ _ _ _ G Ht E) as [G' [_ [Et [_ A]]]]; [discriminate|].
  destruct (addition_data _ _ _ _ _ _ _ _ _ _ _ G G' Et A) as [[D1 [D2 _]] HE].
  destruct d as [p|e]; cbn in D1, D2, HE.
  - injection D1 as <-. injection D2 as <-. pose proof (g_bits _ G' p HE) as Hb. pose proof (symbol_len_pos L' p).
    unfold all_in_edges. assert (valid L' (Text (p + symbol_len L' p)) = true) as -> by (cbn; apply Nat.leb_le; lia).
    rewrite implicit_in_at; [|now apply (t_bits _ T')|lia]. eexists. split; [reflexivity|]. rewrite HE. now left.
  - destruct (nth_error (edges L') e) as [ed|] eqn:Ee; [|discriminate]. injection D1 as <-. injection D2 as <-.
    destruct (g_edges _ G' _ _ Ee) as [_ [H2 _]].
    destruct (all_in_ok L' (e_to ed)) as [l Hl]; [now apply (g_names _ G')|now apply (place_text L)|]. exists l. split; [assumption|].
    eapply explicit_in; eassumption.
Qed.
Print Assumptions C12_incoming.

Lemma boundary_check T p : forallb (fun b => (0 <=? b)%Z && (b <? 256)%Z) T && is_valid (firstn p T) && is_valid (skipn p T) && (p <=? length T) = true ->
  boundary T p.
Proof.
  rewrite !andb_true_iff, forallb_forall, Nat.leb_le. intros [[[Hb H1] H2] Hp].
  assert (HB : Forall byte T).
  { apply Forall_forall. intros x Hx. specialize (Hb x Hx). apply andb_true_iff in Hb as [A B]. apply Z.leb_le in A. apply Z.ltb_lt in B. split; assumption. }
  rewrite <- (firstn_skipn p T) in HB. apply Forall_app in HB as [B1 B2].
  exists (firstn p T), (skipn p T). split; [now rewrite firstn_skipn|]. split; [now apply is_valid_iff|]. split; [now apply is_valid_iff|].
  rewrite firstn_length. lia.
Qed.
Lemma wf_check T : forallb (fun b => (0 <=? b)%Z && (b <? 256)%Z) T && is_valid T = true -> well_formed T.
Proof.
  intros H. assert (B : boundary T (length T)).
  { apply boundary_check. rewrite firstn_all, skipn_all, Nat.leb_refl, H. reflexivity. }
  apply (boundary_wf _ _ B).
Qed.
Fixpoint all_careful (os : list op) (L : lattice) : Prop :=
  match os with [] => True | o :: os' => allowed L o /\ tidy_op L o /\ snd (exec o L) <> Undefined /\ all_careful os' (fst (exec o L)) end.
Lemma after_careful os : forall L, careful_program L -> all_careful os L -> careful_program (after os L).
Proof.
  induction os as [|o os IH]; intros L HL; cbn; [auto|]. intros [H1 [H2 [H3 H4]]]. apply IH; [|assumption].
  apply (C_call L _ o (snd (exec o L))); try assumption. apply surjective_pairing.
Qed.
Ltac places := cbn [place]; first [exact I|apply boundary_check; vm_compute; reflexivity].
Ltac careful := apply after_careful; [constructor|]; cbn [all_careful];
  repeat match goal with
  | |- True => exact I
  | |- _ <> _ => vm_compute; discriminate
  | |- allowed _ _ => cbn [allowed]; first [exact I|apply known_check_ok; vm_compute; reflexivity|left; eexists; reflexivity]
  | |- tidy_op _ _ => cbn [tidy_op]; first [exact I|apply wf_check; vm_compute; reflexivity|split; places|places|vm_compute; reflexivity|vm_compute; lia]
  | |- _ /\ _ => split
  end.
Example ex_careful : careful_program ex_lattice.
Proof. unfold ex_lattice, ex_calls. careful. Qed.
Example C12_example :
  let r := add_edge (Text 2) (Text 4) (ex_item WORD [196; 133]%Z) 12%N empty_sequence 7%Z 3 4 ex_lattice in
  snd r = Ok (Explicit 2) /\ known_tags ex_lattice 12%N /\ place ex_lattice (Text 2) /\ place ex_lattice (Text 4) /\
  all_out_edges (fst r) (Text 2) = Ok [Implicit 2; Explicit 1; Explicit 2] /\
  all_in_edges (fst r) (Text 4) = Ok [Implicit 2; Explicit 2].
Proof.
  split; [vm_compute; reflexivity|]. split; [apply known_check_ok; vm_compute; reflexivity|]. split; [places|]. split; [places|].
  split; vm_compute; reflexivity.
Qed.

(** An edge with the symbol tag over one character loses its item: only a bit is stored,
    and the item is made of the character.  Even the item that addSymbols gives is not the
    item that is read. *)
Definition A_text : lattice := after [AppendString [97]%Z] new_lattice.
Theorem C12_symbol_item_refuted :
  ~ (forall L from to it t s sc rule choice L' d,
      careful_program L -> known_tags L t -> place L from -> place L to ->
      add_edge from to it t s sc rule choice L = (L', Ok d) ->
      exists it', annotation_item L' d = Ok it' /\ M_Items.item_eqb it' it = true).
Proof.
  intros H.
  assert (P : careful_program A_text) by (unfold A_text; careful).
  pose (X := add_edge (Text 0) (Text 1) (ex_item WORD []) symbol_tag empty_sequence 0%Z (-1)%Z (-1)%Z A_text).
  destruct (H A_text (Text 0) (Text 1) (ex_item WORD []) symbol_tag empty_sequence 0%Z (-1)%Z (-1)%Z (fst X) (Implicit 0) P) as [it' [E1 E2]];
    [apply known_check_ok; vm_compute; reflexivity|places|places|vm_compute; reflexivity|].
  vm_compute in E1. injection E1 as <-. vm_compute in E2. discriminate.
Qed.
Print Assumptions C12_symbol_item_refuted.
Example C12_added_symbols_item :
  let L := after [AddSymbols (Text 0) (Text 1)] A_text in
  all_out_edges L (Text 0) = Ok [Implicit 0] /\
  annotation_item L (Implicit 0) = Ok (ex_item [39; 97]%Z [97]%Z) /\
  M_Items.item_eqb (ex_item [39; 97]%Z [97]%Z) (ex_item [39; 97]%Z []) = false.
Proof. vm_compute. repeat split. Qed.
(** An edge inside a character is not among the incoming edges of its end. *)
Definition INSIDE : lattice := after [AppendString [196; 133]%Z] new_lattice.
Theorem C12_inside_character_refuted :
  ~ (forall L from to it t s sc rule choice L' d,
      lattice_of_program L -> known_tags L t -> add_edge from to it t s sc rule choice L = (L', Ok d) ->
      exists l, all_in_edges L' to = Ok l /\ In d l).
Proof.
  intros H.
  assert (P : lattice_of_program INSIDE) by (unfold INSIDE; program).
  pose (X := add_edge (Text 1) (Text 2) (ex_item WORD []) symbol_tag empty_sequence 0%Z (-1)%Z (-1)%Z INSIDE).
  destruct (H INSIDE (Text 1) (Text 2) (ex_item WORD []) symbol_tag empty_sequence 0%Z (-1)%Z (-1)%Z (fst X) (Implicit 1) P) as [l [E1 E2]];
    [apply known_check_ok; vm_compute; reflexivity|vm_compute; reflexivity|].
  vm_compute in E1. injection E1 as <-. destruct E2.
Qed.
Print Assumptions C12_inside_character_refuted.

(** ** C13 *)
Definition appends (o : op) : bool := match o with AppendString _ => true | _ => false end.
Lemma add_symbols_loop_text n : forall p rest L L' r, good L -> add_symbols_loop n p rest L = (L', r) -> r <> Undefined -> text L' = text L.
Proof.
  induction n as [|n IH]; intros p [|x rest] L L' r G; try (intros [= <- <-] _; reflexivity).
  cbn [add_symbols_loop]. destruct (next (x :: rest)) as [[cp rest']|]; [|intros [= <- <-] _; reflexivity].
  destruct (append cp) as [s|]; [|intros [= <- <-] _; reflexivity]. unfold bind.
  destruct (add_edge _ _ _ _ _ _ _ _ L) as [L1 r1] eqn:E1.
  intros E Hr. assert (Hr1 : r1 <> Undefined) by (intros ->; injection E as <- <-; now destruct Hr).
  destruct (add_edge_spec _ _ _ _ _ _ _ _ _ _ _ G (symbol_proper _ G) E1 Hr1) as [G1 [_ [Et _]]].
  destruct r1; [rewrite <- Et; eapply IH; eassumption|injection E as <- <-; assumption|now destruct Hr1].
Qed.
Lemma add_partition_text d t s sc rule choice L L' r : good L -> proper (tags L) t ->
  add_partition_to_edge d t s sc rule choice L = (L', r) -> r <> Undefined -> text L' = text L.
Proof.
  intros G Hp. unfold add_partition_to_edge, bind, ask.
  destruct (source L d) as [from|x|]; try (intros [= <- <-] _; reflexivity).
  destruct (target L d) as [to|x|]; try (intros [= <- <-] _; reflexivity).
  destruct (annotation_item L d) as [it|x|]; try (intros [= <- <-] _; reflexivity).
  intros E Hr. assert (Hp' : proper (tags L) (M_Tags.union t (M_Tags.only_planes (tags L) (edge_tags L d)))).
  { apply proper_union; [assumption|]. now apply proper_planes, edge_tags_proper. }
  now destruct (add_edge_spec _ _ _ _ _ _ _ _ _ _ _ G Hp' E Hr) as [_ [_ [Et _]]].
Qed.
Lemma exec_text o L L' r : good L -> allowed L o -> appends o = false -> exec o L = (L', r) -> r <> Undefined -> text L' = text L.
Proof.
  intros G Ha Ho E Hr.
  assert (S : forall A (m : act A), query m -> drop m L = (L', r) -> text L' = text L).
  { intros A m Q Em. destruct (drop_safe m L L' r Em Hr) as [r' [E' [H1 _]]]. destruct (Q _ _ _ G E' H1) as [_ C]. apply C. }
  destruct o; cbn [exec allowed appends] in *; try discriminate.
  - destruct a as [p|]; [|injection E as <- <-; reflexivity]. destruct b as [q|]; [|injection E as <- <-; reflexivity].
    unfold add_symbols in E. destruct (_ && _); [eapply add_symbols_loop_text; eassumption|injection E as <- <-; reflexivity].
  - destruct (drop_safe _ L L' r E Hr) as [r' [E' [H1 _]]]. eapply add_loose_spec; eassumption.
  - destruct (drop_safe _ L L' r E Hr) as [r' [E' [H1 _]]].
    now destruct (add_edge_spec _ _ _ _ _ _ _ _ _ _ _ G (known_proper _ _ Ha) E' H1) as [_ [_ [Et _]]].
  - destruct (drop_safe _ L L' r E Hr) as [r' [E' [H1 _]]].
    eapply add_partition_text; try eassumption. now apply known_proper.
  - destruct (drop_safe _ L L' r E Hr) as [r' [E' [H1 _]]].
    eapply add_partition_text; try eassumption. now apply discarded_proper.
  - revert E. apply S. now apply out_edges_query.
  - revert E. apply S. now apply in_edges_query.
  - revert E. apply S. now apply first_out_query.
  - revert E. apply S. now apply first_in_query.
  - revert E. apply S. apply usages_query.
  - injection E as <- <-. now destruct (M_Tags.step (tags L) c).
Qed.
(** No call but appendString changes the text.  No call changes the ends or the item of an
    edge, or takes a tag or a partition from it, or lowers its score; every edge stays,
    but an implicit edge may be replaced by a stored one with the symbol tag. *)
Theorem C13_edges_stay L o L' r :
  lattice_of_program L -> allowed L o -> appends o = false -> exec o L = (L', r) -> r <> Undefined -> r <> Throw NotUtf8 ->
  text L' = text L /\
  forall d, is_edge L d -> kept L L' d /\
    (is_edge L' d \/
     exists e, is_edge L' (Explicit e) /\ source L' (Explicit e) = source L d /\ target L' (Explicit e) = target L d /\
               N.testbit (edge_tags L' (Explicit e)) 0 = true).
Proof.
  intros HL Ha Ho E Hr Hu. apply program_good in HL.
  pose proof (exec_text _ _ _ _ HL Ha Ho E Hr) as Et. split; [assumption|].
  destruct (exec_good _ _ _ _ HL Ha E Hr) as [G' W]. specialize (W Hu).
  intros d Hd. destruct d as [p|e].
  - split.
    + split; cbn; unfold symbol_len; rewrite ?Et; try reflexivity; [auto|exists []; reflexivity].
    + cbn in Hd. pose proof (g_bits _ HL p Hd). pose proof (symbol_len_pos L p).
      destruct (w_implicit _ _ W p Hd) as [H1|[e [ed [H1 [H2 [H3 H4]]]]]]; [lia|now left|right].
      exists e. cbn. rewrite H1, H2, H3. split; [apply nth_error_Some; congruence|]. repeat split. now apply H4.
  - cbn in Hd. destruct (nth_error (edges L) e) as [ed|] eqn:He; [|apply nth_error_None in He; lia].
    destruct (w_edges _ _ W _ _ He) as [ed' [He' X]]. split.
    + split; cbn; rewrite He, He'; try apply X; f_equal; apply X.
    + left. cbn. apply nth_error_Some. congruence.
Qed.
Print Assumptions C13_edges_stay.
(** Calls on vertices between the characters of a well-formed text never fail on its bytes. *)
Theorem C13_careful L o L' r :
  careful_program L -> allowed L o -> tidy_op L o -> exec o L = (L', r) -> r <> Undefined -> r <> Throw NotUtf8.
Proof. intros HL Ha Ho E Hr. apply careful_tidy in HL as [G T]. now apply (exec_tidy _ _ _ _ G T Ha Ho E Hr). Qed.
Print Assumptions C13_careful.
(** appendString only adds to the text, and leaves the edges and what is read of them. *)
Theorem C13_append L t L' r :
  careful_program L -> well_formed t -> exec (AppendString t) L = (L', r) ->
  text L' = text L ++ t /\ forall d, is_edge L d -> is_edge L' d /\ kept L L' d.
Proof.
  intros HL Ht E. apply careful_tidy in HL as [G T]. injection E as <- <-. split; [reflexivity|].
  set (L' := resize_structures _). intros d Hd. destruct d as [p|e].
  - cbn in Hd. pose proof (t_bits _ T p Hd) as Hb. pose proof (g_bits _ G p Hd). pose proof (symbol_len_pos L p).
    assert (Hl : p < length (text L)) by lia.
    assert (Es : symbol_len L' p = symbol_len L p) by (apply grows_symbol_len; [exists t; reflexivity|assumption]).
    split; [change (bit (resize (implicit L) (length (text L ++ t) + 1)) p = true); now rewrite bit_resize|].
    split; try reflexivity.
    + cbn [target]. now rewrite Es.
    + destruct (item_at L p Hb Hl) as [cp [H1 [H2 ->]]].
      assert (Hb' : boundary (text L') p) by now apply boundary_app.
      destruct (item_at L' p Hb') as [cp' [K1 [K2 ->]]]; [cbn; rewrite app_length; lia|].
      assert (enc cp' = enc cp) as ->; [|reflexivity]. rewrite <- H2, <- K2, Es. unfold sub. change (text L') with (text L ++ t).
      rewrite skipn_app, firstn_app, skipn_length. replace (symbol_len L p - (length (text L) - p)) with 0 by lia.
      cbn [firstn]. now rewrite app_nil_r.
    + auto.
    + exists []. reflexivity.
  - split; [exact Hd|]. split; try reflexivity; [auto|]. exists []. now rewrite app_nil_r.
Qed.
Print Assumptions C13_append.
(** A call that throws because the text is not UTF-8 can lose an edge. *)
Definition bad_calls : list op :=
  [AppendString [255; 97]%Z;
   AddEdge (Text 0) (Text 1) (ex_item WORD []) symbol_tag empty_sequence 0%Z (-1) (-1);
   AddEdge (Text 0) (Text 2) (ex_item WORD []) symbol_tag empty_sequence 0%Z (-1) (-1)].
Definition bad_lattice : lattice := after bad_calls new_lattice.
Theorem C13_ill_formed_text_refuted :
  ~ (forall L o L' r, lattice_of_program L -> allowed L o -> exec o L = (L', r) -> r <> Undefined ->
       forall d, is_edge L d -> exists d', is_edge L' d' /\ source L' d' = source L d /\ target L' d' = target L d).
Proof.
  intros H.
  assert (P : lattice_of_program bad_lattice) by (unfold bad_lattice, bad_calls; program).
  pose (o := AddEdge (Text 0) (Text 1) (ex_item WORD []) symbol_tag empty_sequence 0%Z (-1)%Z (-1)%Z).
  destruct (H bad_lattice o (fst (exec o bad_lattice)) (snd (exec o bad_lattice)) P) with (d := Implicit 0) as [d' [H1 [H2 H3]]].
  - apply known_check_ok. vm_compute. reflexivity.
  - apply surjective_pairing.
  - vm_compute. discriminate.
  - vm_compute. reflexivity.
  - destruct d' as [[|[|[]]]|[|[]]]; vm_compute in H1, H2, H3; try discriminate.
Qed.
Print Assumptions C13_ill_formed_text_refuted.
Example C13_ill_formed_thrown :
  results (bad_calls ++ [AddEdge (Text 0) (Text 1) (ex_item WORD []) symbol_tag empty_sequence 0%Z (-1) (-1)]) new_lattice =
  [Ok tt; Ok tt; Ok tt; Throw NotUtf8].
Proof. vm_compute. reflexivity. Qed.
Example C13_example : let o := Discard (Explicit 0) in
  tidy_op ex_lattice o /\ snd (exec o ex_lattice) = Ok tt /\ is_edge ex_lattice (Implicit 2) /\
  edge_tags (fst (exec o ex_lattice)) (Explicit 0) = 6%N.
Proof. vm_compute. repeat split; lia. Qed.

(** ** C14 *)
(** The tags under which an edge is stored: without a plane of its own, it gets those of
    its parts (gatherPlaneTags). *)
Definition planes_of (L : lattice) (t : collection) : collection := M_Tags.only_planes (tags L) t.
Definition one_character (L : lattice) (from to : vertex) : Prop := exists p, from = Text p /\ to = Text (p + symbol_len L p).
Lemma included_planes L a b : included a b -> M_Tags.only_planes (tags L) b = 0%N -> M_Tags.only_planes (tags L) a = 0%N.
Proof.
  intros H E. apply N.bits_inj_0. intros i. unfold M_Tags.only_planes in *. rewrite P_Tags.intersection_bit.
  destruct (N.testbit a i) eqn:Ea; [|apply andb_false_r]. apply H in Ea.
  assert (K : N.testbit (M_Tags.intersection (M_Tags.planes (tags L)) b) i = false) by (rewrite E; apply N.bits_0).
  now rewrite P_Tags.intersection_bit, Ea in K.
Qed.
(** The same annotation once more: the edge that is there gets the tags, the better score
    and one partition more, and there is no new edge. *)
Theorem C14_merged L e ed from to it t s sc rule choice L' d :
  lattice_of_program L -> known_tags L t -> nth_error (edges L) e = Some ed ->
  e_from ed = from -> e_to ed = to -> M_Items.item_eqb (e_item ed) it = true ->
  planes_of L (inherited L t s) = planes_of L (e_tags ed) ->
  ~ one_character L from to \/ planes_of L (inherited L t s) <> 0%N ->
  add_edge from to it t s sc rule choice L = (L', Ok d) ->
  d = Explicit e /\ implicit L' = implicit L /\ length (edges L') = length (edges L) /\
  (forall x, x <> e -> nth_error (edges L') x = nth_error (edges L) x) /\
  exists ed' t', nth_error (edges L') e = Some ed' /\
    (forall i, N.testbit (e_tags ed') i = N.testbit (e_tags ed) i || N.testbit (inherited L t s) i) /\
    e_score ed' = Z.max (e_score ed) sc /\ e_partitions ed' = e_partitions ed ++ [Partition t' s sc rule choice].
Proof.
  intros HL Ht He Hf Hto Hit Hpl Hone E. apply program_good in HL. apply known_proper in Ht.
  destruct (add_edge_spec _ _ _ _ _ _ _ _ _ _ _ HL Ht E) as [G' [_ [Et [_ A]]]]; [discriminate|].
  set (u := inherited L t s) in *. clearbody u. unfold planes_of in *.
  assert (Hk : key_eqb (e_from ed, e_to ed, e_item ed) (from, to, it) = true) by (apply key_eqb_spec; cbn; auto).
  destruct (g_known _ HL _ _ He) as [ds [Hds Hin]]. rewrite (key_lookup_cong _ _ _ Hk) in Hds.
  assert (Hsym : M_Tags.only_planes (tags L) symbol_tag = 0%N) by now apply symbol_planes.
  inversion A as [| | | |e' ed' He' Hk' Hs' EE EI|p F1 F2 F3 EE EI|EE EI Hn|p ds' t' F1 F2 F3 F4 F5 F6 EE EI]; subst d.
  - assert (e' = e) as ->.
    { destruct (Nat.eq_dec e' e) as [|Hne]; [assumption|exfalso].
      destruct (g_known _ HL _ _ He') as [ds' [Hds' Hin']]. rewrite (key_lookup_cong _ _ _ Hk') in Hds'.
      rewrite Hds in Hds'. injection Hds' as <-. apply same_plane_eq in Hs'.
      destruct (g_planes _ HL _ _ _ _ Hds Hin' Hin Hne) as [K|[[p K1] [K2 K3]]].
      - cbn [edge_tags] in K. rewrite He, He' in K.
        assert (M_Tags.same_plane (tags L) (e_tags ed') (e_tags ed) = true) by (apply same_plane_eq; congruence). congruence.
      - cbn [edge_tags] in K3. rewrite He in K3. destruct Hone as [Hone|Hone]; [|congruence]. apply Hone. exists p.
        destruct (g_vvc _ HL _ _ _ Hds K1) as [Q1 [Q2 _]]. cbn in Q1, Q2. auto. }
    rewrite He in He'. injection He' as <-. split; [reflexivity|]. split; [assumption|]. split; [rewrite EE; apply update_edge_length|].
    split.
    { intros x Hx. rewrite EE, update_edge_nth. destruct (Nat.eqb_spec e x); [congruence|reflexivity]. }
    eexists. eexists. split; [rewrite EE, update_edge_nth, Nat.eqb_refl, He; reflexivity|]. split; [|split].
    + intros i. rewrite merge_tags. apply P_Tags.union_bit.
    + cbn. destruct (Z.ltb_spec (e_score ed) sc); lia.
    + cbn. reflexivity.
  - exfalso. destruct Hone as [Hone|Hone]; [apply Hone; exists p; auto|]. apply Hone. eapply included_planes; eassumption.
  - exfalso. specialize (Hn ds e Hds Hin). cbn [edge_tags] in Hn. rewrite He in Hn.
    assert (M_Tags.same_plane (tags L) u (e_tags ed) = true) by (apply same_plane_eq; congruence). congruence.
  - exfalso. apply same_plane_eq in F6. destruct Hone as [Hone|Hone]; [apply Hone; exists p; auto|congruence].
Qed.
Print Assumptions C14_merged.
(** An annotation with another item, other ends or another plane leaves an edge alone. *)
Theorem C14_kept_apart L e ed from to it t s sc rule choice L' d :
  lattice_of_program L -> known_tags L t -> nth_error (edges L) e = Some ed ->
  e_from ed <> from \/ e_to ed <> to \/ M_Items.item_eqb (e_item ed) it = false \/
    planes_of L (inherited L t s) <> planes_of L (e_tags ed) ->
  add_edge from to it t s sc rule choice L = (L', Ok d) ->
  d <> Explicit e /\ nth_error (edges L') e = Some ed.
Proof.
  intros HL Ht He Hdiff E. apply program_good in HL. apply known_proper in Ht.
  destruct (add_edge_spec _ _ _ _ _ _ _ _ _ _ _ HL Ht E) as [G' [_ [Et [_ A]]]]; [discriminate|].
  set (u := inherited L t s) in *. clearbody u. unfold planes_of in *.
  assert (Hlt : e < length (edges L)) by (apply nth_error_Some; congruence).
  inversion A as [| | | |e' ed' He' Hk' Hs' EE EI|p F1 F2 F3 EE EI|EE EI Hn|p ds' t' F1 F2 F3 F4 F5 F6 EE EI]; subst d.
  - assert (Hne : e' <> e).
    { intros ->. rewrite He in He'. injection He' as <-. apply key_eqb_spec in Hk' as [K1 [K2 K3]]. cbn in K1, K2, K3.
      apply same_plane_eq in Hs'. destruct Hdiff as [H|[H|[H|H]]]; congruence. }
    split; [congruence|]. rewrite EE, update_edge_nth. destruct (Nat.eqb_spec e' e); [contradiction|assumption].
  - split; [discriminate|]. now rewrite EE.
  - split; [intros [= K]; lia|]. now rewrite EE, nth_error_app1.
  - split; [intros [= K]; lia|]. now rewrite EE, nth_error_app1.
Qed.
Print Assumptions C14_kept_apart.

(** The tags are those given if they have a plane, or the annotation has no parts. *)
Theorem C14_given_tags L t s : planes_of L t <> 0%N \/ links s = [] -> inherited L t s = t.
Proof.
  unfold planes_of, inherited. intros [H|H].
  - unfold M_Tags.is_empty. destruct (N.eqb_spec (M_Tags.only_planes (tags L) t) 0); [contradiction|reflexivity].
  - unfold gather_plane_tags. rewrite H. destruct (M_Tags.is_empty _); [|reflexivity].
    apply N.bits_inj. intros i. rewrite P_Tags.union_bit, N.bits_0. apply orb_false_r.
Qed.
Print Assumptions C14_given_tags.
Example C14_example :
  let r := add_edge (Text 0) (Text 2) (ex_item WORD [97; 98]%Z) 6%N empty_sequence 9%Z 1 2 ex_lattice in
  snd r = Ok (Explicit 0) /\ edge_tags (fst r) (Explicit 0) = 6%N /\ edge_score (fst r) (Explicit 0) = 9%Z /\
  length (edge_partitions (fst r) (Explicit 0)) = 2 /\ length (edges (fst r)) = 2 /\
  (* on plane !p the annotation is another edge *)
  snd (add_edge (Text 0) (Text 2) (ex_item WORD [97; 98]%Z) 12%N empty_sequence 9%Z 1 2 ex_lattice) = Ok (Explicit 2) /\
  planes_of ex_lattice 12%N = 8%N /\ planes_of ex_lattice 6%N = 0%N.
Proof. vm_compute. repeat split. Qed.
(** Over one character, after an implicit edge was replaced by a stored one, every further
    addition of the same annotation makes a new edge. *)
Definition A_symbol_calls : list op :=
  [AppendString [97]%Z; AddSymbols (Text 0) (Text 1);
   AddEdge (Text 0) (Text 1) (ex_item [39; 97]%Z []) 5%N empty_sequence 0%Z (-1) (-1)].
Definition A_symbol : lattice := after A_symbol_calls new_lattice.
Theorem C14_one_character_refuted :
  ~ (forall L e ed from to it t s sc rule choice L' d,
       careful_program L -> known_tags L t -> place L from -> place L to -> nth_error (edges L) e = Some ed ->
       e_from ed = from -> e_to ed = to -> M_Items.item_eqb (e_item ed) it = true ->
       planes_of L (inherited L t s) = planes_of L (e_tags ed) ->
       add_edge from to it t s sc rule choice L = (L', Ok d) -> length (edges L') = length (edges L)).
Proof.
  intros H.
  assert (P : careful_program A_symbol) by (unfold A_symbol, A_symbol_calls; careful).
  pose (X := add_edge (Text 0) (Text 1) (ex_item [39; 97]%Z []) 5%N empty_sequence 0%Z (-1)%Z (-1)%Z A_symbol).
  specialize (H A_symbol 0 (nth 0 (edges A_symbol) (Edge (Text 0) (Text 0) (ex_item [] []) 0%N 0%Z []))
    (Text 0) (Text 1) (ex_item [39; 97]%Z []) 5%N empty_sequence 0%Z (-1)%Z (-1)%Z (fst X) (Explicit 1) P).
  assert (K : known_tags A_symbol 5%N) by (apply known_check_ok; vm_compute; reflexivity).
  assert (P1 : place A_symbol (Text 0)) by places. assert (P2 : place A_symbol (Text 1)) by places.
  specialize (H K P1 P2). vm_compute in H. specialize (H eq_refl eq_refl eq_refl eq_refl eq_refl eq_refl). discriminate.
Qed.
Print Assumptions C14_one_character_refuted.
(** discard of a symbol edge made by addSymbols marks another edge, made for this purpose. *)
Theorem C14_discard_symbol_refuted :
  ~ (forall L d L', careful_program L -> is_edge L d -> discard d L = (L', Ok tt) -> is_discarded L' d = true).
Proof.
  intros H. pose (L := after [AppendString [97]%Z; AddSymbols (Text 0) (Text 1)] new_lattice).
  assert (P : careful_program L) by (unfold L; careful).
  specialize (H L (Implicit 0) (fst (discard (Implicit 0) L)) P). vm_compute in H. specialize (H eq_refl eq_refl). discriminate.
Qed.
Print Assumptions C14_discard_symbol_refuted.
Lemma discarded_planes L : good L -> M_Tags.only_planes (tags L) discarded_tag = 0%N.
Proof.
  intros G. apply N.bits_inj_0. intros i. unfold M_Tags.only_planes. rewrite P_Tags.intersection_bit.
  destruct i as [|[|[]|]]; try apply andb_false_r. destruct (N.testbit (M_Tags.planes (tags L)) 1) eqn:E; [|reflexivity].
  destruct (P_Tags.ok_planes _ (reachable_ok _ G) _ E) as [n [Hn Hp]]. change (N.to_nat 1) with 1 in Hn.
  rewrite (g_discarded _ G) in Hn. injection Hn as <-. discriminate Hp.
Qed.
Lemma planes_idempotent m c : M_Tags.only_planes m (M_Tags.only_planes m c) = M_Tags.only_planes m c.
Proof.
  apply N.bits_inj. intros i. unfold M_Tags.only_planes. rewrite !P_Tags.intersection_bit.
  destruct (N.testbit (M_Tags.planes m) i); [apply andb_true_l|reflexivity].
Qed.
(** discard marks a stored edge, and does nothing else to it than adding a partition. *)
Theorem C14_discard L e ed L' :
  lattice_of_program L -> nth_error (edges L) e = Some ed ->
  ~ one_character L (e_from ed) (e_to ed) \/ planes_of L (e_tags ed) <> 0%N ->
  discard (Explicit e) L = (L', Ok tt) ->
  is_discarded L' (Explicit e) = true /\ implicit L' = implicit L /\
  (forall x, x <> e -> nth_error (edges L') x = nth_error (edges L) x) /\
  forall i, (i <> 1)%N -> N.testbit (edge_tags L' (Explicit e)) i = N.testbit (edge_tags L (Explicit e)) i.
Proof.
  intros HL He Hone E. pose proof (program_good _ HL) as G.
  set (t := M_Tags.union discarded_tag (M_Tags.only_planes (tags L) (e_tags ed))).
  assert (Hp : proper (tags L) t).
  { apply proper_union; [now apply discarded_proper|]. apply proper_planes. apply (g_proper _ G _ _ He). }
  assert (Hi : inherited L t empty_sequence = t) by (apply C14_given_tags; now right).
  assert (Hpl : planes_of L t = planes_of L (e_tags ed)).
  { unfold planes_of, t. rewrite planes_union, (discarded_planes _ G), planes_idempotent. reflexivity. }
  unfold discard, add_partition_to_edge, bind, ask in E. cbn [edge_tags source target annotation_item] in E. rewrite He in E. fold t in E.
  destruct (add_edge (e_from ed) (e_to ed) (e_item ed) t empty_sequence LOWEST (-1) (-1) L) as [L1 [d|x|]] eqn:Ea; try discriminate.
  injection E as <-.
  destruct (C14_merged L e ed (e_from ed) (e_to ed) (e_item ed) t empty_sequence LOWEST (-1) (-1) L1 d HL (proper_known _ _ Hp) He
              eq_refl eq_refl (item_eqb_refl _)) as [_ [H1 [_ [H2 [ed' [t' [H3 [H4 _]]]]]]]]; try assumption.
  - now rewrite Hi.
  - rewrite Hi, Hpl. exact Hone.
  - rewrite Hi in H4. split; [|split; [assumption|split; [assumption|]]].
    + unfold is_discarded. cbn [edge_tags]. rewrite H3, H4. unfold t. rewrite P_Tags.union_bit. apply orb_true_r.
    + intros i Hne. cbn [edge_tags]. rewrite H3, He, H4. unfold t. rewrite P_Tags.union_bit. unfold M_Tags.only_planes. rewrite P_Tags.intersection_bit.
      assert (N.testbit discarded_tag i = false) as -> by (destruct i as [|[|[]|]]; try reflexivity; now destruct Hne).
      destruct (N.testbit (e_tags ed) i); [reflexivity|]. now rewrite andb_false_r.
Qed.
Print Assumptions C14_discard.

(** ** C15 *)
(** Every edge between two positions of the text goes forward, inside the text. *)
Theorem C15_forward L d p q : lattice_of_program L -> is_edge L d -> source L d = Ok (Text p) -> target L d = Ok (Text q) ->
  p < q /\ q <= length (text L).
Proof.
  intros HL. apply program_good in HL. destruct d as [x|e]; cbn.
  - intros Hb [= ->] [= <-]. pose proof (g_bits _ HL p Hb). pose proof (symbol_len_pos L p). lia.
  - intros _. destruct (nth_error (edges L) e) as [ed|] eqn:He; [|discriminate]. intros [= E1] [= E2].
    destruct (g_edges _ HL _ _ He) as [H1 [H2 [H3 H4]]]. rewrite E1, E2 in *. cbn in H4. apply Nat.ltb_ge in H4.
    apply (g_names _ HL) in H2. cbn in H2. apply Nat.leb_le in H2. assert (p <> q) by congruence. lia.
Qed.
Print Assumptions C15_forward.
(** A call that is not admissible throws, and leaves the lattice as it was. *)
Theorem C15_refused L from to it t s sc rule choice :
  (from = to -> add_edge from to it t s sc rule choice L = (L, Throw LoopEdge)) /\
  (forall p q, from = Text p -> to = Text q -> q < p -> add_edge from to it t s sc rule choice L = (L, Throw ReversedEdge)).
Proof.
  unfold add_edge. split.
  - intros ->. now rewrite vertex_eqb_refl.
  - intros p q -> -> Hlt. assert (vertex_eqb (Text p) (Text q) = false) as -> by (apply vertex_eqb_false; intros [= ->]; lia).
    assert (reversed (Text p) (Text q) = true) as -> by (cbn; now apply Nat.ltb_lt). reflexivity.
Qed.
Print Assumptions C15_refused.
(** Nor does any other refused addition change an edge. *)
Theorem C15_refused_edges L from to it t s sc rule choice L' x : lattice_of_program L -> known_tags L t ->
  add_edge from to it t s sc rule choice L = (L', Throw x) -> x <> NotUtf8 ->
  text L' = text L /\ edges L' = edges L /\ implicit L' = implicit L.
Proof.
  intros HL Ht E Hx. apply program_good in HL. apply known_proper in Ht.
  destruct (add_edge_spec _ _ _ _ _ _ _ _ _ _ _ HL Ht E) as [G' [_ [Et [_ A]]]]; [discriminate|].
  inversion A; subst; try contradiction; auto.
Qed.
Print Assumptions C15_refused_edges.
(** Vertices between characters stay between characters. *)
Theorem C15_boundaries L d v : careful_program L -> is_edge L d -> source L d = Ok v \/ target L d = Ok v -> place L v.
Proof.
  intros HL He. apply careful_tidy in HL as [G T].
  destruct (source L d) as [a|x|] eqn:E1; [|destruct d; cbn in E1; [discriminate|destruct (nth_error _ _); discriminate]|].
  2:{ destruct d as [|e]; [discriminate|]. cbn in *. destruct (nth_error (edges L) e) eqn:K; [discriminate|]. apply nth_error_None in K. lia. }
  destruct (target L d) as [b|x|] eqn:E2; [|destruct d; cbn in E2; [discriminate|destruct (nth_error _ _); discriminate]|].
  2:{ destruct d as [|e]; [discriminate|]. cbn in *. destruct (nth_error (edges L) e) eqn:K; [discriminate|]. apply nth_error_None in K. lia. }
  destruct (edge_place _ _ _ _ G T He E1 E2). intros [[= <-]|[= <-]]; assumption.
Qed.
Print Assumptions C15_boundaries.
Example C15_example : is_edge ex_lattice (Implicit 2) /\ target ex_lattice (Implicit 2) = Ok (Text 4) /\
  snd (add_edge (Text 2) (Text 1) (ex_item WORD []) 4%N empty_sequence 0%Z 0 0 ex_lattice) = Throw ReversedEdge /\
  snd (add_edge (Text 0) (Text 2) (ex_item WORD [97; 98]%Z) 4%N (Sequence [(Explicit 0, M_Items.ZNull)] 0 0) 0%Z 0 0 ex_lattice) = Throw SelfReference.
Proof. vm_compute. repeat split. Qed.
(** An addition refused because of the bytes of the text still counts the edge. *)
Theorem C15_ill_formed_text_refuted :
  ~ (forall L from to it t s sc rule choice L' x, lattice_of_program L -> known_tags L t ->
       add_edge from to it t s sc rule choice L = (L', Throw x) -> implicit L' = implicit L).
Proof.
  intros H.
  assert (P : lattice_of_program bad_lattice) by (unfold bad_lattice, bad_calls; program).
  pose (X := add_edge (Text 0) (Text 1) (ex_item WORD []) symbol_tag empty_sequence 0%Z (-1)%Z (-1)%Z bad_lattice).
  assert (K : known_tags bad_lattice symbol_tag) by (apply known_check_ok; vm_compute; reflexivity).
  specialize (H bad_lattice (Text 0) (Text 1) (ex_item WORD []) symbol_tag empty_sequence 0%Z (-1)%Z (-1)%Z (fst X) NotUtf8 P K).
  vm_compute in H. specialize (H eq_refl). discriminate.
Qed.
Print Assumptions C15_ill_formed_text_refuted.

(** ** C17 *)
Lemma index_spec m L L1 ix : good L -> P_Tags.made m -> M_Tags.any m = false -> add_tag_mask_index m L = (L1, Ok ix) ->
  good L1 /\ core L L1 /\
  (exists m', nth_error (masks L1) ix = Some m' /\ (forall c, M_Tags.matches c m' = M_Tags.matches c m)) /\
  (mask_index (masks L) m = None -> forall v, indexed n_out L1 v ix = map Explicit (filter (fun e => M_Tags.matches (edge_tags L (Explicit e)) m) (graph_out L v)) /\
     indexed n_in L1 v ix = map Explicit (filter (fun e => M_Tags.matches (edge_tags L (Explicit e)) m) (graph_in L v))).
Proof.
  intros G Hm Hany E. destruct (add_tag_mask_index_query m Hm _ _ _ G E) as [G1 C]; [discriminate|].
  split; [assumption|]. split; [assumption|]. unfold add_tag_mask_index in E.
  destruct (mask_index (masks L) m) as [i|] eqn:Ei.
  - injection E as <- <-. split; [|discriminate]. destruct (mask_index_nth _ _ _ Ei) as [x [Hx Hq]]. exists x. split; [assumption|].
    apply (P_Tags.C09_mask_equal x m); try assumption. apply (g_masks _ G). eapply nth_error_In, Hx.
  - injection E as <- <-. split.
    + exists m. split; [|reflexivity]. cbn. rewrite nth_error_app2, Nat.sub_diag by lia. reflexivity.
    + intros _ v.
      assert (F : forall n, In n (nodes L) -> length (n_out n) = length (masks L) /\ length (n_in n) = length (masks L)) by apply G.
      assert (N1 : find_node L v = None -> graph_out L v = [] /\ graph_in L v = []).
      { intros H. apply find_node_none in H. split; [now apply graph_out_foreign|now apply graph_in_foreign]. }
      unfold indexed, find_node in *. cbn [nodes set_masks set_nodes].
      set (up := fun n => Node (n_name n) _ _).
      assert (Fm : forall ns, find (fun n => vertex_eqb (n_name n) v) (map up ns) = option_map up (find (fun n => vertex_eqb (n_name n) v) ns)).
      { induction ns as [|n ns IH]; [reflexivity|]. cbn. destruct (vertex_eqb (n_name n) v); [reflexivity|exact IH]. }
      rewrite Fm. destruct (find (fun n => vertex_eqb (n_name n) v) (nodes L)) as [n|] eqn:En; cbn [option_map].
      * apply find_some in En as [H1 H2]. apply vertex_eqb_spec in H2. destruct (F n H1) as [S1 S2]. cbn [up n_out n_in].
        rewrite !app_nth2, S1, S2, Nat.sub_diag by lia. cbn. now rewrite H2.
      * destruct (N1 eq_refl) as [-> ->]. split; reflexivity.
Qed.
(** The tags an edge was made with. *)
Definition made_with (L : lattice) (d : desc) : collection :=
  match edge_partitions L d with p :: _ => p_tags p | [] => edge_tags L d end.
Record selection (L : lattice) (m : mask) (l all : list desc) : Prop := {
  s_part : exists sel, l = filter sel all;
  s_sound : forall d, In d l -> M_Tags.matches (edge_tags L d) m = true;
  s_complete : forall d, In d all -> M_Tags.matches (made_with L d) m = true ->
    (forall p, d = Implicit p -> Forall (fun a => M_Tags.is_empty a = false) (M_Tags.alts m)) -> In d l
}.
Lemma made_with_explicit L e : made_with L (Explicit e) = first_tags L e.
Proof.
  unfold made_with, first_tags. cbn [edge_partitions edge_tags]. destruct (nth_error (edges L) e) as [ed|]; reflexivity.
Qed.
Lemma filter_true {A} (l : list A) : filter (fun _ => true) l = l.
Proof. induction l as [|x l IH]; cbn; congruence. Qed.
Lemma filter_map_explicit (sel : nat -> bool) (l : list nat) (b : bool) (q : list desc) : (forall d, In d q -> exists p, d = Implicit p) ->
  (if b then q else []) ++ map Explicit (filter sel l) = filter (fun d => match d with Implicit _ => b | Explicit e => sel e end) (q ++ map Explicit l).
Proof.
  intros Hq. rewrite filter_app. f_equal.
  - induction q as [|d q IH]; [now destruct b|]. cbn. destruct (Hq d (or_introl eq_refl)) as [p ->]. rewrite <- IH by (intros x Hx; apply Hq; now right).
    now destruct b.
  - clear. induction l as [|x l IH]; [reflexivity|]. cbn. destruct (sel x); cbn; congruence.
Qed.
Lemma picked_selection L m (l all : list nat) (q : list desc) : P_Tags.made m -> (forall d, In d q -> exists p, d = Implicit p) -> picked L m l all ->
  selection L m ((if M_Tags.can_be_applied_to_implicit_symbol m then q else []) ++ map Explicit l) (q ++ map Explicit all).
Proof.
  intros Hm Hq [[sel ->] [H2 H3]]. split.
  - eexists. now apply filter_map_explicit.
  - intros d. rewrite in_app_iff, in_map_iff. intros [H|[e [<- He]]]; [|auto].
    destruct (M_Tags.can_be_applied_to_implicit_symbol m) eqn:E; [|destruct H]. destruct (Hq d H) as [p ->].
    apply (proj1 (P_Tags.C09_implicit_symbol m Hm) E).
  - intros d. rewrite !in_app_iff, !in_map_iff. intros [H|[e [<- He]]] Hmt Hne.
    + destruct (Hq d H) as [p ->]. left. rewrite (proj2 (P_Tags.C09_implicit_symbol m Hm)); [assumption|eauto|exact Hmt].
    + right. exists e. split; [reflexivity|]. apply H3; [assumption|]. now rewrite <- made_with_explicit.
Qed.
Lemma any_selection L m all : P_Tags.made m -> M_Tags.any m = true -> selection L m all all.
Proof.
  intros Hm Ha. split; [exists (fun _ => true); symmetry; apply filter_true| |auto].
  intros d _. unfold M_Tags.matches. destruct Hm as [[cs ->]|[[] ->]]; cbn in *; congruence.
Qed.
Lemma core_selection L L' m l all : core L L' -> selection L' m l all -> selection L m l all.
Proof.
  intros C [H1 H2 H3]. split; [assumption| |].
  - intros d Hd. rewrite <- (core_edge_tags _ _ _ C). auto.
  - intros d Hd. unfold made_with, edge_partitions, edge_tags. rewrite <- (c_edges _ _ C). apply (H3 d Hd).
Qed.
Lemma same_matches_picked L m m' l all : (forall c, M_Tags.matches c m' = M_Tags.matches c m) -> picked L m' l all -> picked L m l all.
Proof. intros H [H1 [H2 H3]]. split; [assumption|]. split; intros e He; [|intros K]; rewrite <- H in *; auto. Qed.
Lemma when_implicit b p d : In d (when b p) -> exists q, d = Implicit q.
Proof. destruct b; cbn; [intros [<-|[]]; eauto|intros []]. Qed.
Lemma when_and (a b : bool) p : when (a && b) p = if a then when b p else [].
Proof. now destruct a, b. Qed.
Lemma implicit_in_implicit L p l d : implicit_in L p = Ok l -> In d l -> exists q, d = Implicit q.
Proof.
  unfold implicit_in. destruct (prior_vertex L p) as [q|[]|]; try discriminate; intros [= <-]; [apply when_implicit|intros []].
Qed.
Lemma indexed_picked L m ix m' v : good L -> nth_error (masks L) ix = Some m' -> (forall c, M_Tags.matches c m' = M_Tags.matches c m) ->
  (exists l, indexed n_out L v ix = map Explicit l /\ picked L m l (graph_out L v)) /\
  (exists l, indexed n_in L v ix = map Explicit l /\ picked L m l (graph_in L v)) /\
  (find_node L v = None -> graph_out L v = [] /\ graph_in L v = []).
Proof.
  intros G Hn Hs. unfold indexed. destruct (find_node L v) as [n|] eqn:E.
  - unfold find_node in E. apply find_some in E as [H1 H2]. apply vertex_eqb_spec in H2. subst v.
    destruct (g_index _ G n ix m' H1 Hn) as [P1 P2]. split; [|split; [|discriminate]];
      eexists; (split; [reflexivity|eapply same_matches_picked; eassumption]).
  - apply find_node_none in E. rewrite (graph_out_foreign _ _ G E), (graph_in_foreign _ _ G E).
    repeat split; exists []; (split; [reflexivity|apply picked_nil]).
Qed.
(** The edges that a query lists are some of all the edges of the vertex, in the same
    order.  They match the mask; and no edge is missing that has matched the mask since it
    was made. *)
Lemma out_selection L v m L' l : good L -> P_Tags.made m -> out_edges v m L = (L', Ok l) ->
  exists all, all_out_edges L v = Ok all /\ selection L m l all.
Proof.
  intros HL Hm E. unfold out_edges in E. destruct (valid L v) eqn:Hv; [|discriminate]. cbn [negb] in E.
  destruct (M_Tags.any m) eqn:Ha.
  - injection E as <- Hl. exists l. split; [exact Hl|]. now apply any_selection.
  - unfold bind in E. destruct (add_tag_mask_index m L) as [L1 [ix|x|]] eqn:Ei; try discriminate.
    destruct (index_spec m L L1 ix HL Hm Ha Ei) as [G1 [C [[m' [Hn Hs]] _]]]. unfold ask in E. injection E as <- El.
    destruct (indexed_picked L1 m ix m' v G1 Hn Hs) as [[k [Hk P]] [_ F]].
    assert (A : all_out_edges L v = Ok (match v with Text p => when (bit (implicit L) p) p | Loose _ => [] end ++ map Explicit (graph_out L v))).
    { unfold all_out_edges. rewrite Hv. destruct v as [p|j]; [|reflexivity]. 
      destruct (find_node L (Text p)) as [n|] eqn:En; [reflexivity|]. apply find_node_none in En. rewrite (graph_out_foreign _ _ HL En). reflexivity. }
    rewrite A. eexists. split; [reflexivity|]. rewrite <- (c_implicit _ _ C), <- (core_graph_out _ _ v C). apply (core_selection L L1 m l); [assumption|].
    rewrite <- El, Hk. destruct v as [p|j].
    + rewrite when_and. apply picked_selection; [assumption| |assumption]. intros d. apply when_implicit.
    + replace ([] ++ map Explicit k) with ((if M_Tags.can_be_applied_to_implicit_symbol m then [] else []) ++ map Explicit k)
        by now destruct (M_Tags.can_be_applied_to_implicit_symbol m).
      apply picked_selection; [assumption|intros d []|assumption].
Qed.
Theorem C17_out L v m L' l : lattice_of_program L -> P_Tags.made m -> out_edges v m L = (L', Ok l) ->
  exists all, all_out_edges L v = Ok all /\ selection L m l all.
Proof. intros HL. apply out_selection. now apply program_good. Qed.
Print Assumptions C17_out.
Lemma in_selection L v m L' l : good L -> P_Tags.made m -> in_edges v m L = (L', Ok l) ->
  exists all, all_in_edges L v = Ok all /\ selection L m l all.
Proof.
  intros HL Hm E. unfold in_edges in E. destruct (valid L v) eqn:Hv; [|discriminate]. cbn [negb] in E.
  destruct (M_Tags.any m) eqn:Ha.
  - injection E as <- Hl. exists l. split; [exact Hl|]. now apply any_selection.
  - unfold bind in E. destruct (add_tag_mask_index m L) as [L1 [ix|x|]] eqn:Ei; try discriminate.
    destruct (index_spec m L L1 ix HL Hm Ha Ei) as [G1 [C [[m' [Hn Hs]] _]]]. unfold ask in E. injection E as <- El.
    destruct (indexed_picked L1 m ix m' v G1 Hn Hs) as [_ [[k [Hk P]] F]]. rewrite (core_graph_in _ _ v C) in P.
    unfold all_in_edges. rewrite Hv. destruct v as [p|j].
    + assert (Ep : implicit_in L1 p = implicit_in L p).
      { unfold implicit_in, prior_vertex. now rewrite (c_implicit _ _ C), (c_text _ _ C). }
      rewrite Ep in El. destruct (implicit_in L p) as [i|x|] eqn:Eq; try discriminate. injection El as <-.
      eexists. split; [reflexivity|].
      replace (i ++ match find_node L (Text p) with Some _ => map Explicit (graph_in L (Text p)) | None => [] end) with (i ++ map Explicit (graph_in L (Text p)))
        by (destruct (find_node L (Text p)) as [n|] eqn:En; [reflexivity|apply find_node_none in En; now rewrite (graph_in_foreign _ _ HL En)]).
      rewrite Hk. apply (core_selection L L1 m); [assumption|]. apply picked_selection; [assumption| |].
      * intros d. now apply (implicit_in_implicit L p).
      * exact P.
    + injection El as <-. eexists. split; [reflexivity|]. rewrite Hk. apply (core_selection L L1 m); [assumption|].
      change (map Explicit (graph_in L (Loose j))) with ([] ++ map Explicit (graph_in L (Loose j))).
      replace (map Explicit k) with ((if M_Tags.can_be_applied_to_implicit_symbol m then [] else []) ++ map Explicit k)
        by now destruct (M_Tags.can_be_applied_to_implicit_symbol m).
      apply picked_selection; [assumption|intros d []|exact P].
Qed.
Theorem C17_in L v m L' l : lattice_of_program L -> P_Tags.made m -> in_edges v m L = (L', Ok l) ->
  exists all, all_in_edges L v = Ok all /\ selection L m l all.
Proof. intros HL. apply in_selection. now apply program_good. Qed.
Print Assumptions C17_in.
(** So the answer is exact when merging has not made any edge match the mask later on, *)
Theorem C17_exact L m l all : selection L m l all -> Forall (fun a => M_Tags.is_empty a = false) (M_Tags.alts m) ->
  (forall d, In d all -> M_Tags.matches (edge_tags L d) m = true -> M_Tags.matches (made_with L d) m = true) ->
  l = filter (fun d => M_Tags.matches (edge_tags L d) m) all.
Proof.
  intros [[sel ->] H2 H3] Hne Hm. apply filter_ext_in. intros d Hd.
  destruct (sel d) eqn:E1.
  - symmetry. apply H2. apply filter_In. auto.
  - destruct (M_Tags.matches (edge_tags L d) m) eqn:E2; [|reflexivity]. rewrite <- E1.
    assert (K : In d (filter sel all)) by (apply H3; auto). apply filter_In in K as [_ K]. now rewrite <- K.
Qed.
Print Assumptions C17_exact.
(** and when the mask has not been asked for before. *)
Theorem C17_first_query L v m L' l : lattice_of_program L -> P_Tags.made m -> Forall (fun a => M_Tags.is_empty a = false) (M_Tags.alts m) ->
  (forall m', In m' (masks L) -> M_Tags.mask_eqb m' m = false) ->
  (out_edges v m L = (L', Ok l) -> exists all, all_out_edges L v = Ok all /\ l = filter (fun d => M_Tags.matches (edge_tags L d) m) all) /\
  (in_edges v m L = (L', Ok l) -> exists all, all_in_edges L v = Ok all /\ l = filter (fun d => M_Tags.matches (edge_tags L d) m) all).
Proof.
  intros HL Hm Hne Hf. apply program_good in HL.
  assert (Hx : mask_index (masks L) m = None).
  { revert Hf. generalize (masks L). clear. induction l as [|a ms IH]; intros H; [reflexivity|].
    cbn. rewrite (H a (or_introl eq_refl)), IH; [reflexivity|]. intros x Hi. apply H. now right. }
  assert (Any : M_Tags.any m = true -> forall all : list desc, all = filter (fun d => M_Tags.matches (edge_tags L d) m) all).
  { intros Ha all. apply (C17_exact L m all all); [now apply any_selection|assumption|].
    intros d _ _. unfold M_Tags.matches. destruct Hm as [[cs ->]|[[] ->]]; cbn in *; congruence. }
  assert (Some_ : forall q x, (forall d, In d q -> exists p, d = Implicit p) ->
      (if M_Tags.can_be_applied_to_implicit_symbol m then q else []) ++ map Explicit (filter (fun e => M_Tags.matches (edge_tags L (Explicit e)) m) x) =
      filter (fun d => M_Tags.matches (edge_tags L d) m) (q ++ map Explicit x)).
  { intros q x Hq. rewrite filter_map_explicit by exact Hq. apply filter_ext_in. intros [p|e] _; [|reflexivity].
    destruct (P_Tags.C09_implicit_symbol m Hm) as [I1 I2]. change (edge_tags L (Implicit p)) with M_Tags.symbol_tag.
    destruct (M_Tags.can_be_applied_to_implicit_symbol m); [now rewrite I1|].
    destruct (M_Tags.matches M_Tags.symbol_tag m); [|reflexivity]. now apply I2. }
  assert (None_ : forall (q : nat -> desc) (x : list nat), (if M_Tags.can_be_applied_to_implicit_symbol m then [] else []) ++ map q x = map q x)
    by (intros q x; now destruct (M_Tags.can_be_applied_to_implicit_symbol m)).
  split; intros E.
  - unfold out_edges in E. destruct (valid L v) eqn:Hv; [|discriminate]. cbn [negb] in E.
    destruct (M_Tags.any m) eqn:Ha; [injection E as <- Hl; eauto|].
    unfold bind in E. destruct (add_tag_mask_index m L) as [L1 [ix|x|]] eqn:Ei; try discriminate.
    destruct (index_spec m L L1 ix HL Hm Ha Ei) as [G1 [C [_ F]]]. destruct (F Hx v) as [F1 _]. unfold ask in E. injection E as <- El.
    rewrite F1, (c_implicit _ _ C) in El. subst l. unfold all_out_edges. rewrite Hv. eexists. split; [reflexivity|].
    destruct v as [p|j].
    + rewrite when_and, Some_ by apply when_implicit. destruct (find_node L (Text p)) as [n|] eqn:En; [reflexivity|].
      apply find_node_none in En. now rewrite (graph_out_foreign _ _ HL En).
    + change (map Explicit (graph_out L (Loose j))) with ([] ++ map Explicit (graph_out L (Loose j))).
      rewrite <- Some_ by (intros d []). now rewrite None_.
  - unfold in_edges in E. destruct (valid L v) eqn:Hv; [|discriminate]. cbn [negb] in E.
    destruct (M_Tags.any m) eqn:Ha; [injection E as <- Hl; eauto|].
    unfold bind in E. destruct (add_tag_mask_index m L) as [L1 [ix|x|]] eqn:Ei; try discriminate.
    destruct (index_spec m L L1 ix HL Hm Ha Ei) as [G1 [C [_ F]]]. destruct (F Hx v) as [_ F1]. unfold ask in E. injection E as <- El.
    rewrite F1 in El. unfold all_in_edges. rewrite Hv.
    destruct v as [p|j].
    + assert (Ep : implicit_in L1 p = implicit_in L p).
      { unfold implicit_in, prior_vertex. now rewrite (c_implicit _ _ C), (c_text _ _ C). }
      rewrite Ep in El. destruct (implicit_in L p) as [i|x|] eqn:Eq; try discriminate. injection El as <-.
      eexists. split; [reflexivity|]. rewrite Some_ by (intros d; now apply (implicit_in_implicit L p)).
      destruct (find_node L (Text p)) as [n|] eqn:En; [reflexivity|].
      apply find_node_none in En. now rewrite (graph_in_foreign _ _ HL En).
    + injection El as <-. eexists. split; [reflexivity|].
      change (map Explicit (graph_in L (Loose j))) with ([] ++ map Explicit (graph_in L (Loose j))).
      rewrite <- Some_ by (intros d []). now rewrite None_.
Qed.
Print Assumptions C17_first_query.
(** Two queries; the second mask is answered from the index. *)
Example C17_example :
  let m := M_Tags.mask_of [4%N] in let r := out_edges (Text 0) m ex_lattice in let r' := out_edges (Text 2) m (fst r) in
  P_Tags.made m /\ lattice_of_program (fst r) /\ all_out_edges ex_lattice (Text 0) = Ok [Implicit 0; Explicit 0] /\
  snd r = Ok [Explicit 0] /\ snd r' = Ok [Explicit 1] /\ snd (in_edges (Text 2) m (fst r)) = Ok [Explicit 0] /\
  all_in_edges (fst r) (Text 2) = Ok [Implicit 1; Explicit 0].
Proof.
  cbv zeta. split; [left; eauto|]. split; [|vm_compute; auto].
  apply (R_call defined _ ex_lattice _ (OutEdges (Text 0) (M_Tags.mask_of [4%N])) (Ok tt)); [exact ex_program|left; eauto|vm_compute; reflexivity|discriminate].
Qed.
(** An edge that was merged after its mask had been asked for is missing. *)
Definition stale_calls : list op :=
  [AppendString ex_text; TagCall (M_Tags.Create [[112]; [113]]%Z);
   AddEdge (Text 0) (Text 2) (ex_item WORD [97; 98]%Z) 4%N empty_sequence 5%Z (-1) (-1);
   OutEdges (Text 0) (M_Tags.mask_of [8%N]);
   AddEdge (Text 0) (Text 2) (ex_item WORD [97; 98]%Z) 8%N empty_sequence 5%Z (-1) (-1)].
Definition stale_lattice : lattice := after stale_calls new_lattice.
Theorem C17_stale_index_refuted :
  ~ (forall L v m L' l, lattice_of_program L -> P_Tags.made m -> out_edges v m L = (L', Ok l) ->
       exists all, all_out_edges L v = Ok all /\ forall d, In d all -> M_Tags.matches (edge_tags L d) m = true -> In d l).
Proof.
  intros H. assert (P : lattice_of_program stale_lattice) by (unfold stale_lattice, stale_calls; program).
  pose (X := out_edges (Text 0) (M_Tags.mask_of [8%N]) stale_lattice).
  specialize (H stale_lattice (Text 0) (M_Tags.mask_of [8%N]) (fst X) [] P (or_introl (ex_intro _ _ eq_refl))).
  destruct H as [all [H1 H2]]; [vm_compute; reflexivity|]. vm_compute in H1. injection H1 as <-.
  apply (H2 (Explicit 0) (or_introl eq_refl)). vm_compute. reflexivity.
Qed.
Print Assumptions C17_stale_index_refuted.
(** Discarded edges are listed. *)
Definition dropped_calls : list op :=
  [AppendString ex_text; TagCall (M_Tags.Create [[112]; [113]]%Z);
   AddEdge (Text 0) (Text 2) (ex_item WORD [97; 98]%Z) 4%N empty_sequence 5%Z (-1) (-1); Discard (Explicit 0)].
Definition dropped_lattice : lattice := after dropped_calls new_lattice.
Theorem C17_discarded_refuted :
  ~ (forall L v m L' l d, lattice_of_program L -> P_Tags.made m -> out_edges v m L = (L', Ok l) -> In d l -> is_discarded L d = false).
Proof.
  intros H. assert (P : lattice_of_program dropped_lattice) by (unfold dropped_lattice, dropped_calls; program).
  pose (X := out_edges (Text 0) (M_Tags.mask_of [4%N]) dropped_lattice).
  specialize (H dropped_lattice (Text 0) (M_Tags.mask_of [4%N]) (fst X) [Explicit 0] (Explicit 0) P (or_introl (ex_intro _ _ eq_refl))).
  assert (E : is_discarded dropped_lattice (Explicit 0) = true) by (vm_compute; reflexivity).
  rewrite H in E; [discriminate|vm_compute; reflexivity|now left].
Qed.
Print Assumptions C17_discarded_refuted.
(** A mask with an empty alternative matches implicit symbol edges without listing them. *)
Theorem C17_empty_alternative_refuted :
  ~ (forall L v m L' l, lattice_of_program L -> P_Tags.made m -> out_edges v m L = (L', Ok l) ->
       exists all, all_out_edges L v = Ok all /\ l = filter (fun d => M_Tags.matches (edge_tags L d) m) all).
Proof.
  intros H. pose (X := out_edges (Text 0) (M_Tags.mask_of [0%N]) ex_lattice).
  specialize (H ex_lattice (Text 0) (M_Tags.mask_of [0%N]) (fst X) [Explicit 0] ex_program (or_introl (ex_intro _ _ eq_refl))).
  destruct H as [all [H1 H2]]; [vm_compute; reflexivity|]. vm_compute in H1. injection H1 as <-. vm_compute in H2. discriminate.
Qed.
Print Assumptions C17_empty_alternative_refuted.

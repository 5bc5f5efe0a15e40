(** C56: the parents, children, origin and lemma of an edge. *)
From Coq Require Import ZArith List Bool Lia.
From Verif Require Import M_Utf8 M_Tags M_Items M_Cutter M_Lattice P_Tags P_Cutter L_Lattice S_Lattice L_LatticeOps L_LatticeTidy.
From Verif Require Import P_Lattice M_LatticeWalk L_LatticeNodes P_LatticeWalk P_LatticeVertices P_LatticePath L_LatticeMarks L_LatticeCut P_LatticeCut M_LatticeKin.
Import ListNotations.
Local Open Scope nat_scope.
Notation text := M_Lattice.text.

(** * Specification *)
(** The edges in the partitions of an edge, in order. *)
Definition contents (L : lattice) (d : desc) (ms : list desc) : Prop :=
  exists uss, Forall2 (fun p us => snd (usages (p_sequence p) L) = Ok us) (edge_partitions L d) uss /\ ms = map fst (concat uss).
Definition times (d : desc) (l : list desc) : nat := length (filter (fun x => desc_eqb x d) l).
Definition carries (L : lattice) (d : desc) (n : M_Tags.str) : Prop := P_Tags.has (tags L) (edge_tags L d) n.
(** The way from an edge over its first parents to the first one with the tag. *)
Inductive origin (L : lattice) (n : M_Tags.str) : desc -> option desc -> Prop :=
  | O_none d : contents L d [] -> origin L n d None
  | O_here d x ms : contents L d (x :: ms) -> carries L x n -> origin L n d (Some x)
  | O_on d x ms r : contents L d (x :: ms) -> ~ carries L x n -> origin L n x r -> origin L n d r.

(** * Reading partitions *)
Record read (L L' : lattice) : Prop := {
  rd_careful : careful_program L';
  rd_core : core L L';
  rd_keeps : keeps L L'
}.
Lemma read_refl L : careful_program L -> read L L.
Proof. intros H. split; [assumption|apply core_refl|intros p; reflexivity]. Qed.
Lemma read_trans L1 L2 L3 : read L1 L2 -> read L2 L3 -> read L1 L3.
Proof. intros [A1 A2 A3] [B1 B2 B3]. split; [assumption|eapply core_trans; eassumption|eapply keeps_trans; eassumption]. Qed.
Definition packed_at (L : lattice) (p : nat) : res desc :=
  if length (text L) <? p then Throw NoVertex else match listed L p with d :: _ => Ok d | [] => Throw NoEdge end.
Lemma packed_edge_listed L p : good L -> exists L1, packed_edge p L = (L1, packed_at L p) /\ good L1 /\ core L L1 /\ keeps L L1.
Proof.
  intros G. unfold packed_edge, packed_at. destruct (length (text L) <? p) eqn:E.
  - exists L. split; [reflexivity|]. split; [assumption|]. split; [apply core_refl|intros q; reflexivity].
  - apply Nat.ltb_ge in E. destruct (out_edges_listed L p G E) as [L1 [E1 [_ K]]]. exists L1.
    destruct (out_edges_query (Text p) symbol_mask symbol_made _ _ _ G E1) as [G1 C1]; [discriminate|].
    split; [|auto]. unfold first_out_edge, bind. rewrite E1. destruct (listed L p); reflexivity.
Qed.
Lemma packed_edges_listed n : forall p e L La, good L -> good La -> text La = text L -> keeps L La ->
  snd (packed_edges n p e La) = snd (packed_edges n p e L) /\ keeps L (fst (packed_edges n p e L)).
Proof.
  induction n as [|n IH]; intros p e L La G Ga ET K; [split; [reflexivity|intros q; reflexivity]|]. cbn [packed_edges].
  destruct (p <? e); [|split; [reflexivity|intros q; reflexivity]].
  destruct (packed_edge_listed L p G) as [L1 [E1 [G1 [C1 K1]]]]. destruct (packed_edge_listed La p Ga) as [L2 [E2 [G2 [C2 K2]]]].
  unfold bind. rewrite E1, E2. assert (Ep : packed_at La p = packed_at L p) by (unfold packed_at; now rewrite ET, K). rewrite Ep.
  assert (El : symbol_len La p = symbol_len L p) by (unfold symbol_len; now rewrite ET). rewrite El.
  destruct (packed_at L p) as [d|x|]; [|split; [reflexivity|exact K1]|split; [reflexivity|exact K1]].
  destruct (IH (p + symbol_len L p) e L1 L2 G1 G2) as [H1 _].
  { rewrite (c_text _ _ C2), ET. symmetry. apply C1. }
  { intros q. rewrite (K2 q), (K q). symmetry. apply K1. }
  destruct (IH (p + symbol_len L p) e L1 L1 G1 G1 eq_refl) as [_ H2]; [intros q; reflexivity|].
  destruct (packed_edges n (p + symbol_len L p) e L1) as [L3 r3] eqn:E3. destruct (packed_edges n (p + symbol_len L p) e L2) as [L4 r4] eqn:E4. cbn [fst snd] in *. subst r4.
  destruct r3; cbn; split; try reflexivity; exact (keeps_trans _ _ _ K1 H2).
Qed.
Lemma usages_read L s us : careful_program L -> snd (usages s L) = Ok us -> exists L', usages s L = (L', Ok us) /\ read L L'.
Proof.
  intros HL E. destruct (careful_tidy _ HL) as [G T]. destruct (usages s L) as [L' r] eqn:Eu. cbn in E. subst r. exists L'. split; [reflexivity|].
  destruct (query_op L L' (ReadSequence s) _ _ (usages_query s) eq_refl HL I I Eu) as [HL' C]. split; [assumption|assumption|].
  unfold usages in Eu. destruct (links s); [|injection Eu as <- _; intros p; reflexivity].
  destruct (packed_edges_listed (s_end s - s_begin s) (s_begin s) (s_end s) L L G G eq_refl ltac:(intros p; reflexivity)) as [_ K]. now rewrite Eu in K.
Qed.
Lemma usages_again L L' s : good L -> good L' -> text L' = text L -> keeps L L' -> snd (usages s L') = snd (usages s L).
Proof. intros G G' ET K. unfold usages. destruct (links s); [|reflexivity]. now apply packed_edges_listed. Qed.
Lemma parts_again L L' ps uss : good L -> good L' -> text L' = text L -> keeps L L' ->
  Forall2 (fun p us => snd (usages (p_sequence p) L) = Ok us) ps uss -> Forall2 (fun p us => snd (usages (p_sequence p) L') = Ok us) ps uss.
Proof. intros G G' ET K. induction 1; constructor; [|assumption]. now rewrite (usages_again L L'). Qed.
Lemma contents_again L L' d ms : good L -> good L' -> text L' = text L -> edges L' = edges L -> keeps L L' -> contents L d ms -> contents L' d ms.
Proof.
  intros G G' ET EE K [uss [F E]]. exists uss. split; [|assumption]. assert (Ep : edge_partitions L' d = edge_partitions L d) by (destruct d; cbn; [reflexivity|now rewrite EE]).
  rewrite Ep. now apply (parts_again L L').
Qed.
Lemma contents_one L d a b : contents L d a -> contents L d b -> a = b.
Proof.
  intros [u1 [F1 ->]] [u2 [F2 ->]]. do 2 f_equal. revert u2 F2. induction F1 as [|p us ps uss E F IH]; intros u2 F2; inversion F2 as [|? us2 ? uss2 E2 F2']; subst; [reflexivity|].
  rewrite E in E2. injection E2 as <-. f_equal. now apply IH.
Qed.
Lemma read_contents L L' d ms : careful_program L -> read L L' -> contents L d ms -> contents L' d ms.
Proof.
  intros HL R. destruct (careful_tidy _ HL) as [G _]. destruct (careful_tidy _ (rd_careful _ _ R)) as [G' _]. apply contents_again; try assumption; apply R.
Qed.

(** * Parents *)
Lemma first_matching_find L m us : first_matching L m us = find (fun x => M_Tags.matches (edge_tags L x) m) (map fst us).
Proof. induction us as [|u us IH]; cbn; [reflexivity|]. now destruct (M_Tags.matches _ m). Qed.
Lemma core_edge_tags L L' d : core L L' -> edge_tags L' d = edge_tags L d.
Proof. intros C. destruct d; cbn; [reflexivity|now rewrite (c_edges _ _ C)]. Qed.
Lemma find_ext' {A} (f g : A -> bool) l : (forall x, f x = g x) -> find f l = find g l.
Proof. intros H. induction l as [|x l IH]; cbn; [reflexivity|]. now rewrite H, IH. Qed.
Lemma find_app' {A} (f : A -> bool) a b : find f (a ++ b) = match find f a with Some x => Some x | None => find f b end.
Proof. induction a as [|x a IH]; cbn; [reflexivity|]. now destruct (f x). Qed.
Lemma parent_in_spec m ps : forall uss L, careful_program L -> Forall2 (fun p us => snd (usages (p_sequence p) L) = Ok us) ps uss ->
  exists L', parent_in ps m L = (L', Ok (find (fun x => M_Tags.matches (edge_tags L x) m) (map fst (concat uss)))) /\ read L L'.
Proof.
  induction ps as [|p ps IH]; intros uss L HL F; inversion F as [|? us ? uss' E F']; subst; clear F.
  - exists L. split; [reflexivity|now apply read_refl].
  - destruct (usages_read L _ us HL E) as [L1 [E1 R1]]. cbn [parent_in]. unfold bind. rewrite E1. unfold ask. rewrite first_matching_find.
    rewrite (find_ext' _ (fun x => M_Tags.matches (edge_tags L x) m)) by (intros x; now rewrite (core_edge_tags _ _ _ (rd_core _ _ R1))).
    cbn [concat]. rewrite map_app, find_app'. unfold usage in *. destruct (find _ (map fst us)) as [d|]; [exists L1; split; [reflexivity|assumption]|].
    destruct (careful_tidy _ HL) as [G _]. destruct (careful_tidy _ (rd_careful _ _ R1)) as [G1 _].
    destruct (IH uss' L1 (rd_careful _ _ R1)) as [L2 [E2 R2]]; [apply (parts_again L L1); try assumption; apply R1|].
    exists L2. rewrite E2. split; [|eapply read_trans; eassumption]. do 2 f_equal. apply find_ext'. intros x. now rewrite (core_edge_tags _ _ _ (rd_core _ _ R1)).
Qed.
(** getParent: the first edge of the partitions, in order, that matches the mask. *)
Theorem C56_parent L d m ms : careful_program L -> contents L d ms ->
  exists L', get_parent d m L = (L', Ok (find (fun x => M_Tags.matches (edge_tags L x) m) ms)) /\ careful_program L' /\ core L L' /\
    forall x l, contents L x l -> contents L' x l.
Proof.
  intros HL [uss [F ->]]. destruct (parent_in_spec m _ uss L HL F) as [L' [E R]]. exists L'. split; [exact E|]. split; [apply R|]. split; [apply R|].
  intros x l. now apply read_contents.
Qed.
Print Assumptions C56_parent.

(** * Children *)
Lemma desc_count_times d us : desc_count d us = times d (map fst us).
Proof. unfold desc_count, times. induction us as [|u us IH]; cbn; [reflexivity|]. destruct (desc_eqb (fst u) d); cbn; now rewrite IH. Qed.
Lemma times_app d a b : times d (a ++ b) = times d a + times d b.
Proof. unfold times. now rewrite filter_app, app_length. Qed.
Lemma times_in_spec parent ps : forall uss L, careful_program L -> Forall2 (fun p us => snd (usages (p_sequence p) L) = Ok us) ps uss ->
  exists L', times_in ps parent L = (L', Ok (times parent (map fst (concat uss)))) /\ read L L'.
Proof.
  induction ps as [|p ps IH]; intros uss L HL F; inversion F as [|? us ? uss' E F']; subst; clear F.
  - exists L. split; [reflexivity|now apply read_refl].
  - destruct (usages_read L _ us HL E) as [L1 [E1 R1]]. destruct (careful_tidy _ HL) as [G _]. destruct (careful_tidy _ (rd_careful _ _ R1)) as [G1 _].
    destruct (IH uss' L1 (rd_careful _ _ R1)) as [L2 [E2 R2]]; [apply (parts_again L L1); try assumption; apply R1|].
    exists L2. cbn [times_in]. unfold bind. rewrite E1, E2. split; [|eapply read_trans; eassumption]. unfold ret. cbn [concat]. now rewrite map_app, times_app, desc_count_times.
Qed.
Lemma times_repeat d x n : times d (repeat x n) = if desc_eqb x d then n else 0.
Proof. unfold times. induction n as [|n IH]; cbn; [now destruct (desc_eqb x d)|]. destruct (desc_eqb x d); cbn; now rewrite IH. Qed.
Lemma desc_eqb_refl d : desc_eqb d d = true.
Proof. now apply desc_eqb_spec. Qed.
Lemma times_pos d l : 0 < times d l <-> In d l.
Proof.
  unfold times. induction l as [|x l IH]; cbn [filter length]; [split; [cbn; lia|intros []]|]. destruct (desc_eqb x d) eqn:E; cbn [length In].
  - apply desc_eqb_spec in E. split; [intros _; now left|lia].
  - rewrite IH. split; [intros K; now right|]. intros [->|H]; [now rewrite desc_eqb_refl in E|assumption].
Qed.
Lemma children_among_spec parent to ds : forall L, careful_program L -> NoDup ds ->
  (forall d, In d ds -> is_edge L d /\ (target L d = Ok to -> exists ms, contents L d ms)) ->
  exists L' cs, children_among ds to parent L = (L', Ok cs) /\ read L L' /\
    (forall d, In d cs -> In d ds /\ target L d = Ok to /\ exists ms, contents L d ms /\ In parent ms) /\
    (forall d ms, In d ds -> target L d = Ok to -> contents L d ms -> times d cs = times parent ms).
Proof.
  induction ds as [|d ds IH]; intros L HL ND H.
  - exists L, []. split; [reflexivity|]. split; [now apply read_refl|]. split; [intros ? []|intros ? ? []].
  - inversion ND as [|? ? Hd ND']; subst. destruct (H d (or_introl eq_refl)) as [He Hc]. destruct (edge_ends L d He) as [a [b [_ Et]]].
    assert (Hstep : exists L1 n, (if vertex_eqb b to then do ps <- ask (fun L => Ok (edge_partitions L d)); do n <- times_in ps parent; ret (repeat d n) else ret []) L = (L1, Ok (repeat d n)) /\ read L L1 /\
      (0 < n -> b = to) /\ forall ms, b = to -> contents L d ms -> n = times parent ms).
    { destruct (vertex_eqb b to) eqn:Eb.
      - apply vertex_eqb_spec in Eb. subst b. destruct (Hc Et) as [ms C]. pose proof C as [uss [F Em]]. destruct (times_in_spec parent _ uss L HL F) as [L1 [E1 R1]].
        exists L1, (times parent ms). unfold bind, ask. rewrite E1. rewrite Em. split; [reflexivity|]. split; [assumption|]. split; [reflexivity|].
        intros ms' _ C'. rewrite <- Em. now rewrite (contents_one _ _ _ _ C C').
      - exists L, 0. split; [reflexivity|]. split; [now apply read_refl|]. split; [lia|]. intros ms -> _. apply vertex_eqb_false in Eb. congruence. }
    destruct Hstep as [L1 [n [E1 [R1 [N1 N2]]]]]. destruct (IH L1 (rd_careful _ _ R1) ND') as [L2 [cs [E2 [R2 [S2 T2]]]]].
    { intros x Hx. destruct (H x (or_intror Hx)) as [H1 H2]. split; [now apply (core_is_edge _ _ _ (rd_core _ _ R1))|]. rewrite (core_target _ _ _ (rd_core _ _ R1)). intros K.
      destruct (H2 K) as [ms C]. exists ms. exact (read_contents _ _ _ _ HL R1 C). }
    assert (Back : forall x ms, contents L1 x ms -> In x (d :: ds) -> target L x = Ok to -> contents L x ms).
    { intros x ms C Hx Kx. destruct (H x Hx) as [_ H2]. destruct (H2 Kx) as [ms' C']. pose proof (read_contents _ _ _ _ HL R1 C') as C2. now rewrite (contents_one _ _ _ _ C C2). }
    exists L2, (repeat d n ++ cs). cbn [children_among]. split; [unfold bind at 1; unfold ask at 1; rewrite Et; unfold bind at 1; rewrite E1; unfold bind at 1; rewrite E2; reflexivity|].
    split; [eapply read_trans; eassumption|]. split.
    + intros x Hx. apply in_app_iff in Hx as [Hx|Hx].
      * assert (Hn : 0 < n) by (destruct n; [destruct Hx|lia]). apply repeat_spec in Hx. subst x. pose proof (N1 Hn) as ->. split; [now left|]. split; [assumption|].
        destruct (Hc Et) as [ms C]. exists ms. split; [assumption|]. apply times_pos. rewrite <- (N2 ms eq_refl C). assumption.
      * destruct (S2 x Hx) as [X1 [X2 [ms [X3 X4]]]]. rewrite (core_target _ _ _ (rd_core _ _ R1)) in X2. split; [now right|]. split; [assumption|]. exists ms. split; [|assumption].
        apply Back; [assumption|now right|assumption].
    + intros x ms Hx Kx C. rewrite times_app, times_repeat. destruct Hx as [<-|Hx].
      * rewrite desc_eqb_refl. rewrite Et in Kx. injection Kx as ->. rewrite (N2 ms eq_refl C).
        assert (Z : times d cs = 0). { destruct (times d cs) eqn:Z; [reflexivity|]. destruct Hd. apply (S2 d). apply times_pos. lia. } lia.
      * assert (En : desc_eqb d x = false). { destruct (desc_eqb d x) eqn:E; [|reflexivity]. apply desc_eqb_spec in E. congruence. }
        rewrite En. cbn. apply T2; [assumption|now rewrite (core_target _ _ _ (rd_core _ _ R1))|]. exact (read_contents _ _ _ _ HL R1 C).
Qed.
(** getChildren: only edges from the same vertex to the same vertex, that match the mask and
    have the parent in a partition; and every such edge, as often as the parent is in its
    partitions. *)
Theorem C56_children L parent m v w : careful_program L -> P_Tags.made m -> is_edge L parent -> source L parent = Ok v -> target L parent = Ok w ->
  (forall d, is_edge L d -> source L d = Ok v -> target L d = Ok w -> exists ms, contents L d ms) ->
  exists L' cs, get_children parent m L = (L', Ok cs) /\ careful_program L' /\ core L L' /\
    (forall d, In d cs -> is_edge L d /\ source L d = Ok v /\ target L d = Ok w /\ M_Tags.matches (edge_tags L d) m = true /\ exists ms, contents L d ms /\ In parent ms) /\
    (forall d ms, is_edge L d -> source L d = Ok v -> target L d = Ok w -> M_Tags.matches (made_with L d) m = true -> contents L d ms -> times d cs = times parent ms).
Proof.
  intros HL Hm He Ev Ew Hc. destruct (careful_tidy _ HL) as [G T]. destruct (source_place _ _ _ G T He Ev) as [V P].
  destruct (out_edges_total L v m V) as [L1 [l E1]]. destruct (query_op L L1 (OutEdges v m) _ _ (out_edges_query _ _ Hm) eq_refl HL Hm P E1) as [HL1 C1].
  assert (K1 : keeps L L1).
  { pose proof E1 as E. unfold out_edges in E. rewrite V in E. cbn [negb] in E. destruct (M_Tags.any m).
    - unfold ask in E. destruct (all_out_edges L v); try discriminate. injection E as <- _. intros p. reflexivity.
    - unfold bind in E. destruct (add_tag_mask_index m L) as [L2 [ix|x|]] eqn:Ei; try discriminate. unfold ask in E. injection E as <- _. eapply index_keeps; eassumption. }
  assert (R1 : read L L1) by now split.
  destruct (out_selection _ _ _ _ _ G Hm E1) as [all [A S]]. destruct (all_out_spec _ _ _ G A) as [ND In_all]. destruct (s_part _ _ _ _ S) as [sel El].
  assert (NDl : NoDup l) by (subst l; now apply NoDup_filter).
  assert (Hl : forall d, In d l -> is_edge L d /\ source L d = Ok v). { intros d Hd. subst l. apply filter_In in Hd as [Hd _]. now apply In_all. }
  assert (Back : forall x ms, contents L1 x ms -> is_edge L x -> source L x = Ok v -> target L x = Ok w -> contents L x ms).
  { intros x ms C X1 X2 X3. destruct (Hc x X1 X2 X3) as [ms' C']. pose proof (read_contents _ _ _ _ HL R1 C') as C2. now rewrite (contents_one _ _ _ _ C C2). }
  destruct (children_among_spec parent w l L1 HL1 NDl) as [L2 [cs [E2 [R2 [S2 T2]]]]].
  { intros d Hd. destruct (Hl d Hd) as [H1 H2]. split; [now apply (core_is_edge _ _ _ C1)|]. rewrite (core_target _ _ _ C1). intros H3.
    destruct (Hc d H1 H2 H3) as [ms C]. exists ms. exact (read_contents _ _ _ _ HL R1 C). }
  exists L2, cs. split; [unfold get_children, bind, ask; rewrite Ev, Ew, E1, E2; reflexivity|]. split; [apply R2|]. split; [eapply core_trans; [exact C1|apply R2]|]. split.
  - intros d Hd. destruct (S2 d Hd) as [X1 [X2 [ms [X3 X4]]]]. destruct (Hl d X1) as [Y1 Y2]. rewrite (core_target _ _ _ C1) in X2. split; [assumption|]. split; [assumption|]. split; [assumption|].
    split; [now apply (s_sound _ _ _ _ S)|]. exists ms. split; [now apply Back|assumption].
  - intros d ms Y1 Y2 Y3 Y4 C. destruct d as [p|e].
    + assert (Z : ms = []). { destruct C as [uss [F ->]]. cbn in F. inversion F. reflexivity. } subst ms.
      cbn. destruct (times (Implicit p) cs) eqn:Z; [reflexivity|]. exfalso. destruct (S2 (Implicit p)) as [_ [_ [ms [X3 X4]]]]; [apply times_pos; lia|].
      destruct X3 as [uss [F ->]]. cbn in F. inversion F; subst. destruct X4.
    + apply T2; [|now rewrite (core_target _ _ _ C1)|exact (read_contents _ _ _ _ HL R1 C)]. apply (s_complete _ _ _ _ S); [now apply In_all|assumption|discriminate].
Qed.
Print Assumptions C56_children.

(** * Origins *)
Lemma is_there_total m n c : P_Tags.reachable m -> In n (M_Tags.names m) \/ length (M_Tags.names m) < 64 -> exists m' b, M_Tags.is_there m n c = Some (m', b) /\ In n (M_Tags.names m').
Proof.
  intros Hr Hroom. pose proof (P_Tags.reachable_ok _ Hr) as Hok. pose proof (ok_size _ Hok) as Hs. unfold M_Tags.is_there.
  destruct (register_spec (M_Tags.names m) n) as [l [El Hl]]. assert (Hin : In n (M_Tags.register (M_Tags.names m) n)).
  { rewrite El. apply in_or_app. destruct Hl as [[_ K]|[-> _]]; [now left|right; now left]. }
  destruct (M_Tags.index (M_Tags.register (M_Tags.names m) n) n) as [i|] eqn:Ei; [|apply index_none in Ei; contradiction].
  pose proof (index_some _ _ _ Ei) as Hi. assert (Hlt : i < 64).
  { assert (K : i < length (M_Tags.register (M_Tags.names m) n)) by (apply nth_error_Some; congruence). rewrite El, app_length in K.
    destruct Hl as [[-> _]|[-> K2]]; cbn [length] in K; [lia|]. destruct Hroom as [K3|K3]; [contradiction|lia]. }
  destruct (M_Tags.CAPACITY <=? i) eqn:Ec; [apply Nat.leb_le in Ec; unfold M_Tags.CAPACITY in Ec; lia|]. eauto.
Qed.
(** The lattice but for the index and the names of tags. *)
Record alike (n : M_Tags.str) (L L' : lattice) : Prop := {
  al_careful : careful_program L';
  al_text : text L' = text L;
  al_edges : edges L' = edges L;
  al_implicit : implicit L' = implicit L;
  al_loose : n_loose L' = n_loose L;
  al_keeps : keeps L L';
  al_later : P_Tags.later (tags L) (tags L');
  al_room : In n (M_Tags.names (tags L')) \/ length (M_Tags.names (tags L')) < 64
}.
Lemma alike_contents n L L' d ms : careful_program L -> alike n L L' -> contents L d ms -> contents L' d ms.
Proof.
  intros HL R. destruct (careful_tidy _ HL) as [G _]. destruct (careful_tidy _ (al_careful _ _ _ R)) as [G' _]. apply contents_again; try assumption; apply R.
Qed.
Lemma alike_tags n L L' d : alike n L L' -> edge_tags L' d = edge_tags L d.
Proof. intros R. destruct d; cbn; [reflexivity|now rewrite (al_edges _ _ _ R)]. Qed.
Lemma alike_read n L L1 L2 : alike n L L1 -> read L1 L2 -> alike n L L2.
Proof.
  intros [] [R1 R2 R3]. split; try (rewrite ?(c_text _ _ R2), ?(c_edges _ _ R2), ?(c_implicit _ _ R2), ?(c_loose _ _ R2); assumption); try assumption.
  - eapply keeps_trans; eassumption.
  - now rewrite (c_tags _ _ R2).
  - now rewrite (c_tags _ _ R2).
Qed.
Lemma has_tag_spec n L L1 x : careful_program L -> alike n L L1 -> exists L2 b, has_tag n x L1 = (L2, Ok b) /\ alike n L L2 /\ (b = true <-> carries L x n).
Proof.
  intros HL R. destruct (careful_tidy _ HL) as [G _]. destruct (careful_tidy _ (al_careful _ _ _ R)) as [G1 _].
  destruct (is_there_total (tags L1) n (edge_tags L1 x) (g_tags _ G1) (al_room _ _ _ R)) as [m' [b [E Hin]]].
  assert (Es : M_Tags.step (tags L1) (M_Tags.IsThere n (edge_tags L1 x)) = Some m') by (cbn; now rewrite E).
  destruct (step_ok _ _ _ (P_Tags.reachable_ok _ (g_tags _ G1)) Es) as [Ok' Lt].
  exists (set_tags m' L1), b. unfold has_tag. rewrite E. split; [reflexivity|]. split.
  - split; try apply R.
    + apply (C_call L1 _ (TagCall (M_Tags.IsThere n (edge_tags L1 x))) (Ok tt)); [apply R|exact I|exact I| |discriminate]. cbn [exec]. unfold tag_call, change. now rewrite Es.
    + cbn. eapply P_Tags.later_trans; [apply R|exact Lt].
    + cbn. now left.
  - pose proof (edge_tags_proper L x G) as Px. destruct (proper_known _ _ Px) as [S D].
    pose proof (denotes_later _ _ _ _ (P_Tags.reachable_ok _ (g_tags _ G1)) (al_later _ _ _ R) D) as D1. rewrite <- (alike_tags _ _ _ x R) in D1.
    rewrite (P_Tags.C09_is_there _ _ _ _ _ _ (g_tags _ G1) D1 E). symmetry. apply D.
Qed.
Lemma get_parent_alike n L L1 d ms : careful_program L -> alike n L L1 -> contents L d ms -> exists L2, get_parent d any_tag L1 = (L2, Ok (hd_error ms)) /\ alike n L L2.
Proof.
  intros HL R C. pose proof (alike_contents _ _ _ _ _ HL R C) as [uss [F ->]].
  destruct (parent_in_spec any_tag _ uss L1 (al_careful _ _ _ R) F) as [L2 [E R2]]. exists L2. split; [|eapply alike_read; eassumption].
  unfold get_parent, bind, ask. rewrite E. do 2 f_equal. destruct (map fst (concat uss)); reflexivity.
Qed.
Lemma alike_refl n L : careful_program L -> In n (M_Tags.names (tags L)) \/ length (M_Tags.names (tags L)) < 64 -> alike n L L.
Proof. intros H K. split; try reflexivity; try assumption; [intros p; reflexivity|apply P_Tags.later_refl]. Qed.
(** getEdgeOrigin comes back just when the way over first parents leads to an edge with the
    tag or to an edge without parents, with that edge. *)
Theorem C56_origin L name d r : careful_program L -> In name (M_Tags.names (tags L)) \/ length (M_Tags.names (tags L)) < 64 -> origin L name d r ->
  exists k, forall n, k <= n -> exists L', edge_origin n name d L = (L', Ok r) /\ alike name L L'.
Proof.
  intros HL Hroom O. assert (Gen : forall d r, origin L name d r -> exists k, forall n L1, k <= n -> alike name L L1 -> exists L', edge_origin n name d L1 = (L', Ok r) /\ alike name L L').
  { clear d r O. intros d r O. induction O as [d C|d x ms C Hx|d x ms r C Hx O [k IH]].
    - exists 0. intros n L1 _ R. destruct (get_parent_alike _ _ _ _ _ HL R C) as [L2 [E R2]]. exists L2. unfold edge_origin, bind. rewrite E. cbn [hd_error]. split; [destruct n; reflexivity|assumption].
    - exists 1. intros n L1 Hn R. destruct (get_parent_alike _ _ _ _ _ HL R C) as [L2 [E R2]]. destruct (has_tag_spec name L L2 x HL R2) as [L3 [b [E3 [R3 Hb]]]].
      exists L3. unfold edge_origin, bind. rewrite E. cbn [hd_error]. destruct n as [|n]; [lia|]. cbn [origin_loop]. unfold bind. rewrite E3. apply Hb in Hx. rewrite Hx. now split.
    - exists (S k). intros n L1 Hn R. destruct (get_parent_alike _ _ _ _ _ HL R C) as [L2 [E R2]]. destruct (has_tag_spec name L L2 x HL R2) as [L3 [b [E3 [R3 Hb]]]].
      destruct n as [|n]; [lia|]. destruct (IH n L3 ltac:(lia) R3) as [L4 [E4 R4]]. exists L4. split; [|assumption].
      unfold edge_origin, bind. rewrite E. cbn [hd_error origin_loop]. unfold bind. rewrite E3. destruct b; [destruct Hx; now apply Hb|]. exact E4. }
  destruct (Gen d r O) as [k H]. exists k. intros n Hn. apply H; [assumption|now apply alike_refl].
Qed.
Print Assumptions C56_origin.
(** ... and whenever it comes back, that was the way. *)
Theorem C56_origin_only L name d n L' r : careful_program L -> In name (M_Tags.names (tags L)) \/ length (M_Tags.names (tags L)) < 64 ->
  (forall x, is_edge L x -> exists ms, contents L x ms /\ forall y, In y ms -> is_edge L y) -> is_edge L d -> edge_origin n name d L = (L', Ok r) -> origin L name d r.
Proof.
  intros HL Hroom Hall He. assert (Gen : forall n d L1 L' r, is_edge L d -> alike name L L1 -> edge_origin n name d L1 = (L', Ok r) -> origin L name d r).
  { clear d n L' r He. induction n as [|n IH]; intros d L1 L' r He R E; destruct (Hall d He) as [ms [C Hms]]; destruct (get_parent_alike _ _ _ _ _ HL R C) as [L2 [E2 R2]];
      unfold edge_origin, bind in E; rewrite E2 in E; destruct ms as [|x ms]; cbn [hd_error origin_loop] in E.
    - injection E as _ <-. now apply O_none.
    - discriminate.
    - injection E as _ <-. now apply O_none.
    - destruct (has_tag_spec name L L2 x HL R2) as [L3 [b [E3 [R3 Hb]]]]. unfold bind in E. rewrite E3 in E. destruct b.
      + injection E as _ <-. apply (O_here L name d x ms C). now apply Hb.
      + apply (O_on L name d x ms r C); [intros K; apply Hb in K; discriminate|]. apply (IH x L3 L'); [apply Hms; now left|assumption|exact E]. }
  intros E. apply (Gen n d L L' r He); [now apply alike_refl|assumption].
Qed.
Print Assumptions C56_origin_only.
(** It comes back where first parents are older, and the rounds are at most as many as edges. *)
Theorem C56_origin_ends L name d : (forall x, is_edge L x -> exists ms, contents L x ms /\ forall y, In y ms -> is_edge L y) ->
  (forall e f ms, e < length (edges L) -> contents L (Explicit e) (Explicit f :: ms) -> f < e) -> is_edge L d -> exists r, origin L name d r.
Proof.
  intros Hall Hold He.
  assert (Dec : forall x, carries L x name \/ ~ carries L x name).
  { intros x. unfold carries, P_Tags.has. assert (D : forall c ns k, (exists i, nth_error ns i = Some name /\ N.testbit c (N.of_nat (k + i)) = true) \/ ~ (exists i, nth_error ns i = Some name /\ N.testbit c (N.of_nat (k + i)) = true)).
    { intros c ns. induction ns as [|y ns IH]; intros k; [right; intros [i [H _]]; destruct i; discriminate|].
      destruct (IH (S k)) as [[i [H1 H2]]|H]; [left; exists (S i); split; [assumption|]; now replace (k + S i) with (S k + i) by lia|].
      destruct (M_Tags.str_eqb y name) eqn:Ey; [apply P_Tags.str_eqb_spec in Ey; subst y|].
      - destruct (N.testbit c (N.of_nat (k + 0))) eqn:Eb; [left; exists 0; now split|]. right. intros [[|i] [H1 H2]]; [congruence|]. apply H. exists i. split; [assumption|]. now replace (S k + i) with (k + S i) by lia.
      - right. intros [[|i] [H1 H2]]; [injection H1 as ->; rewrite (proj2 (P_Tags.str_eqb_spec name name) eq_refl) in Ey; discriminate|]. apply H. exists i. split; [assumption|]. now replace (S k + i) with (k + S i) by lia. }
    exact (D (edge_tags L x) (M_Tags.names (tags L)) 0). }
  assert (Im : forall p, exists r, origin L name (Implicit p) r) by (intros p; exists None; apply O_none; exists []; split; [constructor|reflexivity]).
  destruct d as [p|e]; [apply Im|]. revert He. induction e as [e IH] using lt_wf_ind. intros He. destruct (Hall _ He) as [ms [C Hms]]. destruct ms as [|x ms]; [exists None; now apply O_none|].
  destruct (Dec x) as [K|K]; [exists (Some x); now apply (O_here L name _ x ms)|]. destruct x as [p|f].
  - destruct (Im p) as [r O]. exists r. now apply (O_on L name _ (Implicit p) ms).
  - destruct (IH f (Hold e f ms He C)) as [r O]; [exact (Hms _ (or_introl eq_refl))|]. exists r. now apply (O_on L name _ (Explicit f) ms).
Qed.
Print Assumptions C56_origin_ends.
(** getEdgeLemma: the text of the origin. *)
Theorem C56_lemma L d r : careful_program L -> In LEMMA (M_Tags.names (tags L)) \/ length (M_Tags.names (tags L)) < 64 -> origin L LEMMA d r ->
  (forall x, r = Some x -> is_edge L x) ->
  exists k, forall n, k <= n -> exists L', edge_lemma n d L =
    (L', match r with None => Ok None | Some x => match annotation_item L x with Ok it => Ok (Some (M_Items.text it)) | Throw e => Throw e | Undefined => Undefined end end).
Proof.
  intros HL Hroom O Hx. destruct (C56_origin L LEMMA d r HL Hroom O) as [k H]. exists k. intros n Hn. destruct (H n Hn) as [L' [E R]]. exists L'.
  unfold edge_lemma, bind. rewrite E. destruct r as [x|]; [|reflexivity]. assert (Ei : annotation_item L' x = annotation_item L x).
  { destruct x as [p|e]; cbn; [|now rewrite (al_edges _ _ _ R)]. unfold symbol_len. now rewrite (al_text _ _ _ R). }
  unfold ask. rewrite Ei. destruct (annotation_item L x); reflexivity.
Qed.
Print Assumptions C56_lemma.

(** * A lattice with a token, its lemma and two forms *)
Definition seq_of (ds : list desc) : sequence := Sequence (map (fun d => (d, M_Items.ZNull)) ds) 0 0.
Definition kin_calls : list op :=
  [AppendString [97; 98]%Z; AddSymbols (Text 0) (Text 2); TagCall (M_Tags.Create [LEMMA; [102]%Z]);
   AddEdge (Text 0) (Text 2) (ex_item [84]%Z [97; 98]%Z) 4%N (Sequence [] 0 2) 0%Z (-1) (-1);
   AddEdge (Text 0) (Text 2) (ex_item [76]%Z [120]%Z) 8%N (seq_of [Explicit 0]) 0%Z (-1) (-1);
   AddEdge (Text 0) (Text 2) (ex_item [70]%Z [97; 98]%Z) 16%N (seq_of [Explicit 1]) 0%Z (-1) (-1);
   AddEdge (Text 0) (Text 2) (ex_item [70]%Z [97; 99]%Z) 16%N (seq_of [Explicit 1]) 0%Z (-1) (-1);
   AddPartition (Explicit 3) 16%N (seq_of [Explicit 0; Explicit 1]) 0%Z (-1) (-1);
   AddEdge (Text 0) (Text 2) (ex_item [71]%Z [97; 98]%Z) 16%N (seq_of [Explicit 2]) 0%Z (-1) (-1)].
Definition kin : lattice := after kin_calls new_lattice.
Example kin_careful : careful_program kin.
Proof. unfold kin, kin_calls. careful. Qed.
Definition form_mask : mask := M_Tags.mask_of [16%N].
Ltac read_off := eexists; split; [vm_compute; repeat (constructor; [reflexivity|]); constructor|vm_compute; reflexivity].
Example kin_contents : contents kin (Explicit 0) [Implicit 0; Implicit 1] /\ contents kin (Explicit 1) [Explicit 0] /\ contents kin (Explicit 2) [Explicit 1] /\
  contents kin (Explicit 3) [Explicit 1; Explicit 0; Explicit 1] /\ contents kin (Explicit 4) [Explicit 2].
Proof. repeat split; read_off. Qed.
Example C56_case :
  careful_program kin /\ is_edge kin (Explicit 1) /\ contents kin (Explicit 3) [Explicit 1; Explicit 0; Explicit 1] /\
  snd (get_parent (Explicit 0) any_tag kin) = Ok (Some (Implicit 0)) /\
  snd (get_parent (Explicit 3) (M_Tags.mask_of [4%N]) kin) = Ok (Some (Explicit 0)) /\
  snd (get_children (Explicit 1) form_mask kin) = Ok [Explicit 2; Explicit 3; Explicit 3] /\
  origin kin LEMMA (Explicit 4) (Some (Explicit 1)) /\ origin kin LEMMA (Explicit 1) None /\
  snd (edge_lemma 2 (Explicit 4) kin) = Ok (Some [120]%Z) /\ snd (edge_lemma 4 (Explicit 1) kin) = Ok None.
Proof.
  destruct kin_contents as [C0 [C1 [C2 [C3 C4]]]]. split; [exact kin_careful|]. split; [vm_compute; lia|]. split; [assumption|].
  split; [vm_compute; reflexivity|]. split; [vm_compute; reflexivity|]. split; [vm_compute; reflexivity|].
  assert (N : forall d, N.testbit (edge_tags kin d) 3 = false -> ~ carries kin d LEMMA).
  { intros d H [i [H1 H2]]. assert (En : M_Tags.names (tags kin) = [M_Tags.SYMBOL; DISCARDED; TOKEN; LEMMA; [102]%Z]) by (vm_compute; reflexivity). rewrite En in H1.
    destruct i as [|[|[|[|[|i]]]]]; [discriminate H1|discriminate H1|discriminate H1|change (N.of_nat 3) with 3%N in H2; congruence|discriminate H1|destruct i; discriminate H1]. }
  split; [|split; [|split; vm_compute; reflexivity]].
  - apply (O_on _ _ _ (Explicit 2) [] _ C4); [apply N; vm_compute; reflexivity|]. apply (O_here _ _ _ (Explicit 1) [] C2). exists 3. split; vm_compute; reflexivity.
  - apply (O_on _ _ _ (Explicit 0) [] _ C1); [apply N; vm_compute; reflexivity|]. apply (O_on _ _ _ (Implicit 0) [Implicit 1] _ C0); [apply N; vm_compute; reflexivity|].
    apply O_none. exists []. split; [constructor|reflexivity].
Qed.

(** ** What goes wrong *)
(** Two edges made of each other, through the merging of equal items: getEdgeOrigin never
    comes back. *)
Definition ring_calls : list op :=
  [AppendString [97; 98]%Z; TagCall (M_Tags.Create [[102]%Z; [103]%Z]);
   AddEdge (Text 0) (Text 2) (ex_item [65]%Z [97; 98]%Z) 8%N empty_sequence 0%Z (-1) (-1);
   AddEdge (Text 0) (Text 2) (ex_item [66]%Z [97; 98]%Z) 8%N (seq_of [Explicit 0]) 0%Z (-1) (-1);
   AddEdge (Text 0) (Text 2) (ex_item [65]%Z [97; 98]%Z) 16%N (seq_of [Explicit 1]) 0%Z (-1) (-1)].
Definition ring : lattice := after ring_calls new_lattice.
Theorem C56_origin_loops_refuted : careful_program ring /\ forall n, snd (edge_lemma n (Explicit 0) ring) = Undefined.
Proof.
  split; [unfold ring, ring_calls; careful|]. set (R := fst (has_tag LEMMA (Explicit 1) ring)).
  assert (P0 : get_parent (Explicit 0) any_tag R = (R, Ok (Some (Explicit 1)))) by (vm_compute; reflexivity).
  assert (P1 : get_parent (Explicit 1) any_tag R = (R, Ok (Some (Explicit 0)))) by (vm_compute; reflexivity).
  assert (T0 : has_tag LEMMA (Explicit 0) R = (R, Ok false)) by (vm_compute; reflexivity).
  assert (T1 : has_tag LEMMA (Explicit 1) R = (R, Ok false)) by (vm_compute; reflexivity).
  assert (Q0 : get_parent (Explicit 0) any_tag ring = (ring, Ok (Some (Explicit 1)))) by (vm_compute; reflexivity).
  assert (Q1 : has_tag LEMMA (Explicit 1) ring = (R, Ok false)) by (vm_compute; reflexivity).
  clearbody R. assert (W : forall n, snd (origin_loop n LEMMA (Some (Explicit 0)) R) = Undefined /\ snd (origin_loop n LEMMA (Some (Explicit 1)) R) = Undefined).
  { induction n as [|n [IH1 IH2]]; [now split|]. split; cbn [origin_loop]; unfold bind; [rewrite T0, P0|rewrite T1, P1]; assumption. }
  intros n. unfold edge_lemma, edge_origin, bind. rewrite Q0. destruct n as [|n]; [reflexivity|]. cbn [origin_loop]. unfold bind. rewrite Q1, P1.
  destruct (origin_loop n LEMMA (Some (Explicit 0)) R) as [L' r] eqn:E. pose proof (proj1 (W n)) as K. rewrite E in K. cbn in K. subst r. reflexivity.
Qed.
Print Assumptions C56_origin_loops_refuted.
(** A child is listed as often as the parent is in its partitions. *)
Theorem C56_children_once_refuted :
  ~ (forall L parent m L' cs, careful_program L -> is_edge L parent -> P_Tags.made m -> get_children parent m L = (L', Ok cs) -> NoDup cs).
Proof.
  intros H. assert (K : NoDup [Explicit 2; Explicit 3; Explicit 3]).
  { apply (H kin (Explicit 1) form_mask (fst (get_children (Explicit 1) form_mask kin)) _ kin_careful); [vm_compute; lia|left; eexists; reflexivity|vm_compute; reflexivity]. }
  inversion K as [|? ? _ K2]. inversion K2 as [|? ? K3 _]. apply K3. now left.
Qed.
Print Assumptions C56_children_once_refuted.
(** Only first parents count: a lemma further on in the partition is not found. *)
Definition second_calls : list op :=
  [AppendString [97; 98]%Z; TagCall (M_Tags.Create [LEMMA; [102]%Z]);
   AddEdge (Text 0) (Text 1) (ex_item [84]%Z [97]%Z) 4%N empty_sequence 0%Z (-1) (-1);
   AddEdge (Text 1) (Text 2) (ex_item [76]%Z [120]%Z) 8%N empty_sequence 0%Z (-1) (-1);
   AddEdge (Text 0) (Text 2) (ex_item [70]%Z [97; 98]%Z) 16%N (seq_of [Explicit 0; Explicit 1]) 0%Z (-1) (-1)].
Definition second : lattice := after second_calls new_lattice.
Theorem C56_first_parents_refuted :
  careful_program second /\ contents second (Explicit 2) [Explicit 0; Explicit 1] /\ carries second (Explicit 1) LEMMA /\
  snd (edge_lemma 9 (Explicit 2) second) = Ok None.
Proof.
  split; [unfold second, second_calls; careful|]. split; [read_off|]. split; [exists 3; split; vm_compute; reflexivity|vm_compute; reflexivity].
Qed.
Print Assumptions C56_first_parents_refuted.

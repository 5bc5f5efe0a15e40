(** Lemmas for C38: what the parser of gobio does. *)
From Coq Require Import ZArith NArith List Bool Lia Permutation.
From Verif Require Import M_Utf8 S_Utf8 L_Utf8 M_Tags M_Items M_Cutter M_Lattice P_Tags P_Cutter L_Lattice S_Lattice L_LatticeOps L_LatticeTidy.
From Verif Require Import P_Lattice M_LatticeWalk L_LatticeNodes P_LatticeWalk P_LatticeVertices M_ChartParser L_ChartParser.
Import ListNotations.
Local Open Scope nat_scope.

(** * Edges and blanks *)
(** An edge with the tag of tokens and the category B. *)
Definition blank (L : lattice) (u v : vertex) : Prop :=
  exists e ed, nth_error (edges L) e = Some ed /\ e_from ed = u /\ e_to ed = v /\
    M_Tags.matches (e_tags ed) token_mask = true /\ M_Items.category (e_item ed) = B.
Inductive gap (L : lattice) : vertex -> vertex -> Prop :=
  | G_none v : gap L v v
  | G_more u v w : gap L u v -> blank L v w -> gap L u w.
(** The edges with tags for [m] were made with such tags. *)
Definition settled (L : lattice) (m : mask) : Prop :=
  forall e ed, nth_error (edges L) e = Some ed -> M_Tags.matches (e_tags ed) m = true -> M_Tags.matches (first_tags L e) m = true.

Lemma token_made : P_Tags.made token_mask.
Proof. left. now exists [4%N]. Qed.
Lemma edge_span L e ed : good L -> tidy L -> n_loose L = 0 -> nth_error (edges L) e = Some ed ->
  exists p q, e_from ed = Text p /\ e_to ed = Text q /\ p < q /\ boundary (M_Lattice.text L) p /\ boundary (M_Lattice.text L) q.
Proof.
  intros G T H0 H. destruct (g_edges _ G _ _ H) as [N1 [N2 [N3 N4]]]. apply (g_names _ G) in N1, N2. destruct (t_edges _ T _ _ H) as [P1 P2].
  destruct (e_from ed) as [p|k]; [|cbn in N1; rewrite H0 in N1; discriminate].
  destruct (e_to ed) as [q|k]; [|cbn in N2; rewrite H0 in N2; discriminate].
  exists p, q. split; [reflexivity|]. split; [reflexivity|]. split; [|split; assumption]. cbn in N4. apply Nat.ltb_ge in N4.
  assert (p <> q) by congruence. lia.
Qed.

(** A query for an edge with some tags, among the edges at a vertex. *)
Lemma in_query L v m : good L -> tidy L -> valid L v = true -> place L v -> P_Tags.made m ->
  exists L' l, in_edges v m L = (L', Ok l) /\ good L' /\ core L L' /\
    (forall d, In d l -> is_edge L d /\ target L d = Ok v /\ M_Tags.matches (edge_tags L d) m = true) /\
    (forall e ed, nth_error (edges L) e = Some ed -> e_to ed = v -> M_Tags.matches (first_tags L e) m = true -> In (Explicit e) l).
Proof.
  intros G T Hv Hp Hm. destruct (in_edges_total L v m G Hv Hp) as [L' [l E]]. exists L', l. split; [assumption|].
  destruct (in_edges_query v m Hm _ _ _ G E) as [G' K]; [discriminate|]. split; [assumption|]. split; [assumption|].
  destruct (in_selection L v m L' l G Hm E) as [all [Ha S]]. destruct (all_in_spec L v all G T Hp Ha) as [_ Hall]. split.
  - intros d Hd. pose proof (s_sound _ _ _ _ S d Hd) as Hs. destruct (s_part _ _ _ _ S) as [sel ->]. apply filter_In in Hd as [Hd _].
    apply Hall in Hd as [H1 H2]. auto.
  - intros e ed He Hev Hf. apply (s_complete _ _ _ _ S).
    + apply Hall. cbn. rewrite He, Hev. split; [apply nth_error_Some; congruence|reflexivity].
    + now rewrite made_with_explicit.
    + discriminate.
Qed.
Lemma out_query L v m : good L -> valid L v = true -> P_Tags.made m ->
  exists L' l, out_edges v m L = (L', Ok l) /\ good L' /\ core L L' /\
    (forall d, In d l -> is_edge L d /\ source L d = Ok v /\ M_Tags.matches (edge_tags L d) m = true) /\
    (forall e ed, nth_error (edges L) e = Some ed -> e_from ed = v -> M_Tags.matches (first_tags L e) m = true -> In (Explicit e) l).
Proof.
  intros G Hv Hm. destruct (out_edges_total L v m Hv) as [L' [l E]]. exists L', l. split; [assumption|].
  destruct (out_edges_query v m Hm _ _ _ G E) as [G' K]; [discriminate|]. split; [assumption|]. split; [assumption|].
  destruct (out_selection L v m L' l G Hm E) as [all [Ha S]]. destruct (all_out_spec L v all G Ha) as [_ Hall]. split.
  - intros d Hd. pose proof (s_sound _ _ _ _ S d Hd) as Hs. destruct (s_part _ _ _ _ S) as [sel ->]. apply filter_In in Hd as [Hd _].
    apply Hall in Hd as [H1 H2]. auto.
  - intros e ed He Hev Hf. apply (s_complete _ _ _ _ S).
    + apply Hall. cbn. rewrite He, Hev. split; [apply nth_error_Some; congruence|reflexivity].
    + now rewrite made_with_explicit.
    + discriminate.
Qed.
Lemma boundary_valid L p : boundary (M_Lattice.text L) p -> valid L (Text p) = true.
Proof. intros H. cbn. apply Nat.leb_le. apply boundary_wf in H. tauto. Qed.
Lemma boundary_text L L' p : M_Lattice.text L' = M_Lattice.text L -> boundary (M_Lattice.text L) p -> boundary (M_Lattice.text L') p.
Proof. now intros ->. Qed.

(** The first blank of a list of edges. *)
Lemma first_blank_spec L ds : (forall d, In d ds -> is_edge L d /\ M_Tags.matches (edge_tags L d) token_mask = true) ->
  exists o, first_blank L ds = Ok o /\
    (forall d, o = Some d -> In d ds /\ exists e ed, d = Explicit e /\ nth_error (edges L) e = Some ed /\
       M_Tags.matches (e_tags ed) token_mask = true /\ M_Items.category (e_item ed) = B) /\
    (o = None -> forall e ed, In (Explicit e) ds -> nth_error (edges L) e = Some ed -> M_Items.category (e_item ed) <> B).
Proof.
  induction ds as [|d ds IH]; intros H; cbn [first_blank].
  - exists None. split; [reflexivity|]. split; [discriminate|]. intros _ e ed [].
  - destruct (H d (or_introl eq_refl)) as [H1 H2]. unfold is_blank. rewrite H2. destruct d as [p|e]; [discriminate|].
    cbn in H1. cbn [annotation_item]. destruct (nth_error (edges L) e) as [ed|] eqn:He; [|apply nth_error_None in He; lia].
    destruct (M_Items.str_eqb (M_Items.category (e_item ed)) B) eqn:Ec.
    + exists (Some (Explicit e)). split; [reflexivity|]. split; [|discriminate]. intros d [= <-]. split; [now left|]. exists e, ed.
      split; [reflexivity|]. split; [assumption|]. cbn in H2. rewrite He in H2. split; [assumption|].
      unfold M_Items.str_eqb in Ec. now destruct (list_eq_dec Z.eq_dec _ B).
    + destruct IH as [o [E1 [E2 E3]]]; [intros d Hd; apply H; now right|]. exists o. split; [assumption|]. split.
      * intros d Hd. destruct (E2 d Hd) as [K1 K2]. split; [now right|assumption].
      * intros Ho e' ed' [[= <-]|Hi] Hn; [|eauto]. rewrite He in Hn. injection Hn as <-. intros Hb. rewrite Hb in Ec. discriminate.
Qed.
Lemma core_blank L L' u v : core L L' -> blank L' u v <-> blank L u v.
Proof. intros K. unfold blank. now rewrite (c_edges _ _ K). Qed.
Lemma core_gap L L' u v : core L L' -> gap L' u v -> gap L u v.
Proof. intros K. induction 1 as [v|u v w H IH Hb]; [constructor|]. econstructor; [exact IH|]. now apply (core_blank L L'). Qed.
Lemma core_settled L L' m : core L L' -> settled L m -> settled L' m.
Proof. intros K S e ed. unfold first_tags. rewrite (c_edges _ _ K). intros H1 H2. specialize (S e ed H1 H2). unfold first_tags in S. now rewrite H1 in *. Qed.
Lemma core_tidy L L' : tidy L -> core L L' -> tidy L'.
Proof.
  intros T C. split; rewrite ?(c_text _ _ C), ?(c_implicit _ _ C), ?(c_edges _ _ C); try apply T.
  intros e ed H. destruct (t_edges _ T _ _ H). split; (apply (place_text L); [apply C|assumption]).
Qed.

Lemma source_skip_spec n : forall L e ed p, good L -> tidy L -> n_loose L = 0 -> nth_error (edges L) e = Some ed -> e_from ed = Text p -> p < n ->
  exists L' u, source_skip n (Explicit e) L = (L', Ok u) /\ good L' /\ core L L' /\ gap L u (Text p) /\
    (settled L token_mask -> forall x, ~ blank L x u).
Proof.
  induction n as [|n IH]; intros L e ed p G T H0 He Hp Hn; [lia|]. cbn [source_skip]. unfold bind at 1, ask at 1. cbn [source].
  destruct (edge_span _ _ _ G T H0 He) as [p' [q [E1 [E2 [Hpq [B1 B2]]]]]]. rewrite Hp in E1. injection E1 as <-.
  rewrite He, Hp. unfold bind at 1.
  destruct (in_query L (Text p) token_mask G T (boundary_valid _ _ B1) B1 token_made) as [L1 [ds [E [G1 [K1 [Q1 Q2]]]]]]. rewrite E.
  unfold bind at 1, ask at 1.
  destruct (first_blank_spec L1 ds) as [o [F1 [F2 F3]]].
  { intros d Hd. destruct (Q1 d Hd) as [D1 [D2 D3]]. split.
    - destruct d as [x|x]; cbn in *; [now rewrite (c_implicit _ _ K1)|now rewrite (c_edges _ _ K1)].
    - destruct d as [x|x]; cbn [edge_tags] in *; [assumption|now rewrite (c_edges _ _ K1)]. }
  rewrite F1. destruct o as [d|].
  - destruct (F2 d eq_refl) as [Hd [e' [ed' [-> [He' [Hm Hc]]]]]]. rewrite (c_edges _ _ K1) in He'.
    destruct (edge_span _ _ _ G T H0 He') as [p2 [q2 [F4 [F5 [F6 _]]]]].
    destruct (Q1 _ Hd) as [_ [D2 _]]. cbn in D2. rewrite He' in D2. injection D2 as D2. rewrite F5 in D2. injection D2 as ->.
    destruct (IH L1 e' ed' p2) as [L2 [u [E' [G2 [K2 [Hg Hs]]]]]]; try assumption.
    { now apply (core_tidy L). } { rewrite (c_loose _ _ K1). exact H0. } { now rewrite (c_edges _ _ K1). } { lia. }
    exists L2, u. split; [exact E'|]. split; [assumption|]. split; [eapply core_trans; eassumption|]. split.
    + eapply G_more; [apply (core_gap _ _ _ _ K1); exact Hg|]. exists e', ed'. auto.
    + intros S x Hx. apply (Hs (core_settled _ _ _ K1 S) x). now apply (core_blank L L1).
  - exists L1, (Text p). split; [reflexivity|]. split; [assumption|]. split; [assumption|]. split; [constructor|].
    intros S x [e' [ed' [X1 [X2 [X3 [X4 X5]]]]]]. apply (F3 eq_refl e' ed'); [|now rewrite (c_edges _ _ K1)|assumption].
    eapply Q2; [exact X1|exact X3|]. eapply S; eassumption.
Qed.
Lemma target_skip_spec L e ed q : good L -> tidy L -> n_loose L = 0 -> nth_error (edges L) e = Some ed -> e_to ed = Text q ->
  exists L' u, target_skip (Explicit e) L = (L', Ok u) /\ good L' /\ core L L' /\
    (blank L (Text q) u \/ u = Text q /\ (settled L token_mask -> forall x, ~ blank L (Text q) x)).
Proof.
  intros G T H0 He Hq. unfold target_skip. unfold bind at 1, ask at 1. cbn [target].
  destruct (edge_span _ _ _ G T H0 He) as [p' [q' [E1 [E2 [Hpq [B1 B2]]]]]]. rewrite Hq in E2. injection E2 as <-.
  rewrite He, Hq. unfold bind at 1.
  destruct (out_query L (Text q) token_mask G (boundary_valid _ _ B2) token_made) as [L1 [ds [E [G1 [K1 [Q1 Q2]]]]]]. rewrite E.
  unfold bind at 1, ask at 1.
  destruct (first_blank_spec L1 ds) as [o [F1 [F2 F3]]].
  { intros d Hd. destruct (Q1 d Hd) as [D1 [D2 D3]]. split.
    - destruct d as [x|x]; cbn in *; [now rewrite (c_implicit _ _ K1)|now rewrite (c_edges _ _ K1)].
    - destruct d as [x|x]; cbn [edge_tags] in *; [assumption|now rewrite (c_edges _ _ K1)]. }
  rewrite F1. destruct o as [d|].
  - destruct (F2 d eq_refl) as [Hd [e' [ed' [-> [He' [Hm Hc]]]]]]. rewrite (c_edges _ _ K1) in He'.
    destruct (Q1 _ Hd) as [_ [D2 _]]. cbn in D2. rewrite He' in D2. injection D2 as D2.
    exists L1, (e_to ed'). unfold ask. cbn [target]. rewrite (c_edges _ _ K1), He'. split; [reflexivity|]. split; [assumption|]. split; [assumption|]. left. exists e', ed'. auto.
  - exists L1, (Text q). split; [reflexivity|]. split; [assumption|]. split; [assumption|]. right. split; [reflexivity|].
    intros S x [e' [ed' [X1 [X2 [X3 [X4 X5]]]]]]. apply (F3 eq_refl e' ed'); [|now rewrite (c_edges _ _ K1)|assumption].
    eapply Q2; [exact X1|exact X2|]. eapply S; eassumption.
Qed.

(** * The parser on a lattice *)
Section Run.
Context {C : Type}.
Variable ch : chart.
Variable to_item : C -> item.
Variable of_item : item -> C.
Variable lemma : lattice -> desc -> option str.
Variable combine_unary : C -> list (found C).
Variable combine_binary : C -> C -> list (found C).
Variable useful : C -> bool.
Variable is_allowed : Z -> Z -> bool.
Variable plus : score -> score -> score.
Variable L0 : lattice.
(** An edge and what its category is read as. *)
Definition reads (L : lattice) (e : nat) (u v : vertex) (c : C) : Prop :=
  exists ed, nth_error (edges L) e = Some ed /\ e_from ed = u /\ e_to ed = v /\
    c = of_item (shown lemma ch L (Explicit e) (e_item ed)).
Record setting : Prop := {
  se_good : good L0;
  se_tidy : tidy L0;
  se_fits : fits ch L0;
  se_loose : n_loose L0 = 0;
  se_quoted : apart ch L0 (quoted ch);
  se_token : apart ch L0 token_mask;
  se_form : apart ch L0 (M_Tags.mask_of [form_tag ch]);
  se_lemma : forall L' e ed, nth_error (edges L0) e = Some ed -> M_Tags.subset (form_tag ch) (e_tags ed) = true -> grows L0 L' ->
    lemma L' (Explicit e) = lemma L0 (Explicit e);
  se_same : forall i j, M_Items.item_eqb i j = true -> of_item i = of_item j;
  se_back : forall c, of_item (to_item c) = c
}.
Hypothesis S0 : setting.

Lemma form_matches t : M_Tags.matches t (M_Tags.mask_of [form_tag ch]) = M_Tags.subset (form_tag ch) t.
Proof. unfold M_Tags.matches, M_Tags.mask_of. cbn [M_Tags.none M_Tags.any M_Tags.alts existsb]. apply orb_false_r. Qed.
Lemma mask_frame m L L' e ed ed' : apart ch L0 m -> frame ch L L' -> nth_error (edges L) e = Some ed -> nth_error (edges L') e = Some ed' ->
  M_Tags.matches (e_tags ed') m = M_Tags.matches (e_tags ed) m.
Proof.
  intros A F H H'. destruct (f_edges _ _ _ F _ _ H) as [x [Hx [X1 X2]]]. rewrite H' in Hx. injection Hx as <-.
  apply (apart_same ch L0); [assumption|apply X1|assumption].
Qed.
Lemma mask_new m L e ed : apart ch L0 m -> frame ch L0 L -> nth_error (edges L) e = Some ed -> length (edges L0) <= e ->
  M_Tags.matches (e_tags ed) m = false.
Proof. intros A F H Hl. apply (apart_new ch L0); [assumption|]. now apply (f_new _ _ _ F e ed). Qed.

Lemma reads_new L e ed : frame ch L0 L -> length (edges L0) <= e -> nth_error (edges L) e = Some ed ->
  reads L e (e_from ed) (e_to ed) (of_item (e_item ed)).
Proof.
  intros F Hl H. exists ed. split; [assumption|]. split; [reflexivity|]. split; [reflexivity|]. unfold shown. cbn [edge_tags]. rewrite H.
  rewrite (mask_new _ L e ed (se_quoted S0) F H Hl). rewrite <- form_matches, (mask_new _ L e ed (se_form S0) F H Hl). reflexivity.
Qed.
Lemma reads_frame L L' e u v c : frame ch L0 L -> frame ch L L' -> reads L e u v c -> reads L' e u v c.
Proof.
  intros F F' [ed [H [<- [<- ->]]]]. destruct (f_edges _ _ _ F' _ _ H) as [ed' [H' [X _]]]. exists ed'. split; [assumption|].
  split; [apply X|]. split; [apply X|]. rewrite (x_item _ _ X). unfold shown. cbn [edge_tags]. rewrite H, H'.
  rewrite (mask_frame _ L L' e ed ed' (se_quoted S0) F' H H'). destruct (M_Tags.matches (e_tags ed) (quoted ch)); [reflexivity|].
  rewrite <- !form_matches, (mask_frame _ L L' e ed ed' (se_form S0) F' H H'), form_matches.
  destruct (M_Tags.subset (form_tag ch) (e_tags ed)) eqn:Ef; [|reflexivity].
  destruct (nth_error (edges L0) e) as [ed0|] eqn:H0.
  - pose proof (mask_frame _ L0 L e ed0 ed (se_form S0) F H0 H) as Hm. rewrite !form_matches, Ef in Hm. symmetry in Hm.
    rewrite (se_lemma S0 L' e ed0 H0 Hm), (se_lemma S0 L e ed0 H0 Hm); [reflexivity|apply F|].
    eapply grows_trans; [apply F|apply F'].
  - apply nth_error_None in H0. pose proof (mask_new _ L e ed (se_form S0) F H H0) as Hm. rewrite form_matches in Hm. congruence.
Qed.
Lemma reads_fun L e u v c u' v' c' : reads L e u v c -> reads L e u' v' c' -> u = u' /\ v = v' /\ c = c'.
Proof. intros [ed [H [<- [<- ->]]]] [ed' [H' [<- [<- ->]]]]. rewrite H in H'. injection H' as <-. auto. Qed.
Lemma reads_core L L' e u v c : frame ch L0 L -> good L -> tidy L -> core L L' -> good L' -> reads L e u v c -> reads L' e u v c.
Proof. intros F G T K G'. apply reads_frame; [assumption|now apply frame_core]. Qed.
Lemma blank_frame L u v : frame ch L0 L -> blank L u v <-> blank L0 u v.
Proof.
  intros F. split.
  - intros [e [ed [H [H1 [H2 [H3 H4]]]]]]. destruct (nth_error (edges L0) e) as [ed0|] eqn:H0.
    + destruct (f_edges _ _ _ F _ _ H0) as [x [Hx [X _]]]. rewrite H in Hx. injection Hx as <-. exists e, ed0. split; [assumption|].
      rewrite <- (x_from _ _ X), <- (x_to _ _ X), <- (x_item _ _ X). split; [assumption|]. split; [assumption|]. split; [|assumption].
      now rewrite <- (mask_frame _ L0 L e ed0 ed (se_token S0) F H0 H).
    + apply nth_error_None in H0. rewrite (mask_new _ L e ed (se_token S0) F H H0) in H3. discriminate.
  - intros [e [ed [H [<- [<- [H3 H4]]]]]]. destruct (f_edges _ _ _ F _ _ H) as [ed' [H' [X _]]]. exists e, ed'. split; [assumption|].
    rewrite (x_from _ _ X), (x_to _ _ X), (x_item _ _ X). split; [reflexivity|]. split; [reflexivity|]. split; [|assumption].
    now rewrite (mask_frame _ L0 L e ed ed' (se_token S0) F H H').
Qed.
Lemma gap_frame L u v : frame ch L0 L -> gap L u v -> gap L0 u v.
Proof. intros F. induction 1 as [v|u v w H IH Hb]; [constructor|]. econstructor; [exact IH|]. now apply (blank_frame L). Qed.
Lemma first_tags_grows L L' e ed : good L -> nth_error (edges L) e = Some ed -> grows L L' -> first_tags L' e = first_tags L e.
Proof.
  intros G H W. destruct (w_edges _ _ W _ _ H) as [ed' [H' X]]. unfold first_tags. rewrite H, H'. destruct (x_partitions _ _ X) as [ps ->].
  destruct (g_first _ G _ _ H) as [p [ps' [-> _]]]. reflexivity.
Qed.
Lemma settled_frame L m : apart ch L0 m -> frame ch L0 L -> settled L0 m -> settled L m.
Proof.
  intros A F S e ed H Hm. destruct (nth_error (edges L0) e) as [ed0|] eqn:H0.
  - rewrite (first_tags_grows L0 L e ed0 (se_good S0) H0 (f_grows _ _ _ F)). apply (S e ed0 H0). now rewrite <- (mask_frame _ L0 L e ed0 ed A F H0 H).
  - apply nth_error_None in H0. rewrite (mask_new _ L e ed A F H H0) in Hm. discriminate.
Qed.
Lemma frame_span L e u v c : frame ch L0 L -> reads L e u v c ->
  exists p q, u = Text p /\ v = Text q /\ p < q /\ boundary (M_Lattice.text L) p /\ boundary (M_Lattice.text L) q.
Proof.
  intros F [ed [H [<- [<- _]]]]. apply (edge_span L e ed); try apply F; try assumption. rewrite (f_loose _ _ _ F). apply S0.
Qed.
Lemma blank_forth u v : blank L0 u v -> exists p q, u = Text p /\ v = Text q /\ p < q.
Proof.
  intros [e [ed [H [<- [<- _]]]]]. destruct (edge_span L0 e ed) as [p [q [E1 [E2 [E3 _]]]]]; try apply S0; try assumption. eauto.
Qed.
Lemma gap_forth u v : gap L0 u v -> forall q, v = Text q -> exists p, u = Text p /\ p <= q.
Proof.
  induction 1 as [v|u v w H IH Hb]; intros q ->; [eauto|]. destruct (blank_forth _ _ Hb) as [p [q' [-> [[= <-] Hp]]]].
  destruct (IH p eq_refl) as [p' [-> Hp']]. exists p'. split; [reflexivity|lia].
Qed.

(** ** The calls of a turn *)
Notation category_of := (edge_category of_item lemma ch).
Lemma category_spec L e u v c : reads L e u v c -> category_of (Explicit e) L = (L, Ok c).
Proof. intros [ed [H [_ [_ ->]]]]. unfold edge_category, ask. cbn [annotation_item]. now rewrite H. Qed.
Lemma source_spec L e u v c : reads L e u v c -> source L (Explicit e) = Ok u.
Proof. intros [ed [H [<- _]]]. cbn. now rewrite H. Qed.
Lemma target_spec L e u v c : reads L e u v c -> target L (Explicit e) = Ok v.
Proof. intros [ed [H [_ [<- _]]]]. cbn. now rewrite H. Qed.

(** The categories in question. *)
Variable P : vertex -> vertex -> C -> Prop.
Hypothesis P_unary : forall u v c r, P u v c -> In r (combine_unary c) -> P u v (r_category r).
Hypothesis P_binary : forall u v w x b c r, P u v b -> gap L0 v w -> P w x c -> In r (combine_binary b c) -> P u x (r_category r).
(** The edges a rule has been applied to. *)
Inductive applied (L : lattice) : vertex -> vertex -> found C -> list nat -> Prop :=
  | A_unary e u v c r : reads L e u v c -> P u v c -> In r (combine_unary c) -> applied L u v r [e]
  | A_binary e f u v w x b c r : reads L e u v b -> P u v b -> gap L0 v w -> reads L f w x c -> P w x c -> In r (combine_binary b c) ->
      applied L u x r [e; f].
Definition framed (L : lattice) (u v : vertex) (r : found C) (es : list nat) : Prop := frame ch L0 L /\ applied L u v r es.
Lemma framed_mono L L' u v r es : frame ch L L' -> framed L u v r es -> framed L' u v r es.
Proof.
  intros F' [F A]. split; [eapply frame_trans; eassumption|]. destruct A as [e u v c r R K I|e f u v w x b c r R1 K1 G R2 K2 I].
  - eapply A_unary; [eapply reads_frame; eassumption|assumption|assumption].
  - eapply A_binary; [eapply reads_frame; eassumption|assumption|eassumption|eapply reads_frame; eassumption|assumption|assumption].
Qed.
Lemma applied_P L u v r es : applied L u v r es -> P u v (r_category r).
Proof. intros [e a b c r' R K I|e f a b w x k c r' R1 K1 G R2 K2 I]; [now apply (P_unary _ _ c)|now apply (P_binary _ b w _ k c)]. Qed.

Notation stp := (step ch to_item framed).
(** What a call does that may add edges and gives the new ones. *)
Definition pushes (m : act (list desc)) (L : lattice) (Q : lattice -> Prop) : Prop :=
  exists L', m L = (L', Ok (fresh L L')) /\ stp L L' /\ Q L'.
Definition freely : Prop := forall a b, is_allowed a b = true.
Lemma freely_limited L u v : freely -> limited is_allowed L u v = false.
Proof. intros H. destruct u, v; cbn; try reflexivity. now rewrite H. Qed.

Lemma add_all_spec rs : forall L p q sc es, frame ch L0 L -> boundary (M_Lattice.text L) p -> boundary (M_Lattice.text L) q -> p < q -> es <> [] ->
  (forall r, In r rs -> framed L (Text p) (Text q) r es) ->
  pushes (add_all to_item is_allowed plus ch (Text p) (Text q) sc (map Explicit es) rs) L
    (fun L' => freely -> forall r, In r rs -> present to_item L' (Text p) (Text q) (r_category r)).
Proof.
  induction rs as [|r rs IH]; intros L p q sc es F B1 B2 Hpq Hes HP.
  - exists L. cbn [add_all]. unfold ret. split; [|split; [apply (step_refl _ _ _ framed_mono); apply F|intros _ r []]].
    rewrite fresh_core by apply core_refl. reflexivity.
  - unfold pushes. cbn [add_all]. unfold bind.
    assert (FL : fits ch L) by (apply (fits_tags ch L0); [apply F|apply S0]).
    destruct (chart_add to_item is_allowed ch (Text p) (Text q) r (plus sc (r_score r)) (map Explicit es) L) as [L1 x] eqn:E.
    destruct (chart_add_spec ch to_item framed framed_mono is_allowed L p q r _ es L1 x (f_good _ _ _ F) (f_tidy _ _ _ F) FL B1 B2 Hpq Hes (HP r (or_introl eq_refl)) E) as [St [[o [-> Ho]] Pr]].
    destruct (IH L1 p q sc es) as [L2 [E2 [St2 Q2]]]; try assumption.
    { eapply frame_trans; [exact F|apply St]. }
    { eapply boundary_text; [apply St|assumption]. } { eapply boundary_text; [apply St|assumption]. }
    { intros r' Hr. apply (framed_mono L); [apply St|]. apply HP. now right. }
    exists L2. unfold bind, ret. rewrite E2. split.
    + do 2 f_equal. rewrite Ho. symmetry. apply (fresh_trans ch); [apply St|apply St2].
    + split.
      * eapply step_trans; [exact framed_mono|exact St|exact St2].
      * intros Fr r' [<-|Hr]; [|now apply Q2]. apply (present_frame ch to_item L1); [apply St2|]. apply Pr. now apply freely_limited.
Qed.
Lemma apply_unary_spec L e u v c : frame ch L0 L -> reads L e u v c -> P u v c ->
  pushes (apply_unary to_item of_item lemma combine_unary is_allowed plus ch (Explicit e)) L
    (fun L' => freely -> forall r, In r (combine_unary c) -> present to_item L' u v (r_category r)).
Proof.
  intros F R HP. destruct (frame_span _ _ _ _ _ F R) as [p [q [-> [-> [Hpq [B1 B2]]]]]].
  assert (HP' : forall r, In r (combine_unary c) -> framed L (Text p) (Text q) r [e]) by (intros r Hr; split; [assumption|]; eapply A_unary; eassumption).
  unfold pushes, apply_unary, bind, ask. rewrite (source_spec _ _ _ _ _ R), (target_spec _ _ _ _ _ R), (category_spec _ _ _ _ _ R).
  exact (add_all_spec (combine_unary c) L p q (edge_score L (Explicit e)) [e] F B1 B2 Hpq ltac:(discriminate) HP').
Qed.
Lemma apply_pair_spec m L e f u v w x b c : frame ch L0 L -> reads L e u v b -> reads L f w x c -> gap L0 v w -> P u v b -> P w x c ->
  pushes (apply_pair to_item of_item lemma combine_binary is_allowed plus ch m (Explicit e) (Explicit f)) L
    (fun L' => freely -> m = None -> forall r, In r (combine_binary b c) -> present to_item L' u x (r_category r)).
Proof.
  intros F R1 R2 Hg PB PC. unfold pushes, apply_pair. destruct (below (edge_score L (Explicit e)) m || below (edge_score L (Explicit f)) m) eqn:Eb.
  { exists L. split; [rewrite fresh_core by apply core_refl; reflexivity|]. split; [apply (step_refl _ _ _ framed_mono); apply F|]. intros _ ->. discriminate. }
  unfold bind at 1. rewrite (category_spec _ _ _ _ _ R1). unfold bind at 1. rewrite (category_spec _ _ _ _ _ R2).
  destruct (combine_binary b c) as [|r rs] eqn:Er.
  { exists L. split; [rewrite fresh_core by apply core_refl; reflexivity|]. split; [apply (step_refl _ _ _ framed_mono); apply F|]. intros _ _ r []. }
  destruct (frame_span _ _ _ _ _ F R1) as [p1 [q1 [-> [-> [Hpq1 [B1 B1']]]]]]. destruct (frame_span _ _ _ _ _ F R2) as [p2 [q2 [-> [-> [Hpq2 [B2 B2']]]]]].
  destruct (gap_forth _ _ Hg p2 eq_refl) as [z [[= <-] Hz]].
  assert (HP : forall r', In r' (r :: rs) -> framed L (Text p1) (Text q2) r' [e; f]).
  { intros r' Hr. split; [assumption|]. rewrite <- Er in Hr. eapply A_binary; eassumption. }
  unfold bind, ask. rewrite (source_spec _ _ _ _ _ R1), (target_spec _ _ _ _ _ R2).
  destruct (add_all_spec (r :: rs) L p1 q2 (plus (edge_score L (Explicit e)) (edge_score L (Explicit f))) [e; f] F B1 B2' ltac:(lia) ltac:(discriminate) HP)
    as [L' [E [St Q]]].
  exists L'. split; [exact E|]. split; [assumption|]. intros Fr _. now apply Q.
Qed.
Lemma apply_pairs_spec m ps : forall L, frame ch L0 L ->
  (forall e f, In (e, f) ps -> exists x y u v w z b c, e = Explicit x /\ f = Explicit y /\ reads L x u v b /\ reads L y w z c /\ gap L0 v w /\
     P u v b /\ P w z c) ->
  pushes (apply_pairs to_item of_item lemma combine_binary is_allowed plus ch m ps) L
    (fun L' => freely -> m = None -> forall x y u v w z b c r, In (Explicit x, Explicit y) ps -> reads L x u v b -> reads L y w z c ->
       In r (combine_binary b c) -> present to_item L' u z (r_category r)).
Proof.
  induction ps as [|[e f] ps IH]; intros L F H.
  - exists L. cbn [apply_pairs]. unfold ret. split; [rewrite fresh_core by apply core_refl; reflexivity|]. split; [apply (step_refl _ _ _ framed_mono); apply F|].
    intros _ _ x y u v w z b c r [].
  - destruct (H e f (or_introl eq_refl)) as [x [y [u [v [w [z [b [c [-> [-> [R1 [R2 [Hg [PB PC]]]]]]]]]]]]]].
    destruct (apply_pair_spec m L x y u v w z b c F R1 R2 Hg PB PC) as [L1 [E1 [St1 Q1]]].
    assert (F1 : frame ch L0 L1) by (eapply frame_trans; [exact F|apply St1]).
    destruct (IH L1 F1) as [L2 [E2 [St2 Q2]]].
    { intros e f Hi. destruct (H e f (or_intror Hi)) as [x' [y' [u' [v' [w' [z' [b' [c' [-> [-> [R1' [R2' [Hg' [PB' PC']]]]]]]]]]]]]].
      exists x', y', u', v', w', z', b', c'. split; [reflexivity|]. split; [reflexivity|].
      split; [eapply reads_frame; [exact F|apply St1|exact R1']|]. split; [eapply reads_frame; [exact F|apply St1|exact R2']|]. auto. }
    exists L2. cbn [apply_pairs]. unfold bind, ret. rewrite E1, E2. split.
    + do 2 f_equal. symmetry. apply (fresh_trans ch); [apply St1|apply St2].
    + split; [eapply step_trans; [exact framed_mono|eassumption|eassumption]|]. intros Fr Hm x' y' u' v' w' z' b' c' r [[= <- <-]|Hi] R1' R2' Hr.
      * destruct (reads_fun _ _ _ _ _ _ _ _ R1 R1') as [<- [_ <-]]. destruct (reads_fun _ _ _ _ _ _ _ _ R2 R2') as [_ [<- <-]].
        apply (present_frame ch to_item L1); [apply St2|]. now apply Q1.
      * eapply Q2; [assumption|assumption|exact Hi| | |exact Hr]; eapply reads_frame; try exact F; try apply St1; eassumption.
Qed.

(** ** A turn *)
Definition known (L : lattice) (d : desc) (u v : vertex) : Prop := exists e c, d = Explicit e /\ reads L e u v c /\ P u v c.
Lemma known_frame L L' d u v : frame ch L0 L -> frame ch L L' -> known L d u v -> known L' d u v.
Proof. intros F F' [e [c [-> [R K]]]]. exists e, c. split; [reflexivity|]. split; [now apply (reads_frame L)|assumption]. Qed.
Lemma marked_in_spec v ms d : In d (marked_in v ms) <-> exists u, In (d, u, v) ms.
Proof.
  unfold marked_in. rewrite in_map_iff. split.
  - intros [[[x a] b] [<- H]]. apply filter_In in H as [H E]. cbn in *. apply vertex_eqb_spec in E. subst b. eauto.
  - intros [u H]. exists (d, u, v). split; [reflexivity|]. apply filter_In. split; [assumption|]. now apply vertex_eqb_spec.
Qed.
Lemma marked_out_spec u ms d : In d (marked_out u ms) <-> exists v, In (d, u, v) ms.
Proof.
  unfold marked_out. rewrite in_map_iff. split.
  - intros [[[x a] b] [<- H]]. apply filter_In in H as [H E]. cbn in *. apply vertex_eqb_spec in E. subst a. eauto.
  - intros [v H]. exists (d, u, v). split; [reflexivity|]. apply filter_In. split; [assumption|]. now apply vertex_eqb_spec.
Qed.
Lemma pushes_core m L L1 (Q : lattice -> Prop) a : frame ch L0 L -> core L L1 -> good L1 -> a L = m L1 -> pushes m L1 Q -> pushes a L Q.
Proof.
  intros F K G1 E [L' [E' [St HQ]]]. exists L'. rewrite E, E'. split; [|split; [|assumption]].
  - do 2 f_equal. unfold fresh. now rewrite (c_edges _ _ K).
  - eapply step_trans; [exact framed_mono| |exact St]. apply (step_core _ _ _ framed_mono); try apply F; assumption.
Qed.
Lemma apply_binary_spec m L e u v c ms : frame ch L0 L -> reads L e u v c -> P u v c -> (forall d a b, In (d, a, b) ms -> known L d a b) ->
  pushes (apply_binary to_item of_item lemma combine_binary is_allowed plus ch m (Explicit e) ms) L (fun L' => freely -> m = None -> settled L0 token_mask ->
    exists s t, gap L0 s u /\ (forall x, ~ blank L0 x s) /\ (blank L0 v t \/ t = v /\ forall x, ~ blank L0 v x) /\
      (forall e' a b r, In (Explicit e', a, s) ms -> reads L e' a s b -> In r (combine_binary b c) -> present to_item L' a v (r_category r)) /\
      (forall e' a b r, In (Explicit e', t, a) ms -> reads L e' t a b -> In r (combine_binary c b) -> present to_item L' u a (r_category r))).
Proof.
  intros F R Pe Hms. destruct (frame_span _ _ _ _ _ F R) as [p [q [-> [-> [Hpq [B1 B2]]]]]].
  assert (Hn : p < S (length (M_Lattice.text L) + n_loose L)) by (apply boundary_wf in B1; lia).
  pose proof R as [ed [He [Hf [Ht _]]]].
  assert (HL : n_loose L = 0) by (rewrite (f_loose _ _ _ F); apply S0).
  destruct (source_skip_spec _ L e ed p (f_good _ _ _ F) (f_tidy _ _ _ F) HL He Hf Hn) as [L1 [s [E1 [G1 [K1 [Hg Hs]]]]]].
  assert (F1 : frame ch L0 L1) by (eapply frame_trans; [exact F|apply frame_core; try apply F; assumption]).
  assert (FL1 : frame ch L L1) by (apply frame_core; try apply F; assumption).
  assert (Hms1 : forall d a b, In (d, a, b) ms -> known L1 d a b) by (intros d a b Hd; apply (known_frame L); auto).
  assert (R1 : reads L1 e (Text p) (Text q) c) by now apply (reads_frame L).
  unfold apply_binary.
  eapply pushes_core with (L1 := L1); [exact F|exact K1|exact G1|unfold bind at 1; rewrite E1; reflexivity|].
  destruct (apply_pairs_spec m (map (fun d => (d, Explicit e)) (marked_in s ms)) L1 F1) as [L2 [E2 [St2 Q2]]].
  { intros x y Hx. apply in_map_iff in Hx as [d [[= <- <-] Hd]]. apply marked_in_spec in Hd as [a Ha]. destruct (Hms1 _ _ _ Ha) as [e' [b [-> [Rb Pb]]]].
    exists e', e, a, s, (Text p), (Text q), b, c. split; [reflexivity|]. split; [reflexivity|]. split; [assumption|]. split; [assumption|].
    assert (Hg0 : gap L0 s (Text p)) by now apply (gap_frame L). auto. }
  assert (F2 : frame ch L0 L2) by (eapply frame_trans; [exact F1|apply St2]).
  assert (R2 : reads L2 e (Text p) (Text q) c) by (eapply reads_frame; [exact F1|apply St2|exact R1]).
  pose proof R2 as [ed2 [He2 [_ [Ht2 _]]]].
  assert (HL2 : n_loose L2 = 0) by (rewrite (f_loose _ _ _ F2); apply S0).
  destruct (target_skip_spec L2 e ed2 q (f_good _ _ _ F2) (f_tidy _ _ _ F2) HL2 He2 Ht2) as [L3 [t [E3 [G3 [K3 Htt]]]]].
  assert (FL3 : frame ch L2 L3) by (apply frame_core; try apply F2; assumption).
  assert (F3 : frame ch L0 L3) by (eapply frame_trans; [exact F2|exact FL3]).
  assert (Hgt : gap L0 (Text q) t).
  { destruct Htt as [Hb|[-> _]]; [|constructor]. eapply G_more; [constructor|]. now apply (blank_frame L2). }
  destruct (apply_pairs_spec m (map (fun d => (Explicit e, d)) (marked_out t ms)) L3 F3) as [L4 [E4 [St4 Q4]]].
  { intros x y Hx. apply in_map_iff in Hx as [d [[= <- <-] Hd]]. apply marked_out_spec in Hd as [a Ha]. destruct (Hms1 _ _ _ Ha) as [e' [b [-> [Rb Pb]]]].
    exists e, e', (Text p), (Text q), t, a, c, b. split; [reflexivity|]. split; [reflexivity|]. split; [apply (reads_frame L2); assumption|].
    split; [apply (reads_frame L2); [assumption|assumption|]; eapply reads_frame; [exact F1|apply St2|exact Rb]|]. auto. }
  exists L4. unfold bind, ret. rewrite E2, E3, E4. split; [|split].
  - do 2 f_equal. assert (fresh L3 L4 = fresh L2 L4) as -> by (unfold fresh; now rewrite (c_edges _ _ K3)).
    symmetry. apply (fresh_trans ch); [apply St2|]. eapply frame_trans; [exact FL3|apply St4].
  - eapply step_trans; [exact framed_mono|exact St2|]. eapply step_trans; [exact framed_mono| |exact St4]. apply (step_core _ _ _ framed_mono); try apply F2; assumption.
  - intros Fr Hm Set0. exists s, t. split; [now apply (gap_frame L)|].
    split; [|split; [|split]].
    + intros x Hx. apply (Hs (settled_frame L _ (se_token S0) F Set0) x). now apply (blank_frame L).
    + destruct Htt as [Hb|[-> Hb]]; [left; now apply (blank_frame L2)|right]. split; [reflexivity|]. intros x Hx.
      apply (Hb (settled_frame L2 _ (se_token S0) F2 Set0) x). now apply (blank_frame L2).
    + intros e' a b r Hi Rb Hr. apply (present_frame ch to_item L2); [eapply frame_trans; [exact FL3|apply St4]|].
      eapply Q2; [assumption|assumption| | |exact R1|exact Hr].
      * apply (in_map (fun d => (d, Explicit e))). apply marked_in_spec. eauto.
      * apply (reads_frame L); eassumption.
    + intros e' a b r Hi Rb Hr. eapply Q4; [assumption|assumption| | | |exact Hr].
      * apply (in_map (fun d => (Explicit e, d))). apply marked_out_spec. eauto.
      * apply (reads_frame L2); eassumption.
      * apply (reads_frame L2); try assumption. eapply reads_frame; [exact F1|apply St2|]. apply (reads_frame L); eassumption.
Qed.

(** ** The loop *)
Variable choose : nat -> nat.
Lemma take_at_spec {A} (l : list A) : forall i d, i < length l ->
  length l = S (length (take_at i l)) /\ In (nth i l d) l /\ forall x, In x l <-> x = nth i l d \/ In x (take_at i l).
Proof.
  unfold take_at. induction l as [|a l IH]; intros i d Hi; [cbn in Hi; lia|]. destruct i as [|i].
  - cbn. split; [reflexivity|]. split; [auto|]. intros x. split; intros [H|H]; auto.
  - cbn [firstn skipn nth app length]. cbn in Hi. destruct (IH i d) as [H1 [H2 H3]]; [lia|]. split; [now rewrite H1|]. split; [now right|].
    intros x. cbn [In]. rewrite H3. tauto.
Qed.
Record inv (L : lattice) (agenda : list desc) (ms : list mark) : Prop := {
  i_step : stp L0 L;
  i_agenda : forall d, In d agenda -> exists u v, known L d u v;
  i_marks : forall d u v, In (d, u, v) ms -> known L d u v
}.
(** No rule has the category. *)
Definition inert (c : C) : Prop := combine_unary c = [] /\ forall d, combine_binary c d = [] /\ combine_binary d c = [].
Definition next_to (u v : vertex) : Prop := u = v \/ blank L0 u v.
Record plain : Prop := {
  pl_freely : freely;
  pl_settled : settled L0 token_mask;
  pl_left : forall u v w, blank L0 u w -> blank L0 v w -> u = v;
  pl_right : forall u v w, blank L0 u v -> blank L0 u w -> v = w;
  pl_apart : forall u v c, P u v c -> inert c \/ (forall x, ~ blank L0 u x) /\ (forall x, ~ blank L0 x v)
}.
Variable start : nat -> Prop.
Record full (L : lattice) (agenda : list desc) (ms : list mark) : Prop := {
  fu_listed : forall e, e < length (edges L) -> length (edges L0) <= e \/ start e ->
    In (Explicit e) agenda \/ exists u v, In (Explicit e, u, v) ms;
  fu_unary : forall e u v c r, In (Explicit e, u, v) ms -> reads L e u v c -> In r (combine_unary c) -> present to_item L u v (r_category r);
  fu_binary : forall e f u v w x b c r, In (Explicit e, u, v) ms -> In (Explicit f, w, x) ms -> reads L e u v b -> reads L f w x c -> next_to v w ->
    In r (combine_binary b c) -> present to_item L u x (r_category r)
}.
Lemma fresh_known L L' d : frame ch L0 L -> stp L L' -> In d (fresh L L') -> exists u v, known L' d u v.
Proof.
  intros F St H. unfold fresh in H. apply in_map_iff in H as [e [<- He]]. apply in_seq in He.
  destruct (nth_error (edges L') e) as [ed|] eqn:E; [|apply nth_error_None in E; lia].
  destruct (st_changed _ _ _ _ _ St e ed E) as [ps [_ [_ N]]].
  destruct N as [x [r [es [_ [[[F' A] _] Hi]]]]]; [apply nth_error_None; lia|]. pose proof (frame_length _ _ _ F).
  exists (e_from ed), (e_to ed), e, (r_category r). split; [reflexivity|]. split; [|now apply (applied_P L' _ _ r es)].
  rewrite <- (se_back S0 (r_category r)), <- Hi. apply reads_new; [assumption|lia|assumption].
Qed.
Lemma reads_back L L' e u v c u' v' c' : frame ch L0 L -> frame ch L L' -> reads L e u v c -> reads L' e u' v' c' -> u' = u /\ v' = v /\ c' = c.
Proof. intros F F' R R'. apply (reads_fun L' e); [assumption|]. now apply (reads_frame L). Qed.
Lemma gap_at_end s v : gap L0 s v -> (forall x, ~ blank L0 x v) -> s = v.
Proof. intros H Hn. destruct H as [v|u v w H Hb]; [reflexivity|]. destruct (Hn _ Hb). Qed.

Notation run_go := (go to_item of_item lemma combine_unary combine_binary is_allowed plus choose ch).
Lemma turn_spec m L e u v c ms : frame ch L0 L -> reads L e u v c -> P u v c -> (forall d a b, In (d, a, b) ms -> known L d a b) ->
  exists L1 L2,
    apply_unary to_item of_item lemma combine_unary is_allowed plus ch (Explicit e) L = (L1, Ok (fresh L L1)) /\
    apply_binary to_item of_item lemma combine_binary is_allowed plus ch m (Explicit e) ms L1 = (L2, Ok (fresh L1 L2)) /\
    stp L L2 /\ fresh L L2 = fresh L L1 ++ fresh L1 L2 /\
    (plain -> m = None ->
      (forall r, In r (combine_unary c) -> present to_item L2 u v (r_category r)) /\
      (forall e' a b r w, In (Explicit e', a, w) ms -> reads L e' a w b -> next_to w u -> In r (combine_binary b c) -> present to_item L2 a v (r_category r)) /\
      (forall e' a b r w, In (Explicit e', w, a) ms -> reads L e' w a b -> next_to v w -> In r (combine_binary c b) -> present to_item L2 u a (r_category r))).
Proof.
  intros F R Pe Hms.
  destruct (apply_unary_spec L e u v c F R) as [L1 [E1 [St1 Q1]]]; [assumption|].
  assert (F1 : frame ch L0 L1) by (eapply frame_trans; [exact F|apply St1]).
  destruct (apply_binary_spec m L1 e u v c ms F1) as [L2 [E2 [St2 Q2]]].
  { eapply reads_frame; [exact F|apply St1|exact R]. } { assumption. }
  { intros d a b Hd. eapply known_frame; [exact F|apply St1|auto]. }
  exists L1, L2. split; [exact E1|]. split; [exact E2|]. split; [eapply step_trans; [exact framed_mono|eassumption|eassumption]|].
  split; [apply (fresh_trans ch); [apply St1|apply St2]|]. intros Pl Hm.
  destruct (Q2 (pl_freely Pl) Hm (pl_settled Pl)) as [s [t [Hs1 [Hs2 [Ht [QL QR]]]]]]. split; [|split].
  - intros r Hr. apply (present_frame ch to_item L1); [apply St2|]. now apply Q1; [apply Pl|].
  - intros e' a b r w Hi Rb Hn Hr.
    assert (Hw : s = w).
    { destruct (Hms _ _ _ Hi) as [x [b' [[= <-] [Rb' Pb]]]]. destruct (reads_fun _ _ _ _ _ _ _ _ Rb Rb') as [_ [_ <-]].
      destruct (pl_apart Pl _ _ _ Pb) as [[_ I]|[_ I]]; [destruct (I c) as [I1 _]; rewrite I1 in Hr; destruct Hr|].
      destruct Hn as [->|Hb]; [now apply gap_at_end|].
      inversion Hs1 as [y|y z y' Hg Hb']; subst.
      - destruct (Hs2 _ Hb).
      - rewrite (pl_left Pl _ _ _ Hb' Hb) in Hg. now apply gap_at_end. }
    subst w. eapply QL; [exact Hi| |exact Hr]. eapply reads_frame; [exact F|apply St1|exact Rb].
  - intros e' a b r w Hi Rb Hn Hr.
    assert (Hw : t = w).
    { destruct (Hms _ _ _ Hi) as [x [b' [[= <-] [Rb' Pb]]]]. destruct (reads_fun _ _ _ _ _ _ _ _ Rb Rb') as [_ [_ <-]].
      destruct (pl_apart Pl _ _ _ Pb) as [[_ I]|[I _]]; [destruct (I c) as [_ I1]; rewrite I1 in Hr; destruct Hr|].
      destruct Hn as [<-|Hb].
      - destruct Ht as [Hb|[-> _]]; [destruct (I _ Hb)|reflexivity].
      - destruct Ht as [Hb'|[_ Hn]]; [now apply (pl_right Pl v)|destruct (Hn _ Hb)]. }
    subst w. eapply QR; [exact Hi| |exact Hr]. eapply reads_frame; [exact F|apply St1|exact Rb].
Qed.

Lemma go_spec n : forall turn now later agenda ms L, inv L agenda ms ->
  exists L' en ms' agenda', run_go n turn now later agenda ms L = (L', Ok (en, ms')) /\ inv L' agenda' ms' /\
    (plain -> (forall l, In l (now :: later) -> snd l = None) -> full L agenda ms -> full L' agenda' ms' /\ (en = Emptied -> agenda' = [])) /\
    (forall K, (forall X, stp L0 X -> length (edges X) <= K) -> length agenda + (K - length (edges L)) <= n -> en <> Unfinished).
Proof.
  induction n as [|n IH]; intros turn now later agenda ms L I; destruct agenda as [|a0 agenda0] eqn:Ea; cbn [go].
  - exists L, Emptied, ms, []. split; [reflexivity|]. split; [assumption|]. split; [auto|discriminate].
  - exists L, Unfinished, ms, agenda. subst agenda. split; [reflexivity|]. split; [assumption|]. split; [intros _ _ H; split; [assumption|discriminate]|].
    intros K HK Hl. cbn in Hl. lia.
  - exists L, Emptied, ms, []. split; [reflexivity|]. split; [assumption|]. split; [auto|discriminate].
  - rewrite <- Ea in *. set (i := choose turn mod length agenda). set (d := nth i agenda a0). set (rest := take_at i agenda).
    assert (Hi : i < length agenda) by (apply Nat.mod_upper_bound; rewrite Ea; discriminate).
    destruct (take_at_spec agenda i a0 Hi) as [T1 [T2 T3]]. fold rest in T1, T3. fold d in T2, T3.
    destruct (if Z.ltb (fst now) (Z.of_nat (S turn) + Z.of_nat (length rest)) then _ else _) as [[now' later']|] eqn:Eo.
    2:{ exists L, Cut, ms, agenda. split; [reflexivity|]. split; [assumption|]. split; [intros _ _ H; split; [assumption|discriminate]|discriminate]. }
    assert (Hsub : forall l, In l (now' :: later') -> In l (now :: later)).
    { destruct (Z.ltb (fst now) _); [destruct later as [|l ls]; [discriminate|]|]; injection Eo as <- <-; intros x Hx; [now right|assumption]. }
    pose proof (i_step _ _ _ I) as St. pose proof (st_frame _ _ _ _ _ St) as F.
    destruct (below (edge_score L d) (snd now')) eqn:Eb.
    + destruct (IH (S turn) now' later' rest ms L) as [L' [en [ms' [ag' [E [I' [Fu Me]]]]]]].
      { split; [exact St| |apply I]. intros x Hx. apply I. apply T3. now right. }
      exists L', en, ms', ag'. split; [exact E|]. split; [assumption|]. split.
      * intros Pl Hn. rewrite (Hn now') in Eb by (apply Hsub; now left). discriminate.
      * intros K HK Hl. apply (Me K HK). lia.
    + destruct (i_agenda _ _ _ I d T2) as [u [v [e [c [Ed [R Pe]]]]]]. rewrite Ed.
      destruct (turn_spec (snd now') L e u v c ms F R Pe (i_marks _ _ _ I)) as [L1 [L2 [E1 [E2 [St2 [Ef HQ]]]]]].
      assert (St02 : stp L0 L2) by (eapply step_trans; [exact framed_mono|eassumption|eassumption]).
      assert (F2 : frame ch L0 L2) by apply St02.
      assert (R2 : reads L2 e u v c) by (eapply reads_frame; [exact F|apply St2|exact R]).
      destruct (IH (S turn) now' later' (rest ++ fresh L L1 ++ fresh L1 L2) (ms ++ [(Explicit e, u, v)]) L2) as [L' [en [ms' [ag' [E [I' [Fu Me]]]]]]].
      { split; [exact St02| |].
        - intros x Hx. apply in_app_iff in Hx as [Hx|Hx].
          + destruct (i_agenda _ _ _ I x) as [a [b K]]; [apply T3; now right|]. exists a, b. eapply known_frame; [exact F|apply St2|exact K].
          + rewrite <- Ef in Hx. now apply (fresh_known L).
        - intros x a b Hx. apply in_app_iff in Hx as [Hx|[[= <- <- <-]|[]]].
          + eapply known_frame; [exact F|apply St2|]. now apply I.
          + exists e, c. auto. }
      exists L', en, ms', ag'. split; [|split; [assumption|split]].
      * unfold bind, ask. rewrite E1, E2, (source_spec _ _ _ _ _ R2), (target_spec _ _ _ _ _ R2). exact E.
      * intros Pl Hn U. apply Fu; [assumption|auto|].
        destruct (HQ Pl) as [Q1 [Q2 Q3]]; [apply Hn, Hsub; now left|]. split.
        -- intros x Hx Hs. destruct (Nat.lt_ge_cases x (length (edges L))) as [Hl|Hl].
           ++ destruct (fu_listed _ _ _ U x Hl Hs) as [H|[a [b H]]].
              ** apply T3 in H as [H|H]; [right|left; apply in_app_iff; now left]. rewrite Ed in H. injection H as ->. exists u, v. apply in_app_iff. right. now left.
              ** right. exists a, b. apply in_app_iff. now left.
           ++ left. apply in_app_iff. right. rewrite <- Ef. apply in_map_iff. exists x. split; [reflexivity|]. apply in_seq. lia.
        -- intros x a b k r Hx Rx Hr. apply in_app_iff in Hx as [Hx|[[= <- <- <-]|[]]].
           ++ destruct (i_marks _ _ _ I _ _ _ Hx) as [x' [k' [[= <-] [Rx' _]]]].
              destruct (reads_back _ _ _ _ _ _ _ _ _ F (st_frame _ _ _ _ _ St2) Rx' Rx) as [_ [_ ->]].
              apply (present_frame ch to_item L); [apply St2|]. eapply (fu_unary _ _ _ U); eassumption.
           ++ destruct (reads_fun _ _ _ _ _ _ _ _ R2 Rx) as [_ [_ <-]]. now apply Q1.
        -- intros x y a b w z k k' r Hx Hy Rx Ry Hn2 Hr. apply in_app_iff in Hx as [Hx|[[= <- <- <-]|[]]]; apply in_app_iff in Hy as [Hy|[[= <- <- <-]|[]]].
           ++ destruct (i_marks _ _ _ I _ _ _ Hx) as [x' [kx [[= <-] [Rx' _]]]]. destruct (i_marks _ _ _ I _ _ _ Hy) as [y' [ky [[= <-] [Ry' _]]]].
              destruct (reads_back _ _ _ _ _ _ _ _ _ F (st_frame _ _ _ _ _ St2) Rx' Rx) as [_ [_ ->]].
              destruct (reads_back _ _ _ _ _ _ _ _ _ F (st_frame _ _ _ _ _ St2) Ry' Ry) as [_ [_ ->]].
              apply (present_frame ch to_item L); [apply St2|]. eapply (fu_binary _ _ _ U x y); eassumption.
           ++ destruct (i_marks _ _ _ I _ _ _ Hx) as [x' [kx [[= <-] [Rx' _]]]].
              destruct (reads_back _ _ _ _ _ _ _ _ _ F (st_frame _ _ _ _ _ St2) Rx' Rx) as [_ [_ ->]].
              destruct (reads_fun _ _ _ _ _ _ _ _ R2 Ry) as [_ [_ <-]]. eapply Q2; eassumption.
           ++ destruct (i_marks _ _ _ I _ _ _ Hy) as [y' [ky [[= <-] [Ry' _]]]].
              destruct (reads_back _ _ _ _ _ _ _ _ _ F (st_frame _ _ _ _ _ St2) Ry' Ry) as [_ [_ ->]].
              destruct (reads_fun _ _ _ _ _ _ _ _ R2 Rx) as [_ [_ <-]]. eapply Q3; eassumption.
           ++ exfalso. destruct (frame_span _ _ _ _ _ F2 R2) as [p [q [-> [-> [Hpq _]]]]]. destruct Hn2 as [[= ->]|Hb]; [lia|].
              destruct (blank_forth _ _ Hb) as [p' [q' [[= <-] [[= <-] Hp']]]]. lia.
      * intros K HK Hl. apply (Me K HK). rewrite <- Ef, app_length. unfold fresh. rewrite map_length, seq_length.
        pose proof (HK L2 St02). pose proof (frame_length _ _ _ (st_frame _ _ _ _ _ St2)). lia.
Qed.

(** ** Filling the agenda *)
Notation run_keep := (keep_useful of_item lemma useful ch).
Notation run_fill := (fill_from of_item lemma useful ch).
Lemma keep_useful_spec m ds : forall L, (forall d, In d ds -> exists e u v c, d = Explicit e /\ reads L e u v c) ->
  exists r, run_keep m ds L = (L, Ok r) /\
    (forall d, In d r -> In d ds /\ exists e u v c, d = Explicit e /\ reads L e u v c /\ useful c = true) /\
    (m = None -> forall e u v c, In (Explicit e) ds -> reads L e u v c -> useful c = true -> In (Explicit e) r).
Proof.
  induction ds as [|d ds IH]; intros L H.
  - exists []. split; [reflexivity|]. split; [intros d []|intros _ e u v c []].
  - destruct (H d (or_introl eq_refl)) as [e [u [v [c [-> R]]]]]. destruct (IH L) as [r [E [K1 K2]]]; [intros d Hd; apply H; now right|].
    cbn [keep_useful]. unfold bind at 1. destruct (below (edge_score L (Explicit e)) m) eqn:Eb.
    + exists r. unfold bind, ret. rewrite E. split; [reflexivity|]. split.
      * intros d Hd. destruct (K1 d Hd) as [X Y]. split; [now right|assumption].
      * intros ->. discriminate.
    + unfold bind at 1. rewrite (category_spec _ _ _ _ _ R). unfold ret at 1. unfold bind. rewrite E. unfold ret.
      eexists. split; [reflexivity|]. split.
      * intros d Hd. destruct (useful c) eqn:Eu; [destruct Hd as [<-|Hd]|].
        -- split; [now left|]. exists e, u, v, c. auto.
        -- destruct (K1 d Hd) as [X Y]. split; [now right|assumption].
        -- destruct (K1 d Hd) as [X Y]. split; [now right|assumption].
      * intros Hm e' u' v' c' [[= <-]|Hi] R' Hu.
        -- destruct (reads_fun _ _ _ _ _ _ _ _ R R') as [_ [_ <-]]. rewrite Hu. now left.
        -- destruct (useful c); [right|]; eapply K2; eassumption.
Qed.
Hypothesis input_made : P_Tags.made (input ch).
Hypothesis input_symbol : M_Tags.matches symbol_tag (input ch) = false.
Lemma fill_from_spec m vs : forall L, frame ch L0 L -> core L0 L -> (forall v, In v vs -> valid L v = true) ->
  exists L' r, run_fill m vs L = (L', Ok r) /\ frame ch L0 L' /\ core L0 L' /\
    (forall d, In d r -> exists e ed u v c, d = Explicit e /\ nth_error (edges L0) e = Some ed /\ M_Tags.matches (e_tags ed) (input ch) = true /\
       reads L0 e u v c /\ useful c = true) /\
    (m = None -> settled L0 (input ch) -> forall e ed u v c, nth_error (edges L0) e = Some ed -> In (e_from ed) vs ->
       M_Tags.matches (e_tags ed) (input ch) = true -> reads L0 e u v c -> useful c = true -> In (Explicit e) r).
Proof.
  induction vs as [|v vs IH]; intros L F K Hv.
  - exists L, []. split; [reflexivity|]. split; [assumption|]. split; [assumption|]. split; [intros d []|intros _ _ e ed u v c H []].
  - destruct (out_query L v (input ch) (f_good _ _ _ F) (Hv v (or_introl eq_refl)) input_made) as [L1 [ds [E1 [G1 [K1 [Q1 Q2]]]]]].
    assert (F1' : frame ch L L1) by (apply frame_core; try apply F; assumption).
    assert (F1 : frame ch L0 L1) by (eapply frame_trans; eassumption). assert (K01 : core L0 L1) by (eapply core_trans; eassumption).
    assert (Rd : forall e u v c, reads L0 e u v c <-> reads L1 e u v c).
    { intros e a b c. split; intros R.
      - eapply reads_frame; [apply frame_refl; apply S0|exact F1|exact R].
      - destruct R as [ed [Hn R]]. rewrite (c_edges _ _ K01) in Hn.
        assert (R0 : reads L0 e (e_from ed) (e_to ed) (of_item (shown lemma ch L0 (Explicit e) (e_item ed)))) by (exists ed; auto).
        assert (R1 : reads L1 e a b c) by (exists ed; rewrite (c_edges _ _ K01); auto).
        destruct (reads_back _ _ _ _ _ _ _ _ _ (frame_refl ch L0 (se_good S0) (se_tidy S0)) F1 R0 R1) as [-> [-> ->]]. exact R0. }
    destruct (keep_useful_spec m ds L1) as [r1 [E2 [A1 A2]]].
    { intros d Hd. destruct (Q1 d Hd) as [D1 [D2 D3]]. destruct d as [x|x].
      - cbn in D3. rewrite input_symbol in D3. discriminate.
      - cbn in D1. destruct (nth_error (edges L1) x) as [ed|] eqn:Ex; [|apply nth_error_None in Ex; rewrite (c_edges _ _ K1) in Ex; lia].
        do 4 eexists. split; [reflexivity|]. exists ed. split; [exact Ex|]. auto. }
    destruct (IH L1 F1 K01) as [L2 [r2 [E3 [F2 [K2 [B1 B2]]]]]].
    { intros w Hw. rewrite (core_valid _ _ _ K1). apply Hv. now right. }
    exists L2, (r1 ++ r2). cbn [fill_from]. unfold bind, ret. rewrite E1, E2, E3. split; [reflexivity|]. split; [assumption|]. split; [assumption|]. split.
    + intros d Hd. apply in_app_iff in Hd as [Hd|Hd]; [|auto]. destruct (A1 d Hd) as [Hi [e [a [b [c [-> [R Hu]]]]]]].
      destruct (Q1 _ Hi) as [D1 [D2 D3]]. cbn in D3. pose proof R as [ed [He _]]. rewrite (c_edges _ _ K01) in He.
      assert (He' : nth_error (edges L) e = Some ed) by now rewrite (c_edges _ _ K). rewrite He' in D3.
      exists e, ed, a, b, c. split; [reflexivity|]. split; [assumption|]. split; [assumption|]. split; [now apply Rd|assumption].
    + intros Hm St e ed a b c He Hin Hma R Hu. apply in_app_iff. destruct Hin as [Ev|Hin]; [left|right; eapply B2; eassumption].
      eapply A2; [assumption| |apply Rd; exact R|assumption]. eapply Q2; [rewrite (c_edges _ _ K); exact He|now symmetry|].
      unfold first_tags. rewrite (c_edges _ _ K). pose proof (St e ed He Hma) as X. unfold first_tags in X. exact X.
Qed.
End Run.

(** The bottom-up parser of gobio (C38). *)
From Coq Require Import ZArith NArith List Bool Lia.
From Verif Require Import M_Utf8 S_Utf8 L_Utf8 M_Tags M_Items M_Cutter M_Lattice P_Tags P_Cutter L_Lattice S_Lattice L_LatticeOps L_LatticeTidy.
From Verif Require Import P_Lattice M_LatticeWalk L_LatticeNodes P_LatticeWalk P_LatticeVertices M_ChartParser L_ChartParser L_ChartRun L_ChartTags.
Import ListNotations.
Local Open Scope nat_scope.

(** * Specification *)
Definition tagged (L : lattice) (ed : edge) (ts : list str) : Prop := exists t, In t ts /\ has (tags L) (e_tags ed) t.
(** Tags of the edges that are parsed, and of those whose text is their category. *)
Definition parsed_tags (terminal : str) : list str := [NORMALIZATION; TERM; TOKEN; terminal; FORM; GOBIO; PARSE_AUX].
Definition text_tags : list str := [NORMALIZATION; TERM; TOKEN].
(** A token that is a blank. *)
Definition space (L : lattice) (u v : vertex) : Prop :=
  exists e ed, nth_error (edges L) e = Some ed /\ e_from ed = u /\ e_to ed = v /\ tagged L ed [TOKEN] /\ M_Items.category (e_item ed) = [66%Z].
Inductive spaces (L : lattice) : vertex -> vertex -> Prop :=
  | Sp_none v : spaces L v v
  | Sp_more u v w : spaces L u v -> space L v w -> spaces L u w.
Definition at_most_a_space (L : lattice) (u v : vertex) : Prop := u = v \/ space L u v.
Section Spec.
Context {C : Type}.
Variable of_item : item -> C.
Variable lemma : lattice -> desc -> option str.
Variable unary : C -> list (found C).
Variable binary : C -> C -> list (found C).
Variable useful : C -> bool.
Variable terminal : str.
(** What an edge is read as. *)
Inductive reading (L : lattice) (e : nat) (ed : edge) : C -> Prop :=
  | R_text : tagged L ed text_tags ->
      reading L e ed (of_item (M_Items.with_category (e_item ed) (39%Z :: M_Items.text (e_item ed) ++ [39%Z])))
  | R_lemma l : ~ tagged L ed text_tags -> tagged L ed [FORM] -> lemma L (Explicit e) = Some l ->
      reading L e ed (of_item (M_Items.with_category (e_item ed) (39%Z :: 36%Z :: l ++ [39%Z])))
  | R_no_lemma : ~ tagged L ed text_tags -> tagged L ed [FORM] -> lemma L (Explicit e) = None ->
      reading L e ed (of_item (M_Items.with_category (e_item ed) []))
  | R_item : ~ tagged L ed text_tags -> ~ tagged L ed [FORM] -> reading L e ed (of_item (e_item ed)).
(** The edge number [e] spans u..v and is read as [c]. *)
Definition read (L : lattice) (e : nat) (u v : vertex) (c : C) : Prop :=
  exists ed, nth_error (edges L) e = Some ed /\ e_from ed = u /\ e_to ed = v /\ reading L e ed c.
Definition is_input (L : lattice) (e : nat) (u v : vertex) (c : C) : Prop :=
  read L e u v c /\ useful c = true /\ forall ed, nth_error (edges L) e = Some ed -> tagged L ed (parsed_tags terminal).
(** The categories that the grammar derives over spans of the lattice. *)
Inductive derives (joins : vertex -> vertex -> Prop) (L : lattice) : vertex -> vertex -> C -> Prop :=
  | D_input e u v c : is_input L e u v c -> derives joins L u v c
  | D_unary u v c r : derives joins L u v c -> In r (unary c) -> derives joins L u v (r_category r)
  | D_binary u v w x b c r : derives joins L u v b -> joins v w -> derives joins L w x c -> In r (binary b c) ->
      derives joins L u x (r_category r).
(** A partition that is an application of a rule to edges of [L]. *)
Inductive application (joins : vertex -> vertex -> Prop) (L : lattice) (u v : vertex) (x : partition) : found C -> Prop :=
  | Ap_unary e c r : links (p_sequence x) = [(Explicit e, M_Items.ZNull)] -> p_rule x = r_no r -> p_choice x = r_choice r ->
      read L e u v c -> In r (unary c) -> application joins L u v x r
  | Ap_binary e f t w b c r : links (p_sequence x) = [(Explicit e, M_Items.ZNull); (Explicit f, M_Items.ZNull)] -> p_rule x = r_no r ->
      p_choice x = r_choice r -> read L e u t b -> joins t w -> read L f w v c -> In r (binary b c) -> application joins L u v x r.
Definition rule_category (c : C) : Prop := (exists b r, In r (unary b) /\ c = r_category r) \/ exists a b r, In r (binary a b) /\ c = r_category r.
Definition unused (c : C) : Prop := unary c = [] /\ forall d, binary c d = [] /\ binary d c = [].
End Spec.
(** Contracts: of the conversions of categories, and of getEdgeLemma. *)
Definition respects {C} (of_item : item -> C) : Prop := forall i j, M_Items.item_eqb i j = true -> of_item i = of_item j.
Definition reads_back {C} (to_item : C -> item) (of_item : item -> C) : Prop := forall c, of_item (to_item c) = c.
Definition steady (lemma : lattice -> desc -> option str) (L : lattice) : Prop :=
  forall L' e ed, nth_error (edges L) e = Some ed -> tagged L ed [FORM] -> grows L L' -> lemma L' (Explicit e) = lemma L (Explicit e).

(** * The chart *)
Section Chart.
Context {C : Type}.
Variable to_item : C -> item.
Variable of_item : item -> C.
Variable lemma : lattice -> desc -> option str.
Variable terminal : str.
Variable L L0 : lattice.
Variable ch : chart.
Hypothesis HL : careful_program L.
Hypothesis H0 : n_loose L = 0.
Hypothesis Ht : terminal <> M_Tags.SYMBOL.
Hypothesis MC : made_chart terminal L L0 ch.
Hypothesis Hsame : respects of_item.
Hypothesis Hback : reads_back to_item of_item.
Hypothesis Hlemma : steady lemma L.

Lemma ok0 : P_Tags.ok (tags L0).
Proof. apply P_Tags.reachable_ok, g_tags, careful_tidy, MC. Qed.
Lemma edges0 : edges L0 = edges L.
Proof. destruct (mc_same _ _ _ _ MC) as [M ->]. reflexivity. Qed.
Lemma grows0 : grows L L0.
Proof.
  pose proof (mc_later _ _ _ _ MC) as H. destruct (mc_same _ _ _ _ MC) as [M E]. rewrite E in *. split; try apply (grows_refl L). exact H.
Qed.
Lemma has0 e ed t : nth_error (edges L) e = Some ed -> has (tags L0) (e_tags ed) t <-> has (tags L) (e_tags ed) t.
Proof.
  intros He. apply has_later; [apply ok0|apply MC|]. destruct (careful_tidy _ HL) as [G _]. now apply (g_proper _ G e).
Qed.
Lemma tagged0 e ed ts : nth_error (edges L) e = Some ed -> tagged L0 ed ts <-> tagged L ed ts.
Proof. intros He. unfold tagged. split; intros [t [H1 H2]]; exists t; (split; [assumption|]); now apply (has0 e). Qed.

Lemma named_apart cs ns : Forall2 (fun c n => denotes (tags L0) c (fun x => In x [n])) cs ns ->
  (forall n, In n ns -> ~ In n [GOBIO; PARSE_AUX] /\ ~ plane_name n /\ n <> M_Tags.SYMBOL) -> apart ch L0 (M_Tags.mask_of cs).
Proof.
  intros F Hn. exists cs. split; [reflexivity|]. intros c Hc.
  assert (K : exists n, In n ns /\ denotes (tags L0) c (fun x => In x [n])).
  { clear Hn. induction F as [|c' n cs ns D F IH]; [destruct Hc|]. destruct Hc as [<-|Hc]; [exists n; split; [now left|assumption]|].
    destruct (IH Hc) as [m [M1 M2]]. exists m. split; [now right|assumption]. }
  destruct K as [n [Hi D]]. destruct (single_bit _ _ _ ok0 D) as [i [Hi1 Hi2]]. exists (N.of_nat i). split; [assumption|].
  destruct (Hn n Hi) as [N1 [N2 N3]]. intros [H|[H|H]].
  - apply N1. apply (dn_has _ _ _ (mc_output _ _ _ _ MC)). exists i. auto.
  - destruct (ok_planes _ ok0 _ H) as [n' [E1 E2]]. rewrite Nnat.Nat2N.id, Hi1 in E1. injection E1 as <-. now apply N2.
  - apply N3. assert (i = 0) by lia. subst i. rewrite (ok_symbol _ ok0) in Hi1. congruence.
Qed.
Lemma plain_names n : In n [NORMALIZATION; TERM; TOKEN; FORM] -> ~ In n [GOBIO; PARSE_AUX] /\ ~ plane_name n /\ n <> M_Tags.SYMBOL.
Proof.
  intros [<-|[<-|[<-|[<-|[]]]]]; (split; [intros [H|[H|[]]]; discriminate|]; split; [unfold plane_name; cbn; discriminate|discriminate]).
Qed.
Lemma token_denotes : denotes (tags L0) 4%N (fun x => In x [TOKEN]).
Proof.
  pose proof (careful_token L0 (mc_careful _ _ _ _ MC)) as E2.
  assert (Bt : forall j, N.testbit 4 j = true -> j = 2%N).
  { intros j Hj. destruct (N.eq_dec j 2) as [|Hn]; [assumption|]. change 4%N with (N.shiftl 1 2) in Hj. exfalso.
    destruct (N.lt_ge_cases j 2) as [Hl|Hl].
    - rewrite N.shiftl_spec_low in Hj by assumption. discriminate.
    - rewrite N.shiftl_spec_high' in Hj by assumption. destruct (j - 2)%N as [|p] eqn:E; [lia|]. cbn in Hj. destruct p; discriminate. }
  split.
  - intros n. split.
    + intros [i [Hi Hb]]. apply Bt in Hb. assert (i = 2) by lia. subst i. left. congruence.
    + intros [<-|[]]. exists 2. split; [exact E2|reflexivity].
  - intros i Hi. apply Bt in Hi as ->. exists TOKEN. exact E2.
  - intros i n Hb Hi Hp. apply Bt in Hb. assert (i = 2) by lia. subst i. rewrite E2 in Hi. injection Hi as <-. discriminate.
Qed.
Lemma chart_setting : setting ch to_item of_item lemma L0.
Proof.
  destruct (careful_tidy _ (mc_careful _ _ _ _ MC)) as [G T].
  split.
  - assumption.
  - assumption.
  - pose proof (mc_output _ _ _ _ MC) as D. split.
    + split; [apply (dn_bits _ _ _ D)|apply (dn_plane _ _ _ D)].
    + apply N.bits_inj. intros i. rewrite N.bits_0. unfold M_Tags.only_planes. rewrite intersection_bit. apply not_true_is_false.
      intros [H1 H2]%andb_true_iff. destruct (ok_planes _ ok0 _ H1) as [n [N1 N2]].
      assert (K : has (tags L0) (output ch) n) by (exists (N.to_nat i); rewrite Nnat.N2Nat.id; auto).
      apply (dn_has _ _ _ D) in K as [<-|[<-|[]]]; discriminate N2.
    + destruct (proj2 (dn_has _ _ _ D GOBIO) (or_introl eq_refl)) as [i [N1 N2]]. exists (N.of_nat i). split; [|assumption].
      intros Hi. assert (i = 0) by lia. subst i. rewrite (ok_symbol _ ok0) in N1. discriminate.
  - destruct (mc_same _ _ _ _ MC) as [M ->]. exact H0.
  - destruct (mc_quoted _ _ _ _ MC) as [cs [-> F]]. apply (named_apart _ _ F). intros n Hn. apply plain_names. cbn in *. tauto.
  - apply (named_apart [4%N] [TOKEN]); [constructor; [apply token_denotes|constructor]|]. intros n Hn. apply plain_names. cbn in *. tauto.
  - apply (named_apart [form_tag ch] [FORM]); [constructor; [apply MC|constructor]|]. intros n Hn. apply plain_names. cbn in *. tauto.
  - intros L' e ed He Hf W. rewrite edges0 in He.
    assert (Tf : tagged L ed [FORM]).
    { apply (tagged0 e); [assumption|]. apply (single_matches (tags L0) [form_tag ch] [FORM] (e_tags ed) ok0); [constructor; [apply MC|constructor]|].
      rewrite (form_matches ch). exact Hf. }
    rewrite (Hlemma L' e ed He Tf) by (eapply grows_trans; [apply grows0|exact W]). symmetry. apply (Hlemma L0 e ed He Tf). apply grows0.
  - assumption.
  - assumption.
Qed.
Lemma input_matches t : M_Tags.matches t (input ch) = true <-> exists n, In n (parsed_tags terminal) /\ has (tags L0) t n.
Proof. destruct (mc_input _ _ _ _ MC) as [cs [-> F]]. exact (single_matches _ _ _ t ok0 F). Qed.
Lemma input_made : P_Tags.made (input ch).
Proof. destruct (mc_input _ _ _ _ MC) as [cs [-> _]]. left. eauto. Qed.
Lemma input_symbol : M_Tags.matches symbol_tag (input ch) = false.
Proof.
  apply not_true_is_false. intros K. apply input_matches in K as [n [Hn [i [N1 N2]]]].
  assert (i = 0) by (destruct i; [reflexivity|discriminate N2]). subst i. rewrite (ok_symbol _ ok0) in N1. injection N1 as <-.
  cbn in Hn. destruct Hn as [H|[H|[H|[H|[H|[H|[H|[]]]]]]]]; try discriminate. congruence.
Qed.
Lemma token_matches t : M_Tags.matches t token_mask = true <-> exists n, In n [TOKEN] /\ has (tags L0) t n.
Proof. apply (single_matches _ [4%N] [TOKEN] t ok0). constructor; [apply token_denotes|constructor]. Qed.

(** ** What is read *)
Lemma shown_reading X e ed : tags X = tags L0 -> nth_error (edges X) e = Some ed ->
  reading of_item lemma X e ed (of_item (shown lemma ch X (Explicit e) (e_item ed))).
Proof.
  intros ET He. unfold shown. cbn [edge_tags]. rewrite He.
  assert (Q : M_Tags.matches (e_tags ed) (quoted ch) = true <-> tagged X ed text_tags).
  { destruct (mc_quoted _ _ _ _ MC) as [cs [-> F]]. unfold tagged. rewrite ET. exact (single_matches _ _ _ _ ok0 F). }
  assert (Fo : M_Tags.subset (form_tag ch) (e_tags ed) = true <-> tagged X ed [FORM]).
  { unfold tagged. rewrite ET, <- (form_matches ch). apply (single_matches _ [form_tag ch] [FORM] _ ok0). constructor; [apply MC|constructor]. }
  destruct (M_Tags.matches (e_tags ed) (quoted ch)).
  - apply R_text. now apply Q.
  - assert (NQ : ~ tagged X ed text_tags) by (intros K; apply Q in K; discriminate).
    destruct (M_Tags.subset (form_tag ch) (e_tags ed)).
    + destruct (lemma X (Explicit e)) as [l|] eqn:El; [now apply R_lemma; [| |]; [|apply Fo|]|now apply R_no_lemma; [|apply Fo|]].
    + apply R_item; [assumption|]. intros K. apply Fo in K. discriminate.
Qed.
Lemma reading_fun X e ed c c' : reading of_item lemma X e ed c -> reading of_item lemma X e ed c' -> c = c'.
Proof. intros [A|l A B D|A B D|A B] [A'|l' A' B' D'|A' B' D'|A' B']; try contradiction; try reflexivity; congruence. Qed.
Lemma reads_read X e u v c : tags X = tags L0 -> reads ch of_item lemma X e u v c <-> read of_item lemma X e u v c.
Proof.
  intros ET. split; intros [ed [H1 [H2 [H3 H4]]]]; exists ed; (split; [assumption|]); (split; [assumption|]); (split; [assumption|]).
  - subst c. now apply shown_reading.
  - eapply reading_fun; [exact H4|]. now apply shown_reading.
Qed.
Lemma reading_start e ed c : nth_error (edges L) e = Some ed -> reading of_item lemma L0 e ed c <-> reading of_item lemma L e ed c.
Proof.
  intros He. pose proof (tagged0 e ed text_tags He) as T1. pose proof (tagged0 e ed [FORM] He) as T2. split.
  - intros [A|l A B D|A B D|A B].
    + apply R_text. tauto.
    + apply R_lemma; [tauto|tauto|]. rewrite <- (Hlemma L0 e ed); [assumption|assumption|tauto|apply grows0].
    + apply R_no_lemma; [tauto|tauto|]. rewrite <- (Hlemma L0 e ed); [assumption|assumption|tauto|apply grows0].
    + apply R_item; tauto.
  - intros [A|l A B D|A B D|A B].
    + apply R_text. tauto.
    + apply R_lemma; [tauto|tauto|]. rewrite (Hlemma L0 e ed); [assumption|assumption|tauto|apply grows0].
    + apply R_no_lemma; [tauto|tauto|]. rewrite (Hlemma L0 e ed); [assumption|assumption|tauto|apply grows0].
    + apply R_item; tauto.
Qed.
Lemma reads_start e u v c : reads ch of_item lemma L0 e u v c <-> read of_item lemma L e u v c.
Proof.
  rewrite (reads_read L0) by reflexivity. unfold read. rewrite edges0.
  split; intros [ed [H1 [H2 [H3 H4]]]]; exists ed; (split; [assumption|]); (split; [assumption|]); (split; [assumption|]); now apply (reading_start e).
Qed.
Lemma blank_space u v : blank L0 u v <-> space L u v.
Proof.
  unfold blank, space. rewrite edges0. split; intros [e [ed [H1 [H2 [H3 [H4 H5]]]]]]; exists e, ed; (split; [assumption|]); (split; [assumption|]);
    (split; [assumption|]); (split; [|assumption]).
  - apply (tagged0 e); [assumption|]. now apply token_matches.
  - apply token_matches. now apply (tagged0 e) in H4.
Qed.
Lemma gap_spaces u v : gap L0 u v <-> spaces L u v.
Proof. split; induction 1 as [v|u v w H IH Hb]; try constructor; econstructor; try eassumption; now apply blank_space. Qed.
End Chart.

(** Every edge with one of the tags had it when it was made. *)
Definition made_so (L : lattice) (ts : list str) : Prop :=
  forall e ed, nth_error (edges L) e = Some ed -> tagged L ed ts ->
    exists x xs t, e_partitions ed = x :: xs /\ In t ts /\ has (tags L) (p_tags x) t.

Section Settled.
Variable terminal : str.
Variable L L0 : lattice.
Variable ch : chart.
Hypothesis HL : careful_program L.
Hypothesis MC : made_chart terminal L L0 ch.
Lemma made_settled m ts : (forall t, M_Tags.matches t m = true <-> exists n, In n ts /\ has (tags L0) t n) -> made_so L ts -> settled L0 m.
Proof.
  intros Hm H e ed He Hg. assert (He' : nth_error (edges L) e = Some ed) by now rewrite <- (edges0 terminal L L0 ch MC).
  apply Hm in Hg. apply (tagged0 terminal L L0 ch HL MC e ed ts He') in Hg. destruct (H e ed He' Hg) as [x [xs [t [E [Hi Ht]]]]].
  apply Hm. exists t. split; [assumption|]. unfold first_tags. rewrite He, E. cbn [hd].
  destruct Ht as [i [Hi1 Hi2]]. exists i. split; [|assumption]. eapply P_Tags.nth_error_later; [apply MC|assumption].
Qed.
End Settled.

(** * The theorems *)
Section Run.
Context {C : Type}.
Variable to_item : C -> item.
Variable of_item : item -> C.
Variable lemma : lattice -> desc -> option str.
Variable unary : C -> list (found C).
Variable binary : C -> C -> list (found C).
Variable useful : C -> bool.
Variable limits : list limit.
Variable is_allowed : Z -> Z -> bool.
Variable plus : score -> score -> score.
Variable topo : list vertex -> list (vertex * vertex) -> option (list vertex).
Variable terminal : str.
Variable L : lattice.
Hypothesis HL : careful_program L.
Hypothesis H0 : n_loose L = 0.
Hypothesis Ht : terminal <> M_Tags.SYMBOL.
Hypothesis Hsame : respects of_item.
Hypothesis Hback : reads_back to_item of_item.
Hypothesis Hlemma : steady lemma L.
Notation input_of := (is_input of_item lemma useful terminal L).
Notation derived := (derives of_item lemma unary binary useful terminal (spaces L) L).
Notation run choose n := (parse to_item of_item lemma unary binary useful limits is_allowed plus topo choose terminal n).
Let start (e : nat) : Prop := exists u v c, input_of e u v c.

Lemma parse_spec L0 ch l ls : new_chart terminal L = (L0, Ok ch) -> limits = l :: ls ->
  exists a, forall choose n, exists L' en ms agenda,
    run choose n L = (L', Ok (en, ms)) /\ inv ch to_item of_item lemma unary binary L0 derived L' agenda ms /\
    (plain unary binary is_allowed L0 derived -> (forall l, In l limits -> snd l = None) -> settled L0 (input ch) ->
       full ch to_item of_item lemma unary binary L0 start L' agenda ms /\ (en = Emptied -> agenda = [])) /\
    (forall K, (forall X, step ch to_item (framed ch of_item lemma unary binary L0 derived) L0 X -> length (edges X) <= K) -> a + K <= n ->
       en <> Unfinished).
Proof.
  intros EC EL. pose proof (new_chart_spec _ _ _ _ HL EC) as MC.
  pose proof (chart_setting to_item of_item lemma terminal L L0 ch HL H0 MC Hsame Hback Hlemma) as S0.
  destruct (C42_text topo false L0 (mc_careful _ _ _ _ MC) (se_loose _ _ _ _ _ S0)) as [ps [EV [_ Hps]]].
  assert (P_unary : forall u v c r, derived u v c -> In r (unary c) -> derived u v (r_category r)) by (intros; eapply D_unary; eassumption).
  assert (P_binary : forall u v w x b c r, derived u v b -> gap L0 v w -> derived w x c -> In r (binary b c) -> derived u x (r_category r)).
  { intros u v w x b c r D1 G D2 Hr. eapply D_binary; [exact D1| |exact D2|exact Hr]. now apply (gap_spaces terminal L L0 ch HL H0 MC). }
  assert (Hv : forall v, In v (map Text ps) -> valid L0 v = true).
  { intros v [p [<- Hp]]%in_map_iff. apply boundary_valid. now apply Hps. }
  destruct (fill_from_spec ch to_item of_item lemma unary binary useful L0 S0 derived P_unary P_binary (fun _ => 0) start (input_made terminal L L0 ch MC)
    (input_symbol terminal L L0 ch Ht MC) (snd l) (map Text ps) L0 (frame_refl _ _ (se_good _ _ _ _ _ S0) (se_tidy _ _ _ _ _ S0)) (core_refl _) Hv)
    as [L1 [a [EF [F1 [K1 [A1 A2]]]]]].
  assert (Hin : forall e ed u v c, nth_error (edges L0) e = Some ed -> M_Tags.matches (e_tags ed) (input ch) = true ->
    reads ch of_item lemma L0 e u v c -> useful c = true -> input_of e u v c).
  { intros e ed u v c He Hm Hr Hu. split; [|split; [assumption|]].
    - now apply (reads_start of_item lemma terminal L L0 ch HL MC Hlemma).
    - intros ed' He'. rewrite (edges0 terminal L L0 ch MC) in He. rewrite He in He'. injection He' as <-.
      apply (tagged0 terminal L L0 ch HL MC e); [assumption|]. now apply (input_matches terminal L L0 ch MC). }
  exists (length a). intros choose n.
  assert (I1 : inv ch to_item of_item lemma unary binary L0 derived L1 a []).
  { split.
    - apply step_core; [apply framed_mono with (1 := S0)|apply S0|apply S0|assumption|apply F1].
    - intros d Hd. destruct (A1 d Hd) as [e [ed [u [v [c [-> [He [Hm [Hr Hu]]]]]]]]]. exists u, v, e, c. split; [reflexivity|]. split.
      + eapply reads_frame; [exact S0|apply frame_refl; apply S0|exact F1|exact Hr].
      + eapply D_input. eapply Hin; eassumption.
    - intros d u v []. }
  destruct (go_spec ch to_item of_item lemma unary binary useful is_allowed plus L0 S0 derived P_unary P_binary choose start n 0 l ls a [] L1 I1)
    as [L' [en [ms [agenda [EG [I2 [G1 G2]]]]]]].
  exists L', en, ms, agenda. split.
  { unfold parse. rewrite EL. unfold bind at 1. rewrite EC. unfold fill. unfold bind at 1. unfold bind at 1, ask. rewrite EV, EF. exact EG. }
  split; [assumption|]. split.
  - intros Hp Hl Hs. rewrite EL in Hl. apply G1; [assumption|assumption|]. split.
    + intros e He [Hn|Hst]; [rewrite (c_edges _ _ K1) in He; lia|]. left. destruct Hst as [u [v [c [Hr [Hu Htg]]]]].
      destruct Hr as [ed [He1 [Hf [Hto Hrd]]]].
      assert (He0 : nth_error (edges L0) e = Some ed) by now rewrite (edges0 terminal L L0 ch MC).
      assert (Hr : reads ch of_item lemma L0 e u v c).
      { apply (reads_start of_item lemma terminal L L0 ch HL MC Hlemma). exists ed. auto. }
      apply (A2 (Hl l (or_introl eq_refl)) Hs e ed u v c He0); try assumption.
      * destruct (edge_span _ _ _ (se_good _ _ _ _ _ S0) (se_tidy _ _ _ _ _ S0) (se_loose _ _ _ _ _ S0) He0) as [p [q [E1 [_ [_ [B1 _]]]]]].
        rewrite E1. apply in_map. apply Hps. auto.
      * apply (input_matches terminal L L0 ch MC). apply (tagged0 terminal L L0 ch HL MC e); [assumption|]. now apply Htg.
    + intros e u v c r [].
    + intros e f u v w x b c r [].
  - intros K HK Hn. apply (G2 K HK). lia.
Qed.

(** Soundness: nothing is lost, and all that is new is by rules. *)
Theorem C38_sound choose n L' en ms : run choose n L = (L', Ok (en, ms)) ->
  M_Lattice.text L' = M_Lattice.text L /\ n_loose L' = 0 /\
  (forall e ed, nth_error (edges L) e = Some ed -> exists ed', nth_error (edges L') e = Some ed' /\
     e_from ed' = e_from ed /\ e_to ed' = e_to ed /\ e_item ed' = e_item ed) /\
  (forall e ed', nth_error (edges L') e = Some ed' -> exists ps,
     e_partitions ed' = match nth_error (edges L) e with Some ed => e_partitions ed | None => [] end ++ ps /\
     (forall x, In x ps -> exists r, application of_item lemma unary binary (spaces L) L' (e_from ed') (e_to ed') x r /\
        item_eqb (e_item ed') (to_item (r_category r)) = true /\ derived (e_from ed') (e_to ed') (r_category r)) /\
     (length (edges L) <= e -> ps <> [] /\ (forall t, has (tags L') (e_tags ed') t -> In t [GOBIO; PARSE_AUX] \/ plane_name t \/ t = M_Tags.SYMBOL) /\
        exists c, read of_item lemma L' e (e_from ed') (e_to ed') c /\ derived (e_from ed') (e_to ed') c)) /\
  (forall d u v, In (d, u, v) ms -> exists e c, d = Explicit e /\ read of_item lemma L' e u v c /\ derived u v c).
Proof.
  intros E. destruct (new_chart terminal L) as [L0 r] eqn:EC.
  assert (Hr : exists ch, r = Ok ch).
  { unfold parse in E. unfold bind at 1 in E. rewrite EC in E. destruct r as [ch| |]; [eauto|discriminate|discriminate]. }
  destruct Hr as [ch ->].
  assert (El : exists l ls, limits = l :: ls).
  { unfold parse in E. unfold bind at 1 in E. rewrite EC in E. destruct limits as [|l ls]; [discriminate|eauto]. }
  destruct El as [l [ls El]]. pose proof (new_chart_spec _ _ _ _ HL EC) as MC.
  pose proof (chart_setting to_item of_item lemma terminal L L0 ch HL H0 MC Hsame Hback Hlemma) as S0.
  destruct (parse_spec L0 ch l ls EC El) as [a K]. destruct (K choose n) as [L1 [en1 [ms1 [ag [E1 [I _]]]]]].
  rewrite E in E1. injection E1 as <- <- <-. clear K. destruct I as [[F Ch _] _ IM].
  destruct (mc_same _ _ _ _ MC) as [M EM].
  assert (ET : tags L' = tags L0) by apply F.
  assert (HW : forall ed x r es, by_rule to_item (framed ch of_item lemma unary binary L0 derived) L' ed x r es ->
    application of_item lemma unary binary (spaces L) L' (e_from ed) (e_to ed) x r /\
        item_eqb (e_item ed) (to_item (r_category r)) = true /\ derived (e_from ed) (e_to ed) (r_category r)).
  { intros ed x r es [[_ A] [Hi [Hk [Hn Hc]]]]. split; [|split; [assumption|]].
    - destruct A as [e u v c r R K Ir|e f u v w y b c r R1 K1 G R2 K2 Ir].
      + cbn [map] in Hk. eapply Ap_unary; try eassumption. now apply (reads_read of_item lemma terminal L L0 ch MC).
      + cbn [map] in Hk. eapply Ap_binary; try eassumption; [apply (reads_read of_item lemma terminal L L0 ch MC); [assumption|exact R1]| |apply (reads_read of_item lemma terminal L L0 ch MC); [assumption|exact R2]].
        now apply (gap_spaces terminal L L0 ch HL H0 MC).
    - destruct A as [e u v c r R K Ir|e f u v w y b c r R1 K1 G R2 K2 Ir].
      + eapply D_unary; eassumption.
      + eapply D_binary; [exact K1| |exact K2|exact Ir]. now apply (gap_spaces terminal L L0 ch HL H0 MC). }
  split; [rewrite (f_text _ _ _ F), EM; reflexivity|]. split; [rewrite (f_loose _ _ _ F), EM; exact H0|]. split; [|split].
  - intros e ed He. rewrite <- (edges0 terminal L L0 ch MC) in He. destruct (f_edges _ _ _ F e ed He) as [ed' [He' [[X1 X2 X3 X4 X5] _]]]. eauto 10.
  - intros e ed' He'. destruct (Ch e ed' He') as [ps [P1 [P2 P3]]]. rewrite (edges0 terminal L L0 ch MC) in P1, P3. exists ps. split; [assumption|]. split.
    + intros x Hx. rewrite Forall_forall in P2. destruct (P2 x Hx) as [r [es Hb]]. exists r. eapply HW. exact Hb.
    + intros Hn. apply nth_error_None in Hn. destruct (P3 Hn) as [x [r [es [Hx [Hb Hit]]]]]. apply nth_error_None in Hn. split; [intros ->; destruct Hx|]. split.
      * intros t [i [Hi Hbit]]. rewrite ET in Hi. rewrite <- (edges0 terminal L L0 ch MC) in Hn.
        destruct (f_new _ _ _ F e ed' He' Hn) as [_ Hf]. destruct (Hf _ Hbit) as [Ho|[Ho|Ho]].
        -- left. apply (dn_has _ _ _ (mc_output _ _ _ _ MC)). exists i. auto.
        -- right; left. destruct (ok_planes _ (ok0 terminal L L0 ch MC) _ Ho) as [n' [N1 N2]]. rewrite Nnat.Nat2N.id in N1. rewrite N1 in Hi. now injection Hi as <-.
        -- right; right. assert (i = 0) by lia. subst i. rewrite (ok_symbol _ (ok0 terminal L L0 ch MC)) in Hi. now injection Hi as <-.
      * exists (of_item (e_item ed')). split.
        -- apply (reads_read of_item lemma terminal L L0 ch MC); [assumption|]. eapply reads_new; [exact S0|exact F| |exact He'].
           now rewrite (edges0 terminal L L0 ch MC).
        -- rewrite Hit, Hback. now destruct (HW _ _ _ _ Hb) as [_ [_ D]].
  - intros d u v Hd. destruct (IM d u v Hd) as [e [c [-> [Hr Hc]]]]. exists e, c. split; [reflexivity|]. split; [|assumption].
    now apply (reads_read of_item lemma terminal L L0 ch MC).
Qed.

(** Completeness. *)
Theorem C38_complete choose n L' ms : run choose n L = (L', Ok (Emptied, ms)) ->
  (forall l, In l limits -> snd l = None) -> (forall a b, is_allowed a b = true) ->
  made_so L [TOKEN] -> made_so L (parsed_tags terminal) ->
  (forall u v w, space L u w -> space L v w -> u = v) -> (forall u v w, space L u v -> space L u w -> v = w) ->
  (forall e u v c, input_of e u v c -> unused unary binary c \/ (forall x, ~ space L u x) /\ forall x, ~ space L x v) ->
  (forall e ed c, nth_error (edges L) e = Some ed -> derives of_item lemma unary binary useful terminal (at_most_a_space L) L (e_from ed) (e_to ed) c ->
     rule_category unary binary c -> item_eqb (e_item ed) (to_item c) = true -> input_of e (e_from ed) (e_to ed) c) ->
  forall u v c, derives of_item lemma unary binary useful terminal (at_most_a_space L) L u v c -> exists e, read of_item lemma L' e u v c /\ In (Explicit e, u, v) ms.
Proof.
  intros E Hlim Hfree Hm1 Hm2 Hleft Hright Hin Hcol. destruct (new_chart terminal L) as [L0 r] eqn:EC.
  assert (Hr : exists ch, r = Ok ch).
  { unfold parse in E. unfold bind at 1 in E. rewrite EC in E. destruct r as [ch| |]; [eauto|discriminate|discriminate]. }
  destruct Hr as [ch ->].
  assert (El : exists l ls, limits = l :: ls).
  { unfold parse in E. unfold bind at 1 in E. rewrite EC in E. destruct limits as [|l ls]; [discriminate|eauto]. }
  destruct El as [l [ls El]]. pose proof (new_chart_spec _ _ _ _ HL EC) as MC.
  pose proof (chart_setting to_item of_item lemma terminal L L0 ch HL H0 MC Hsame Hback Hlemma) as S0.
  destruct (parse_spec L0 ch l ls EC El) as [a K]. destruct (K choose n) as [L1 [en1 [ms1 [ag [E1 [I [HF _]]]]]]].
  rewrite E in E1. injection E1 as <- <- <-. clear K.
  assert (Hb : forall u v, blank L0 u v <-> space L u v) by apply (blank_space terminal L L0 ch HL H0 MC).
  destruct HF as [FU HA].
  { split.
    - exact Hfree.
    - apply (made_settled terminal L L0 ch HL MC _ [TOKEN]); [apply (token_matches terminal L L0 ch H0 MC)|assumption].
    - intros u v w B1 B2. apply Hb in B1, B2. eauto.
    - intros u v w B1 B2. apply Hb in B1, B2. eauto.
    - induction 1 as [e u v c Hi|u v c r D IH Hr|u v w x b c r D1 IH1 J D2 IH2 Hr].
      + destruct (Hin e u v c Hi) as [Hu|[N1 N2]]; [left; exact Hu|right]. split; intros x Hx; apply Hb in Hx; [now apply (N1 x)|now apply (N2 x)].
      + right. destruct IH as [[Hu _]|IH]; [rewrite Hu in Hr; destruct Hr|assumption].
      + right. destruct IH1 as [[_ Hu]|[IH1 _]]; [rewrite (proj1 (Hu c)) in Hr; destruct Hr|].
        destruct IH2 as [[_ Hu]|[_ IH2]]; [rewrite (proj2 (Hu b)) in Hr; destruct Hr|]. auto. }
  { assumption. }
  { apply (made_settled terminal L L0 ch HL MC _ (parsed_tags terminal)); [apply (input_matches terminal L L0 ch MC)|assumption]. }
  specialize (HA eq_refl). subst ag. pose proof (st_frame _ _ _ _ _ (i_step _ _ _ _ _ _ _ _ _ _ _ I)) as F.
  assert (ET : tags L' = tags L0) by apply F.
  assert (Main : forall u v c, derives of_item lemma unary binary useful terminal (at_most_a_space L) L u v c -> exists e, reads ch of_item lemma L' e u v c /\ In (Explicit e, u, v) ms).
  { assert (Hlist : forall e u v c, reads ch of_item lemma L' e u v c -> length (edges L0) <= e \/ start e -> In (Explicit e, u, v) ms).
    { intros e u v c R Hs. destruct (fu_listed _ _ _ _ _ _ _ _ _ _ _ FU e) as [[]|[u' [v' Hms]]]; [|exact Hs|].
      - destruct R as [ed [He _]]. apply nth_error_Some. congruence.
      - destruct (i_marks _ _ _ _ _ _ _ _ _ _ _ I _ _ _ Hms) as [e' [c' [[= <-] [R' _]]]].
        destruct (reads_fun _ _ _ _ _ _ _ _ _ _ _ R R') as [-> [-> _]]. assumption. }
    assert (Hpres : forall u v c, derives of_item lemma unary binary useful terminal (at_most_a_space L) L u v c -> rule_category unary binary c -> present to_item L' u v c -> exists e, reads ch of_item lemma L' e u v c /\ In (Explicit e, u, v) ms).
    { intros u v c D Hrc [e [ed [He Hk]]]. apply key_eqb_spec in Hk as [K1 [K2 K3]]. cbn in K1, K2, K3. subst u v. exists e.
      destruct (Nat.lt_ge_cases e (length (edges L0))) as [Hold|Hnew].
      - destruct (nth_error (edges L0) e) as [ed0|] eqn:He0; [|apply nth_error_None in He0; lia].
        destruct (f_edges _ _ _ F e ed0 He0) as [ed1 [He1 [[X1 X2 X3 X4 X5] _]]]. rewrite He in He1. injection He1 as <-.
        rewrite X1, X2, X3 in *. rewrite (edges0 terminal L L0 ch MC) in He0.
        pose proof (Hcol e ed0 c He0 D Hrc K3) as Hst.
        assert (R : reads ch of_item lemma L' e (e_from ed0) (e_to ed0) c).
        { eapply reads_frame; [exact S0|apply frame_refl; apply S0|exact F|].
          apply (reads_start of_item lemma terminal L L0 ch HL MC Hlemma). apply Hst. }
        split; [exact R|]. eapply Hlist; [exact R|]. right. unfold start. eauto.
      - assert (R : reads ch of_item lemma L' e (e_from ed) (e_to ed) c).
        { rewrite <- (Hback c), <- (Hsame _ _ K3). eapply reads_new; [exact S0|exact F|assumption|assumption]. }
        split; [exact R|]. eapply Hlist; [exact R|]. now left. }
    induction 1 as [e u v c Hi|u v c r D IH Hr|u v w x b c r D1 IH1 J D2 IH2 Hr].
    - exists e. assert (R : reads ch of_item lemma L' e u v c).
      { eapply reads_frame; [exact S0|apply frame_refl; apply S0|exact F|].
        apply (reads_start of_item lemma terminal L L0 ch HL MC Hlemma). apply Hi. }
      split; [exact R|]. eapply Hlist; [exact R|]. right. unfold start. eauto.
    - destruct IH as [e [R Hms]]. apply Hpres; [eapply D_unary; eassumption|left; eauto|]. eapply (fu_unary _ _ _ _ _ _ _ _ _ _ _ FU); eassumption.
    - destruct IH1 as [e [R1 M1]]. destruct IH2 as [f [R2 M2]]. apply Hpres; [eapply D_binary; eassumption|right; eauto|].
      eapply (fu_binary _ _ _ _ _ _ _ _ _ _ _ FU); try eassumption. destruct J as [->|J]; [now left|]. right. now apply Hb. }
  intros u v c D. destruct (Main u v c D) as [e [R Hms]]. exists e. split; [|assumption]. now apply (reads_read of_item lemma terminal L L0 ch MC).
Qed.

(** Termination. *)
Hypothesis Hplain : ~ plane_name terminal.
Lemma add_tags_planes ns : forall st st', (forall n, In n ns -> ~ plane_name n) -> M_Tags.add_tags st ns = Some st' -> M_Tags.planes (fst st') = M_Tags.planes (fst st).
Proof.
  induction ns as [|n ns IH]; intros [m c] st' Hn E; cbn [M_Tags.add_tags] in E; [now injection E as <-|].
  unfold M_Tags.add_tag in E.
  destruct (M_Tags.index _ n) as [i|]; [|discriminate]. destruct (M_Tags.CAPACITY <=? i); [discriminate|].
  apply IH in E; [|intros; apply Hn; now right]. rewrite E. cbn [fst M_Tags.planes]. destruct (Z.eqb_spec (hd 0%Z n) 33) as [K|K]; [|reflexivity].
  destruct (Hn n (or_introl eq_refl) K).
Qed.
Lemma create_planes ns X X' c : (forall n, In n ns -> ~ plane_name n) -> create_tags ns X = (X', Ok c) -> M_Tags.planes (tags X') = M_Tags.planes (tags X).
Proof.
  intros Hn. unfold create_tags. destruct (M_Tags.create (tags X) ns) as [[m c']|] eqn:E; [|discriminate]. intros [= <- <-]. unfold M_Tags.create in E.
  apply add_tags_planes in E; assumption.
Qed.
Lemma chart_planes X X' ch : new_chart terminal X = (X', Ok ch) -> M_Tags.planes (tags X') = M_Tags.planes (tags X).
Proof.
  assert (Hn : forall n, In n [GOBIO; PARSE_AUX; FORM; LEXEME; LEMMA; NORMALIZATION; TERM; TOKEN; terminal] -> ~ plane_name n).
  { intros n Hi. cbn in Hi. repeat (destruct Hi as [<-|Hi]; [try discriminate; assumption|]). destruct Hi. }
  assert (Hs : forall ns, incl ns [GOBIO; PARSE_AUX; FORM; LEXEME; LEMMA; NORMALIZATION; TERM; TOKEN; terminal] -> forall Y Y' c,
     create_tags ns Y = (Y', Ok c) -> M_Tags.planes (tags Y') = M_Tags.planes (tags Y)).
  { intros ns Hi Y Y' c. apply create_planes. intros n Hin. apply Hn, Hi, Hin. }
  unfold new_chart. intros E.
  repeat match type of E with bind (create_tags ?ns) _ ?Y = _ =>
    unfold bind at 1 in E; let Y' := fresh "Y" in let r := fresh "r" in let EE := fresh "EE" in
    destruct (create_tags ns Y) as [Y' r] eqn:EE; destruct r as [?| |]; [|discriminate|discriminate]; apply Hs in EE; [|intros ? ?; cbn in *; tauto] end.
  injection E as <- _. congruence.
Qed.

Theorem C38_ends cs : distinct (M_Tags.names (tags L) ++ [GOBIO; PARSE_AUX; FORM; LEXEME; LEMMA; NORMALIZATION; TERM; TOKEN; terminal]) <= 64 -> limits <> [] ->
  M_Tags.planes (tags L) = 0%N -> (forall c, rule_category unary binary c -> In c cs) ->
  (forall c u v ds p, In c cs -> lookup key_eqb (vvc L) (u, v, to_item c) = Some ds -> ~ In (Implicit p) ds) ->
  exists N, forall choose n, N <= n -> exists L' en ms, run choose n L = (L', Ok (en, ms)) /\ en <> Unfinished.
Proof.
  intros Hroom Hl Hp Hcs Him. destruct (careful_tidy _ HL) as [G _]. destruct (g_tags _ G) as [calls Hcalls].
  assert (HC : exists L0 ch, new_chart terminal L = (L0, Ok ch)).
  { apply new_chart_ok. apply (C10_capacity calls _ _ Hcalls). etransitivity; [|exact Hroom]. apply NoDup_incl_length; [apply NoDup_nodup|].
    intros n. rewrite !nodup_In, !in_app_iff. intros [Hn|Hn]; [now left|right]. cbn in *. tauto. }
  destruct HC as [L0 [ch EC]]. pose proof (chart_planes _ _ _ EC) as HP. rewrite Hp in HP.
  destruct limits as [|l ls] eqn:El; [congruence|]. rewrite <- El in *. clear Hl.
  pose proof (new_chart_spec _ _ _ _ HL EC) as MC.
  pose proof (chart_setting to_item of_item lemma terminal L L0 ch HL H0 MC Hsame Hback Hlemma) as S0.
  destruct (parse_spec L0 ch l ls EC El) as [a K].
  set (places := map Text (seq 0 (S (length (M_Lattice.text L0))))).
  set (keys := list_prod (list_prod places places) (map to_item cs)).
  exists (a + (length (edges L0) + length keys)). intros choose n Hn. destruct (K choose n) as [L' [en [ms [ag [E [_ [_ HB]]]]]]].
  exists L', en, ms. split; [exact E|]. apply (HB (length (edges L0) + length keys)); [|exact Hn]. clear K HB E.
  intros X [F Ch Un].
  set (new := skipn (length (edges L0)) (edges X)).
  assert (Hnew : forall i ed, nth_error new i = Some ed -> nth_error (edges X) (length (edges L0) + i) = Some ed).
  { intros i ed Hi. unfold new in Hi. rewrite <- (firstn_skipn (length (edges L0)) (edges X)). rewrite nth_error_app2; rewrite firstn_length.
    - replace (length (edges L0) + i - Nat.min (length (edges L0)) (length (edges X))) with i; [assumption|].
      pose proof (frame_length _ _ _ F). lia.
    - lia. }
  assert (Hit : forall i ed, nth_error new i = Some ed -> exists c, In c cs /\ e_item ed = to_item c).
  { intros i ed Hi. apply Hnew in Hi. destruct (Ch _ _ Hi) as [ps [_ [_ P3]]]. destruct P3 as [x [r [es [_ [[[_ A] _] EI]]]]]; [apply nth_error_None; lia|].
    exists (r_category r). split; [|assumption]. apply Hcs. destruct A; [left; eauto|right; eauto]. }
  assert (Hu : forall i j ei ej, i < j -> nth_error new i = Some ei -> nth_error new j = Some ej -> edge_key ei <> edge_key ej).
  { intros i j ei ej Hij Hi Hj. destruct (Hit _ _ Hj) as [c [Hc EI]]. apply Hnew in Hi, Hj. intros EK.
    assert (EF : key_eqb (edge_key ei) (edge_key ej) = false).
    { eapply (Un HP); [exact Hj|lia| |instantiate (1 := length (edges L0) + i); lia|exact Hi].
      intros ds p HH HI. destruct (mc_same _ _ _ _ MC) as [M EM]. rewrite EM in HH. unfold edge_key in HH. rewrite EI in HH. eapply Him; eassumption. }
    rewrite EK, key_eqb_refl in EF. discriminate. }
  assert (Hnd : NoDup (map edge_key new)).
  { apply NoDup_nth_error. intros i j Hi Eij. rewrite map_length in Hi. rewrite !nth_error_map in Eij.
    destruct (nth_error new i) as [ei|] eqn:Ei; [|apply nth_error_None in Ei; lia]. destruct (nth_error new j) as [ej|] eqn:Ej; [|discriminate].
    injection Eij as Eij1 Eij2 Eij3. assert (EK : edge_key ei = edge_key ej) by (unfold edge_key; congruence).
    destruct (Nat.lt_trichotomy i j) as [H|[H|H]]; [|assumption|].
    - destruct (Hu _ _ _ _ H Ei Ej EK).
    - destruct (Hu _ _ _ _ H Ej Ei (eq_sym EK)). }
  assert (Hsub : incl (map edge_key new) keys).
  { intros k [ed [<- Hed]]%in_map_iff. apply In_nth_error in Hed as [i Hi]. destruct (Hit _ _ Hi) as [c [Hc EI]]. apply Hnew in Hi.
    destruct (edge_span _ _ _ (f_good _ _ _ F) (f_tidy _ _ _ F) (eq_trans (f_loose _ _ _ F) (se_loose _ _ _ _ _ S0)) Hi) as [p [q [E1 [E2 [_ [B1 B2]]]]]].
    rewrite (f_text _ _ _ F) in B1, B2. apply boundary_wf in B1, B2.
    unfold edge_key. rewrite E1, E2, EI. apply in_prod; [apply in_prod|now apply in_map]; apply in_map; apply in_seq; lia. }
  assert (HH : length (map edge_key new) <= length keys) by exact (NoDup_incl_length Hnd Hsub). rewrite map_length in HH. unfold new in HH. rewrite skipn_length in HH.
  pose proof (frame_length _ _ _ F). lia.
Qed.
End Run.
Print Assumptions C38_sound.
Print Assumptions C38_complete.
Print Assumptions C38_ends.

(** * A grammar and a text: X -> 'a', Y -> 'b', S -> X Y, S -> S Y and "a b b" *)
Definition no_lemma (L : lattice) (d : desc) : option str := None.
Definition TERMINAL : str := [112; 45; 116]%Z.
Definition word (p : nat) (c : Z) : op := AddEdge (Text p) (Text (S p)) (ex_item [84]%Z [c]) 4%N empty_sequence 0%Z (-1) (-1).
Definition gap_token (p : nat) : op := AddEdge (Text p) (Text (S p)) (ex_item [66]%Z [32]%Z) 4%N empty_sequence 0%Z (-1) (-1).
Definition abb_calls : list op := [AppendString [97; 32; 98; 98]%Z; word 0 97; gap_token 1; word 2 98; word 3 98].
Definition abb : lattice := after abb_calls new_lattice.
Definition found_as (c : str) (no : Z) : found str := Found c 0%Z no 0%Z.
Definition ex_unary : str -> list (found str) :=
  simple_unary str_eqb [([39; 97; 39]%Z, found_as [88]%Z 0); ([39; 98; 39]%Z, found_as [89]%Z 1)].
Definition ex_binary : str -> str -> list (found str) :=
  simple_binary str_eqb [([88]%Z, [89]%Z, found_as [83]%Z 2); ([83]%Z, [89]%Z, found_as [83]%Z 3)].
Definition ex_parse (choose : nat -> nat) (n : nat) (L : lattice) : lattice * res (ending * list mark) :=
  parse string_to_item string_of_item no_lemma ex_unary ex_binary (fun _ => true) simple_limits (fun _ _ => true) Z.add (fun _ _ => None) choose TERMINAL n L.
Definition spans (L : lattice) : list (vertex * vertex * str) := map (fun ed => (e_from ed, e_to ed, category (e_item ed))) (edges L).
Example abb_parse : let r := ex_parse (fun _ => 0) 20 abb in
  match snd r with Ok (Emptied, ms) => length ms = 9 | _ => False end /\
  spans (fst r) = spans abb ++ [(Text 0, Text 1, [88]%Z); (Text 2, Text 3, [89]%Z); (Text 3, Text 4, [89]%Z); (Text 0, Text 3, [83]%Z); (Text 0, Text 4, [83]%Z)].
Proof. vm_compute. split; reflexivity. Qed.
Example abb_careful : careful_program abb.
Proof. unfold abb, abb_calls, word, gap_token. careful. Qed.
Ltac edge_of H := apply nth_error_In in H; vm_compute in H; destruct H as [<-|[<-|[<-|[<-|[]]]]].
Lemma abb_tagged e ed : nth_error (edges abb) e = Some ed -> tagged abb ed [TOKEN] /\ ~ tagged abb ed [FORM].
Proof.
  intros H. assert (E : e_tags ed = 4%N) by (edge_of H; reflexivity). split.
  - exists TOKEN. split; [now left|]. exists 2. rewrite E. split; [vm_compute; reflexivity|reflexivity].
  - intros [t [[<-|[]] [i [Hi Hb]]]]. rewrite E in Hb. destruct i as [|[|[|i]]]; vm_compute in Hi; try discriminate. destruct i; discriminate.
Qed.
Lemma abb_text e ed : nth_error (edges abb) e = Some ed -> tagged abb ed text_tags.
Proof. intros H. destruct (abb_tagged e ed H) as [[t [[<-|[]] Ht]] _]. exists TOKEN. split; [cbn; tauto|assumption]. Qed.
Lemma abb_space u v : space abb u v -> u = Text 1 /\ v = Text 2.
Proof. intros [e [ed [H [<- [<- [_ Hc]]]]]]. edge_of H; cbn in Hc; try discriminate. split; reflexivity. Qed.
Lemma abb_read e u v c : read string_of_item no_lemma abb e u v c ->
  (u, v, c) = (Text 0, Text 1, [39; 97; 39]%Z) \/ (u, v, c) = (Text 1, Text 2, [39; 32; 39]%Z) \/
  (u, v, c) = (Text 2, Text 3, [39; 98; 39]%Z) \/ (u, v, c) = (Text 3, Text 4, [39; 98; 39]%Z).
Proof.
  intros [ed [H [<- [<- R]]]]. pose proof (abb_text e ed H) as T. inversion R as [_ E|l N _ _ E|N _ _ E|N _ E]; try contradiction. clear R E.
  edge_of H; cbn; tauto.
Qed.
Lemma string_same : respects string_of_item.
Proof.
  intros i j H. unfold item_eqb in H. apply andb_true_iff in H as [H _]. apply andb_true_iff in H as [H _]. unfold string_of_item.
  unfold str_eqb in H. match type of H with context [list_eq_dec ?d ?a ?b] => destruct (list_eq_dec d a b) as [E|]; [exact E|discriminate] end.
Qed.
Lemma string_back : reads_back string_to_item string_of_item.
Proof. intros c. reflexivity. Qed.
Lemma no_lemma_steady L : steady no_lemma L.
Proof. intros L' e ed _ _ _. reflexivity. Qed.

Definition abb_derives := derives string_of_item no_lemma ex_unary ex_binary (fun _ => true) TERMINAL.
Lemma abb_rule c : rule_category ex_unary ex_binary c -> In c [[88]%Z; [89]%Z; [83]%Z].
Proof.
  intros [[b [r [H ->]]]|[a [b [r [H ->]]]]].
  - apply in_map_iff in H as [x [<- Hx]]. apply filter_In in Hx as [[<-|[<-|[]]] _]; cbn; tauto.
  - apply in_map_iff in H as [x [<- Hx]]. apply filter_In in Hx as [[<-|[<-|[]]] _]; cbn; tauto.
Qed.
Lemma abb_loose : n_loose abb = 0.
Proof. vm_compute. reflexivity. Qed.
Lemma abb_terminal : TERMINAL <> M_Tags.SYMBOL.
Proof. discriminate. Qed.
(** The hypotheses of all three theorems hold. *)
Example C38_sound_example : careful_program abb /\ n_loose abb = 0 /\ TERMINAL <> M_Tags.SYMBOL /\ steady no_lemma abb.
Proof. split; [exact abb_careful|]. split; [exact abb_loose|]. split; [exact abb_terminal|exact (no_lemma_steady abb)]. Qed.
Example C38_complete_example choose n L' ms : ex_parse choose n abb = (L', Ok (Emptied, ms)) ->
  forall u v c, abb_derives (at_most_a_space abb) abb u v c -> exists e, read string_of_item no_lemma L' e u v c /\ In (Explicit e, u, v) ms.
Proof.
  unfold ex_parse, abb_derives. intros E. apply (C38_complete string_to_item string_of_item no_lemma ex_unary ex_binary (fun _ => true) simple_limits (fun _ _ => true) Z.add (fun _ _ => None)
    TERMINAL abb abb_careful abb_loose abb_terminal string_same string_back (no_lemma_steady _) choose n L' ms E).
  - intros l [<-|[]]. reflexivity.
  - reflexivity.
  - intros e ed H [t [[<-|[]] Ht]]. edge_of H; (eexists; eexists; exists TOKEN; split; [reflexivity|]; split; [now left|exact Ht]).
  - intros e ed H _. destruct (abb_tagged e ed H) as [[t [[<-|[]] Ht]] _].
    edge_of H; (eexists; eexists; exists TOKEN; split; [reflexivity|]; split; [cbn; tauto|exact Ht]).
  - intros u v w A B. apply abb_space in A as [-> _], B as [-> _]. reflexivity.
  - intros u v w A B. apply abb_space in A as [_ ->], B as [_ ->]. reflexivity.
  - intros e u v c [R _]. apply abb_read in R as [E'|[E'|[E'|E']]]; injection E' as -> -> ->.
    + right. split; intros x Hx; apply abb_space in Hx as [? ?]; discriminate.
    + left. split; [reflexivity|]. intros d. split; unfold ex_binary, simple_binary; cbn; try reflexivity. now rewrite !andb_false_r.
    + right. split; intros x Hx; apply abb_space in Hx as [? ?]; discriminate.
    + right. split; intros x Hx; apply abb_space in Hx as [? ?]; discriminate.
  - intros e ed c H _ Hr Hi. exfalso. apply abb_rule in Hr. edge_of H; destruct Hr as [<-|[<-|[<-|[]]]]; vm_compute in Hi; discriminate.
Qed.
(** S is derivable over the text, across the blank. *)
Example abb_S : abb_derives (at_most_a_space abb) abb (Text 0) (Text 4) [83]%Z.
Proof.
  assert (In_ : forall e ed, nth_error (edges abb) e = Some ed -> abb_derives (at_most_a_space abb) abb (e_from ed) (e_to ed) (39%Z :: M_Items.text (e_item ed) ++ [39%Z])).
  { intros e ed H. apply (D_input _ _ _ _ _ _ _ _ e). split; [|split; [reflexivity|]].
    - exists ed. repeat split; [assumption|]. apply (R_text string_of_item). now apply (abb_text e).
    - intros ed' H'. rewrite H in H'. injection H' as <-. destruct (abb_tagged e ed H) as [[t [[<-|[]] Ht]] _]. exists TOKEN. split; [cbn; tauto|assumption]. }
  assert (Got : forall e u v c, option_map (fun ed => (e_from ed, e_to ed, 39%Z :: M_Items.text (e_item ed) ++ [39%Z])) (nth_error (edges abb) e) = Some (u, v, c) ->
    abb_derives (at_most_a_space abb) abb u v c).
  { intros e u v c H. destruct (nth_error (edges abb) e) as [ed|] eqn:E; [|discriminate]. cbn [option_map] in H. injection H as <- <- <-. exact (In_ e ed E). }
  assert (A : abb_derives (at_most_a_space abb) abb (Text 0) (Text 1) [39; 97; 39]%Z) by (apply (Got 0); vm_compute; reflexivity).
  assert (B : abb_derives (at_most_a_space abb) abb (Text 2) (Text 3) [39; 98; 39]%Z) by (apply (Got 2); vm_compute; reflexivity).
  assert (D : abb_derives (at_most_a_space abb) abb (Text 3) (Text 4) [39; 98; 39]%Z) by (apply (Got 3); vm_compute; reflexivity).
  clear In_ Got. unfold abb_derives in *.
  apply (D_unary _ _ _ _ _ _ _ _ _ _ _ (found_as [88]%Z 0)) in A; [|now left].
  apply (D_unary _ _ _ _ _ _ _ _ _ _ _ (found_as [89]%Z 1)) in B; [|now left].
  apply (D_unary _ _ _ _ _ _ _ _ _ _ _ (found_as [89]%Z 1)) in D; [|now left].
  assert (In1 : In (found_as [83]%Z 2) (ex_binary [88]%Z [89]%Z)) by (vm_compute; auto).
  assert (In2 : In (found_as [83]%Z 3) (ex_binary [83]%Z [89]%Z)) by (vm_compute; auto).
  eapply (D_binary _ _ _ _ _ _ _ _ (Text 0) (Text 3) (Text 3) (Text 4) [83]%Z [89]%Z (found_as [83]%Z 3)); [|now left|exact D|exact In2].
  eapply (D_binary _ _ _ _ _ _ _ _ (Text 0) (Text 1) (Text 2) (Text 3) [88]%Z [89]%Z (found_as [83]%Z 2)); [exact A| |exact B|exact In1].
  right. destruct (nth_error (edges abb) 1) as [ed|] eqn:E; [|vm_compute in E; discriminate]. pose proof (proj1 (abb_tagged 1 _ E)) as Ht.
  exists 1, ed. split; [assumption|]. vm_compute in E. injection E as <-. auto.
Qed.
Lemma abb_filed u v it ds p : lookup key_eqb (vvc abb) (u, v, it) = Some ds -> ~ In (Implicit p) ds.
Proof.
  intros Hl. apply lookup_in in Hl as [k [Hk _]]. apply (in_map snd) in Hk. assert (E : map snd (vvc abb) = map (fun e => [Explicit e]) [0; 1; 2; 3]) by (vm_compute; reflexivity).
  rewrite E in Hk. apply in_map_iff in Hk as [e [He _]]. cbn [snd] in He. rewrite <- He. intros [Hp|[]]. discriminate.
Qed.
Lemma abb_room : distinct (M_Tags.names (tags abb) ++ [GOBIO; PARSE_AUX; FORM; LEXEME; LEMMA; NORMALIZATION; TERM; TOKEN; TERMINAL]) <= 64.
Proof. apply Nat.leb_le. vm_compute. reflexivity. Qed.
Lemma abb_planes : M_Tags.planes (tags abb) = 0%N.
Proof. vm_compute. reflexivity. Qed.
Lemma abb_not_plane : ~ plane_name TERMINAL.
Proof. discriminate. Qed.
Example C38_ends_example : exists N, forall choose n, N <= n -> exists L' en ms, ex_parse choose n abb = (L', Ok (en, ms)) /\ en <> Unfinished.
Proof.
  unfold ex_parse. apply (C38_ends string_to_item string_of_item no_lemma ex_unary ex_binary (fun _ => true) simple_limits (fun _ _ => true) Z.add (fun _ _ => None)
    TERMINAL abb abb_careful abb_loose abb_terminal string_same string_back (no_lemma_steady _) abb_not_plane [[88]%Z; [89]%Z; [83]%Z]).
  - exact abb_room.
  - discriminate.
  - exact abb_planes.
  - apply abb_rule.
  - intros c u v ds p _. apply abb_filed.
Qed.

(** * What does not hold *)
(** Two blanks in a row: to the left all blanks are skipped, to the right one, so that it depends on the agenda what is found. *)
Definition two_blanks : lattice := after [AppendString [97; 32; 32; 98]%Z; word 0 97; gap_token 1; gap_token 2; word 3 98] new_lattice.
Definition other_order (n : nat) : nat := if n =? 4 then 1 else 0.
Example two_blanks_orders :
  spans (fst (ex_parse (fun _ => 0) 20 two_blanks)) = spans two_blanks ++ [(Text 0, Text 1, [88]%Z); (Text 3, Text 4, [89]%Z); (Text 0, Text 4, [83]%Z)] /\
  spans (fst (ex_parse other_order 20 two_blanks)) = spans two_blanks ++ [(Text 0, Text 1, [88]%Z); (Text 3, Text 4, [89]%Z)].
Proof. vm_compute. split; reflexivity. Qed.
Lemma two_blanks_careful : careful_program two_blanks.
Proof. unfold two_blanks, word, gap_token. careful. Qed.
Definition emptied (r : res (ending * list mark)) : bool := match r with Ok (Emptied, _) => true | _ => false end.
Theorem C38_order_refuted :
  ~ (forall L choose choose' n, careful_program L -> n_loose L = 0 -> emptied (snd (ex_parse choose n L)) = true -> emptied (snd (ex_parse choose' n L)) = true ->
       forall x, In x (spans (fst (ex_parse choose n L))) -> In x (spans (fst (ex_parse choose' n L)))).
Proof.
  intros H. specialize (H two_blanks (fun _ => 0) other_order 20 two_blanks_careful). rewrite (proj1 two_blanks_orders), (proj2 two_blanks_orders) in H.
  assert (K : In (Text 0, Text 4, [83]%Z) (spans two_blanks ++ [(Text 0, Text 1, [88]%Z); (Text 3, Text 4, [89]%Z)])).
  { apply H; [vm_compute; reflexivity|vm_compute; reflexivity|vm_compute; reflexivity|]. apply in_app_iff. right. cbn. tauto. }
  vm_compute in K. repeat (destruct K as [K|K]; [discriminate|]). destruct K.
Qed.
Print Assumptions C38_order_refuted.

(** An edge that is not parsed takes in the edge that a rule would make. *)
Definition merged : lattice := after [AppendString [97; 98]%Z; word 0 97; word 1 98; TagCall (M_Tags.Create [[122]%Z]);
  AddEdge (Text 0) (Text 1) (ex_item [88]%Z []) 8%N empty_sequence 0%Z (-1) (-1)] new_lattice.
Lemma merged_careful : careful_program merged.
Proof. unfold merged, word. careful. Qed.
Theorem C38_merged_refuted :
  ~ (forall L choose n, careful_program L -> n_loose L = 0 -> emptied (snd (ex_parse choose n L)) = true ->
       forall u v w, In (u, v, [88]%Z) (spans (fst (ex_parse choose n L))) -> In (v, w, [89]%Z) (spans (fst (ex_parse choose n L))) ->
         In (u, w, [83]%Z) (spans (fst (ex_parse choose n L)))).
Proof.
  intros H. specialize (H merged (fun _ => 0) 20 merged_careful).
  assert (E : spans (fst (ex_parse (fun _ => 0) 20 merged)) =
    [(Text 0, Text 1, [84]%Z); (Text 1, Text 2, [84]%Z); (Text 0, Text 1, [88]%Z); (Text 1, Text 2, [89]%Z)]) by (vm_compute; reflexivity).
  rewrite E in H. assert (K : In (Text 0, Text 2, [83]%Z) [(Text 0, Text 1, [84]%Z); (Text 1, Text 2, [84]%Z); (Text 0, Text 1, [88]%Z); (Text 1, Text 2, [89]%Z)]).
  { apply (H ltac:(vm_compute; reflexivity) ltac:(vm_compute; reflexivity) (Text 0) (Text 1) (Text 2)); cbn; tauto. }
  repeat (destruct K as [K|K]; [discriminate|]). destruct K.
Qed.
Print Assumptions C38_merged_refuted.

(** A category with the name of a symbol, where there is the symbol: every time a new edge is made. *)
Definition symbol_a : lattice := after [AppendString [97]%Z; AddSymbols (Text 0) (Text 1); word 0 97] new_lattice.
Lemma symbol_a_careful : careful_program symbol_a.
Proof. unfold symbol_a, word. careful. Qed.
Definition loop_unary : str -> list (found str) :=
  simple_unary str_eqb [([39; 97; 39]%Z, found_as [39; 97]%Z 0); ([39; 97]%Z, found_as [39; 97]%Z 1)].
Definition loop_parse (n : nat) (L : lattice) : lattice * res (ending * list mark) :=
  parse string_to_item string_of_item no_lemma loop_unary (fun _ _ => []) (fun _ => true) simple_limits (fun _ _ => true) Z.add (fun _ _ => None) (fun _ => 0) TERMINAL n L.
Theorem C38_new_edges_refuted :
  ~ (forall L n, careful_program L -> n_loose L = 0 -> NoDup (spans L) -> NoDup (spans (fst (loop_parse n L)))).
Proof.
  intros H. specialize (H symbol_a 2 symbol_a_careful).
  assert (E : spans (fst (loop_parse 2 symbol_a)) = [(Text 0, Text 1, [84]%Z); (Text 0, Text 1, [39; 97]%Z); (Text 0, Text 1, [39; 97]%Z)]) by (vm_compute; reflexivity).
  rewrite E in H. assert (K : NoDup (spans symbol_a)) by (vm_compute; repeat constructor; intros []).
  specialize (H ltac:(vm_compute; reflexivity) K). inversion H as [|x l H1 H2]; subst. inversion H2 as [|x l H3 H4]; subst. apply H3. now left.
Qed.
Print Assumptions C38_new_edges_refuted.
(** And the agenda is not empty after that: here, after 40 turns. *)
Example symbol_a_goes_on : match snd (loop_parse 40 symbol_a) with Ok (Unfinished, ms) => length ms = 40 | _ => False end /\ length (edges (fst (loop_parse 40 symbol_a))) = 41.
Proof. vm_compute. split; reflexivity. Qed.

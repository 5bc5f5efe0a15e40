(** C60 for the lattices that programs build. *)
From Coq Require Import String Ascii ZArith NArith List Bool Lia.
From Verif Require M_Tags M_Items M_Psi M_PsiFile L_Psi P_PsiFile.
From Verif Require Import M_Utf8 S_Utf8 L_Utf8 M_Cutter P_Cutter M_Lattice L_Lattice S_Lattice L_LatticeOps L_LatticeTidy P_Lattice.
From Verif Require Import M_LatticeWalk P_LatticeWalk P_LatticeVertices P_LatticePath M_PsiLattice.
Import ListNotations.
Local Open Scope nat_scope.

(** * Specification *)
(** What the writer needs: edges with the tag "symbol" are between vertices of the text, the texts of
    items at loose vertices are UTF-8, partitions can be read, and no edge is made of itself. *)
Record printable (rank : desc -> nat) (L : lattice) : Prop := {
  pr_symbols : forall e ed, nth_error (edges L) e = Some ed -> N.testbit (e_tags ed) 0 = true -> exists p q, e_from ed = Text p /\ e_to ed = Text q;
  pr_items : forall e ed, nth_error (edges L) e = Some ed -> is_loose (e_from ed) || is_loose (e_to ed) = true -> well_formed (M_Items.text (e_item ed));
  pr_parts : forall e ed p, nth_error (edges L) e = Some ed -> In p (e_partitions ed) ->
    exists L' us, usages (p_sequence p) L = (L', Ok us) /\
      forall u, In u us -> is_edge L (fst u) /\ (N.testbit (edge_tags L (fst u)) 0 = false -> rank (fst u) < rank (Explicit e))
}.
(** A line tells all about its edge; the line of a symbol in a gap tells its place, its text and its item. *)
(** The role of an edge in a partition: none if it is NULL, otherwise its text. *)
Definition role_told (z : M_Items.zvalue) (r : option M_Quoter.str) : Prop :=
  match r with
  | None => z = M_Items.ZNull
  | Some s => z <> M_Items.ZNull /\ s = str_of (M_Items.zvalue_to_string z)
  end.
Definition tells_part (L : lattice) (above : list (M_PsiFile.row score desc)) (p : partition) (q : M_Psi.part score) : Prop :=
  M_Psi.pt_tags q = psi_names L (p_tags p) /\ M_Psi.pt_score q = p_score p /\
  exists L' us, usages (p_sequence p) L = (L', Ok us) /\
    Forall2 (fun u l => role_told (snd u) (M_Psi.l_role l) /\ M_Psi.l_hidden l = edge_hidden L (fst u) /\
      match M_Psi.l_number l with
      | Some n => P_PsiFile.line_of above n (fst u)
      | None => N.testbit (edge_tags L (fst u)) 0 = true
      end) us (M_Psi.pt_links q).
Record tells (attrs : M_Items.manager) (L : lattice) (above : list (M_PsiFile.row score desc)) (d : desc) (l : M_Psi.edge score) : Prop := {
  tl_source : exists v, source L d = Ok v /\ M_Psi.source l = psi_vertex v;
  tl_target : exists v, target L d = Ok v /\ M_Psi.target l = psi_vertex v;
  tl_text : forall p q, source L d = Ok (Text p) -> target L d = Ok (Text q) ->
    M_Psi.edge_length l = N.of_nat (q - p) /\ M_Psi.edge_text l = str_of (sub (text L) p (q - p));
  tl_item : exists it, annotation_item L d = Ok it /\ M_Psi.item_text l = str_of (M_Items.text it) /\ M_Psi.category l = str_of (M_Items.category it) /\
    (M_Psi.tag_names l = psi_names L (edge_tags L d) /\ M_Psi.score l = edge_score L d /\
     M_Psi.values l = map (fun av => (str_of (fst av), str_of (snd av))) (M_Items.get_values attrs it) /\
     Forall2 (tells_part L above) (edge_partitions L d) (M_Psi.parts l)
     \/ N.testbit (edge_tags L d) 0 = true /\ M_Psi.tag_names l = [M_Psi.lit "symbol"])
}.
(** Bytes that the quoter writes as two. *)
Definition plain_byte (b : Z) : Prop := ~ In b [10; 9; 13; 95; 42; 92; 35]%Z.

(** * Proofs *)
Lemma psi_role_told z : role_told z (psi_role z).
Proof. destruct z; cbn; try reflexivity; (split; [discriminate|reflexivity]). Qed.
Lemma str_length s : length (str_of s) = length s.
Proof. apply map_length. Qed.
Lemma bytes_str s : Forall byte s -> M_Psi.bytes (str_of s) = s.
Proof.
  unfold M_Psi.bytes, str_of. intros H. rewrite map_map. induction H as [|b s Hb _ IH]; [reflexivity|]. cbn [map]. f_equal; [|assumption].
  unfold byte in Hb. rewrite N_ascii_embedding by lia. lia.
Qed.
Lemma ascii_wf l : Forall (fun b => 0 <= b < 128)%Z l -> well_formed l.
Proof.
  intros H. exists l. split.
  - eapply Forall_impl; [|exact H]. cbn. intros b Hb. left. lia.
  - induction H as [|b l Hb _ IH]; [reflexivity|]. cbn [flat_map]. unfold enc at 1. destruct (Z.ltb_spec b 128); [|lia]. cbn [app]. now f_equal.
Qed.
Lemma escape_small c : (N_of_ascii c < 128)%N -> forallb (fun b => (0 <=? b) && (b <? 128))%Z (M_Psi.bytes (M_Quoter.escape_char ["#"%char] c)) = true.
Proof. destruct c as [[] [] [] [] [] [] [] []]; intros H; solve [reflexivity|vm_compute in H; discriminate H]. Qed.
Lemma escape_great c : (128 <= N_of_ascii c)%N -> M_Quoter.escape_char ["#"%char] c = [c].
Proof. destruct c as [[] [] [] [] [] [] [] []]; intros H; solve [reflexivity|vm_compute in H; destruct (H eq_refl)]. Qed.
Lemma bytes_app a b : M_Psi.bytes (a ++ b) = M_Psi.bytes a ++ M_Psi.bytes b.
Proof. apply map_app. Qed.
Lemma enc_great cp : scalar cp -> (128 <= cp)%Z -> Forall (fun b => 128 <= b < 256)%Z (enc cp).
Proof.
  intros Hs H. assert (A : Forall (fun b => 128 <= b)%Z (enc cp)).
  { assert (N : (0 <= cp)%Z) by lia. unfold enc. destruct (Z.ltb_spec cp 128); [lia|].
    pose proof (Z.div_pos cp 64). pose proof (Z.div_pos cp 4096). pose proof (Z.div_pos cp 262144).
    pose proof (Z.mod_pos_bound cp 64). pose proof (Z.mod_pos_bound (cp / 64) 64). pose proof (Z.mod_pos_bound (cp / 4096) 64).
    destruct (Z.ltb_spec cp 2048); [|destruct (Z.ltb_spec cp 65536)]; repeat (apply Forall_cons; [lia|]); apply Forall_nil. }
  assert (B := enc_bytes cp Hs). rewrite Forall_forall in *. intros b Hb. specialize (A b Hb). specialize (B b Hb). unfold byte in B. lia.
Qed.
Lemma quote_great s : Forall (fun b => 128 <= b < 256)%Z s -> M_Psi.quote (str_of s) = str_of s.
Proof.
  unfold M_Psi.quote. induction 1 as [|b s Hb _ IH]; [reflexivity|]. cbn [str_of map M_Quoter.escape]. fold (str_of s). rewrite IH, escape_great; [reflexivity|].
  rewrite N_ascii_embedding by lia. lia.
Qed.
Lemma quote_wf t : well_formed t -> well_formed (M_Psi.bytes (M_Psi.quote (str_of t))).
Proof.
  intros [cps [H ->]]. induction H as [|cp cps Hc _ IH]; [apply well_formed_nil|]. cbn [flat_map].
  unfold str_of. rewrite map_app, L_Psi.quote_app, bytes_app. apply wf_app; [|exact IH].
  destruct (Z.ltb_spec cp 128) as [Hl|Hl].
  - unfold enc. destruct (Z.ltb_spec cp 128); [|lia]. unfold M_Psi.quote. cbn [map M_Quoter.escape]. rewrite app_nil_r. apply ascii_wf.
    assert (Hn := scalar_nonneg _ Hc). assert (E := escape_small (ascii_of_N (Z.to_N cp))). rewrite N_ascii_embedding in E by lia.
    specialize (E ltac:(lia)). rewrite forallb_forall in E. apply Forall_forall. intros b Hb. apply E in Hb. apply andb_true_iff in Hb as [H1 H2].
    apply Z.leb_le in H1. apply Z.ltb_lt in H2. lia.
  - fold (str_of (enc cp)). rewrite (quote_great _ (enc_great _ Hc Hl)), bytes_str; [|now apply enc_bytes].
    exists [cp]. split; [now constructor|]. cbn [flat_map]. now rewrite app_nil_r.
Qed.
Lemma distance_quote t : well_formed t -> M_Utf8.distance (M_Psi.bytes (M_Psi.quote (str_of t))) <> None.
Proof. intros H. apply quote_wf in H as [cps H]. now rewrite (distance_encodes _ _ H). Qed.

(** The names are unfolded last. *)
Local Strategy 1000 [psi_names usages].
Section View.
Variable topo : list vertex -> list (vertex * vertex) -> option (list vertex).
Variable attrs : M_Items.manager.
Variable L : lattice.
Variable rank : desc -> nat.
Hypothesis HL : careful_program L.
Hypothesis P : printable rank L.
Let G : good L := proj1 (careful_tidy L HL).
Let T : tidy L := proj2 (careful_tidy L HL).
Local Notation from := (psi_end L source).
Local Notation to := (psi_end L target).

Lemma there_spec d : edge_there L d = true <-> is_edge L d.
Proof. destruct d as [p|e]; cbn; [tauto|]. apply Nat.ltb_lt. Qed.
Lemma end_inv get d v : psi_end L get d = v -> (exists p, v = M_Psi.At p) -> is_edge L d /\ exists p, v = M_Psi.At (N.of_nat p) /\ get L d = Ok (Text p).
Proof.
  unfold psi_end. intros E [x Hx]. destruct (edge_there L d) eqn:Et; [|congruence]. apply there_spec in Et. split; [assumption|].
  destruct (get L d) as [[p|k]|e|]; cbn [psi_vertex] in E; [|congruence..]. exists p. auto.
Qed.
Lemma from_at d s : from d = M_Psi.At s -> is_edge L d /\ exists p, s = N.of_nat p /\ source L d = Ok (Text p).
Proof. intros E. destruct (end_inv _ _ _ E (ex_intro _ s eq_refl)) as [H [p [E1 E2]]]. split; [assumption|]. exists p. split; [congruence|assumption]. Qed.
Lemma to_at d s : to d = M_Psi.At s -> is_edge L d /\ exists p, s = N.of_nat p /\ target L d = Ok (Text p).
Proof. intros E. destruct (end_inv _ _ _ E (ex_intro _ s eq_refl)) as [H [p [E1 E2]]]. split; [assumption|]. exists p. split; [congruence|assumption]. Qed.
Lemma end_ok get d v : is_edge L d -> get L d = Ok v -> psi_end L get d = psi_vertex v.
Proof. intros H E. unfold psi_end. apply there_spec in H. now rewrite H, E. Qed.
Lemma between d p q : is_edge L d -> source L d = Ok (Text p) -> target L d = Ok (Text q) ->
  p < q <= length (text L) /\ boundary (text L) p /\ boundary (text L) q /\ edge_text L d = Ok (sub (text L) p (q - p)).
Proof.
  intros He Es Et. destruct (edge_place L d _ _ G T He Es Et) as [Bp Bq]. cbn [place] in Bp, Bq. destruct (boundary_wf _ _ Bp) as [_ Lp]. destruct (boundary_wf _ _ Bq) as [_ Lq].
  assert (H : p < q).
  { destruct d as [x|e]; cbn [source target] in *.
    - pose proof (symbol_len_pos L x). injection Es as ->. injection Et as <-. lia.
    - destruct (nth_error (edges L) e) as [ed|] eqn:Ee; [|discriminate]. destruct (g_edges _ G _ _ Ee) as [_ [_ [K3 K4]]].
      injection Es as Es. injection Et as Et. rewrite Es, Et in K3, K4. cbn in K4. apply Nat.ltb_ge in K4. assert (p <> q) by congruence. lia. }
  split; [lia|]. split; [assumption|]. split; [assumption|]. unfold edge_text. rewrite Es, Et.
  assert (El : edge_length L d = Ok (q - p)).
  { unfold edge_length. destruct d as [x|e]; [|now rewrite Es, Et]. cbn [source target] in *. injection Es as ->. injection Et as <-. f_equal. lia. }
  rewrite El. destruct (Nat.leb_spec p (length (text L))); [reflexivity|lia].
Qed.
Lemma psi_text_between d p q : is_edge L d -> source L d = Ok (Text p) -> target L d = Ok (Text q) -> psi_text L d = str_of (sub (text L) p (q - p)).
Proof. intros He Es Et. unfold psi_text. now rewrite (proj2 (proj2 (proj2 (between d p q He Es Et)))). Qed.
Lemma sub_length (t : list Z) p n : p + n <= length t -> length (sub t p n) = n.
Proof. intros H. unfold sub. rewrite firstn_length, skipn_length. lia. Qed.
Lemma raw_ok i r : psi_raw L i = Some r -> is_edge L r /\ source L r = Ok (Text (N.to_nat i)) /\ N.testbit (edge_tags L r) 0 = true /\ exists q, target L r = Ok (Text q) /\ N.to_nat i < q.
Proof.
  unfold psi_raw, first_out_edge, bind. destruct (out_edges (Text (N.to_nat i)) symbol_mask L) as [L' [l|e|]] eqn:E; [|discriminate..].
  destruct l as [|x l]; [discriminate|]. cbn [first ret snd]. intros [= ->].
  destruct (out_selection L _ _ _ _ G symbol_made E) as [all [A [[sel Es] S2 _]]].
  assert (Hx : In r (r :: l)) by now left. assert (Ht := S2 _ Hx). rewrite symbol_matches in Ht. rewrite Es in Hx. apply filter_In in Hx as [Hx _].
  apply (all_out_spec _ _ _ G A) in Hx as [He Hs]. split; [assumption|]. split; [assumption|]. split; [assumption|].
  assert (exists q, target L r = Ok (Text q)) as [q Eq].
  { destruct r as [x|e]; cbn [target]; [eauto|]. cbn [edge_tags source] in *. destruct (nth_error (edges L) e) as [ed|] eqn:Ee; [|discriminate].
    destruct (pr_symbols _ _ P _ _ Ee Ht) as [a [b [_ ->]]]. eauto. }
  exists q. split; [assumption|]. destruct (between r _ q He Hs Eq). lia.
Qed.
Lemma item_ok d : is_edge L d -> exists it, annotation_item L d = Ok it.
Proof.
  destruct d as [p|e]; cbn [is_edge]; intros H.
  - destruct (t_bits _ T p H) as [a [b [E [Wa [[cps [Wb Eb]] Ep]]]]]. cbn [annotation_item].
    assert (p < length (text L)) by (pose proof (g_bits _ G p H); pose proof (symbol_len_pos L p); lia).
    rewrite E. rewrite <- Ep, skipn_app, skipn_all, Nat.sub_diag. cbn [skipn app]. subst b. destruct cps as [|cp cps].
    + cbn in E. rewrite E, app_nil_r in *. lia.
    + inversion Wb; subst. cbn [flat_map]. rewrite next_enc, append_scalar by assumption. eauto.
  - cbn [annotation_item]. destruct (nth_error (edges L) e) as [ed|] eqn:Ee; [eauto|]. apply nth_error_None in Ee. lia.
Qed.
Lemma shown_wf d : exists t, well_formed t /\ M_PsiFile.shown_text from to (psi_text L) (psi_info attrs L) d = str_of t.
Proof.
  unfold M_PsiFile.shown_text.
  destruct (edge_there L d) eqn:Et.
  - apply there_spec in Et. destruct (edge_ends L d Et) as [a [b [Ea Eb]]]. rewrite (end_ok source d a Et Ea), (end_ok target d b Et Eb).
    destruct a as [p|k]; destruct b as [q|k']; cbn [psi_vertex].
    + destruct (between d p q Et Ea Eb) as [H [Bp [Bq _]]]. exists (sub (text L) p (q - p)). split; [|now apply psi_text_between].
      apply boundary_between; [assumption|]. now replace (p + (q - p)) with q by lia.
    + destruct d as [x|e]; cbn [source target] in *; [congruence|]. destruct (nth_error (edges L) e) as [ed|] eqn:Ee; [|discriminate]. exists (M_Items.text (e_item ed)).
      split; [|unfold psi_info; cbn [annotation_item]; rewrite Ee; apply there_spec in Et; now rewrite Et]. apply (pr_items _ _ P e ed Ee). injection Eb as ->. cbn. apply orb_true_r.
    + destruct d as [x|e]; cbn [source target] in *; [congruence|]. destruct (nth_error (edges L) e) as [ed|] eqn:Ee; [|discriminate]. exists (M_Items.text (e_item ed)).
      split; [|unfold psi_info; cbn [annotation_item]; rewrite Ee; apply there_spec in Et; now rewrite Et]. apply (pr_items _ _ P e ed Ee). injection Ea as ->. reflexivity.
    + destruct d as [x|e]; cbn [source target] in *; [congruence|]. destruct (nth_error (edges L) e) as [ed|] eqn:Ee; [|discriminate]. exists (M_Items.text (e_item ed)).
      split; [|unfold psi_info; cbn [annotation_item]; rewrite Ee; apply there_spec in Et; now rewrite Et]. apply (pr_items _ _ P e ed Ee). injection Ea as ->. reflexivity.
  - unfold psi_end. rewrite Et.
    (* no edge *)
    destruct d as [p|e]; cbn [edge_there] in Et.
    + unfold psi_info. cbn [M_PsiFile.in_text edge_there]. rewrite Et. exists []. split; [apply well_formed_nil|]. destruct (annotation_item L (Implicit p)); reflexivity.
    + apply Nat.ltb_ge in Et. apply nth_error_None in Et. unfold psi_info. cbn [annotation_item]. rewrite Et. exists []. split; [apply well_formed_nil|reflexivity].
Qed.

Lemma division_links d dv u : In dv (psi_divisions L d) -> In u (M_PsiFile.dv_links dv) ->
  exists e ed p L' us w, d = Explicit e /\ nth_error (edges L) e = Some ed /\ In p (e_partitions ed) /\ usages (p_sequence p) L = (L', Ok us) /\ In w us /\ u = (fst w, psi_role (snd w)).
Proof.
  unfold psi_divisions. intros H Hu. apply in_map_iff in H as [p [<- Hp]]. destruct d as [x|e]; cbn [edge_partitions] in Hp; [destruct Hp|].
  destruct (nth_error (edges L) e) as [ed|] eqn:Ee; [|destruct Hp]. destruct (pr_parts _ _ P e ed p Ee Hp) as [L' [us [E _]]].
  unfold psi_division in Hu. cbn [M_PsiFile.dv_links] in Hu. rewrite E in Hu. cbn [snd] in Hu. apply in_map_iff in Hu as [w [<- Hw]].
  exists e, ed, p, L', us, w. auto 10.
Qed.
Lemma view_sound : @P_PsiFile.sound score desc desc_eqb from to (psi_raw L) (psi_text L) (psi_symbol L) (psi_info attrs L) (psi_divisions L) rank.
Proof.
  constructor.
  - apply desc_eqb_spec.
  - intros i r H. destruct (raw_ok _ _ H) as [He [Hs [_ [q [Hq Hl]]]]]. rewrite (end_ok source r _ He Hs), (end_ok target r _ He Hq). cbn [psi_vertex].
    rewrite N2Nat.id. split; [reflexivity|]. exists (N.of_nat q). split; [reflexivity|lia].
  - intros e s q Hs Ht. apply from_at in Hs as [He [a [-> Hs]]]. apply to_at in Ht as [_ [b [-> Ht]]]. rewrite (psi_text_between e a b He Hs Ht).
    destruct (between e a b He Hs Ht) as [Hl _]. unfold M_PsiFile.size. rewrite str_length, sub_length by lia. lia.
  - intros e. destruct (shown_wf e) as [t [Ht ->]]. now apply distance_quote.
  - intros e d u Hd Hu Hs. destruct (division_links e d u Hd Hu) as [k [ed [p [L' [us [w [-> [Ek [Hp [Eu [Hw ->]]]]]]]]]]]. cbn [fst] in *.
    destruct (pr_parts _ _ P k ed p Ek Hp) as [L2 [us2 [E2 H2]]]. rewrite Eu in E2. injection E2 as _ <-. now apply H2.
Qed.
Lemma readable_ok : readable L = true.
Proof.
  unfold readable. apply forallb_forall. intros ed He. apply forallb_forall. intros p Hp. apply In_nth_error in He as [e Ee].
  destruct (pr_parts _ _ P e ed p Ee Hp) as [L' [us [E _]]]. now rewrite E.
Qed.
Lemma wanted_edge order : (forall d, In d order <-> is_edge L d) -> forall d, @P_PsiFile.wanted score desc order (edge_hidden L) (psi_symbol L) (psi_divisions L) d -> is_edge L d.
Proof.
  intros Ho d. induction 1 as [e He _|e d u _ _ Hd Hu _]; [now apply Ho|].
  destruct (division_links e d u Hd Hu) as [k [ed [p [L' [us [w [-> [Ek [Hp [Eu [Hw ->]]]]]]]]]]]. cbn [fst].
  destruct (pr_parts _ _ P k ed p Ek Hp) as [L2 [us2 [E2 H2]]]. rewrite Eu in E2. injection E2 as _ <-. now apply H2.
Qed.
Lemma info_ok d it : is_edge L d -> annotation_item L d = Ok it -> psi_info attrs L d =
  M_PsiFile.Info (psi_names L (edge_tags L d)) (str_of (M_Items.text it)) (str_of (M_Items.category it)) (edge_score L d)
    (map (fun av => (str_of (fst av), str_of (snd av))) (M_Items.get_values attrs it)).
Proof. intros He Ei. apply there_spec in He. unfold psi_info. now rewrite Ei, He. Qed.
Lemma division_ok p L' us : usages (p_sequence p) L = (L', Ok us) ->
  psi_division L p = M_PsiFile.Division (map (fun u => (fst u, psi_role (snd u))) us) (psi_names L (p_tags p)) (p_score p).
Proof. intros E. unfold psi_division. now rewrite E. Qed.
Lemma links_tell above us : forall ls, Forall2 (@P_PsiFile.link_matches score desc (edge_hidden L) (psi_symbol L) above) (map (fun u => (fst u, psi_role (snd u))) us) ls ->
  Forall2 (fun u l => role_told (snd u) (M_Psi.l_role l) /\ M_Psi.l_hidden l = edge_hidden L (fst u) /\
      match M_Psi.l_number l with
      | Some n => P_PsiFile.line_of above n (fst u)
      | None => N.testbit (edge_tags L (fst u)) 0 = true
      end) us ls.
Proof.
  induction us as [|u us IH]; intros ls K; cbn [map] in K; inversion K as [|? x ? ls' [K1 [K2 K3]] K4]; subst; constructor; [|now apply IH].
  cbn [fst snd] in *. unfold psi_symbol in K3. split; [rewrite K1; apply psi_role_told|]. split; assumption.
Qed.
Lemma part_tells above p q L' us : usages (p_sequence p) L = (L', Ok us) ->
  @P_PsiFile.part_matches score desc (edge_hidden L) (psi_symbol L) above
    (M_PsiFile.Division (map (fun u => (fst u, psi_role (snd u))) us) (psi_names L (p_tags p)) (p_score p)) q -> tells_part L above p q.
Proof.
  intros E [K1 [K2 K3]]. cbn [M_PsiFile.dv_links M_PsiFile.dv_tags M_PsiFile.dv_score] in K1, K2, K3. split; [assumption|]. split; [assumption|].
  exists L', us. split; [assumption|]. now apply links_tell.
Qed.
Lemma Forall2_map {A B C} (f : A -> B) (R : B -> C -> Prop) (R' : A -> C -> Prop) l : (forall a c, In a l -> R (f a) c -> R' a c) -> forall m,
  Forall2 R (map f l) m -> Forall2 R' l m.
Proof.
  induction l as [|a l IH]; intros K m H; cbn [map] in H; inversion H as [|? c ? m' H1 H2]; subst; constructor.
  - apply K; [now left|assumption].
  - apply IH; [|assumption]. intros x y Hx. apply K. now right.
Qed.
Lemma parts_tell above ps qs : (forall p, In p ps -> exists L' us, usages (p_sequence p) L = (L', Ok us)) ->
  Forall2 (@P_PsiFile.part_matches score desc (edge_hidden L) (psi_symbol L) above) (map (psi_division L) ps) qs -> Forall2 (tells_part L above) ps qs.
Proof.
  intros Q. apply Forall2_map. intros p q Hp H1. destruct (Q p Hp) as [L' [us E]]. rewrite (division_ok p L' us E) in H1. eapply part_tells; eassumption.
Qed.
Lemma describes_tells above d l : is_edge L d ->
  @P_PsiFile.describes score desc 0%Z (edge_hidden L) from to (psi_raw L) (psi_text L) (psi_symbol L) (psi_info attrs L) (psi_divisions L) above d l -> tells attrs L above d l.
Proof.
  intros He [_ [Hs [Ht [Hx [Hi [Hc Hr]]]]]]. destruct (edge_ends L d He) as [a [b [Ea Eb]]].
  rewrite (end_ok source d a He Ea) in Hs, Hx. rewrite (end_ok target d b He Eb) in Ht, Hx. destruct (item_ok d He) as [it Ei].
  unfold P_PsiFile.full in Hr. rewrite (info_ok d it He Ei) in Hi, Hc, Hr. cbn [M_PsiFile.in_text M_PsiFile.in_category M_PsiFile.in_tags M_PsiFile.in_score M_PsiFile.in_values] in Hi, Hc, Hr.
  constructor.
  - eauto.
  - eauto.
  - intros p q E1 E2. rewrite Ea in E1. injection E1 as ->. rewrite Eb in E2. injection E2 as ->. cbn [psi_vertex] in Hx. destruct (Hx _ _ eq_refl eq_refl) as [X1 X2].
    split; [rewrite X1; lia|]. rewrite X2. now apply psi_text_between.
  - exists it. split; [assumption|]. split; [exact Hi|]. split; [exact Hc|].
    destruct Hr as [[R1 [R2 [R3 R4]]]|[[i Ri] [R1 _]]].
    + left. split; [exact R1|]. split; [exact R2|]. split; [exact R3|]. apply parts_tell; [|exact R4].
      intros p Hp. destruct d as [x|e]; cbn [edge_partitions] in Hp; [destruct Hp|]. destruct (nth_error (edges L) e) as [ed|] eqn:Ee; [|destruct Hp].
      destruct (pr_parts _ _ P e ed p Ee Hp) as [L' [us [E _]]]. eauto.
    + right. split; [now apply (raw_ok _ _ Ri)|assumption].
Qed.
Lemma quote_plain s : Forall plain_byte s -> Forall byte s -> length (M_Psi.quote (str_of s)) = length s.
Proof.
  unfold M_Psi.quote. induction 1 as [|b s Hb _ IH]; intros B; [reflexivity|]. inversion B as [|? ? B1 B2]; subst. cbn [str_of map M_Quoter.escape]. fold (str_of s). rewrite app_length, (IH B2). cbn [length].
  replace (length (M_Quoter.escape_char ["#"%char] (ascii_of_N (Z.to_N b)))) with 1; [reflexivity|].
  unfold byte in B1. assert (E : N_of_ascii (ascii_of_N (Z.to_N b)) = Z.to_N b) by (apply N_ascii_embedding; lia).
  remember (ascii_of_N (Z.to_N b)) as c eqn:Ec. clear Ec IH B B2. assert (Hb' : b = Z.of_N (N_of_ascii c)) by lia. clear E. subst b. revert Hb. clear.
  unfold plain_byte. destruct c as [[] [] [] [] [] [] [] []]; intros H; solve [reflexivity|destruct H; vm_compute; tauto].
Qed.
Lemma view_plain : Forall plain_byte (text L) -> P_PsiFile.plain from to (str_of (text L)) (psi_text L).
Proof.
  intros F e s q Hs Ht. apply from_at in Hs as [He [a [-> Hs]]]. apply to_at in Ht as [_ [b [-> Ht]]]. rewrite (psi_text_between e a b He Hs Ht).
  destruct (between e a b He Hs Ht) as [Hl _].
  assert (B : Forall byte (text L)) by (destruct (t_text _ T) as [cps [Hc ->]]; now apply flat_map_enc_bytes).
  assert (K : forall R, Forall R (text L) -> Forall R (sub (text L) a (b - a))).
  { intros R H. unfold sub. apply Forall_forall. intros x Hx. rewrite Forall_forall in H. apply H. rewrite <- (firstn_skipn a (text L)). apply in_app_iff. right. rewrite <- (firstn_skipn (b - a) (skipn a (text L))). apply in_app_iff. now left. }
  unfold M_PsiFile.size. rewrite quote_plain by now apply K. rewrite !str_length. split; [reflexivity|]. split; [lia|].
  unfold str_of, sub. rewrite Nat2N.id, skipn_map, firstn_map. now replace (N.to_nat (N.of_nat b - N.of_nat a)) with (b - a) by lia.
Qed.
End View.

(** Every edge that is not hidden has exactly one line, the lines are numbered, and each tells
    about its edge; the numbers in partitions are those of lines above. *)
Theorem C60_lattice topo attrs rank L vs f : sorts topo -> careful_program L -> printable rank L -> vertices topo true L = Ok vs ->
  (forall d, is_edge L d -> rank d < f) ->
  exists rs, psi_file topo attrs L f = Some rs /\
    (forall k r, nth_error rs k = Some r -> P_PsiFile.row_number r = N.of_nat (S k)) /\
    (forall d, is_edge L d -> edge_hidden L d = false -> In d (P_PsiFile.row_edges rs)) /\
    NoDup (P_PsiFile.row_edges rs) /\
    (forall d, In d (P_PsiFile.row_edges rs) -> is_edge L d) /\
    (forall a d l b, rs = a ++ M_PsiFile.RowOf d l :: b -> tells attrs L a d l).
Proof.
  intros Ht HL P E R. destruct (C53_any topo L vs Ht HL E) as [_ [_ [L2 [order [_ [E2 [_ [_ [_ Ho]]]]]]]]].
  destruct (@P_PsiFile.C60_lines score desc 0%Z desc_eqb order (edge_hidden L) (psi_end L source) (psi_end L target) (psi_raw L) (str_of (text L)) (psi_text L)
    (psi_symbol L) (psi_info attrs L) (psi_divisions L) rank f (view_sound attrs L rank HL P)) as [rs [W [N1 [N2 [N3 [N4 N5]]]]]].
  { intros d Hd. apply R, Ho, Hd. }
  assert (K : forall d, In d (P_PsiFile.row_edges rs) -> is_edge L d).
  { intros d Hd. destruct (N4 d Hd) as [Hw|[i Hi]]; [|now apply (raw_ok L rank HL P _ _ Hi)]. eapply wanted_edge; [exact P|exact Ho|exact Hw]. }
  exists rs. split; [|split; [assumption|split; [|split; [assumption|split; [assumption|]]]]].
  - unfold psi_file. rewrite E2. cbn [snd]. now rewrite (readable_ok L rank P).
  - intros d Hd. apply N2. now apply Ho.
  - intros a d l b Er. apply (describes_tells attrs L rank HL P); [|now apply N5 with b]. apply K. rewrite Er. unfold P_PsiFile.row_edges. rewrite flat_map_app. cbn [flat_map].
    apply in_app_iff. right. now left.
Qed.
Print Assumptions C60_lattice.

(** If no byte is written as two and edges are made of edges that come before them, the text can be
    read from the lines, up to the end of the last edge that is not hidden. *)
Theorem C60_lattice_text topo attrs rank L L' order vs f : sorts topo -> careful_program L -> printable rank L -> vertices topo true L = Ok vs ->
  (forall d, is_edge L d -> rank d < f) -> Forall plain_byte (text L) -> edges_by_target topo (M_Tags.mask_const true) L = (L', Ok order) ->
  (forall e ed p L2 us u, nth_error (edges L) e = Some ed -> In p (e_partitions ed) -> usages (p_sequence p) L = (L2, Ok us) -> In u us ->
     N.testbit (edge_tags L (fst u)) 0 = false -> before order (fst u) (Explicit e)) ->
  exists rs t, psi_file topo attrs L f = Some rs /\ P_PsiFile.rebuild [] rs = Some (str_of t) /\ t = firstn (length t) (text L) /\
    forall d q, is_edge L d -> edge_hidden L d = false -> (exists p, source L d = Ok (Text p)) -> target L d = Ok (Text q) -> q <= length t.
Proof.
  intros Ht HL P E R F E2 O. destruct (C53_any topo L vs Ht HL E) as [_ [_ [L3 [order3 [_ [E3 [_ [ND [_ Ho]]]]]]]]].
  rewrite E2 in E3. injection E3 as <- <-.
  destruct (@P_PsiFile.C60_text score desc 0%Z desc_eqb order (edge_hidden L) (psi_end L source) (psi_end L target) (psi_raw L) (str_of (text L)) (psi_text L)
    (psi_symbol L) (psi_info attrs L) (psi_divisions L) rank f (view_sound attrs L rank HL P) (view_plain L HL F)) as [rs [t [W [B [Et K]]]]].
  - intros l1 e l2 Eo _ d u Hd Hu Hs. destruct (division_links L rank P e d u Hd Hu) as [k [ed [p [L4 [us [w [-> [Ek [Hp [Eu [Hw ->]]]]]]]]]]]. cbn [fst] in *.
    split.
    + specialize (O k ed p L4 us w Ek Hp Eu Hw Hs). rewrite Eo in O, ND. apply before_app_inv in O as [O|[O|[O1 O2]]].
      * now apply before_in in O.
      * apply NoDup_remove_2 in ND. exfalso. apply ND. apply in_app_iff. right.
        inversion O as [? ? ? X|? ? ? ? X]; subst; [assumption|]. now apply before_in in X.
      * assumption.
    + unfold psi_symbol in Hs. destruct (fst w); [discriminate Hs|reflexivity].
  - intros d Hd. apply R, Ho, Hd.
  - exists rs, (firstn (length t) (text L)). assert (El : length (firstn (length t) (text L)) = length t).
    { rewrite firstn_length. apply (f_equal (@length _)) in Et. rewrite firstn_length, str_length in Et. lia. }
    split; [|split; [|split]].
    + unfold psi_file. rewrite E2. cbn [snd]. now rewrite (readable_ok L rank P).
    + rewrite B. f_equal. unfold str_of in *. now rewrite <- firstn_map.
    + now rewrite El.
    + intros d q Hd Hh [p Hp] Hq. rewrite El. assert (X := K d (N.of_nat p) (N.of_nat q)). unfold M_PsiFile.size in X.
      assert (N.of_nat q <= N.of_nat (length t))%N; [|lia]. apply X; [now apply Ho|assumption|..].
      * now rewrite (end_ok L source d _ Hd Hp).
      * now rewrite (end_ok L target d _ Hd Hq).
Qed.
Print Assumptions C60_lattice_text.

(** * Examples *)
Definition edge_check (rank : desc -> nat) (L : lattice) (x : nat * edge) : bool :=
  let (e, ed) := x in
  (negb (N.testbit (e_tags ed) 0) || negb (is_loose (e_from ed) || is_loose (e_to ed))) &&
  (negb (is_loose (e_from ed) || is_loose (e_to ed)) || (is_valid (M_Items.text (e_item ed)) && forallb (fun b => (0 <=? b) && (b <? 256))%Z (M_Items.text (e_item ed)))) &&
  forallb (fun p => match snd (usages (p_sequence p) L) with
                    | Ok us => forallb (fun u => edge_there L (fst u) && (N.testbit (edge_tags L (fst u)) 0 || (rank (fst u) <? rank (Explicit e)))) us
                    | _ => false
                    end) (e_partitions ed).
Lemma in_numbered {A} (l : list A) : forall i e x, nth_error l e = Some x -> In (i + e, x) (combine (seq i (length l)) l).
Proof.
  induction l as [|y l IH]; intros i [|e] x H; cbn in H |- *; try discriminate.
  - injection H as ->. left. f_equal. lia.
  - right. rewrite Nat.add_succ_r. apply (IH (S i) e x H).
Qed.
Lemma printable_check rank L : forallb (edge_check rank L) (combine (seq 0 (length (edges L))) (edges L)) = true -> printable rank L.
Proof.
  intros H. rewrite forallb_forall in H.
  assert (K : forall e ed, nth_error (edges L) e = Some ed -> edge_check rank L (e, ed) = true) by (intros e ed E; apply H, (in_numbered _ 0 e ed E)).
  clear H. constructor.
  - intros e ed E Ht. apply K in E. unfold edge_check in E. rewrite Ht in E. apply andb_true_iff in E as [E _]. apply andb_true_iff in E as [E _]. cbn [negb orb] in E.
    destruct (e_from ed), (e_to ed); try discriminate E. eauto.
  - intros e ed E Hl. apply K in E. unfold edge_check in E. rewrite Hl in E. apply andb_true_iff in E as [E _]. apply andb_true_iff in E as [_ E]. cbn [negb orb] in E.
    apply andb_true_iff in E as [E1 E2]. apply is_valid_iff; [|assumption]. apply Forall_forall. intros b Hb. rewrite forallb_forall in E2. apply E2 in Hb.
    apply andb_true_iff in Hb as [B1 B2]. apply Z.leb_le in B1. apply Z.ltb_lt in B2. unfold byte. lia.
  - intros e ed p E Hp. apply K in E. apply andb_true_iff in E as [_ E]. rewrite forallb_forall in E. specialize (E p Hp).
    destruct (usages (p_sequence p) L) as [L' [us|x|]]; cbn [snd] in E; try discriminate E. exists L', us. split; [reflexivity|].
    intros u Hu. rewrite forallb_forall in E. apply E in Hu. apply andb_true_iff in Hu as [U1 U2]. split; [now apply there_spec|].
    intros Ht. rewrite Ht in U2. now apply Nat.ltb_lt in U2.
Qed.
Lemma plain_check l : forallb (fun b => negb (existsb (Z.eqb b) [10; 9; 13; 95; 42; 92; 35]%Z)) l = true -> Forall plain_byte l.
Proof.
  intros H. rewrite forallb_forall in H. apply Forall_forall. intros b Hb K. apply H, negb_true_iff in Hb.
  assert (existsb (Z.eqb b) [10; 9; 13; 95; 42; 92; 35]%Z = true); [|congruence]. apply existsb_exists. exists b. split; [exact K|apply Z.eqb_refl].
Qed.
(** "ala ma" with two tokens, a phrase of them with a role, and an edge to a loose vertex. *)
Definition by_number (d : desc) : nat := match d with Implicit _ => 0 | Explicit e => e end.
Definition psi_calls : list op :=
  [AppendString [97; 108; 97; 32; 109; 97]%Z; AddSymbols (Text 0) (Text 6); AddLooseVertex; TagCall (M_Tags.Create [[112]]%Z);
   AddEdge (Text 0) (Text 3) (ex_item WORD [97; 108; 97]%Z) 4%N (Sequence [] 0 3) 0%Z (-1) (-1);
   AddEdge (Text 4) (Text 6) (ex_item WORD [109; 97]%Z) 4%N (Sequence [] 4 6) 0%Z (-1) (-1);
   AddEdge (Text 0) (Text 6) (ex_item WORD [120]%Z) 8%N
     (Sequence [(Explicit 0, M_Items.ZSym [115]%Z); (Implicit 3, M_Items.ZNull); (Explicit 1, M_Items.ZNull)] 0 0) 7%Z (-1) (-1);
   AddEdge (Text 4) (Loose 0) (ex_item WORD [196; 133]%Z) 8%N empty_sequence 0%Z (-1) (-1)].
Definition psi_lattice : lattice := after psi_calls new_lattice.
Example C60_example_careful : careful_program psi_lattice.
Proof. unfold psi_lattice, psi_calls. careful. Qed.
Example C60_example_printable : printable by_number psi_lattice.
Proof. apply printable_check. vm_compute. reflexivity. Qed.
Example C60_example :
  vertices some_order true psi_lattice = Ok [Text 0; Text 1; Text 2; Text 3; Text 4; Loose 0; Text 5; Text 6] /\ sorts some_order /\
  (forall d, is_edge psi_lattice d -> by_number d < 4) /\
  option_map (fun rs => (P_PsiFile.row_edges rs, P_PsiFile.rebuild [] rs)) (psi_file some_order [] psi_lattice 4) =
    Some ([Explicit 0; Explicit 3; Implicit 3; Explicit 1; Explicit 2], Some (str_of [97; 108; 97; 32; 109; 97]%Z)).
Proof.
  split; [vm_compute; reflexivity|]. split; [apply some_order_sorts|]. split; [|vm_compute; reflexivity].
  intros [p|e] H; cbn [by_number]; [lia|]. change (length (edges psi_lattice)) with 4 in H. exact H.
Qed.
Definition psi_order : list desc :=
  [Implicit 0; Implicit 1; Implicit 2; Explicit 0; Implicit 3; Explicit 3; Implicit 4; Implicit 5; Explicit 1; Explicit 2].
Example C60_text_example :
  Forall plain_byte (text psi_lattice) /\ edges_by_target some_order (M_Tags.mask_const true) psi_lattice = (psi_lattice, Ok psi_order) /\
  forall e ed p L2 us u, nth_error (edges psi_lattice) e = Some ed -> In p (e_partitions ed) -> usages (p_sequence p) psi_lattice = (L2, Ok us) -> In u us ->
    N.testbit (edge_tags psi_lattice (fst u)) 0 = false -> before psi_order (fst u) (Explicit e).
Proof.
  split; [apply plain_check; vm_compute; reflexivity|]. split; [vm_compute; reflexivity|]. unfold psi_order.
  intros e ed p L2 us u Ee Hp Eu Hu Ht. destruct e as [|[|[|[|e]]]]; vm_compute in Ee; [injection Ee as <-..|destruct e; discriminate Ee];
    cbn [e_partitions] in Hp; destruct Hp as [<-|[]]; vm_compute in Eu; injection Eu as _ <-; cbn [In] in Hu;
    repeat (destruct Hu as [<-|Hu]; [first [vm_compute in Ht; discriminate Ht|cbn [fst]; repeat first [apply B_here; cbn [In]; tauto|apply B_next]]|]); try destruct Hu.
Qed.

(** * What fails *)
Definition LETTERS : list Z := [97; 98; 99; 100; 101; 102; 103; 104; 105; 106; 107; 108; 109; 110]%Z.
Definition shown (rs : list (M_PsiFile.row score desc)) : list (option M_Quoter.str) :=
  map (fun r => match r with M_PsiFile.RowOf _ l => M_Psi.text_cell l | M_PsiFile.Bare _ _ c => Some [c] end) rs.
(** The writer counts the bytes of the quoted text (lines 135, 258-264): after fourteen underscores it takes
    the next fourteen characters for written, and shortens them. *)
Definition escape_calls : list op :=
  [AppendString (repeat 95%Z 14 ++ LETTERS);
   AddEdge (Text 0) (Text 14) (ex_item WORD [120]%Z) 4%N empty_sequence 0%Z (-1) (-1);
   AddEdge (Text 14) (Text 28) (ex_item WORD [121]%Z) 4%N empty_sequence 0%Z (-1) (-1)].
Definition escape_lattice : lattice := after (TagCall (M_Tags.Create [[112]]%Z) :: escape_calls) new_lattice.
Example C60_escape_lines : option_map shown (psi_file some_order [] escape_lattice 2) =
  Some [Some (concat (repeat (M_Psi.lit "\_") 14)); Some (M_Psi.lit "abcdef...lmn")].
Proof. vm_compute. reflexivity. Qed.
Theorem C60_escape_refuted :
  ~ (forall topo attrs rank L L' order vs f, sorts topo -> careful_program L -> printable rank L -> vertices topo true L = Ok vs ->
     (forall d, is_edge L d -> rank d < f) -> edges_by_target topo (M_Tags.mask_const true) L = (L', Ok order) ->
     (forall e ed p L2 us u, nth_error (edges L) e = Some ed -> In p (e_partitions ed) -> usages (p_sequence p) L = (L2, Ok us) -> In u us ->
        N.testbit (edge_tags L (fst u)) 0 = false -> before order (fst u) (Explicit e)) ->
     exists rs t, psi_file topo attrs L f = Some rs /\ P_PsiFile.rebuild [] rs = Some t).
Proof.
  intros H. destruct (H some_order [] by_number escape_lattice escape_lattice [Explicit 0; Explicit 1] [Text 0; Text 14; Text 28] 2 some_order_sorts) as [rs [t [E1 E2]]].
  - unfold escape_lattice, escape_calls. careful.
  - apply printable_check. vm_compute. reflexivity.
  - vm_compute. reflexivity.
  - intros [p|e] Hd; cbn [by_number]; [lia|]. change (length (edges escape_lattice)) with 2 in Hd. exact Hd.
  - vm_compute. reflexivity.
  - intros e ed p L2 us u Ee Hp Eu Hu _. exfalso. destruct e as [|[|e]]; vm_compute in Ee; [injection Ee as <-..|destruct e; discriminate Ee];
      cbn [e_partitions] in Hp; destruct Hp as [<-|[]]; vm_compute in Eu; injection Eu as _ <-; destruct Hu.
  - assert (K : match psi_file some_order [] escape_lattice 2 with Some rs => P_PsiFile.rebuild [] rs | None => None end = None) by (vm_compute; reflexivity).
    rewrite E1, E2 in K. discriminate K.
Qed.
Print Assumptions C60_escape_refuted.
(** An edge that is made of an edge that comes later: the part is printed first, but is shortened, since the
    text of the whole is taken for written already. *)
Definition order_calls : list op :=
  [TagCall (M_Tags.Create [[112]]%Z); AppendString LETTERS;
   AddEdge (Text 0) (Text 14) (ex_item WORD [120]%Z) 4%N empty_sequence 0%Z (-1) (-1);
   AddEdge (Text 0) (Text 14) (ex_item WORD [121]%Z) 4%N empty_sequence 0%Z (-1) (-1);
   AddPartition (Explicit 0) 4%N (Sequence [(Explicit 1, M_Items.ZNull)] 0 0) 0%Z (-1) (-1)].
Definition order_lattice : lattice := after order_calls new_lattice.
Example C60_order_lines : option_map shown (psi_file some_order [] order_lattice 3) = Some [Some (M_Psi.lit "abcdef...lmn"); Some (M_Psi.lit "abcdefghijklmn")].
Proof. vm_compute. reflexivity. Qed.
Theorem C60_order_refuted :
  ~ (forall topo attrs rank L vs f, sorts topo -> careful_program L -> printable rank L -> vertices topo true L = Ok vs ->
     (forall d, is_edge L d -> rank d < f) -> Forall plain_byte (text L) ->
     exists rs t, psi_file topo attrs L f = Some rs /\ P_PsiFile.rebuild [] rs = Some t).
Proof.
  intros H. destruct (H some_order [] (fun d => 1 - by_number d) order_lattice [Text 0; Text 14] 3 some_order_sorts) as [rs [t [E1 E2]]].
  - unfold order_lattice, order_calls. careful.
  - apply printable_check. vm_compute. reflexivity.
  - vm_compute. reflexivity.
  - intros d _. lia.
  - apply plain_check. vm_compute. reflexivity.
  - assert (K : match psi_file some_order [] order_lattice 3 with Some rs => P_PsiFile.rebuild [] rs | None => None end = None) by (vm_compute; reflexivity).
    rewrite E1, E2 in K. discriminate K.
Qed.
Print Assumptions C60_order_refuted.

(** Edges that are made of each other: printing never ends. *)
Section Cycle.
Context {Sc E : Type}.
Variables (zero : Sc) (eqb : E -> E -> bool) (is_hidden : E -> bool) (from to : E -> M_Psi.vertex) (raw : N -> option E) (all_text : M_Quoter.str)
  (text_of : E -> M_Quoter.str) (is_symbol : E -> bool) (info_of : E -> M_PsiFile.info Sc) (divisions : E -> list (M_PsiFile.division Sc E)).
Variable C : E -> Prop.
Hypothesis C_from : forall e, C e -> from e = M_Psi.At 0.
Hypothesis C_symbol : forall e, C e -> is_symbol e = false.
Hypothesis C_part : forall e, C e -> exists ds d u us ds', divisions e = ds ++ d :: ds' /\ M_PsiFile.dv_links d = u :: us /\ C (fst u) /\
  Forall (fun d => M_PsiFile.dv_links d = []) ds.
Lemma cycle_none f : forall e st, C e -> M_PsiFile.numbers st = [] ->
  M_PsiFile.print_edge zero eqb is_hidden from to raw all_text text_of is_symbol info_of divisions f e st = None.
Proof.
  induction f as [|f IH]; intros e st He Hn; [reflexivity|]. cbn [M_PsiFile.print_edge].
  assert (Ef : match from e, to e with M_Psi.At s, M_Psi.At _ =>
      M_PsiFile.fill zero to raw all_text text_of info_of (S (N.to_nat s)) (M_PsiFile.size (M_PsiFile.covered st)) s st | _, _ => Some st end = Some st).
  { rewrite (C_from e He). destruct (to e); [|reflexivity]. cbn [M_PsiFile.fill]. destruct (N.ltb_spec (M_PsiFile.size (M_PsiFile.covered st)) 0); [lia|reflexivity]. }
  rewrite Ef. destruct (M_PsiFile.printed _ _) as [p|]; [|reflexivity].
  destruct (C_part e He) as [ds [d [u [us [ds' [Ed [El [Hu Hds]]]]]]]].
  match goal with |- match ?x with _ => _ end = None => assert (x = None) as ->; [|reflexivity] end.
  rewrite Ed. clear Ed. set (st1 := M_PsiFile.State _ _ _ _). assert (Hn1 : M_PsiFile.numbers st1 = []) by exact Hn. clearbody st1. clear Ef.
  induction Hds as [|x ds Hx _ IHds]; cbn [app M_PsiFile.all_parts].
  - rewrite El. cbn [M_PsiFile.all_links]. unfold M_PsiFile.one_link. rewrite Hn1. cbn [M_PsiFile.number_of]. now rewrite (C_symbol _ Hu), (IH _ _ Hu Hn1).
  - rewrite Hx. cbn [M_PsiFile.all_links]. now rewrite IHds.
Qed.
End Cycle.
Lemma cycle_file topo attrs L (C : desc -> Prop) d ds f : snd (edges_by_target topo (M_Tags.mask_const true) L) = Ok (d :: ds) -> edge_hidden L d = false -> C d ->
  (forall e, C e -> psi_end L source e = M_Psi.At 0) -> (forall e, C e -> psi_symbol L e = false) ->
  (forall e, C e -> exists ds d u us ds', psi_divisions L e = ds ++ d :: ds' /\ M_PsiFile.dv_links d = u :: us /\ C (fst u) /\ Forall (fun d => M_PsiFile.dv_links d = []) ds) ->
  psi_file topo attrs L f = None.
Proof.
  intros E Hh Hd C1 C2 C3. unfold psi_file. rewrite E. destruct (readable L); [|reflexivity]. unfold M_PsiFile.written.
  cbn [M_PsiFile.print_all M_PsiFile.start M_PsiFile.numbers M_PsiFile.number_of]. rewrite Hh, (cycle_none _ _ _ _ _ _ _ _ _ _ _ C C1 C2 C3); [reflexivity|assumption|reflexivity].
Qed.
Definition cycle_calls : list op :=
  [TagCall (M_Tags.Create [[112]]%Z); AppendString LETTERS;
   AddEdge (Text 0) (Text 14) (ex_item WORD [120]%Z) 4%N empty_sequence 0%Z (-1) (-1);
   AddEdge (Text 0) (Text 14) (ex_item WORD [121]%Z) 4%N (Sequence [(Explicit 0, M_Items.ZNull)] 0 0) 0%Z (-1) (-1);
   AddPartition (Explicit 0) 4%N (Sequence [(Explicit 1, M_Items.ZNull)] 0 0) 0%Z (-1) (-1)].
Definition cycle_lattice : lattice := after cycle_calls new_lattice.
Theorem C60_cycle_refuted :
  ~ (forall topo attrs L vs, sorts topo -> careful_program L -> vertices topo true L = Ok vs -> readable L = true -> exists f rs, psi_file topo attrs L f = Some rs).
Proof.
  intros H. destruct (H some_order [] cycle_lattice [Text 0; Text 14] some_order_sorts) as [f [rs E]].
  - unfold cycle_lattice, cycle_calls. careful.
  - vm_compute. reflexivity.
  - vm_compute. reflexivity.
  - rewrite (cycle_file some_order [] cycle_lattice (fun d => d = Explicit 0 \/ d = Explicit 1) (Explicit 0) [Explicit 1] f) in E; [discriminate E|..].
    + vm_compute. reflexivity.
    + reflexivity.
    + now left.
    + intros d [->| ->]; vm_compute; reflexivity.
    + intros d [->| ->]; vm_compute; reflexivity.
    + intros d [->| ->].
      * eexists [_], _, (Explicit 1, None), [], []. split; [vm_compute; reflexivity|]. split; [reflexivity|]. split; [now right|]. repeat constructor.
      * eexists [], _, (Explicit 0, None), [], []. split; [vm_compute; reflexivity|]. split; [reflexivity|]. split; [now left|]. constructor.
Qed.
Print Assumptions C60_cycle_refuted.

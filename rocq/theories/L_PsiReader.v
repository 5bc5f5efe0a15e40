(** What the steps of M_PsiReader do to a lattice. *)
From Coq Require Import String Ascii List ZArith NArith Bool Arith Lia.
From Verif Require M_Tags P_Tags M_Items.
From Verif Require Import M_Utf8 M_Cutter M_Lattice L_Lattice L_LatticeOps S_Lattice P_Lattice M_LatticeWalk P_LatticeVertices P_LatticePath.
From Verif Require Import M_Quoter M_PsiReader.
From Verif Require M_Psi.
Import ListNotations.
Local Open Scope nat_scope.

Lemma run_ok {A} (m : act A) L L' a : run m L = Some (L', a) -> m L = (L', Ok a).
Proof. unfold run. destruct (m L) as [L1 [x|x|]]; intros H; try discriminate H. now injection H as <- ->. Qed.

(** From [L] to [L'] the text [t] is appended, and new edges have ends in [P]. *)
Record moves (P : vertex -> vertex -> Prop) (t : list Z) (L L' : lattice) : Prop := {
  mv_program : lattice_of_program L';
  mv_grows : grows L L';
  mv_text : text L' = text L ++ t;
  mv_new : forall e ed, nth_error (edges L') e = Some ed ->
    (exists ed0, nth_error (edges L) e = Some ed0 /\ e_from ed0 = e_from ed /\ e_to ed0 = e_to ed) \/ P (e_from ed) (e_to ed)
}.
Definition texts (a b : vertex) : Prop := exists p q, a = Text p /\ b = Text q.
Definition nothing (a b : vertex) : Prop := False.
Lemma moves_weaken (P Q : vertex -> vertex -> Prop) t L L' : (forall a b, P a b -> Q a b) -> moves P t L L' -> moves Q t L L'.
Proof. intros H [A B C D]. constructor; auto. intros e ed E. destruct (D e ed E); auto. Qed.
Lemma moves_trans P t u L1 L2 L3 : moves P t L1 L2 -> moves P u L2 L3 -> moves P (t ++ u) L1 L3.
Proof.
  intros [A B C D] [A' B' C' D']. constructor; [assumption|eapply grows_trans; eassumption|now rewrite C', C, app_assoc|].
  intros e ed E. destruct (D' e ed E) as [[ed0 [E0 [F0 T0]]]|H]; [|auto].
  destruct (D e ed0 E0) as [[ed1 [E1 [F1 T1]]]|H]; [|right; now rewrite <- F0, <- T0]. left. exists ed1. split; [assumption|]. split; congruence.
Qed.
Lemma moves_refl P L : lattice_of_program L -> moves P [] L L.
Proof. intros H. constructor; [assumption|apply grows_refl|now rewrite app_nil_r|]. eauto. Qed.
Lemma moves_then P L1 L2 L3 t : moves P [] L1 L2 -> moves P t L2 L3 -> moves P t L1 L3.
Proof. intros A B. exact (moves_trans P [] t L1 L2 L3 A B). Qed.
Lemma moves_more P L1 L2 L3 t : moves P t L1 L2 -> moves P [] L2 L3 -> moves P t L1 L3.
Proof. intros A B. pose proof (moves_trans P t [] L1 L2 L3 A B) as H. now rewrite app_nil_r in H. Qed.

(** An operation that does not throw. *)
Lemma by_op P t o L L' : lattice_of_program L -> allowed L o -> exec o L = (L', Ok tt) -> text L' = text L ++ t ->
  (forall e ed, nth_error (edges L') e = Some ed ->
    (exists ed0, nth_error (edges L) e = Some ed0 /\ e_from ed0 = e_from ed /\ e_to ed0 = e_to ed) \/ P (e_from ed) (e_to ed)) ->
  moves P t L L'.
Proof.
  intros HL Ha E Et Hn. destruct (exec_good _ _ _ _ (program_good _ HL) Ha E) as [_ W]; [discriminate|].
  constructor; [|apply W; discriminate|assumption|assumption]. eapply R_call; [exact HL|exact Ha|exact E|discriminate].
Qed.
Lemma same_edges {P : vertex -> vertex -> Prop} L L' : edges L' = edges L -> forall e ed, nth_error (edges L') e = Some ed ->
  (exists ed0, nth_error (edges L) e = Some ed0 /\ e_from ed0 = e_from ed /\ e_to ed0 = e_to ed) \/ P (e_from ed) (e_to ed).
Proof. intros H e ed E. rewrite H in E. eauto. Qed.
Lemma drop_ok {A} (m : act A) L L' a : m L = (L', Ok a) -> drop m L = (L', Ok tt).
Proof. intros H. unfold drop, bind. now rewrite H. Qed.

Lemma denotes_grows P t L L' c S : moves P t L L' -> P_Tags.denotes (tags L) c S -> P_Tags.denotes (tags L') c S.
Proof.
  intros M H. eapply P_Tags.denotes_later; [|apply (w_tags _ _ (mv_grows _ _ _ _ M))|exact H].
  apply P_Tags.reachable_ok. apply (g_tags _ (program_good _ (mv_program _ _ _ _ M))).
Qed.
Lemma make_tags_ok ns L L' c : lattice_of_program L -> make_tags ns L = Some (L', c) ->
  moves nothing [] L L' /\ P_Tags.denotes (tags L') c (fun n => In n (map raw ns)) /\ edges L' = edges L.
Proof.
  intros HL H. unfold make_tags in H. destruct (M_Tags.create (tags L) (map raw ns)) as [[m c']|] eqn:E; [|discriminate H]. injection H as <- <-.
  split; [|split; [|reflexivity]].
  - apply (by_op _ _ (TagCall (M_Tags.Create (map raw ns)))); [assumption|exact I| |now rewrite app_nil_r|now apply same_edges].
    cbn [exec]. unfold tag_call, change. cbn [M_Tags.step]. now rewrite E.
  - destruct (P_Tags.create_ok _ _ _ _ (P_Tags.reachable_ok _ (g_tags _ (program_good _ HL))) E) as [_ [_ D]]. exact D.
Qed.
Lemma there_ok n c L L' b : lattice_of_program L -> there n c L = Some (L', b) ->
  moves nothing [] L L' /\ edges L' = edges L /\ forall S, P_Tags.denotes (tags L) c S -> (b = true <-> S n).
Proof.
  intros HL H. unfold there in H. destruct (M_Tags.is_there (tags L) n c) as [[m b']|] eqn:E; [|discriminate H]. injection H as <- <-.
  split; [|split; [reflexivity|]].
  - apply (by_op _ _ (TagCall (M_Tags.IsThere n c))); [assumption|exact I| |now rewrite app_nil_r|now apply same_edges].
    cbn [exec]. unfold tag_call, change. cbn [M_Tags.step]. now rewrite E.
  - intros S D. exact (P_Tags.C09_is_there _ _ _ _ _ _ (g_tags _ (program_good _ HL)) D E).
Qed.

Lemma append_string_ok t L L' : lattice_of_program L -> append_string t L = (L', Ok tt) -> moves nothing t L L'.
Proof.
  intros HL E. apply (by_op _ _ (AppendString t)); [assumption|exact I|exact E|..].
  - injection E as <-. reflexivity.
  - apply same_edges. injection E as <-. reflexivity.
Qed.
Lemma addition_ends (P : vertex -> vertex -> Prop) from to it t s sc rule choice L L' d : addition from to it t s sc rule choice L L' (Ok d) -> P from to ->
  forall e ed, nth_error (edges L') e = Some ed ->
  (exists ed0, nth_error (edges L) e = Some ed0 /\ e_from ed0 = e_from ed /\ e_to ed0 = e_to ed) \/ P (e_from ed) (e_to ed).
Proof.
  intros A HP e ed E.
  assert (Snoc : forall x, edges L' = edges L ++ [x] -> e_from x = from -> e_to x = to ->
    (exists ed0, nth_error (edges L) e = Some ed0 /\ e_from ed0 = e_from ed /\ e_to ed0 = e_to ed) \/ P (e_from ed) (e_to ed)).
  { intros x Ex Fx Tx. rewrite Ex in E. destruct (Nat.lt_ge_cases e (length (edges L))) as [H|H].
    - rewrite nth_error_app1 in E by assumption. eauto.
    - rewrite nth_error_app2 in E by assumption. destruct (e - length (edges L)) as [|k]; [|destruct k; discriminate E]. injection E as <-. right. now rewrite Fx, Tx. }
  inversion A as [| | | |e0 ed0 He Hk Hs EE EI|p F1 F2 F3 EE EI|EE EI _|p ds t' F1 F2 F3 F4 F5 F6 EE EI]; subst.
  - rewrite EE, update_edge_nth in E. destruct (e0 =? e) eqn:Q; [|eauto]. destruct (nth_error (edges L) e) as [x|]; [|discriminate E]. injection E as <-.
    left. exists x. repeat split.
  - rewrite EE in E. eauto.
  - now apply (Snoc _ EE).
  - now apply (Snoc _ EE).
Qed.
Lemma add_edge_moves (P : vertex -> vertex -> Prop) from to it t s sc rule choice L L' d : lattice_of_program L -> known_tags L t -> P from to ->
  add_edge from to it t s sc rule choice L = (L', Ok d) -> moves P [] L L'.
Proof.
  intros HL Ht HP E. destruct (add_edge_spec _ _ _ _ _ _ _ _ _ _ _ (program_good _ HL) (known_proper _ _ Ht) E) as [_ [_ [Et [_ A]]]]; [discriminate|].
  apply (by_op _ _ (AddEdge from to it t s sc rule choice)); [assumption|exact Ht|exact (drop_ok _ _ _ _ E)|now rewrite app_nil_r|].
  eapply addition_ends; eassumption.
Qed.
Lemma symbol_known L : lattice_of_program L -> known_tags L symbol_tag.
Proof. intros H. apply proper_known, symbol_proper, program_good, H. Qed.
Lemma symbols_loop_moves n : forall p rest L L', lattice_of_program L -> add_symbols_loop n p rest L = (L', Ok tt) -> moves texts [] L L'.
Proof.
  induction n as [|n IH]; intros p [|x rest] L L' HL E; cbn [add_symbols_loop] in E; try discriminate E; try (injection E as <-; now apply moves_refl).
  destruct (next (x :: rest)) as [[cp rest']|]; [|discriminate E]. destruct (append cp) as [s|]; [|discriminate E]. unfold bind in E.
  destruct (add_edge _ _ _ _ _ _ _ _ L) as [L1 [d|y|]] eqn:E1; try discriminate E.
  assert (M : moves texts [] L L1) by (eapply add_edge_moves; [exact HL|now apply symbol_known| |exact E1]; unfold texts; eauto).
  exact (moves_then _ _ _ _ _ M (IH _ _ _ _ (mv_program _ _ _ _ M) E)).
Qed.
Lemma add_symbols_moves a b L L' : lattice_of_program L -> add_symbols a b L = (L', Ok tt) -> moves texts [] L L'.
Proof.
  intros HL E. destruct a as [p|]; [|discriminate E]. destruct b as [q|]; [|discriminate E]. unfold add_symbols in E.
  destruct ((p <=? q) && (q <=? length (text L))); [|discriminate E]. eapply symbols_loop_moves; eassumption.
Qed.
Lemma core_moves P L L' : lattice_of_program L' -> core L L' -> moves P [] L L'.
Proof. intros H C. constructor; [assumption|now apply core_grows|rewrite app_nil_r; apply C|]. apply same_edges, C. Qed.
Lemma first_out_moves v L L' r : lattice_of_program L -> first_out_edge v symbol_mask L = (L', r) -> r <> Undefined -> core L L' /\ lattice_of_program L'.
Proof.
  intros HL E Hr. split; [now apply (first_out_query v _ symbol_mask_made _ _ _ (program_good _ HL) E)|].
  assert (D : exists r', drop (first_out_edge v symbol_mask) L = (L', r') /\ r' <> Undefined).
  { unfold drop, bind. rewrite E. destruct r as [d|x|]; [eexists; split; [reflexivity|discriminate]..|congruence]. }
  destruct D as [r' [D Hd]]. eapply (R_call _ _ _ _ (FirstOutEdge v symbol_mask)); [exact HL|exact symbol_mask_made|exact D|exact Hd].
Qed.

(** ** The end of the text *)
Definition grounded (L : lattice) : Prop := forall e ed, nth_error (edges L) e = Some ed -> is_loose (e_from ed) = false -> is_loose (e_to ed) = false.
Definition falls (a b : vertex) : Prop := is_loose a = false /\ is_loose b = true.
Lemma grounded_moves (P : vertex -> vertex -> Prop) t L L' : (forall a b, P a b -> ~ falls a b) -> moves P t L L' -> grounded L -> grounded L'.
Proof.
  intros HP M G e ed E Hf. destruct (mv_new _ _ _ _ M e ed E) as [[ed0 [E0 [F0 T0]]]|H].
  - rewrite <- T0. apply (G e ed0 E0). now rewrite F0.
  - apply HP in H. destruct (is_loose (e_to ed)) eqn:Q; [|reflexivity]. exfalso. apply H. now split.
Qed.
Lemma texts_stay a b : texts a b -> ~ falls a b.
Proof. intros [p [q [-> ->]]] [_ H]. discriminate H. Qed.
Lemma end_here topo L : good L -> grounded L -> get_last_vertex topo L = (L, Ok (Text (length (text L)))).
Proof.
  intros G Gr. unfold get_last_vertex, bind, ask. assert (Hv : valid L (Text (length (text L))) = true) by (cbn; apply Nat.leb_refl).
  rewrite (all_out_form _ _ G Hv). destruct (bit (implicit L) (length (text L))) eqn:Eb.
  { apply (bit_in_text _ _ G) in Eb. lia. }
  cbn [when app]. destruct (graph_out L (Text (length (text L)))) as [|e l] eqn:Eg; [reflexivity|]. exfalso.
  assert (He : In e (graph_out L (Text (length (text L))))) by (rewrite Eg; now left).
  apply graph_out_spec in He as [ed [E1 E2]]. destruct (g_edges _ G _ _ E1) as [K1 [K2 [K3 K4]]]. apply (g_names _ G) in K2.
  pose proof (Gr e ed E1) as Gr'. rewrite E2 in K3, K4, Gr'. destruct (e_to ed) as [q|k]; cbn in K2, K4.
  - apply Nat.leb_le in K2. apply Nat.ltb_ge in K4. apply K3. f_equal. lia.
  - discriminate (Gr' eq_refl).
Qed.
Lemma last_vertex_same topo L L' v : get_last_vertex topo L = (L', Ok v) -> L' = L.
Proof.
  unfold get_last_vertex, bind, ask. destruct (all_out_edges L _) as [[|d l]|x|]; try discriminate; [now intros [= <- _]|].
  destruct (vertices topo true L) as [[|w ws]|x|]; try discriminate. now intros [= <- _].
Qed.
Lemma end_index_ok topo L L' p : end_index topo L = Some (L', p) -> L' = L /\ (good L -> grounded L -> p = length (text L)).
Proof.
  unfold end_index. destruct (run (get_last_vertex topo) L) as [[L1 v]|] eqn:E; [|discriminate]. apply run_ok in E.
  pose proof (last_vertex_same _ _ _ _ E) as ->. destruct v as [q|k]; [|discriminate]. intros [= <- <-]. split; [reflexivity|].
  intros G Gr. rewrite (end_here topo L G Gr) in E. congruence.
Qed.
Lemma append_moves topo t L L' : lattice_of_program L -> append_with_symbols topo t L = (L', Ok tt) -> moves texts t L L'.
Proof.
  intros HL E. unfold append_with_symbols in E. unfold bind at 1 in E. destruct (get_last_vertex topo L) as [L1 [j|x|]] eqn:E1; try discriminate E.
  apply last_vertex_same in E1 as ->. unfold bind at 1 in E. destruct (append_string t L) as [L2 [u|x|]] eqn:E2; try discriminate E. destruct u.
  unfold bind in E. destruct (get_last_vertex topo L2) as [L3 [k|x|]] eqn:E3; try discriminate E. apply last_vertex_same in E3 as ->.
  pose proof (append_string_ok _ _ _ HL E2) as M. apply (moves_weaken _ texts) in M; [|intros a b []].
  exact (moves_more _ _ _ _ _ M (add_symbols_moves _ _ _ _ (mv_program _ _ _ _ M) E)).
Qed.

(** ** The parts of a line *)
Lemma fill_up_ok topo b L L' : lattice_of_program L -> fill_up topo b L = Some L' ->
  exists t, moves texts t L L' /\ (grounded L -> t = repeat PLACEHOLDER (Z.to_nat b - length (text L))).
Proof.
  intros HL. unfold fill_up. destruct (end_index topo L) as [[L1 p]|] eqn:E1; [|discriminate]. apply end_index_ok in E1 as [-> P1].
  pose proof (program_good _ HL) as G. destruct (Z.ltb_spec (Z.of_nat p) b).
  - destruct (end_index topo L) as [[L2 q]|] eqn:E2; [|discriminate]. apply end_index_ok in E2 as [-> P2].
    destruct (run _ L) as [[L3 u]|] eqn:E3; [|discriminate]. intros [= <-]. apply run_ok in E3. destruct u.
    eexists. split; [eapply append_moves; eassumption|]. intros Gr. rewrite (P2 G Gr). f_equal. lia.
  - intros [= <-]. exists []. split; [now apply moves_refl|]. intros Gr. rewrite (P1 G Gr) in *. replace (Z.to_nat b - length (text L)) with 0 by lia. reflexivity.
Qed.
Lemma nothing_texts a b : nothing a b -> texts a b.
Proof. intros []. Qed.
Lemma append_line_ok topo bare tg l L L' : lattice_of_program L -> append_line topo bare tg l L = Some L' ->
  exists t, moves texts t L L' /\
    (M_Psi.n_loose l = true -> t = []) /\
    (M_Psi.n_loose l = false -> (0 <= M_Psi.n_beginning l)%Z -> grounded L ->
       t = let gap := repeat PLACEHOLDER (Z.to_nat (M_Psi.n_beginning l) - length (text L)) in
           gap ++ skipn (length (text L ++ gap) - Z.to_nat (M_Psi.n_beginning l)) (form l)).
Proof.
  intros HL. unfold append_line. destruct (M_Psi.n_loose l).
  { intros [= <-]. exists []. split; [now apply moves_refl|]. split; [reflexivity|discriminate]. }
  destruct (fill_up topo _ L) as [L1|] eqn:E1; [|discriminate]. destruct (fill_up_ok _ _ _ _ HL E1) as [t1 [M1 T1]].
  destruct (there M_Tags.SYMBOL tg L1) as [[L2 s]|] eqn:E2; [|discriminate]. destruct (there_ok _ _ _ _ _ (mv_program _ _ _ _ M1) E2) as [M2 _].
  apply (moves_weaken _ _ _ _ _ nothing_texts) in M2. pose proof (moves_more _ _ _ _ _ M1 M2) as M12. clear M1 M2 E2 E1 L1.
  destruct (if s then Some (L2, false) else there NO_EDGE tg L2) as [[L3 e]|] eqn:E3; [|discriminate].
  assert (M3 : moves texts [] L2 L3).
  { destruct s; [injection E3 as <- _; apply moves_refl, M12|]. destruct (there_ok _ _ _ _ _ (mv_program _ _ _ _ M12) E3) as [M _]. now apply (moves_weaken _ _ _ _ _ nothing_texts). }
  pose proof (moves_more _ _ _ _ _ M12 M3) as M13. clear M12 M3 E3 L2.
  destruct (end_index topo L3) as [[L4 p]|] eqn:E4; [|discriminate]. apply end_index_ok in E4 as [-> P4].
  assert (Gp : grounded L -> p = length (text L ++ t1)).
  { intros Gr. rewrite <- (mv_text _ _ _ _ M13). apply P4; [apply program_good, M13|]. exact (grounded_moves _ _ _ _ texts_stay M13 Gr). }
  destruct (tail _ (form l)) as [t2|] eqn:Et.
  - destruct (run _ L3) as [[L5 u]|] eqn:E5; [|discriminate]. intros [= <-]. apply run_ok in E5. destruct u.
    assert (M5 : moves texts t2 L3 L5).
    { destruct (s || e || bare); [|eapply append_moves; [apply M13|exact E5]].
      apply (moves_weaken _ _ _ _ _ nothing_texts), append_string_ok; [apply M13|assumption]. }
    exists (t1 ++ t2). split; [eapply moves_trans; eassumption|]. split; [discriminate|]. intros _ B Gr. cbv zeta. rewrite <- (T1 Gr). f_equal.
    unfold tail in Et. destruct (_ || _) eqn:Q; [discriminate Et|]. injection Et as <-. apply orb_false_iff in Q as [Q1 Q2]. apply Z.ltb_ge in Q1, Q2.
    rewrite (Gp Gr) in *. f_equal. lia.
  - intros [= <-]. exists t1. split; [assumption|]. split; [discriminate|]. intros _ B Gr. cbv zeta. rewrite <- (T1 Gr).
    rewrite skipn_all2, app_nil_r; [reflexivity|]. unfold tail in Et. destruct (_ || _) eqn:Q; [|discriminate Et]. clear Et.
    rewrite (Gp Gr) in Q. pose proof (T1 Gr) as T1'. assert (Hl : length (text L ++ t1) >= Z.to_nat (M_Psi.n_beginning l)) by (rewrite app_length, T1', repeat_length; lia).
    apply orb_true_iff in Q as [Q|Q]; apply Z.ltb_lt in Q; lia.
Qed.

Lemma loose_vertex_ok k m L L' m' v : lattice_of_program L -> loose_vertex k m L = Some (L', m', v) ->
  moves nothing [] L L' /\ edges L' = edges L /\ at_key m' k = Some v /\ (forall j w, at_key m j = Some w -> at_key m' j = Some w) /\
  (at_key m k = None -> v = Loose (n_loose L) /\ n_loose L' = S (n_loose L) /\ m' = (k, v) :: m) /\ (at_key m k <> None -> L' = L /\ m' = m).
Proof.
  intros HL. unfold loose_vertex. destruct (at_key m k) as [w|] eqn:E.
  - intros [= <- <- <-]. split; [now apply moves_refl|]. split; [reflexivity|]. split; [assumption|]. split; [auto|]. split; [discriminate|auto].
  - destruct (run add_loose_vertex L) as [[L1 w]|] eqn:E1; [|discriminate]. intros [= <- <- <-]. apply run_ok in E1.
    destruct (add_loose_spec _ _ _ (program_good _ HL) E1) as [_ [_ [Ew [Et [Ee [_ [En _]]]]]]].
    split; [|split; [assumption|split; [cbn; now rewrite Z.eqb_refl|split]]].
    + apply (by_op _ _ AddLooseVertex); [assumption|exact I|exact (drop_ok _ _ _ _ E1)|now rewrite app_nil_r|now apply same_edges].
    + intros j u Hj. cbn. destruct (Z.eqb_spec k j); [congruence|assumption].
    + split; [|congruence]. intros _. injection Ew as ->. auto.
Qed.

(** Where a line says that its edge begins and ends, if the loose vertices are [m]. *)
Definition begins (m : list (Z * vertex)) (l : line) (v : vertex) : Prop :=
  if M_Psi.n_loose l then at_key m (M_Psi.n_beginning l) = Some v
  else exists p, v = Text p /\ M_Psi.n_beginning l = Z.of_nat p.
Definition ends (m : list (Z * vertex)) (l : line) (v : vertex) : Prop :=
  if M_Psi.n_length_loose l then at_key m (M_Psi.n_length l) = Some v
  else exists p, v = Text p /\ Z.of_nat p = if M_Psi.n_point l then M_Psi.n_length l else (M_Psi.n_beginning l + M_Psi.n_length l)%Z.
(** More loose vertices, with new numbers. *)
Definition more_loose (m m' : list (Z * vertex)) : Prop := forall k v, at_key m k = Some v -> at_key m' k = Some v.
Lemma begins_more m m' l v : more_loose m m' -> begins m l v -> begins m' l v.
Proof. intros H. unfold begins. destruct (M_Psi.n_loose l); auto. Qed.
Lemma ends_more m m' l v : more_loose m m' -> ends m l v -> ends m' l v.
Proof. intros H. unfold ends. destruct (M_Psi.n_length_loose l); auto. Qed.
(** The loose vertices are those of the numbers, one for each. *)
Definition loose_ok (m : list (Z * vertex)) (L : lattice) : Prop :=
  (forall k v, at_key m k = Some v -> exists i, v = Loose i /\ i < n_loose L) /\
  (forall j k v, at_key m j = Some v -> at_key m k = Some v -> j = k).
Lemma loose_ok_grows P t m L L' : moves P t L L' -> loose_ok m L -> loose_ok m L'.
Proof. intros M [A B]. split; [|exact B]. intros k v H. destruct (A k v H) as [i [-> Hi]]. exists i. split; [reflexivity|]. pose proof (w_loose _ _ (mv_grows _ _ _ _ M)). lia. Qed.
Lemma loose_vertex_all k m L L' m' v : lattice_of_program L -> loose_vertex k m L = Some (L', m', v) ->
  moves nothing [] L L' /\ at_key m' k = Some v /\ more_loose m m' /\ (loose_ok m L -> loose_ok m' L').
Proof.
  intros HL E. destruct (loose_vertex_ok _ _ _ _ _ _ HL E) as [M [_ [K [Mo [New Old]]]]]. split; [assumption|]. split; [assumption|]. split; [exact Mo|].
  intros [A B]. destruct (at_key m k) as [w|] eqn:Ek.
  - destruct Old as [-> ->]; [discriminate|]. now split.
  - destruct (New eq_refl) as [-> [En ->]]. split.
    + intros j w. cbn. destruct (Z.eqb_spec k j); [intros [= <-]; exists (n_loose L); split; [reflexivity|lia]|]. intros H. destruct (A j w H) as [i [-> Hi]]. exists i. split; [reflexivity|lia].
    + intros i j w. cbn. destruct (Z.eqb_spec k i), (Z.eqb_spec k j); intros H1 H2; try congruence.
      * injection H1 as <-. apply A in H2 as [x [[= <-] H2]]. lia.
      * injection H2 as <-. apply A in H1 as [x [[= <-] H1]]. lia.
      * eapply B; eassumption.
Qed.
Lemma vertex_at_ok L i v : vertex_at L i = Some v -> exists p, v = Text p /\ i = Z.of_nat p /\ p <= length (text L).
Proof.
  unfold vertex_at. destruct (_ || _) eqn:Q; [discriminate|]. intros [= <-]. apply orb_false_iff in Q as [Q1 Q2]. apply Z.ltb_ge in Q1, Q2.
  exists (Z.to_nat i). split; [reflexivity|]. lia.
Qed.
Lemma source_of_ok l m L L' m' v : lattice_of_program L -> source_of l m L = Some (L', m', v) ->
  moves nothing [] L L' /\ begins m' l v /\ more_loose m m' /\ (loose_ok m L -> loose_ok m' L').
Proof.
  intros HL. unfold source_of, begins. destruct (M_Psi.n_loose l); [now apply loose_vertex_all|].
  destruct (vertex_at L (M_Psi.n_beginning l)) as [w|] eqn:E; [|discriminate]. intros [= <- <- <-]. apply vertex_at_ok in E as [p [-> [Ep Hp]]].
  split; [now apply moves_refl|]. split; [eauto|]. split; [intros k w H; exact H|auto].
Qed.
Lemma target_of_ok l m L L' m' v : lattice_of_program L -> target_of l m L = Some (L', m', v) ->
  moves nothing [] L L' /\ ends m' l v /\ more_loose m m' /\ (loose_ok m L -> loose_ok m' L').
Proof.
  intros HL. unfold target_of, ends. destruct (M_Psi.n_point l), (M_Psi.n_length_loose l); try discriminate; [now apply loose_vertex_all|..].
  - destruct (vertex_at L (M_Psi.n_length l)) as [w|] eqn:E; [|discriminate]. intros [= <- <- <-]. apply vertex_at_ok in E as [p [-> [Ep Hp]]].
    split; [now apply moves_refl|]. split; [eauto|]. split; [intros k w H; exact H|auto].
  - destruct (vertex_at L _) as [w|] eqn:E; [|discriminate]. intros [= <- <- <-]. apply vertex_at_ok in E as [p [-> [Ep Hp]]].
    split; [now apply moves_refl|]. split; [eauto|]. split; [intros k w H; exact H|auto].
Qed.

(** The item. *)
Definition item_record (l : line) : P_Items.record :=
  P_Items.Record (raw (M_Psi.n_category l)) (raw (M_Psi.n_item_text l))
    (fold_left (fun f av => P_Items.update f (raw (fst av)) (P_Items.value_of (raw (snd av)))) (M_Psi.n_values l) (fun _ => None)).
Lemma with_values_ok vs : forall m it m' it' r, P_Items.rep m it r -> with_values m it vs = Some (m', it') ->
  (exists x, m' = m ++ x) /\
  P_Items.rep m' it' (P_Items.Record (P_Items.r_category r) (P_Items.r_text r)
    (fold_left (fun f av => P_Items.update f (raw (fst av)) (P_Items.value_of (raw (snd av)))) vs (P_Items.r_map r))).
Proof.
  induction vs as [|[a v] vs IH]; intros m it m' it' r R; cbn [with_values fold_left fst snd].
  - intros [= <- <-]. split; [exists []; now rewrite app_nil_r|]. now destruct r.
  - destruct (M_Items.set_value m it (raw a) (raw v)) as [[m1 it1]|] eqn:E; [|discriminate]. intros H.
    assert (Ez : M_Items.set_zvalue m it (raw a) (P_Items.value_of (raw v)) = Some (m1, it1)).
    { unfold M_Items.set_value, M_Items.set_int in E. unfold P_Items.value_of. destruct (M_Items.whole_int (raw v)); exact E. }
    destruct (P_Items.set_zvalue_rep _ _ _ _ _ _ _ R Ez) as [[x ->] R1]. destruct (IH _ _ _ _ _ R1 H) as [[y ->] R2].
    split; [exists (x ++ y); now rewrite app_assoc|exact R2].
Qed.
Lemma new_item_rep m c t : P_Items.rep m (M_Items.new_item c t) (P_Items.Record c t (fun _ => None)).
Proof.
  constructor; try reflexivity.
  - constructor; cbn [M_Items.new_item M_Items.attributes_ M_Items.values_ length].
    + intros i H. now rewrite N.bits_0 in H.
    + intros i _. destruct i; reflexivity.
    + lia.
    + discriminate.
  - intros a. unfold P_Items.attr. destruct (M_Items.index m a); [|reflexivity]. cbn [M_Items.new_item M_Items.attributes_]. now rewrite N.bits_0.
Qed.
Lemma item_of_ok m l m' it : item_of m l = Some (m', it) -> (exists x, m' = m ++ x) /\ P_Items.rep m' it (item_record l).
Proof. intros H. exact (with_values_ok _ _ _ _ _ _ (new_item_rep _ _ _) H). Qed.

(** The sequences. *)
Lemma over_symbols_ok fuel : forall v to b L L' b', lattice_of_program L -> over_symbols fuel v to b L = Some (L', b') -> moves texts [] L L'.
Proof.
  induction fuel as [|f IH]; intros v to b L L' b' HL; cbn [over_symbols].
  { destruct (vertex_eqb v to); [|discriminate]. intros [= <- _]. now apply moves_refl. }
  destruct (vertex_eqb v to); [intros [= <- _]; now apply moves_refl|].
  destruct (first_out_edge v symbol_mask L) as [L1 [d|[]|]] eqn:E; try discriminate.
  - destruct (first_out_moves _ _ _ _ HL E) as [C H1]; [discriminate|]. destruct (target L1 d) as [w|x|]; [|discriminate..].
    intros H. exact (moves_then _ _ _ _ _ (core_moves texts _ _ H1 C) (IH _ _ _ _ _ _ H1 H)).
  - destruct (first_out_moves _ _ _ _ HL E) as [C H1]; [discriminate|]. destruct (run (add_symbols v to) L1) as [[L2 u]|] eqn:E2; [|discriminate].
    apply run_ok in E2. destruct u. pose proof (add_symbols_moves _ _ _ _ H1 E2) as M2. intros H.
    exact (moves_then _ _ _ _ _ (core_moves texts _ _ H1 C) (moves_then _ _ _ _ _ M2 (IH _ _ _ _ _ _ (mv_program _ _ _ _ M2) H))).
Qed.
(** Links with numbers are the edges of those numbers. *)
Definition link_told (kn : list (Z * desc)) (x : Z * str) (u : usage) : Prop :=
  snd u = role_of (snd x) /\ ((1 <= fst x)%Z -> at_key kn (fst x) = Some (fst u)).
Lemma first_out_visible v m L L' r : first_out_edge v m L = (L', r) -> visible L' = visible L.
Proof.
  unfold first_out_edge, bind. destruct (out_edges v m L) as [L1 [l|x|]] eqn:E; apply out_visible in E; unfold first, ret, throw; [destruct l|..]; intros [= <- _]; exact E.
Qed.
Lemma sub_edge_ok kn to n v L L' d : lattice_of_program L -> sub_edge kn to n v L = Some (L', d) ->
  core L L' /\ visible L' = visible L /\ lattice_of_program L' /\ ((1 <= n)%Z -> at_key kn n = Some d).
Proof.
  intros HL. unfold sub_edge. destruct (Z.ltb_spec n 1).
  - destruct (vertex_eqb v to); [discriminate|]. intros E. apply run_ok in E. destruct (first_out_moves _ _ _ _ HL E) as [C H1]; [discriminate|].
    split; [assumption|]. split; [eapply first_out_visible; exact E|]. split; [assumption|lia].
  - destruct (at_key kn n) as [x|]; [|discriminate]. intros [= <- <-]. split; [apply core_refl|]. auto.
Qed.
Lemma sub_edges_ok kn to us : forall v b L L' w b', lattice_of_program L -> sub_edges kn to us v b L = Some (L', w, b') ->
  core L L' /\ visible L' = visible L /\ lattice_of_program L' /\ exists x, Forall2 (link_told kn) us x /\ b' = fold_left (build_add L) x b.
Proof.
  induction us as [|[n r] us IH]; intros v b L L' w b' HL; cbn [sub_edges].
  - intros [= <- <- <-]. split; [apply core_refl|]. split; [reflexivity|]. split; [assumption|]. exists []. split; [constructor|reflexivity].
  - destruct (sub_edge kn to n v L) as [[L1 d]|] eqn:E; [|discriminate]. destruct (sub_edge_ok _ _ _ _ _ _ _ HL E) as [C1 [V1 [H1 K1]]].
    destruct (target L1 d) as [w1|x|]; [|discriminate..]. intros H. destruct (IH _ _ _ _ _ _ H1 H) as [C2 [V2 [H2 [x [F Eb]]]]].
    split; [eapply core_trans; eassumption|]. split; [congruence|]. split; [assumption|]. exists ((d, role_of r) :: x). split; [constructor; [split; auto|assumption]|].
    cbn [fold_left]. now rewrite Eb, (fold_add_core _ _ _ C1 V1), (build_add_core _ _ _ _ C1 V1).
Qed.
(** The sequence of a partition: of the given edges. *)
Definition made_of (kn : list (Z * desc)) (us : list (Z * str)) (s : sequence) : Prop := exists L x, Forall2 (link_told kn) us x /\ s = build_all L x.
Definition element_told (L : lattice) (kn : list (Z * desc)) (p : M_Psi.read_part score) (e : element) : Prop :=
  made_of kn (M_Psi.rp_edges p) (el_sequence e) /\ P_Tags.denotes (tags L) (el_tags e) (fun n => In n (map raw (M_Psi.rp_tags p))) /\ el_score e = M_Psi.rp_score p.
Lemma element_grows P t L L' kn p e : moves P t L L' -> element_told L kn p e -> element_told L' kn p e.
Proof. intros M [A [B C]]. split; [assumption|]. split; [eapply denotes_grows; eassumption|assumption]. Qed.
Lemma elements_ok kn to ps : forall v L L' es, lattice_of_program L -> elements kn to ps v L = Some (L', es) ->
  moves texts [] L L' /\ Forall2 (element_told L' kn) ps es.
Proof.
  induction ps as [|p ps IH]; intros v L L' es HL; cbn [elements].
  - intros [= <- <-]. split; [now apply moves_refl|constructor].
  - destruct (sub_edges kn to (M_Psi.rp_edges p) v new_builder L) as [[[L1 w] b]|] eqn:E1; [|discriminate].
    destruct (sub_edges_ok _ _ _ _ _ _ _ _ _ HL E1) as [C1 [V1 [H1 [x [F Eb]]]]].
    destruct (make_tags (M_Psi.rp_tags p) L1) as [[L2 c]|] eqn:E2; [|discriminate]. destruct (make_tags_ok _ _ _ _ H1 E2) as [M2 [D2 _]].
    apply (moves_weaken _ _ _ _ _ nothing_texts) in M2.
    destruct (elements kn to ps w L2) as [[L3 es']|] eqn:E3; [|discriminate]. intros [= <- <-].
    destruct (IH _ _ _ _ (mv_program _ _ _ _ M2) E3) as [M3 F3]. split.
    + exact (moves_then _ _ _ _ _ (core_moves texts _ _ H1 C1) (moves_then _ _ _ _ _ M2 M3)).
    + constructor; [|assumption]. split; [|split; [cbn; eapply denotes_grows; eassumption|reflexivity]].
      exists L, x. split; [assumption|]. cbn [el_sequence]. unfold build_all. now rewrite Eb.
Qed.
(** The partitions a line tells of; over symbols there is one. *)
Definition parts_of (l : line) : list (M_Psi.read_part score) :=
  match M_Psi.n_content l with
  | M_Psi.from_symbols => [M_Psi.ReadPart [] (M_Psi.n_tags l) (M_Psi.n_score l)]
  | M_Psi.of_parts ps => ps
  end.
Definition sequence_told (kn : list (Z * desc)) (l : line) (p : M_Psi.read_part score) (s : sequence) : Prop :=
  match M_Psi.n_content l with M_Psi.from_symbols => True | M_Psi.of_parts _ => made_of kn (M_Psi.rp_edges p) s end.
Definition content_told (L : lattice) (kn : list (Z * desc)) (l : line) (p : M_Psi.read_part score) (e : element) : Prop :=
  sequence_told kn l p (el_sequence e) /\ P_Tags.denotes (tags L) (el_tags e) (fun n => In n (map raw (M_Psi.rp_tags p))) /\ el_score e = M_Psi.rp_score p.
Lemma content_of_ok fuel kn from to tg l L L' es : lattice_of_program L -> P_Tags.denotes (tags L) tg (fun n => In n (map raw (M_Psi.n_tags l))) ->
  content_of fuel kn from to tg l L = Some (L', es) -> moves texts [] L L' /\ Forall2 (content_told L' kn l) (parts_of l) es.
Proof.
  intros HL D. unfold content_of, parts_of, content_told, sequence_told. destruct (M_Psi.n_content l) as [|ps].
  - destruct (there M_Tags.SYMBOL tg L) as [[L1 s]|] eqn:E1; [|discriminate]. destruct (there_ok _ _ _ _ _ HL E1) as [M1 _].
    apply (moves_weaken _ _ _ _ _ nothing_texts) in M1.
    destruct (if s then Some (L1, new_builder) else over_symbols fuel from to new_builder L1) as [[L2 b]|] eqn:E2; [|discriminate]. intros [= <- <-].
    assert (M2 : moves texts [] L1 L2).
    { destruct s; [injection E2 as <- _; apply moves_refl, M1|]. eapply over_symbols_ok; [apply M1|exact E2]. }
    pose proof (moves_then _ _ _ _ _ M1 M2) as M. split; [assumption|]. constructor; [|constructor]. split; [exact I|]. split; [|reflexivity].
    eapply denotes_grows; eassumption.
  - intros E. destruct (elements_ok _ _ _ _ _ _ _ HL E) as [M F]. split; [assumption|]. exact F.
Qed.

(** ** A line *)
(** What lattice [L] says of a part of a line as its edge [d]; [m]: the loose vertices, [kn]: the edges of the lines. *)
Definition told (L : lattice) (at_ : M_Items.manager) (kn : list (Z * desc)) (m : list (Z * vertex)) (l : line) (p : M_Psi.read_part score) (d : desc) : Prop :=
  (exists v, source L d = Ok v /\ begins m l v) /\ (exists v, target L d = Ok v /\ ends m l v) /\
  (forall n, In n (M_Psi.rp_tags p) -> P_Tags.has (tags L) (edge_tags L d) (raw n)) /\
  match d with
  | Implicit q => q < length (text L)
  | Explicit _ =>
      (exists it it', annotation_item L d = Ok it' /\ M_Items.item_eqb it' it = true /\ P_Items.rep at_ it (item_record l)) /\
      (M_Psi.rp_score p <= edge_score L d)%Z /\
      exists pt, In pt (edge_partitions L d) /\ p_score pt = M_Psi.rp_score p /\ sequence_told kn l p (p_sequence pt)
  end.
Definition more_known (kn kn' : list (Z * desc)) : Prop := forall k d, at_key kn k = Some d -> at_key kn' k = Some d.
Lemma made_more kn kn' us s : more_known kn kn' -> made_of kn us s -> made_of kn' us s.
Proof.
  intros H [L [x [F ->]]]. exists L, x. split; [|reflexivity]. induction F as [|a b us x [A B] F IH]; constructor; [|assumption]. split; auto.
Qed.
Lemma told_more L at_ kn kn' m l p d : more_known kn kn' -> told L at_ kn m l p d -> told L at_ kn' m l p d.
Proof.
  intros H [A [B [C D]]]. split; [assumption|]. split; [assumption|]. split; [assumption|]. destruct d; [assumption|]. destruct D as [D1 [D2 [pt [E1 [E2 E3]]]]].
  split; [assumption|]. split; [assumption|]. exists pt. split; [assumption|]. split; [assumption|]. unfold sequence_told in *. destruct (M_Psi.n_content l); [exact I|]. eapply made_more; eassumption.
Qed.
Lemma has_included m c c' n : included c c' -> P_Tags.has m c n -> P_Tags.has m c' n.
Proof. intros H [i [A B]]. exists i. split; [assumption|]. now apply H. Qed.
Lemma has_later m m' c n : P_Tags.later m m' -> P_Tags.has m c n -> P_Tags.has m' c n.
Proof. intros [[x H] _] [i [A B]]. exists i. split; [|assumption]. rewrite H. rewrite nth_error_app1; [assumption|]. apply nth_error_Some. congruence. Qed.
Lemma told_kept L L' at_ at' kn m m' l p d : grows L L' -> (exists x, at' = at_ ++ x) -> more_loose m m' ->
  told L at_ kn m l p d -> told L' at' kn m' l p d.
Proof.
  intros G [x ->] Hm [[v [A1 A2]] [[w [B1 B2]] [C D]]].
  assert (Ends : source L' d = source L d /\ target L' d = target L d /\ included (edge_tags L d) (edge_tags L' d)).
  { destruct d as [q|e].
    - split; [reflexivity|]. split; [cbn; f_equal; f_equal; f_equal; now apply grows_symbol_len; [apply G|]|apply included_refl].
    - cbn in A1. destruct (nth_error (edges L) e) as [ed|] eqn:E; [|discriminate A1]. destruct (w_edges _ _ G _ _ E) as [ed' [E' X]].
      cbn. rewrite E, E'. split; [f_equal; apply X|]. split; [f_equal; apply X|apply X]. }
  destruct Ends as [Es [Et Ei]]. rewrite <- Es in A1. rewrite <- Et in B1.
  split; [exists v; split; [assumption|eapply begins_more; eassumption]|]. split; [exists w; split; [assumption|eapply ends_more; eassumption]|].
  split; [intros n Hn; eapply has_included; [exact Ei|]; eapply has_later; [apply G|auto]|].
  destruct d as [q|e]; [destruct (w_text _ _ G) as [t ->]; rewrite app_length; lia|].
  destruct D as [[it [it' [D1 [D2 D3]]]] [D4 [pt [D5 [D6 D7]]]]]. cbn in D1, D4, D5. destruct (nth_error (edges L) e) as [ed|] eqn:E; [|discriminate D1].
  destruct (w_edges _ _ G _ _ E) as [ed' [E' X]]. cbn. rewrite E'. injection D1 as <-. rewrite (x_item _ _ X). split; [|split].
  - exists it, (e_item ed). split; [reflexivity|]. split; [assumption|]. now apply P_Items.rep_more.
  - pose proof (x_score _ _ X). lia.
  - exists pt. split; [|split; assumption]. destruct (x_partitions _ _ X) as [ps ->]. apply in_or_app. now left.
Qed.
Lemma add_elements_ok (P : vertex -> vertex -> Prop) from to it n kn0 at_ m l ps es : forall kn L L' kn', lattice_of_program L -> P from to -> begins m l from -> ends m l to ->
  P_Items.rep at_ it (item_record l) -> Forall2 (content_told L kn0 l) ps es ->
  add_elements from to it n es kn L = Some (L', kn') ->
  moves P [] L L' /\ exists ds, Forall2 (told L' at_ kn0 m l) ps ds /\ kn' = rev (map (pair n) ds) ++ kn.
Proof.
  intros kn L L' kn' HL HP Hb He Hi F. revert es kn L L' kn' HL F. induction ps as [|p ps IH]; intros es kn L L' kn' HL F; inversion F as [|a e b es' [S1 [S2 S3]] F']; subst; cbn [add_elements].
  - intros [= <- <-]. split; [now apply moves_refl|]. exists []. split; [constructor|reflexivity].
  - clear F. destruct (run _ L) as [[L1 d]|] eqn:E; [|discriminate]. apply run_ok in E. intros H.
    assert (K : known_tags L (el_tags e)) by (eexists; exact S2).
    pose proof (add_edge_moves P _ _ _ _ _ _ _ _ _ _ _ HL K HP E) as M1. pose proof (mv_program _ _ _ _ M1) as H1.
    destruct (C12_returned_edge _ _ _ _ _ _ _ _ _ _ _ HL K E) as [[D1 [D2 [D3 D4]]] [[out [Eo Io]] _]].
    assert (F1 : Forall2 (content_told L1 kn0 l) ps es').
    { clear -F' M1. induction F' as [|a b x y [A [B C]] F' IH]; constructor; [|assumption]. split; [assumption|]. split; [eapply denotes_grows; eassumption|assumption]. }
    destruct (IH es' _ _ _ _ H1 F1 H) as [M2 [ds [F2 Ek]]]. split; [exact (moves_then _ _ _ _ _ M1 M2)|]. exists (d :: ds). split.
    + constructor; [|assumption]. eapply told_kept; [apply M2|exists []; now rewrite app_nil_r|intros k v Hk; exact Hk|].
      split; [eauto|]. split; [eauto|]. split.
      * intros x Hx. eapply has_included; [exact D3|]. apply (P_Tags.dn_has _ _ _ (denotes_grows _ _ _ _ _ _ M1 S2)). now apply in_map.
      * destruct d as [q|e0].
        -- unfold all_out_edges in Eo. destruct (valid L1 from); [|discriminate Eo]. injection D1 as <-. injection Eo as <-.
           pose proof (program_good _ H1) as G1. destruct (bit (implicit L1) q) eqn:Eb; [now apply (bit_in_text _ _ G1)|]. cbn [when app] in Io. destruct (find_node L1 (Text q)); [|destruct Io]. apply in_map_iff in Io as [x [Ex _]]. discriminate Ex.
        -- destruct (D4 e0 eq_refl) as [[it' [I1 I2]] [I3 [t' I4]]]. split; [eauto|]. rewrite <- S3. split; [assumption|]. eexists. split; [exact I4|]. split; [reflexivity|exact S1].
    + cbn [map rev]. now rewrite Ek, <- app_assoc.
Qed.
(** No edge for the line: a byte without one. *)
Definition has_edge (l : line) : Prop := ~ In NO_EDGE (map raw (M_Psi.n_tags l)).
(** The ends of the edge of a line are not a text vertex and then a loose one. *)
Definition falling (l : line) : Prop := M_Psi.n_loose l = false /\ M_Psi.n_length_loose l = true.
Definition line_text (l : line) (t : list Z) : list Z :=
  if M_Psi.n_loose l then t
  else let t' := t ++ repeat PLACEHOLDER (Z.to_nat (M_Psi.n_beginning l) - length t) in
       t' ++ skipn (length t' - Z.to_nat (M_Psi.n_beginning l)) (form l).
Record line_read (l : line) (st st' : state) : Prop := {
  lr_program : lattice_of_program (lat st');
  lr_grows : grows (lat st) (lat st');
  lr_attrs : exists x, attrs st' = attrs st ++ x;
  lr_loose : more_loose (loose st) (loose st');
  lr_distinct : loose_ok (loose st) (lat st) -> loose_ok (loose st') (lat st');
  lr_text : M_Psi.n_loose l = true \/ (0 <= M_Psi.n_beginning l)%Z -> grounded (lat st) -> text (lat st') = line_text l (text (lat st));
  lr_grounded : ~ falling l -> grounded (lat st) -> loose_ok (loose st) (lat st) -> grounded (lat st');
  lr_none : ~ has_edge l -> known st' = known st;
  lr_edges : has_edge l -> exists ds, Forall2 (told (lat st') (attrs st') (known st) (loose st') l) (parts_of l) ds /\
               known st' = rev (map (pair (M_Psi.n_ordinal l)) ds) ++ known st
}.
Lemma read_line_ok topo fuel bare l st st' : lattice_of_program (lat st) -> read_line topo fuel bare l st = Some st' -> line_read l st st'.
Proof.
  intros HL. unfold read_line. destruct (make_tags _ (lat st)) as [[L1 tg]|] eqn:E1; [|discriminate]. destruct (make_tags_ok _ _ _ _ HL E1) as [M1 [D1 Ee1]].
  apply (moves_weaken _ _ _ _ _ nothing_texts) in M1. pose proof (mv_program _ _ _ _ M1) as H1.
  destruct (append_line topo bare tg l L1) as [L2|] eqn:E2; [|discriminate]. destruct (append_line_ok _ _ _ _ _ _ H1 E2) as [t [M2 [T1 T2]]]. pose proof (mv_program _ _ _ _ M2) as H2.
  destruct (there NO_EDGE tg L2) as [[L3 e]|] eqn:E3; [|discriminate]. destruct (there_ok _ _ _ _ _ H2 E3) as [M3 [Ee3 T3]].
  apply (moves_weaken _ _ _ _ _ nothing_texts) in M3. pose proof (mv_program _ _ _ _ M3) as H3.
  pose proof (moves_more _ _ _ _ _ (moves_then _ _ _ _ _ M1 M2) M3) as M13.
  specialize (T3 _ (denotes_grows _ _ _ _ _ _ M2 D1)). cbn beta in T3.
  assert (Text : forall L', (exists P, moves P [] L3 L') -> M_Psi.n_loose l = true \/ (0 <= M_Psi.n_beginning l)%Z -> grounded (lat st) -> text L' = line_text l (text (lat st))).
  { intros L' [P M] B Gr. rewrite (mv_text _ _ _ _ M), app_nil_r, (mv_text _ _ _ _ M13). unfold line_text. destruct (M_Psi.n_loose l).
    - rewrite (T1 eq_refl). apply app_nil_r.
    - destruct B as [B|B]; [discriminate B|]. rewrite T2; [|reflexivity|assumption|]. 2:{ exact (grounded_moves _ _ _ _ texts_stay M1 Gr). }
      pose proof (mv_text _ _ _ _ M1) as Et. rewrite app_nil_r in Et. rewrite Et. cbv zeta. now rewrite app_assoc. }
  destruct e.
  { assert (N : ~ has_edge l) by (intros H; apply H; now apply T3). intros [= <-]. constructor; cbn [lat attrs loose known].
    - assumption.
    - apply M13.
    - exists []. now rewrite app_nil_r.
    - intros k v H. exact H.
    - now apply (loose_ok_grows _ _ _ _ _ M13).
    - apply Text. exists texts. now apply moves_refl.
    - intros _ Gr _. exact (grounded_moves _ _ _ _ texts_stay M13 Gr).
    - reflexivity.
    - intros H. now apply N in H. }
  assert (Y : has_edge l) by (intros H; apply T3 in H; discriminate H).
  destruct (source_of l (loose st) L3) as [[[L4 m1] from]|] eqn:E4; [|discriminate]. destruct (source_of_ok _ _ _ _ _ _ H3 E4) as [M4 [B4 [G4 K4]]]. pose proof (mv_program _ _ _ _ M4) as H4.
  destruct (target_of l m1 L4) as [[[L5 m2] to]|] eqn:E5; [|discriminate]. destruct (target_of_ok _ _ _ _ _ _ H4 E5) as [M5 [B5 [G5 K5]]]. pose proof (mv_program _ _ _ _ M5) as H5.
  destruct (item_of (attrs st) l) as [[at' it]|] eqn:E6; [|discriminate]. destruct (item_of_ok _ _ _ _ E6) as [A6 R6].
  pose proof (moves_trans _ _ _ _ _ _ M4 M5) as M45. cbn [app] in M45.
  apply (moves_weaken _ _ _ _ _ nothing_texts) in M45.
  destruct (content_of fuel (known st) from to tg l L5) as [[L6 es]|] eqn:E7; [|discriminate].
  assert (D5 : P_Tags.denotes (tags L5) tg (fun n => In n (map raw (M_Psi.n_tags l)))).
  { eapply denotes_grows; [exact M45|]. eapply denotes_grows; [exact M3|]. eapply denotes_grows; [exact M2|exact D1]. }
  destruct (content_of_ok _ _ _ _ _ _ _ _ _ H5 D5 E7) as [M6 F6]. pose proof (mv_program _ _ _ _ M6) as H6.
  destruct (add_elements from to it (M_Psi.n_ordinal l) es (known st) L6) as [[L7 kn]|] eqn:E8; [|discriminate]. intros [= <-].
  set (P := fun a b => texts a b \/ (a = from /\ b = to)).
  destruct (add_elements_ok P from to it _ (known st) at' m2 l _ _ _ _ _ _ H6 (or_intror (conj eq_refl eq_refl)) (begins_more _ _ _ _ G5 B4) B5 R6 F6 E8) as [M7 [ds [F7 Ek]]].
  assert (M36 : moves texts [] L3 L6) by exact (moves_then _ _ _ _ _ M45 M6).
  assert (TP : forall a b, texts a b -> P a b) by (intros; now left).
  assert (M37 : moves P [] L3 L7) by exact (moves_then _ _ _ _ _ (moves_weaken _ _ _ _ _ TP M36) M7).
  assert (M17 : moves P t (lat st) L7) by exact (moves_more _ _ _ _ _ (moves_weaken _ _ _ _ _ TP M13) M37).
  assert (Lk : loose_ok (loose st) (lat st) -> loose_ok m2 L5).
  { intros H. apply K5, K4. now apply (loose_ok_grows _ _ _ _ _ M13). }
  constructor; cbn [lat attrs loose known].
  - apply M7.
  - apply M17.
  - exact A6.
  - intros k v H. now apply G5, G4.
  - intros H. apply (loose_ok_grows _ _ _ _ _ M7), (loose_ok_grows _ _ _ _ _ M6). now apply Lk.
  - apply Text. now exists P.
  - intros Nf Gr Lo. refine (grounded_moves P _ _ _ _ M17 Gr). intros a b [H|[-> ->]]; [now apply texts_stay|]. intros [X1 X2]. apply Nf.
    specialize (Lk Lo). unfold begins in B4. unfold ends in B5. split.
    + destruct (M_Psi.n_loose l); [|reflexivity]. apply G5 in B4. apply Lk in B4 as [i [-> _]]. discriminate X1.
    + destruct (M_Psi.n_length_loose l); [reflexivity|]. destruct B5 as [q [-> _]]. discriminate X2.
  - intros H. contradiction.
  - intros _. exists ds. split; assumption.
Qed.

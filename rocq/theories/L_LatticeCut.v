(** Lemmas on the run of a cutter over the lattice. *)
From Coq Require Import ZArith List Bool Lia.
From Verif Require Import M_Utf8 S_Utf8 L_Utf8 M_Tags M_Items M_Cutter M_Lattice P_Tags P_Cutter L_Lattice S_Lattice L_LatticeOps L_LatticeTidy.
From Verif Require Import P_Lattice M_LatticeWalk L_LatticeNodes P_LatticeWalk P_LatticeVertices P_LatticePath L_LatticeMarks M_LatticeCut.
Import ListNotations.
Local Open Scope nat_scope.
Notation text := M_Lattice.text.
Notation later := P_Tags.later.

(** ** Symbol edges *)
Definition symbol_edge (L : lattice) (d : desc) (p : nat) : Prop :=
  is_edge L d /\ N.testbit (edge_tags L d) 0 = true /\ source L d = Ok (Text p) /\ target L d = Ok (Text (p + symbol_len L p)).
(** Symbol edges one after the other, from [p] to [w]. *)
Fixpoint symbol_run (L : lattice) (p : nat) (ds : list desc) (w : nat) : Prop :=
  match ds with [] => p = w | d :: r => symbol_edge L d p /\ symbol_run L (p + symbol_len L p) r w end.

(** What the run of a cutter leaves as it is. *)
Record firm (L L' : lattice) : Prop := {
  fm_text : text L' = text L;
  fm_implicit : implicit L' = implicit L;
  fm_edges : forall e ed, nth_error (edges L) e = Some ed -> exists ed', nth_error (edges L') e = Some ed' /\ extends ed ed'
}.
Lemma firm_refl L : firm L L.
Proof. split; [reflexivity|reflexivity|]. intros e ed He. exists ed. split; [assumption|apply extends_refl]. Qed.
Lemma firm_trans L1 L2 L3 : firm L1 L2 -> firm L2 L3 -> firm L1 L3.
Proof.
  intros A B. split.
  - rewrite (fm_text _ _ B). apply A.
  - rewrite (fm_implicit _ _ B). apply A.
  - intros e ed He. apply (fm_edges _ _ A) in He as [e2 [H2 X2]]. apply (fm_edges _ _ B) in H2 as [e3 [H3 X3]]. eauto using extends_trans.
Qed.
Lemma core_firm L L' : core L L' -> firm L L'.
Proof. intros C. split; [apply C|apply C|]. rewrite (c_edges _ _ C). intros e ed He. exists ed. split; [assumption|apply extends_refl]. Qed.
Lemma firm_len L L' p : firm L L' -> symbol_len L' p = symbol_len L p.
Proof. intros F. unfold symbol_len. now rewrite (fm_text _ _ F). Qed.
Lemma firm_symbol_edge L L' d p : firm L L' -> symbol_edge L d p -> symbol_edge L' d p.
Proof.
  intros F [E1 [E2 [E3 E4]]]. unfold symbol_edge. rewrite (firm_len _ _ _ F). destruct d as [q|e].
  - cbn in *. rewrite (firm_len _ _ _ F), (fm_implicit _ _ F). auto.
  - cbn [is_edge edge_tags source target] in *. destruct (nth_error (edges L) e) as [ed|] eqn:Ee; [|discriminate].
    destruct (fm_edges _ _ F e ed Ee) as [ed' [E' X]]. rewrite E', (x_from _ _ X), (x_to _ _ X).
    split; [apply nth_error_Some; congruence|]. split; [now apply (x_tags _ _ X)|]. auto.
Qed.
Lemma firm_symbol_run L L' ds : firm L L' -> forall p w, symbol_run L p ds w -> symbol_run L' p ds w.
Proof.
  intros F. induction ds as [|d ds IH]; intros p w; cbn; [auto|]. intros [H K]. split; [now apply (firm_symbol_edge L)|].
  rewrite (firm_len _ _ _ F). auto.
Qed.
Lemma symbol_run_le L ds : forall p w, symbol_run L p ds w -> p + length ds <= w.
Proof. induction ds as [|d ds IH]; intros p w; cbn; [intros ->; lia|]. intros [_ H]. apply IH in H. pose proof (symbol_len_pos L p). lia. Qed.
Lemma symbol_run_app L ds : forall es p w, symbol_run L p (ds ++ es) w <-> exists q, symbol_run L p ds q /\ symbol_run L q es w.
Proof.
  induction ds as [|d ds IH]; intros es p w; cbn [app symbol_run].
  - split; [eauto|]. now intros [q [-> H]].
  - rewrite IH. split.
    + intros [H [q [H1 H2]]]. eauto.
    + intros [q [[H1 H2] H3]]. eauto.
Qed.
Lemma symbol_run_chain L ds : forall p w, symbol_run L p ds w -> chain L ds.
Proof.
  induction ds as [|d ds IH]; intros p w; cbn; [auto|]. intros [[_ [_ [_ Ht]]] H]. split; [|eapply IH, H].
  destruct ds as [|x ds]; [exact I|]. destruct H as [[_ [_ [Hs _]]] _]. congruence.
Qed.
Lemma symbol_run_edges L ds : forall p w, symbol_run L p ds w -> forall d, In d ds -> is_edge L d /\ N.testbit (edge_tags L d) 0 = true.
Proof.
  induction ds as [|x ds IH]; intros p w; cbn; [tauto|]. intros [[H1 [H2 _]] H] d [<-|Hd]; [auto|]. eapply IH; eassumption.
Qed.
(** The ends are between characters, and the text has a length. *)
Lemma symbol_run_place L ds : good L -> tidy L -> forall p w, boundary (text L) p -> symbol_run L p ds w -> boundary (text L) w.
Proof.
  intros G T. induction ds as [|d ds IH]; intros p w Hb; cbn; [now intros <-|]. intros [[E1 [E2 [E3 E4]]] H].
  apply (IH _ w) in H; [assumption|]. now destruct (edge_place L d _ _ G T E1 E3 E4).
Qed.
Lemma symbol_text L d p : good L -> tidy L -> symbol_edge L d p ->
  p + symbol_len L p <= length (text L) /\ edge_text L d = Ok (sub (text L) p (symbol_len L p)) /\ length (sub (text L) p (symbol_len L p)) = symbol_len L p.
Proof.
  intros G T [E1 [E2 [E3 E4]]]. destruct (edge_place L d _ _ G T E1 E3 E4) as [_ B]. apply boundary_wf in B as [_ B]. split; [assumption|].
  split; [|unfold sub; rewrite firstn_length, skipn_length; lia]. unfold edge_text. rewrite E3, E4.
  assert (Ln : edge_length L d = Ok (symbol_len L p)).
  { unfold edge_length. rewrite E3, E4. destruct d as [q|e]; [cbn in E3; now injection E3 as ->|]. f_equal. lia. }
  rewrite Ln. destruct (Nat.leb_spec p (length (text L))); [reflexivity|lia].
Qed.
Lemma sub_join (T : list Z) p a b : sub T p a ++ sub T (p + a) b = sub T p (a + b).
Proof.
  unfold sub. rewrite (Nat.add_comm p a), <- skipn_twice. rewrite <- (firstn_skipn a (firstn (a + b) (skipn p T))).
  rewrite firstn_firstn, Nat.min_l by lia. f_equal. rewrite skipn_firstn_comm. f_equal. lia.
Qed.
Lemma symbol_texts L ds : good L -> tidy L -> forall p w, symbol_run L p ds w -> edge_texts L ds = Ok (sub (text L) p (w - p)).
Proof.
  intros G T. induction ds as [|d ds IH]; intros p w H; [cbn in H; subst; now rewrite Nat.sub_diag|].
  pose proof (symbol_run_le _ _ _ _ H) as Hle. cbn [length] in Hle. cbn [symbol_run edge_texts] in *. destruct H as [H1 H2].
  pose proof (symbol_run_le _ _ _ _ H2). pose proof (symbol_len_pos L p).
  destruct (symbol_text _ _ _ G T H1) as [_ [-> _]]. rewrite (IH _ _ H2), sub_join. do 2 f_equal. lia.
Qed.
(** A run passes all places between characters. *)
Lemma symbol_run_split L ds : good L -> tidy L -> forall p w q, boundary (text L) p -> symbol_run L p ds w -> boundary (text L) q -> p <= q <= w ->
  exists ds1 ds2, ds = ds1 ++ ds2 /\ symbol_run L p ds1 q /\ symbol_run L q ds2 w.
Proof.
  intros G T. induction ds as [|d ds IH]; intros p w q Hp H Hq Hl.
  - cbn in H. subst. assert (q = w) as -> by lia. exists [], []. cbn. auto.
  - destruct (Nat.eq_dec p q) as [->|Hne]; [exists [], (d :: ds); cbn in *; auto|].
    cbn in H. destruct H as [H1 H2]. pose proof (next_boundary _ _ _ Hp Hq ltac:(lia)) as Hn. fold (symbol_len L p) in Hn.
    assert (Hb : boundary (text L) (p + symbol_len L p)) by (destruct H1 as [E1 [E2 [E3 E4]]]; now destruct (edge_place L d _ _ G T E1 E3 E4)).
    destruct (IH _ _ q Hb H2 Hq ltac:(lia)) as [ds1 [ds2 [-> [K1 K2]]]]. exists (d :: ds1), ds2. cbn. auto.
Qed.
Lemma symbol_run_ends L ds p w : symbol_run L p ds w -> ds <> [] ->
  (exists d r, ds = d :: r /\ source L d = Ok (Text p)) /\ (exists r d, ds = r ++ [d] /\ target L d = Ok (Text w)).
Proof.
  intros H Hn. split.
  - destruct ds as [|d r]; [congruence|]. cbn in H. exists d, r. split; [reflexivity|apply H].
  - destruct (exists_last Hn) as [r [d ->]]. apply symbol_run_app in H as [q [_ H]]. cbn in H. destruct H as [[_ [_ [_ H]]] <-]. exists r, d. auto.
Qed.

(** ** The symbol edges listed at a place *)
Definition listed (L : lattice) (p : nat) : list desc :=
  when (bit (implicit L) p) p ++
  match mask_index (masks L) symbol_mask with
  | Some ix => indexed n_out L (Text p) ix
  | None => map Explicit (filter (fun e => M_Tags.matches (edge_tags L (Explicit e)) symbol_mask) (graph_out L (Text p)))
  end.
Lemma mask_index_snoc ms m : mask_index ms m = None -> M_Tags.mask_eqb m m = true -> mask_index (ms ++ [m]) m = Some (length ms).
Proof.
  intros H E. induction ms as [|x ms IH]; cbn in *; [now rewrite E|]. destruct (M_Tags.mask_eqb x m); [discriminate|].
  destruct (mask_index ms m); [discriminate|]. now rewrite IH.
Qed.
Lemma mask_index_app ms ns m i : mask_index ms m = Some i -> mask_index (ms ++ ns) m = Some i.
Proof.
  revert i. induction ms as [|x ms IH]; intros i; cbn; [discriminate|]. destruct (M_Tags.mask_eqb x m); [auto|].
  destruct (mask_index ms m) as [j|]; [|discriminate]. now rewrite (IH j eq_refl).
Qed.
Lemma find_map {A} (f : A -> A) (g : A -> bool) l : (forall x, g (f x) = g x) -> find g (map f l) = option_map f (find g l).
Proof. intros H. induction l as [|x l IH]; cbn; [reflexivity|]. rewrite H. now destruct (g x). Qed.
Lemma index_listed L : good L -> exists L' ix, add_tag_mask_index symbol_mask L = (L', Ok ix) /\ mask_index (masks L') symbol_mask = Some ix /\
  implicit L' = implicit L /\ forall p, listed L' p = listed L p.
Proof.
  intros G. unfold add_tag_mask_index. destruct (mask_index (masks L) symbol_mask) as [ix|] eqn:Ei; [exists L, ix; auto|].
  eexists _, _. split; [reflexivity|]. cbn [masks set_masks implicit set_nodes]. pose proof (mask_index_snoc _ _ Ei eq_refl) as Ej. split; [assumption|]. split; [reflexivity|].
  intros p. unfold listed. cbn [masks set_masks set_nodes implicit]. rewrite Ei, Ej. f_equal. unfold indexed, find_node. cbn [nodes set_masks set_nodes].
  rewrite find_map by reflexivity. fold (find_node L (Text p)). destruct (find_node L (Text p)) as [n|] eqn:En; cbn [option_map n_out].
  - apply find_node_some in En as [Hn <-]. destruct (g_sizes _ G n Hn) as [Hs _]. rewrite app_nth2, Hs, Nat.sub_diag by lia. reflexivity.
  - apply find_node_none in En. now rewrite graph_out_foreign.
Qed.
Lemma out_edges_listed L p : good L -> p <= length (text L) -> exists L', out_edges (Text p) symbol_mask L = (L', Ok (listed L p)) /\
  mask_index (masks L') symbol_mask <> None /\ forall q, listed L' q = listed L q.
Proof.
  intros G Hp. destruct (index_listed L G) as [L1 [ix [E [Ei [Em K]]]]]. exists L1. unfold out_edges. cbn [valid]. apply Nat.leb_le in Hp. rewrite Hp. cbn [negb].
  change (M_Tags.any symbol_mask) with false. cbv iota. unfold bind. rewrite E. unfold ask. split; [|split; [congruence|assumption]].
  rewrite <- K. unfold listed. now rewrite Ei.
Qed.
Lemma find_app {A} (g : A -> bool) l m : find g (l ++ m) = match find g l with Some x => Some x | None => find g m end.
Proof. induction l as [|x l IH]; cbn; [reflexivity|]. now destruct (g x). Qed.
Lemma ensure_indexed v L w ix : indexed n_out (ensure_node v L) w ix = indexed n_out L w ix.
Proof.
  unfold ensure_node. destruct (find_node L v) eqn:E; [reflexivity|]. unfold indexed, find_node. cbn [nodes set_nodes]. rewrite find_app.
  destruct (find _ (nodes L)); [reflexivity|]. cbn [find n_name]. destruct (vertex_eqb v w); [|reflexivity]. cbn [n_out]. now rewrite nth_no_index.
Qed.
Lemma index_edge_indexed from to t e L w ix m : (forall n, In n (nodes L) -> length (n_out n) = length (masks L)) -> nth_error (masks L) ix = Some m -> M_Tags.matches t m = false ->
  indexed n_out (index_edge from to t e L) w ix = indexed n_out L w ix.
Proof.
  intros Hs Hm Ht. unfold indexed, find_node, index_edge. cbn [nodes set_nodes]. rewrite find_map by reflexivity.
  destruct (find _ (nodes L)) as [n|] eqn:En; [|reflexivity]. cbn [option_map n_out]. destruct (vertex_eqb (n_name n) from); [|reflexivity].
  rewrite (push_index_nth _ _ _ _ _ m); [now rewrite Ht| |assumption]. apply Hs. now apply find_some in En.
Qed.
Lemma mask_eqb_matches L m t : good L -> In m (masks L) -> M_Tags.mask_eqb m symbol_mask = true -> M_Tags.matches t m = N.testbit t 0.
Proof.
  intros G Hm E. rewrite <- symbol_matches. now apply (P_Tags.C09_mask_equal m symbol_mask (g_masks _ G m Hm) symbol_made).
Qed.
Definition keeps (L L' : lattice) : Prop := forall p, listed L' p = listed L p.
(** With the index there, a search for symbol edges changes nothing. *)
Lemma index_same L ix : mask_index (masks L) symbol_mask = Some ix -> add_tag_mask_index symbol_mask L = (L, Ok ix).
Proof. intros H. unfold add_tag_mask_index. now rewrite H. Qed.
Lemma packed_same L ix p L' r : mask_index (masks L) symbol_mask = Some ix -> packed_edge p L = (L', r) -> L' = L.
Proof.
  intros H. unfold packed_edge, first_out_edge, out_edges, bind. rewrite (index_same _ _ H). change (M_Tags.any symbol_mask) with false. cbv iota.
  destruct (_ <? _); [congruence|]. destruct (valid L (Text p)); cbn [negb]; [|congruence]. unfold ask.
  match goal with |- context [first ?l] => destruct l end; cbn [first]; unfold throw, ret; intros [= <- _]; reflexivity.
Qed.
Lemma search_same n : forall p e d L ix L' r, mask_index (masks L) symbol_mask = Some ix -> packed_search n p e d L = (L', r) -> L' = L.
Proof.
  induction n as [|n IH]; intros p e d L ix L' r H; cbn [packed_search]; [unfold ret; congruence|]. destruct (p <? e); [|unfold ret; congruence].
  unfold bind. destruct (packed_edge p L) as [L1 [x|x|]] eqn:E; pose proof (packed_same _ _ _ _ _ H E); subst L1; try congruence.
  destruct (desc_eqb x d); [unfold ret; congruence|]. eapply IH, H.
Qed.
Lemma refers_same L ix s d L' r : mask_index (masks L) symbol_mask = Some ix -> refers_to s d L = (L', r) -> L' = L.
Proof. intros H. unfold refers_to. destruct (links s); [eapply search_same, H|unfold ret; congruence]. Qed.
Lemma add_edge_listed L ix from to it tg s sc rule choice L' e : good L -> marks L -> ~ quoted it -> mask_index (masks L) symbol_mask = Some ix -> N.testbit (inherited L tg s) 0 = false ->
  add_edge from to it tg s sc rule choice L = (L', Ok (Explicit e)) -> masks L' = masks L /\ keeps L L'.
Proof.
  intros G M Hq H Ht. unfold add_edge. fold (inherited L tg s). set (t1 := inherited L tg s) in *.
  destruct (vertex_eqb from to); [discriminate|]. destruct (reversed from to); [discriminate|]. destruct (negb _); [discriminate|]. cbv zeta.
  set (L1 := set_vvc _ L). assert (H1 : mask_index (masks L1) symbol_mask = Some ix) by exact H.
  destruct (find _ _) as [d|] eqn:Ef.
  - unfold bind. destruct (refers_to s d L1) as [L2 [b|x|]] eqn:E; try discriminate. pose proof (refers_same _ _ _ _ _ _ H1 E). subst L2.
    destruct b; [discriminate|]. destruct d as [q|x].
    + exfalso. apply Hq. assert (M1 : marks L1) by now apply marks_insert. apply find_some in Ef as [Hd _].
      destruct (lookup key_eqb (vvc L1) (from, to, it)) as [l|] eqn:El; [|contradiction]. exact (M1 _ _ _ El Hd).
    + unfold change, ret. intros [= <- _]. split; [reflexivity|]. intros p. unfold listed. cbn [masks set_edges set_vvc implicit]. unfold L1. cbn [masks set_vvc implicit]. rewrite H. reflexivity.
  - unfold insert_edge, bind at 1, change.
    assert (Hs : M_Tags.coll_eqb t1 symbol_tag = false).
    { destruct (M_Tags.coll_eqb t1 symbol_tag) eqn:Et; [|reflexivity]. apply N.eqb_eq in Et. rewrite Et in Ht. discriminate. }
    unfold bind, update_visible, is_implicit_symbol. rewrite Hs. cbn [andb]. unfold ret.
    assert (G1 : good L1) by now apply insert_vvc_good.
    set (L2 := count_edge _ L1).
    assert (K : forall L3 d, insert_explicit from to it t1 s sc rule choice L2 = (L3, Ok d) -> masks L3 = masks L /\ keeps L L3).
    { intros L3 d [= <- _]. set (e0 := length _). set (L4 := ensure_node to (ensure_node from L2)).
      assert (Em : masks L4 = masks L) by (unfold L4, ensure_node; repeat destruct (find_node _ _); reflexivity).
      assert (Ei : implicit L4 = implicit L) by (unfold L4, ensure_node; repeat destruct (find_node _ _); reflexivity).
      set (L5 := set_edges _ L4). set (L6 := index_edge _ _ _ _ _).
      assert (En : forall L0, nodes (push_vvc (from, to, it) (Explicit e0) (hide_between from to L0)) = nodes L0 /\ masks (push_vvc (from, to, it) (Explicit e0) (hide_between from to L0)) = masks L0 /\
        implicit (push_vvc (from, to, it) (Explicit e0) (hide_between from to L0)) = implicit L0) by (intros L0; destruct from, to; repeat split; reflexivity).
      destruct (En L6) as [N1 [N2 N3]]. split; [rewrite N2; exact Em|]. intros p. unfold listed. rewrite N2, N3. change (masks L6) with (masks L4). change (implicit L6) with (implicit L4).
      rewrite Em, Ei, H. f_equal. unfold indexed, find_node. rewrite N1. fold (find_node L6 (Text p)). fold (indexed n_out L6 (Text p) ix). fold (find_node L (Text p)). fold (indexed n_out L (Text p) ix).
      destruct (mask_index_nth _ _ _ H) as [m [Hm Eq]]. unfold L6. rewrite (index_edge_indexed _ _ _ _ _ _ _ m).
      - change (indexed n_out L5 (Text p) ix) with (indexed n_out L4 (Text p) ix). unfold L4. rewrite !ensure_indexed. reflexivity.
      - change (masks L5) with (masks L4). change (nodes L5) with (nodes L4). rewrite Em. intros n Hn.
        assert (Hsz : forall v L0, (forall n, In n (nodes L0) -> length (n_out n) = length (masks L0)) -> forall n, In n (nodes (ensure_node v L0)) -> length (n_out n) = length (masks L0)).
        { intros v L0 K0 n0. unfold ensure_node. destruct (find_node L0 v); [apply K0|]. cbn [nodes set_nodes]. rewrite in_app_iff. intros [|[<-|[]]]; [now apply K0|]. cbn. unfold no_index. apply repeat_length. }
        pose proof (Hsz to (ensure_node from L2)) as Z1. pose proof (Hsz from L2) as Z2.
        assert (Ef2 : masks (ensure_node from L2) = masks L) by (unfold ensure_node; destruct (find_node _ _); reflexivity). rewrite Ef2 in Z1.
        apply Z1; [|exact Hn]. apply Z2. intros n0 Hn0. exact (proj1 (g_sizes _ G n0 Hn0)).
      - change (masks L5) with (masks L4). now rewrite Em.
      - rewrite (mask_eqb_matches L m); [assumption|assumption|eapply nth_error_In, Hm|assumption]. }
    destruct from, to; apply K.
Qed.

(** ** Calls of a program *)
Lemma symbol_query L L' (o : op) {A} (m : act A) (a : A) : query m -> exec o = drop m -> plain_op o -> symbol_program L -> allowed L o -> tidy_op L o -> m L = (L', Ok a) ->
  symbol_program L' /\ core L L'.
Proof.
  intros Q Eo Hp HL Ha Ho E. destruct (symbol_marked _ HL) as [G [T M]]. split.
  - apply (SP_call L L' o (Ok tt)); try assumption; [|discriminate]. rewrite Eo. unfold drop, bind. now rewrite E.
  - destruct (Q _ _ _ G E) as [_ C]; [discriminate|assumption].
Qed.
Lemma symbol_listed L p L' l : good L -> marked L -> out_edges (Text p) symbol_mask L = (L', Ok l) -> forall d, In d l -> symbol_edge L d p.
Proof.
  intros G M E d Hd. destruct (symbol_edges _ _ _ _ _ G (mk_spells _ M) E) as [K _]. destruct (K d Hd) as [K1 [K2 K3]]. split; [assumption|]. split; [|auto].
  destruct (out_selection _ _ _ _ _ G symbol_made E) as [all [A S]]. apply (s_sound _ _ _ _ S) in Hd. now rewrite symbol_matches in Hd.
Qed.
Definition settled (L L' : lattice) : Prop := symbol_program L' /\ core L L' /\ visible L' = visible L /\ keeps L L'.
Lemma settled_refl L : symbol_program L -> settled L L.
Proof. intros H. split; [assumption|]. split; [apply core_refl|]. split; [reflexivity|]. intros p. reflexivity. Qed.
Lemma settled_trans L1 L2 L3 : settled L1 L2 -> settled L2 L3 -> settled L1 L3.
Proof.
  intros [A1 [A2 [A3 A4]]] [B1 [B2 [B3 B4]]]. split; [assumption|]. split; [eapply core_trans; eassumption|]. split; [congruence|].
  intros p. now rewrite (B4 p).
Qed.
Lemma settled_index L L' : settled L L' -> mask_index (masks L) symbol_mask <> None -> mask_index (masks L') symbol_mask <> None.
Proof.
  intros [_ [C _]] H. destruct (c_masks _ _ C) as [ms ->]. destruct (mask_index (masks L) symbol_mask) as [i|] eqn:E; [|congruence].
  now rewrite (mask_index_app _ _ _ _ E).
Qed.
(** The symbol edges lead from [p] to [w], where there is none. *)
Inductive reach (L : lattice) : nat -> nat -> Prop :=
  | R_here p : listed L p = [] -> reach L p p
  | R_on p w : listed L p <> [] -> reach L (p + symbol_len L p) w -> reach L p w.
Lemma reach_same L L' p w : keeps L L' -> text L' = text L -> reach L p w -> reach L' p w.
Proof.
  intros K E. induction 1 as [p H|p w H _ IH]; [apply R_here; now rewrite (K p)|]. apply R_on; [now rewrite (K p)|].
  unfold symbol_len. rewrite E. exact IH.
Qed.
(** The path over symbol edges ends where no symbol edge is listed. *)
Lemma symbol_path n : forall p b L, symbol_program L -> boundary (text L) p -> length (text L) - p < n ->
  exists L' (us : list usage) w, path_from n (Text p) symbol_mask b L = (L', Ok (fold_left (build_add L) us b, Text w)) /\
    settled L L' /\ symbol_run L p (map fst us) w /\ reach L p w /\ mask_index (masks L') symbol_mask <> None.
Proof.
  induction n as [|n IH]; intros p b L HL Hb Hn; [lia|]. destruct (symbol_marked _ HL) as [G [T M]].
  assert (Hle : p <= length (text L)) by now apply boundary_wf in Hb.
  destruct (out_edges_listed L p G Hle) as [L1 [E [Hx K1]]]. pose proof (symbol_listed _ _ _ _ G M E) as K.
  destruct (symbol_query L L1 (OutEdges (Text p) symbol_mask) (out_edges (Text p) symbol_mask) _ (out_edges_query _ _ symbol_made) eq_refl I HL symbol_made Hb E) as [HL1 C1].
  pose proof (out_visible _ _ _ _ _ E) as V1. assert (S1 : settled L L1) by exact (conj HL1 (conj C1 (conj V1 K1))).
  cbn [path_from]. unfold bind at 1. rewrite E. destruct (listed L p) as [|d l] eqn:El.
  - exists L1, [], p. split; [reflexivity|]. split; [assumption|]. split; [reflexivity|]. split; [now apply R_here|assumption].
  - cbv zeta. set (best := last l d). pose proof (K best (last_in l d)) as Kb. destruct Kb as [D1 [D2 [D3 D4]]].
    destruct (edge_place L best _ _ G T D1 D3 D4) as [_ Hb2]. cbn in Hb2.
    assert (Hle2 : p + symbol_len L p <= length (text L)) by now apply boundary_wf in Hb2. pose proof (symbol_len_pos L p).
    unfold bind at 1, ask at 1. unfold bind at 1, ask at 1. rewrite (core_target _ _ _ C1), D4.
    destruct (IH (p + symbol_len L p) (build_add L1 b (best, M_Items.ZNull)) L1 HL1) as [L' [us [w [E' [S' [R [W Z]]]]]]].
    + rewrite (c_text _ _ C1). exact Hb2.
    + rewrite (c_text _ _ C1). lia.
    + exists L', ((best, M_Items.ZNull) :: us), w. rewrite E', (fold_add_core _ _ _ C1 V1), (build_add_core _ _ _ _ C1 V1).
      split; [reflexivity|]. split; [eapply settled_trans; eassumption|].
      assert (W' : reach L p w).
      { apply R_on; [congruence|]. apply (reach_same L1); [intros q; now rewrite (K1 q)|now rewrite (c_text _ _ C1)|assumption]. }
      split; [|split; assumption]. cbn. split; [repeat split; assumption|].
      clear -R C1. revert R. generalize (p + symbol_len L p). induction (map fst us) as [|x xs IHx]; intros q; cbn; [auto|]. intros [[X1 [X2 [X3 X4]]] Y].
      rewrite (core_symbol_len _ _ _ C1) in *. split; [|now apply IHx]. unfold symbol_edge.
      rewrite (core_source _ _ _ C1) in X3. rewrite (core_target _ _ _ C1) in X4. rewrite (core_edge_tags _ _ _ C1) in X2. apply (core_is_edge _ _ _ C1) in X1. auto.
Qed.

(** ** Cursors *)
(** The edges that a cursor will give. *)
Definition cursor_at (L : lattice) (c : cursor) (ds : list desc) : Prop :=
  match c with
  | AtLinks us => map fst us = ds
  | AtText si e => exists ps, ds = map Implicit ps /\ run L si ps e /\ Forall (fun p => bit (implicit L) p = true) ps
  end.
Lemma run_firm L L' ps : firm L L' -> forall p e, run L p ps e -> run L' p ps e.
Proof.
  intros F. induction ps as [|x ps IH]; intros p e; cbn; [auto|]. intros [-> H]. split; [reflexivity|]. rewrite (firm_len _ _ _ F). now apply IH.
Qed.
Lemma cursor_firm L L' c ds : firm L L' -> cursor_at L c ds -> cursor_at L' c ds.
Proof.
  intros F. destruct c as [us|si e]; cbn; [auto|]. intros [ps [-> [R B]]]. exists ps. split; [reflexivity|]. split; [now apply (run_firm L)|].
  now rewrite (fm_implicit _ _ F).
Qed.
Lemma cursor_of_build L (us : list usage) : chain L (map fst us) -> (forall u, In u us -> is_edge L (fst u)) -> us <> [] ->
  cursor_at L (cursor_of (build_all L us)) (map fst us).
Proof.
  intros Hc He Hn. destruct (build_all_form L us (or_introl Hc)) as [->|[ps [b [e [-> [E1 [R [Hp Hh]]]]]]]].
  - unfold cursor_of. cbn [links]. destruct us; [congruence|reflexivity].
  - cbn. exists ps. split; [assumption|]. split; [assumption|]. now apply (implicit_bits L us).
Qed.
Lemma packed_edge_settled L p : symbol_program L -> bit (implicit L) p = true -> exists L', packed_edge p L = (L', Ok (Implicit p)) /\ settled L L'.
Proof.
  intros HL Hb. destruct (symbol_marked _ HL) as [G [T M]]. destruct (packed_edge_implicit L p G Hb) as [L1 [E [_ C]]]. exists L1. split; [assumption|].
  unfold packed_edge in E. destruct (length (text L) <? p) eqn:El; [discriminate|].
  destruct (symbol_query L L1 (FirstOutEdge (Text p) symbol_mask) _ _ (first_out_query _ _ symbol_made) eq_refl I HL symbol_made (t_bits _ T p Hb) E) as [H1 H2].
  apply Nat.ltb_ge in El. destruct (out_edges_listed L p G El) as [L2 [E2 [_ K2]]].
  split; [assumption|]. split; [assumption|]. unfold first_out_edge, bind in E. rewrite E2 in E.
  apply out_visible in E2. destruct (listed L p); [discriminate|]. injection E as <- _. split; assumption.
Qed.
Lemma next_edge_spec L c d ds : symbol_program L -> cursor_at L c (d :: ds) ->
  exists L' c', next_edge c L = (L', Ok (Some (d, c'))) /\ settled L L' /\ cursor_at L' c' ds.
Proof.
  intros HL Hc. destruct c as [us|si e]; cbn in Hc.
  - destruct us as [|u us]; [discriminate|]. injection Hc as <- <-. exists L, (AtLinks us). split; [reflexivity|]. split; [now apply settled_refl|reflexivity].
  - destruct Hc as [ps [E [R B]]]. destruct ps as [|p ps]; [discriminate|]. injection E as -> ->. cbn in R. destruct R as [-> R].
    inversion B as [|? ? B1 B2]; subst. cbn [next_edge]. pose proof (run_length _ _ _ _ R). pose proof (symbol_len_pos L si).
    destruct (Nat.ltb_spec si e) as [_|]; [|lia]. destruct (packed_edge_settled L si HL B1) as [L1 [E1 S1]]. unfold bind. rewrite E1.
    exists L1, (AtText (si + symbol_len L si) e). split; [reflexivity|]. split; [assumption|]. destruct S1 as [_ [C _]]. cbn. exists ps. split; [reflexivity|].
    split; [now apply (run_core L)|]. now rewrite (c_implicit _ _ C).
Qed.
Lemma settled_firm L L' : settled L L' -> firm L L'.
Proof. intros [_ [C _]]. now apply core_firm. Qed.
(** The edges over the next bytes. *)
Lemma take_length_spec ds : forall n c gathered len b L es p q, symbol_program L -> cursor_at L c (ds ++ es) -> symbol_run L p ds q ->
  len = gathered + (q - p) -> length ds < n ->
  exists L' c', take_length n c gathered len b L = (L', Ok (fold_left (build_add L) (map (fun d => (d, M_Items.ZNull)) ds) b, c')) /\
    settled L L' /\ cursor_at L' c' es.
Proof.
  induction ds as [|d ds IH]; intros n c gathered len b L es p q HL Hc R Hlen Hn; (destruct n as [|n]; [lia|]); cbn [take_length].
  - cbn in R. subst. rewrite Nat.sub_diag, Nat.add_0_r, Nat.ltb_irrefl. exists L, c. split; [reflexivity|]. split; [now apply settled_refl|assumption].
  - cbn in R. destruct R as [R1 R2]. pose proof (symbol_run_le _ _ _ _ R2). pose proof (symbol_len_pos L p).
    destruct (Nat.ltb_spec gathered len) as [_|]; [|lia]. destruct (symbol_marked _ HL) as [G [T M]].
    destruct (next_edge_spec L c d (ds ++ es) HL Hc) as [L1 [c1 [E1 [S1 K1]]]]. unfold bind at 1. rewrite E1.
    pose proof (settled_firm _ _ S1) as F1. pose proof S1 as [HL1 [C1 [V1 _]]].
    unfold bind at 1, ask at 1. unfold bind at 1, ask at 1. rewrite (core_edge_text _ _ _ C1). destruct (symbol_text _ _ _ G T R1) as [_ [-> Hl]].
    destruct (IH n c1 (gathered + length (sub (text L) p (symbol_len L p))) len (build_add L1 b (d, M_Items.ZNull)) L1 es (p + symbol_len L p) q HL1 K1) as [L2 [c2 [E2 [S2 K2]]]].
    + now apply (firm_symbol_run L).
    + rewrite Hl. lia.
    + cbn in Hn. lia.
    + exists L2, c2. cbn [map fold_left]. rewrite E2, (fold_add_core _ _ _ C1 V1), (build_add_core _ _ _ _ C1 V1). split; [reflexivity|]. split; [|assumption].
      eapply settled_trans; eassumption.
Qed.
Definition plain (ds : list desc) : list usage := map (fun d => (d, M_Items.ZNull)) ds.
Lemma plain_fst ds : map fst (plain ds) = ds.
Proof. unfold plain. rewrite map_map. apply map_id. Qed.
Lemma cut_sequence_spec L c ds es p q : symbol_program L -> cursor_at L c (ds ++ es) -> symbol_run L p ds q ->
  exists L' c', cut_sequence c (q - p) L = (L', Ok (build_all L' (plain ds), c')) /\ settled L L' /\ cursor_at L' c' es.
Proof.
  intros HL Hc R. pose proof (symbol_run_le _ _ _ _ R).
  destruct (take_length_spec ds (S (q - p)) c 0 (q - p) new_builder L es p q HL Hc R) as [L1 [c1 [E [S K]]]]; [lia|lia|].
  exists L1, c1. unfold cut_sequence, bind. rewrite E. cbn [fst snd ret]. split; [|auto]. unfold ret, build_all. destruct S as [_ [C [V _]]]. now rewrite (fold_add_core _ _ _ C V).
Qed.

(** ** The ends of a sequence *)
Lemma first_vertex_spec L ds p q : symbol_program L -> symbol_run L p ds q -> ds <> [] -> cursor_at L (cursor_of (build_all L (plain ds))) ds ->
  exists L', first_sequence_vertex (build_all L (plain ds)) L = (L', Ok (Text p)) /\ settled L L'.
Proof.
  intros HL R Hn Hc. destruct (symbol_run_ends _ _ _ _ R Hn) as [[d [r [-> Es]]] _]. unfold first_sequence_vertex, first_edge.
  destruct (build_all L (plain (d :: r))) as [[|u us] sb se] eqn:Eb; cbn [links s_begin] in *.
  - cbn in Hc. destruct Hc as [[|x ps] [E [Rn B]]]; [discriminate|]. injection E as -> ->. cbn in Rn. destruct Rn as [-> _]. inversion B; subst.
    destruct (packed_edge_settled L sb HL) as [L1 [E1 S1]]; [assumption|]. exists L1. unfold bind. rewrite E1. unfold ask. cbn [source] in *. split; [|assumption]. now rewrite Es.
  - cbn in Hc. injection Hc as Hc _. exists L. unfold bind, ret, ask. rewrite Hc. split; [|now apply settled_refl]. now rewrite Es.
Qed.
Lemma first_in_visible v m L L' r : first_in_edge v m L = (L', r) -> visible L' = visible L.
Proof.
  unfold first_in_edge, bind, in_edges. destruct (negb (valid L v)); [intros [= <- _]; reflexivity|]. destruct (M_Tags.any m).
  - unfold ask. destruct (all_in_edges L v) as [[|x l]|e|]; intros [= <- _]; reflexivity.
  - unfold bind, add_tag_mask_index. destruct (mask_index (masks L) m); unfold ask.
    + match goal with |- context [match ?x with Ok _ => _ | Throw _ => _ | Undefined => _ end] => destruct x as [[|d l]|e|] end; intros [= <- _]; reflexivity.
    + cbn [fst snd]. match goal with |- context [match ?x with Ok _ => first _ _ | Throw _ => _ | Undefined => _ end] => destruct x as [[|d l]|e|] end; intros [= <- _]; reflexivity.
Qed.
Lemma first_in_keeps v L L' r : good L -> first_in_edge v symbol_mask L = (L', r) -> keeps L L'.
Proof.
  intros G. destruct (index_listed L G) as [L1 [ix [E [_ [_ K]]]]]. unfold first_in_edge, bind, in_edges. change (M_Tags.any symbol_mask) with false. cbv iota.
  destruct (negb (valid L v)); [intros [= <- _] p; reflexivity|]. unfold bind. rewrite E. unfold ask.
  match goal with |- context [match ?x with Ok _ => first _ _ | Throw _ => _ | Undefined => _ end] => destruct x as [[|d l]|e|] end; intros [= <- _]; exact K.
Qed.
Lemma last_vertex_spec L ds p q : symbol_program L -> symbol_run L p ds q -> ds <> [] -> cursor_at L (cursor_of (build_all L (plain ds))) ds ->
  exists L', last_sequence_vertex (build_all L (plain ds)) L = (L', Ok (Text q)) /\ settled L L'.
Proof.
  intros HL R Hn Hc. destruct (symbol_marked _ HL) as [G [T M]]. destruct (symbol_run_ends _ _ _ _ R Hn) as [_ [r [d [-> Et]]]]. unfold last_sequence_vertex, last_edge.
  destruct (build_all L (plain (r ++ [d]))) as [[|u us] sb se] eqn:Eb; cbn [links s_end] in *.
  - cbn in Hc. destruct Hc as [ps [E [Rn B]]]. destruct (list_eq_dec Nat.eq_dec ps []) as [->|Hps]; [destruct r; discriminate|].
    destruct (exists_last Hps) as [qs [x ->]]. rewrite map_app in E. apply app_inj_tail in E as [_ ->]. apply run_snoc in Rn as [_ <-].
    apply Forall_app in B as [_ B]. inversion B as [|? ? Bx _]; subst. pose proof (g_bits _ G x Bx).
    destruct (first_in_implicit L x G T Bx) as [L1 E1]. exists L1. unfold bind. rewrite E1. unfold ask. cbn [target] in *. injection Et as <-.
    assert (Hb : boundary (text L) (x + symbol_len L x)).
    { destruct (char_at _ _ (t_bits _ T x Bx)) as [cp [rest [_ [_ [El [Hb _]]]]]]; [pose proof (symbol_len_pos L x); lia|]. unfold symbol_len. now rewrite El. }
    destruct (symbol_query L L1 (FirstInEdge (Text (x + symbol_len L x)) symbol_mask) _ _ (first_in_query _ _ symbol_made) eq_refl I HL symbol_made Hb E1) as [H1 H2].
    split; [|split; [assumption|split; [assumption|split; [now apply first_in_visible in E1|now apply (first_in_keeps _ _ _ _ G E1)]]]].
    assert (El : (length (text L) <? x + symbol_len L x) = false) by (apply Nat.ltb_ge; lia). rewrite El. cbn [target]. now rewrite (core_symbol_len _ _ _ H2).
  - cbn in Hc. exists L. unfold bind, ret, ask. assert (K : fst (last us u) = d).
    { assert (K : last (map fst (u :: us)) (fst u) = d) by (cbn [map]; rewrite Hc; apply last_last). rewrite <- K. clear.
      transitivity (last (map fst us) (fst u)); [|now destruct us]. induction us as [|x us IH]; [reflexivity|]. destruct us; [reflexivity|exact IH]. }
    rewrite K. split; [|now apply settled_refl]. now rewrite Et.
Qed.

(** ** The edge of an item *)
Lemma packed_search_run ps : forall n p e d L, good L -> run L p ps e -> Forall (fun q => bit (implicit L) q = true) ps -> length ps <= n -> ~ In d (map Implicit ps) ->
  exists L', packed_search n p e d L = (L', Ok false).
Proof.
  induction ps as [|q ps IH]; intros n p e d L G R Hb Hn Hd; cbn [run] in R.
  - subst e. exists L. destruct n; [reflexivity|]. cbn [packed_search]. rewrite Nat.ltb_irrefl. reflexivity.
  - destruct R as [-> R]. inversion Hb as [|? ? Hp Hb']; subst. destruct n as [|n]; [cbn in Hn; lia|]. cbn [packed_search].
    pose proof (run_length _ _ _ _ R). pose proof (symbol_len_pos L p).
    destruct (Nat.ltb_spec p e) as [_|]; [|lia]. unfold bind at 1.
    destruct (packed_edge_implicit L p G Hp) as [L1 [-> [G1 C1]]]. destruct (desc_eqb (Implicit p) d) eqn:Ed.
    + apply desc_eqb_spec in Ed. subst d. destruct Hd. now left.
    + apply IH; [assumption|now apply (run_core L)|now rewrite (c_implicit _ _ C1)|cbn in Hn; lia|]. intros K. apply Hd. now right.
Qed.
Lemma refers_not L s ds d : good L -> cursor_at L (cursor_of s) ds -> ~ In d ds -> exists L', refers_to s d L = (L', Ok false).
Proof.
  intros G Hc Hd. unfold refers_to, cursor_of in *. destruct (links s) as [|u us].
  - cbn in Hc. destruct Hc as [ps [-> [R B]]]. pose proof (run_length _ _ _ _ R). apply (packed_search_run ps); try assumption. lia.
  - cbn [cursor_at] in Hc. exists L. unfold ret. do 2 f_equal. destruct (existsb _ _) eqn:E; [|reflexivity]. apply existsb_exists in E as [x [H1 H2]].
    apply desc_eqb_spec in H2. destruct Hd. rewrite <- Hc, <- H2. now apply in_map.
Qed.
Definition item_edge (L : lattice) (a b : nat) (it : item) (tg : collection) (ds : list desc) (e : nat) : Prop :=
  exists ed t s, nth_error (edges L) e = Some ed /\ e_from ed = Text a /\ e_to ed = Text b /\ M_Items.item_eqb (e_item ed) it = true /\ included tg (e_tags ed) /\
    In (Partition t s 0%Z (-1) (-1)) (e_partitions ed) /\ included tg t /\ cursor_at L (cursor_of s) ds.
Lemma item_edge_firm L L' a b it tg ds e : firm L L' -> item_edge L a b it tg ds e -> item_edge L' a b it tg ds e.
Proof.
  intros F [ed [t [s [H1 [H2 [H3 [H4 [H5 [H6 [H7 H8]]]]]]]]]]. destruct (fm_edges _ _ F e ed H1) as [ed' [K X]]. exists ed', t, s.
  rewrite (x_from _ _ X), (x_to _ _ X), (x_item _ _ X). split; [assumption|]. do 3 (split; [assumption|]).
  split; [intros i Hi; apply (x_tags _ _ X); auto|]. split; [|split; [assumption|now apply (cursor_firm L)]].
  destruct (x_partitions _ _ X) as [ps ->]. apply in_app_iff. now left.
Qed.
Lemma add_token L p q it tg ds s : symbol_program L -> mask_index (masks L) symbol_mask <> None -> known_tags L tg -> N.testbit tg 0 = false -> ~ quoted it ->
  boundary (text L) p -> boundary (text L) q -> p < q -> symbol_run L p ds q -> cursor_at L (cursor_of s) ds ->
  exists L' e, add_edge (Text p) (Text q) it tg s 0%Z (-1) (-1) L = (L', Ok (Explicit e)) /\ symbol_program L' /\ (mask_index (masks L') symbol_mask <> None /\ keeps L L') /\ firm L L' /\ tags L' = tags L /\
    item_edge L' p q it tg ds e /\ forall x, x <> e -> nth_error (edges L') x = nth_error (edges L) x.
Proof.
  intros HL Hix Hk Ht Hq Bp Bq Hlt R Hc. destruct (symbol_marked _ HL) as [G [T M]].
  assert (Hi : N.testbit (inherited L tg s) 0 = false) by now rewrite inherited_no_symbol.
  assert (Ok1 : exists L' e, add_edge (Text p) (Text q) it tg s 0%Z (-1) (-1) L = (L', Ok (Explicit e))).
  { unfold add_edge. fold (inherited L tg s). set (t1 := inherited L tg s) in *. cbn [vertex_eqb reversed valid].
    destruct (Nat.eqb_spec p q) as [|_]; [lia|]. destruct (Nat.ltb_spec q p) as [|_]; [lia|].
    apply boundary_wf in Bp as [_ Lp]. apply boundary_wf in Bq as [_ Lq]. apply Nat.leb_le in Lp, Lq. rewrite Lp, Lq. cbn [andb negb].
    assert (Hs : M_Tags.coll_eqb t1 symbol_tag = false).
    { destruct (M_Tags.coll_eqb t1 symbol_tag) eqn:Et; [|reflexivity]. apply N.eqb_eq in Et. rewrite Et in Hi. discriminate. }
    assert (Ins : forall L0, exists L' e, insert_edge (Text p) (Text q) it t1 s 0%Z (-1) (-1) L0 = (L', Ok (Explicit e))).
    { intros L0. unfold insert_edge, bind at 1. cbn [change]. unfold bind, update_visible, is_implicit_symbol. rewrite Hs. unfold ret. cbn [andb]. unfold insert_explicit. eauto. }
    set (L1 := set_vvc _ L). assert (G1 : good L1) by now apply insert_vvc_good. cbv zeta.
    assert (M1 : marks L1) by (apply marks_insert, M).
    destruct (lookup key_eqb (vvc L1) (Text p, Text q, it)) as [l|] eqn:El; [|cbn [find]; apply Ins].
    destruct (find _ l) as [d|] eqn:Ef; [|apply Ins]. apply find_some in Ef as [Hd _].
    destruct d as [x|e]; [destruct Hq; apply (M1 _ _ _ El Hd)|].
    destruct (refers_not L1 s ds (Explicit e) G1) as [L2 E2].
    - apply (cursor_firm L); [|assumption]. split; [reflexivity|reflexivity|]. intros y yd Hy. exists yd. split; [assumption|apply extends_refl].
    - intros Hin. destruct (symbol_run_edges _ _ _ _ R _ Hin) as [_ Hb]. destruct (g_vvc _ G1 _ _ _ El Hd) as [ed [He Hke]].
      apply key_eqb_spec in Hke as [_ [_ Hke]]. cbn [snd] in Hke. change (edges L1) with (edges L) in He. cbn [edge_tags] in Hb. rewrite He in Hb.
      apply Hq. apply (quoted_eq _ _ Hke). now apply (mk_items _ M e).
    - unfold bind. rewrite E2. cbn [change ret]. unfold ret. eauto. }
  destruct Ok1 as [L' [e E]]. exists L', e. split; [assumption|].
  destruct (add_edge_spec _ _ _ _ _ _ _ _ _ _ _ G (known_proper _ _ Hk) E) as [G' [_ [Et [Eg A]]]]; [discriminate|].
  assert (HL' : symbol_program L').
  { apply (SP_call L L' (AddEdge (Text p) (Text q) it tg s 0%Z (-1) (-1)) (Ok tt)); try assumption; [now split| |discriminate]. cbn [exec]. unfold drop, bind. now rewrite E. }
  split; [assumption|]. split.
  { destruct (mask_index (masks L) symbol_mask) as [ix|] eqn:Ex; [|congruence]. destruct (add_edge_listed _ _ _ _ _ _ _ _ _ _ _ _ G (mk_vvc _ M) Hq Ex Hi E) as [Em Kp].
    split; [congruence|assumption]. }
  assert (New : forall t2, included tg t2 -> e = length (edges L) -> edges L' = edges L ++ [Edge (Text p) (Text q) it t2 0%Z [Partition t2 s 0%Z (-1) (-1)]] -> implicit L' = implicit L ->
    firm L L' /\ tags L' = tags L /\ item_edge L' p q it tg ds e /\ forall x, x <> e -> nth_error (edges L') x = nth_error (edges L) x).
  { intros t2 I2 -> EE EI. assert (F : firm L L').
    { split; [assumption|assumption|]. intros x xd Hx. exists xd. split; [|apply extends_refl]. rewrite EE, nth_error_app1; [assumption|]. apply nth_error_Some. congruence. }
    split; [assumption|]. split; [assumption|]. split.
    - eexists _, t2, s. split; [rewrite EE, nth_error_app2, Nat.sub_diag by lia; reflexivity|]. cbn. do 2 (split; [reflexivity|]). split; [apply item_eqb_refl|].
      split; [assumption|]. split; [now left|]. split; [assumption|now apply (cursor_firm L)].
    - intros x Hx. rewrite EE. destruct (Nat.lt_ge_cases x (length (edges L))) as [|K]; [now apply nth_error_app1|].
      rewrite nth_error_app2 by lia. destruct (x - length (edges L)) as [|k] eqn:Ek; [lia|]. cbn. rewrite (proj2 (nth_error_None (edges L) x)) by lia. now destruct k. }
  inversion A as [| | | |e1 ed He Hk1 Hs EE EI Ee| |EE EI _ Ee|x l t' F1 F2 F3 F4 F5 F6 EE EI Ee]; subst.
  - apply key_eqb_spec in Hk1 as [K1 [K2 K3]]. cbn [fst snd] in K1, K2, K3.
    assert (F : firm L L').
    { split; [assumption|assumption|]. intros x xd Hx. rewrite EE, update_edge_nth. destruct (Nat.eqb_spec e x) as [<-|]; [|exists xd; split; [assumption|apply extends_refl]].
      rewrite Hx. cbn. eexists. split; [reflexivity|apply merge_extends]. }
    split; [assumption|]. split; [assumption|]. split.
    + exists (merge_into (inherited L tg s) s 0%Z (-1) (-1) ed). eexists _, s. split; [rewrite EE, update_edge_nth, Nat.eqb_refl, He; reflexivity|]. cbn [merge_into e_from e_to e_item e_partitions].
      do 3 (split; [assumption|]). split; [|split; [apply in_app_iff; right; left; reflexivity|split; [|now apply (cursor_firm L)]]].
      * intros i Hi2. rewrite L_Lattice.merge_tags. apply included_union_r. now apply inherited_included.
      * intros i Hi2. destruct (M_Tags.coll_eqb _ _); [now apply inherited_included|]. apply included_union_r. now apply inherited_included.
    + intros x Hx. rewrite EE, update_edge_nth. destruct (Nat.eqb_spec e x); [congruence|reflexivity].
  - apply (New (inherited L tg s)); try assumption; [apply inherited_included|reflexivity].
  - destruct Hq. apply (mk_vvc _ M _ _ _ F3 F4).
Qed.

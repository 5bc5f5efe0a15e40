(** The lattice: sequences of edges, paths, and the iteration over vertices. *)
From Coq Require Import ZArith List Bool Lia Permutation Sorted.
From Verif Require Import M_Utf8 S_Utf8 L_Utf8 M_Tags M_Items M_Cutter M_Lattice M_LatticeWalk P_Tags P_Cutter P_Utf8.
From Verif Require Import L_Lattice S_Lattice L_LatticeOps L_LatticeTidy P_Lattice.
Import ListNotations.
Local Open Scope nat_scope.

(** ** C41: sequences *)
(** Each edge begins where the one before ends. *)
Fixpoint chain (L : lattice) (ds : list desc) : Prop :=
  match ds with
  | d :: r => match r with e :: _ => target L d = source L e | [] => True end /\ chain L r
  | [] => True
  end.
Definition begins_at (L : lattice) (ds : list desc) (v : vertex) : Prop :=
  match ds with d :: _ => source L d = Ok v | [] => False end.
Definition without_roles (us : list usage) : list usage := map (fun u => (fst u, M_Items.ZNull)) us.

Fixpoint run (L : lattice) (p : nat) (ps : list nat) (e : nat) : Prop :=
  match ps with [] => p = e | q :: qs => q = p /\ run L (p + symbol_len L p) qs e end.
Lemma run_snoc L ps : forall p e q, run L p (ps ++ [q]) e <-> run L p ps q /\ q + symbol_len L q = e.
Proof.
  induction ps as [|x ps IH]; intros p e q; cbn.
  - split; [intros [<- E]; auto|intros [<- E]; auto].
  - rewrite IH. tauto.
Qed.
Lemma run_length L ps : forall p e, run L p ps e -> p + length ps <= e.
Proof.
  induction ps as [|x ps IH]; intros p e; cbn; [intros ->; lia|]. intros [-> H]. apply IH in H. pose proof (symbol_len_pos L p). lia.
Qed.
Lemma run_core L L' ps : core L L' -> forall p e, run L p ps e -> run L' p ps e.
Proof.
  intros C. induction ps as [|x ps IH]; intros p e; cbn; [auto|]. intros [-> H]. split; [reflexivity|]. apply IH.
  unfold symbol_len in *. now rewrite (c_text _ _ C).
Qed.
Definition live (L : lattice) (us : list (desc * zvalue)) (b : builder) : Prop :=
  exists ps, map fst us = map Implicit ps /\ run L (b_begin b) ps (b_end b) /\ ps <> [] /\
             Forall (fun p => edge_hidden L (Implicit p) = true) ps.
Lemma live_positive L us b : live L us b -> b_begin b < b_end b.
Proof.
  intros [ps [_ [H [Hn _]]]]. apply run_length in H. destruct ps; [congruence|cbn in H; lia].
Qed.
Lemma chain_app L ds : forall es, chain L (ds ++ es) -> chain L ds.
Proof.
  induction ds as [|d ds IH]; intros es; cbn; [auto|]. intros [H K]. split; [|now apply IH in K]. destruct ds; [exact I|exact H].
Qed.
Lemma chain_last L ds d e : chain L (ds ++ [d; e]) -> target L d = source L e.
Proof. induction ds as [|x ds IH]; cbn; [tauto|]. intros [_ H]. auto. Qed.
Lemma builder_spec L (us : list usage) : us <> [] -> chain L (map fst us) \/ ~ begins_at L (map fst us) (Text 0) ->
  let b := fold_left (build_add L) us new_builder in
  b_links b = us /\ (b_end b < b_begin b \/ live L us b).
Proof.
  induction us as [|u us IH] using rev_ind; [congruence|]. intros _ Hc. cbv zeta. rewrite fold_left_app. cbn [fold_left].
  set (b := fold_left (build_add L) us new_builder) in *.
  assert (Lk : b_links b = us).
  { destruct us as [|u0 us]; [reflexivity|]. apply IH; [discriminate|]. rewrite map_app in Hc.
    destruct Hc as [Hc|Hc]; [left; now apply chain_app in Hc|right; exact Hc]. }
  destruct u as [d role]. clearbody b. unfold build_add. rewrite Lk. cbn [fst].
  destruct d as [p|e]; [|cbn; split; [reflexivity|left; lia]].
  destruct ((b_begin b <=? b_end b) && edge_hidden L (Implicit p)) eqn:Eh; [|cbn; split; [reflexivity|left; lia]].
  apply andb_true_iff in Eh as [Hle Hh]. apply Nat.leb_le in Hle.
  destruct us as [|u0 us].
  - cbn [b_links b_begin b_end]. split; [reflexivity|]. right. exists [p]. cbn. repeat split; auto. discriminate.
  - assert (K : chain L (map fst (u0 :: us)) \/ ~ begins_at L (map fst (u0 :: us)) (Text 0)).
    { rewrite map_app in Hc. destruct Hc as [Hc|Hc]; [left; now apply chain_app in Hc|right; exact Hc]. }
    destruct (IH ltac:(discriminate) K) as [_ [D|Lv]]; [lia|]. pose proof (live_positive _ _ _ Lv) as Hpos.
    destruct Lv as [ps [E1 [E2 [E3 E4]]]].
    destruct (Nat.eqb_spec p (b_end b)) as [->|Hne]; cbn [b_links b_begin b_end]; (split; [reflexivity|]).
    + right. exists (ps ++ [b_end b]). rewrite (map_app fst (u0 :: us)), E1, map_app. split; [reflexivity|]. split; [now apply run_snoc|].
      split; [now destruct ps|]. apply Forall_app. auto.
    + left. destruct Hc as [Hc|Hc].
      * exfalso. rewrite (map_app fst (u0 :: us)), E1 in Hc. destruct (exists_last E3) as [qs [q ->]]. rewrite map_app in Hc. cbn [map app] in Hc.
        rewrite <- app_assoc in Hc. apply chain_last in Hc. cbn in Hc. injection Hc as Hc. apply run_snoc in E2 as [_ E2]. lia.
      * destruct ps as [|q ps]; [congruence|]. cbn in E1, E2. destruct E2 as [-> _]. injection E1 as E1 _.
        destruct (b_begin b) eqn:Eb; [|lia]. exfalso. apply Hc. cbn. rewrite E1. reflexivity.
Qed.
Lemma first_out_implicit L p : good L -> bit (implicit L) p = true ->
  exists L1, first_out_edge (Text p) symbol_mask L = (L1, Ok (Implicit p)) /\ good L1 /\ core L L1.
Proof.
  intros G Hb. pose proof (g_bits _ G p Hb) as Hl.
  assert (E : exists L1, first_out_edge (Text p) symbol_mask L = (L1, Ok (Implicit p))).
  { unfold first_out_edge, bind, out_edges. cbn [valid]. destruct (Nat.leb_spec p (length (text L))) as [_|]; [|lia]. cbn [negb].
    change (M_Tags.any symbol_mask) with false. cbv iota.
    destruct (add_tag_mask_index symbol_mask L) as [L1 [ix|x|]] eqn:E.
    - destruct (add_tag_mask_index_query symbol_mask symbol_mask_made _ _ _ G E) as [_ C]; [discriminate|].
      exists L1. unfold bind, ask. rewrite E, (c_implicit _ _ C), Hb. reflexivity.
    - unfold add_tag_mask_index in E. destruct (mask_index _ _); discriminate.
    - unfold add_tag_mask_index in E. destruct (mask_index _ _); discriminate. }
  destruct E as [L1 E]. exists L1. split; [exact E|]. apply (first_out_query (Text p) symbol_mask symbol_mask_made _ _ _ G E). discriminate.
Qed.
Lemma packed_edge_implicit L p : good L -> bit (implicit L) p = true ->
  exists L1, packed_edge p L = (L1, Ok (Implicit p)) /\ good L1 /\ core L L1.
Proof.
  intros G Hb. pose proof (g_bits _ G p Hb) as Hl. unfold packed_edge. destruct (Nat.ltb_spec (length (text L)) p) as [|_]; [lia|].
  now apply first_out_implicit.
Qed.
Lemma packed_run ps : forall n p e L, good L -> run L p ps e -> Forall (fun q => bit (implicit L) q = true) ps -> length ps <= n ->
  exists L', packed_edges n p e L = (L', Ok (map (fun q => (Implicit q, M_Items.ZNull)) ps)) /\ good L' /\ core L L'.
Proof.
  induction ps as [|q ps IH]; intros n p e L G R Hb Hn; cbn [run] in R.
  - subst e. exists L. split; [|split; [assumption|apply core_refl]]. destruct n; [reflexivity|]. cbn [packed_edges].
    rewrite Nat.ltb_irrefl. reflexivity.
  - destruct R as [-> R]. inversion Hb as [|? ? Hp Hb']; subst. destruct n as [|n]; [cbn in Hn; lia|]. cbn [packed_edges].
    pose proof (run_length _ _ _ _ R). pose proof (symbol_len_pos L p).
    destruct (Nat.ltb_spec p e) as [_|]; [|lia]. unfold bind at 1.
    destruct (packed_edge_implicit L p G Hp) as [L1 [-> [G1 C1]]].
    destruct (IH n (p + symbol_len L p) e L1 G1) as [L2 [E [G2 C2]]].
    + now apply (run_core L).
    + rewrite (c_implicit _ _ C1). assumption.
    + cbn in Hn. lia.
    + unfold bind. rewrite E. exists L2. split; [reflexivity|]. split; [assumption|now apply (core_trans L L1)].
Qed.
Lemma build_all_nil L : build_all L [] = Sequence [] 0 0.
Proof. reflexivity. Qed.
Lemma build_all_form L (us : list usage) : chain L (map fst us) \/ ~ begins_at L (map fst us) (Text 0) ->
  build_all L us = Sequence us 0 0 \/
  exists ps b e, build_all L us = Sequence [] b e /\ map fst us = map Implicit ps /\ run L b ps e /\ ps <> [] /\
                 Forall (fun p => edge_hidden L (Implicit p) = true) ps.
Proof.
  intros Hc. destruct us as [|u us]; [now left|]. destruct (builder_spec L (u :: us) ltac:(discriminate) Hc) as [Hl [D|Lv]].
  - left. unfold build_all, build. destruct (Nat.ltb_spec (b_begin (fold_left (build_add L) (u :: us) new_builder)) (b_end (fold_left (build_add L) (u :: us) new_builder))); [lia|].
    now rewrite Hl.
  - right. pose proof (live_positive _ _ _ Lv) as Hp. destruct Lv as [ps [E1 [E2 [E3 E4]]]]. unfold build_all, build.
    destruct (Nat.ltb_spec (b_begin (fold_left (build_add L) (u :: us) new_builder)) (b_end (fold_left (build_add L) (u :: us) new_builder))); [|lia].
    exists ps. do 2 eexists. split; [reflexivity|]. auto.
Qed.
Lemma implicit_bits L (us : list usage) ps : (forall u, In u us -> is_edge L (fst u)) -> map fst us = map Implicit ps ->
  Forall (fun p => bit (implicit L) p = true) ps.
Proof.
  intros H E. apply Forall_forall. intros p Hp. assert (K : In (Implicit p) (map fst us)) by (rewrite E; now apply in_map).
  apply in_map_iff in K as [u [Eu Hu]]. apply H in Hu. now rewrite Eu in Hu.
Qed.
(** A sequence reads back as the edges that were added, if these form a path or do not
    begin at the start of the text.  In the packed form the roles are lost. *)
Theorem C41_reads_back L (us : list usage) : lattice_of_program L -> (forall u, In u us -> is_edge L (fst u)) ->
  chain L (map fst us) \/ ~ begins_at L (map fst us) (Text 0) ->
  exists L' us', usages (build_all L us) L = (L', Ok us') /\ map fst us' = map fst us /\
    (us' = us \/ us' = without_roles us /\ Forall (fun u => edge_hidden L (fst u) = true) us).
Proof.
  intros HL He Hc. pose proof (program_good _ HL) as G. destruct (build_all_form L us Hc) as [->|[ps [b [e [-> [E1 [R [Hn Hh]]]]]]]].
  - destruct us as [|u us]; exists L; eexists; (split; [reflexivity|auto]).
  - unfold usages. cbn [links s_begin s_end]. pose proof (run_length _ _ _ _ R).
    destruct (packed_run ps (e - b) b e L G R) as [L' [E [G' C]]]; [eapply implicit_bits; eassumption|lia|].
    assert (W : map (fun q => (Implicit q, M_Items.ZNull)) ps = without_roles us).
    { unfold without_roles. rewrite <- (map_map fst (fun d => (d, M_Items.ZNull))), E1, map_map. reflexivity. }
    rewrite W in E. exists L', (without_roles us). split; [exact E|]. split.
    + unfold without_roles. rewrite map_map. reflexivity.
    + right. split; [reflexivity|]. apply Forall_forall. intros u Hu. rewrite Forall_forall in Hh.
      assert (K : In (fst u) (map Implicit ps)) by (rewrite <- E1; now apply in_map). apply in_map_iff in K as [p [<- Hp]]. auto.
Qed.
Print Assumptions C41_reads_back.
Lemma sub_split (T : list Z) p e x rest : skipn p T = x ++ rest -> p + length x <= e -> e <= length T ->
  sub T p (e - p) = x ++ sub T (p + length x) (e - (p + length x)).
Proof.
  intros E H1 H2. unfold sub.
  assert (Er : skipn (p + length x) T = rest) by (rewrite Nat.add_comm, <- skipn_twice, E, skipn_app, skipn_all, Nat.sub_diag; reflexivity).
  rewrite E, Er, firstn_app, firstn_all2 by lia. f_equal. f_equal. lia.
Qed.
Lemma run_end L ps : good L -> forall p e, run L p ps e -> Forall (fun q => bit (implicit L) q = true) ps -> ps <> [] ->
  p < e /\ e <= length (text L).
Proof.
  intros G. induction ps as [|q ps IH]; intros p e R Hb Hn; [congruence|]. cbn in R. destruct R as [-> R].
  inversion Hb as [|? ? Hp Hb']; subst. pose proof (g_bits _ G p Hp). pose proof (symbol_len_pos L p).
  destruct ps as [|x ps]; [cbn in R; lia|]. destruct (IH _ _ R Hb'); [discriminate|]. lia.
Qed.
Lemma run_head L p q ps e : good L -> tidy L -> run L p (q :: ps) e -> Forall (fun q => bit (implicit L) q = true) (q :: ps) ->
  exists cp, scalar cp /\ symbol_len L p = length (enc cp) /\ p + length (enc cp) <= e /\ e <= length (text L) /\
             sub (text L) p (e - p) = enc cp ++ sub (text L) (p + symbol_len L p) (e - (p + symbol_len L p)).
Proof.
  intros G T R Hb. destruct (run_end L _ G _ _ R Hb) as [H1 H2]; [discriminate|]. cbn in R. destruct R as [-> R].
  inversion Hb as [|? ? Hp Hb']; subst. pose proof (run_length _ _ _ _ R). pose proof (g_bits _ G p Hp). pose proof (symbol_len_pos L p).
  destruct (char_at _ _ (t_bits _ T p Hp)) as [cp [rest [Hs [E [El _]]]]]; [lia|]. exists cp. split; [assumption|].
  change (symbol_length (text L) p) with (symbol_len L p) in El. split; [assumption|]. rewrite El in *.
  split; [lia|]. split; [assumption|]. apply (sub_split _ _ _ _ rest); [assumption|lia|assumption].
Qed.
Lemma run_distance L : good L -> tidy L -> forall ps p e, run L p ps e -> Forall (fun q => bit (implicit L) q = true) ps ->
  exists cps, Forall scalar cps /\ length cps = length ps /\ sub (text L) p (e - p) = flat_map enc cps.
Proof.
  intros G T. induction ps as [|q ps IH]; intros p e R Hb.
  - cbn in R. subst. exists []. rewrite Nat.sub_diag. repeat split. constructor.
  - destruct (run_head _ _ _ _ _ G T R Hb) as [cp [Hs [El [_ [_ ->]]]]]. cbn in R. destruct R as [-> R]. inversion Hb; subst.
    destruct (IH _ _ R) as [cps [F1 [F2 ->]]]; [assumption|]. exists (cp :: cps). cbn. split; [now constructor|]. split; congruence.
Qed.
Lemma run_advance L : good L -> tidy L -> forall ps i p e, run L p ps e -> Forall (fun q => bit (implicit L) q = true) ps -> i < length ps ->
  exists q, nth_error ps i = Some q /\ advance i (sub (text L) p (e - p)) = Some (sub (text L) q (e - q)) /\ p <= q < e /\ e <= length (text L).
Proof.
  intros G T. induction ps as [|x ps IH]; intros i p e R Hb Hi; [cbn in Hi; lia|].
  pose proof (run_end L _ G _ _ R Hb ltac:(discriminate)) as [H1 H2].
  destruct (run_head _ _ _ _ _ G T R Hb) as [cp [Hs [El [_ [_ E]]]]]. cbn in R. destruct R as [-> R]. inversion Hb as [|? ? Hp Hb']; subst.
  destruct i as [|i]; [exists p; repeat split; auto; lia|]. cbn in Hi.
  destruct (IH i _ _ R) as [q [Q1 [Q2 [Q3 Q4]]]]; [assumption|lia|]. exists q. cbn. rewrite E, next_enc by assumption.
  repeat split; try assumption; lia.
Qed.
Lemma first_in_implicit L q : good L -> tidy L -> bit (implicit L) q = true ->
  exists L1, first_in_edge (Text (q + symbol_len L q)) symbol_mask L = (L1, Ok (Implicit q)).
Proof.
  intros G T Hb. pose proof (g_bits _ G q Hb) as Hl. pose proof (symbol_len_pos L q).
  unfold first_in_edge, bind, in_edges. cbn [valid]. destruct (Nat.leb_spec (q + symbol_len L q) (length (text L))) as [_|]; [|lia]. cbn [negb].
  change (M_Tags.any symbol_mask) with false. cbv iota.
  destruct (add_tag_mask_index symbol_mask L) as [L1 [ix|x|]] eqn:E.
  - destruct (add_tag_mask_index_query symbol_mask symbol_mask_made _ _ _ G E) as [_ C]; [discriminate|].
    unfold bind, ask. rewrite E. exists L1.
    assert (Ep : implicit_in L1 (q + symbol_len L q) = Ok (when (bit (implicit L) q) q)).
    { rewrite <- (implicit_in_at L q); [|now apply (t_bits _ T)|lia]. unfold implicit_in, prior_vertex. now rewrite (c_implicit _ _ C), (c_text _ _ C). }
    rewrite Ep, Hb. reflexivity.
  - unfold add_tag_mask_index in E. destruct (mask_index _ _); discriminate.
  - unfold add_tag_mask_index in E. destruct (mask_index _ _); discriminate.
Qed.
Lemma members_spec L (us : list usage) : good L -> tidy L -> (forall u, In u us -> is_edge L (fst u)) ->
  chain L (map fst us) \/ ~ begins_at L (map fst us) (Text 0) ->
  let s := build_all L us in
  sequence_size L s = Ok (length us) /\ (sequence_empty s = true <-> us = []) /\
  (forall i u, nth_error us i = Some u -> exists L', nth_edge s i L = (L', Ok (fst u))) /\
  (forall u r, us = u :: r -> exists L', first_edge s L = (L', Ok (fst u))) /\
  (forall u r, us = r ++ [u] -> exists L', last_edge s L = (L', Ok (fst u))).
Proof.
  intros G T He Hc. cbv zeta. destruct (build_all_form L us Hc) as [->|[ps [b [e [-> [E1 [R [Hn Hh]]]]]]]].
  - unfold sequence_size, sequence_empty, nth_edge, first_edge, last_edge. cbn [links s_begin s_end]. destruct us as [|u us].
    + split; [reflexivity|]. split; [tauto|]. split; [intros [|i] u H; discriminate H|]. split; [discriminate|]. intros u [|x r]; discriminate.
    + split; [reflexivity|]. split; [split; discriminate|]. split; [intros i v ->; eauto|]. split; [intros v r [= <- _]; eexists; reflexivity|].
      intros v r E. exists L. unfold ret. do 3 f_equal. assert (K : last (u :: us) u = v) by (rewrite E; apply last_last). rewrite <- K. destruct us; reflexivity.
  - pose proof (implicit_bits L us ps He E1) as Hb. destruct (run_end L ps G _ _ R Hb Hn) as [H1 H2].
    assert (Hlen : length us = length ps) by (apply (f_equal (@length desc)) in E1; rewrite !map_length in E1; exact E1).
    unfold sequence_size, sequence_empty, nth_edge, first_edge, last_edge. cbn [links s_begin s_end]. split; [|split; [|split; [|split]]].
    + destruct (run_distance L G T ps b e R Hb) as [cps [K1 [K2 ->]]]. rewrite (distance_encodes cps); [congruence|]. split; [assumption|reflexivity].
    + destruct (Nat.leb_spec e b); [lia|]. split; [discriminate|]. intros ->. destruct ps; [congruence|discriminate].
    + intros i u Hu. assert (Hi : i < length ps) by (rewrite <- Hlen; apply nth_error_Some; congruence).
      destruct (run_advance L G T ps i b e R Hb Hi) as [q [Q1 [-> [Q3 Q4]]]]. unfold sub. rewrite !firstn_length, !skipn_length.
      replace (b + (Nat.min (e - b) (length (text L) - b) - Nat.min (e - q) (length (text L) - q))) with q by lia.
      destruct (packed_edge_implicit L q G) as [L1 [-> _]]; [rewrite Forall_forall in Hb; apply Hb; eapply nth_error_In, Q1|].
      exists L1. do 2 f_equal. apply (map_nth_error fst) in Hu. rewrite E1 in Hu. apply (map_nth_error Implicit) in Q1. congruence.
    + intros u r ->. destruct ps as [|q ps]; [discriminate|]. cbn in R, E1. destruct R as [-> R]. injection E1 as E1 _. inversion Hb; subst.
      destruct (packed_edge_implicit L b G) as [L1 [-> _]]; [assumption|]. exists L1. congruence.
    + intros u r ->. destruct (exists_last Hn) as [qs [q ->]]. rewrite !map_app in E1. apply app_inj_tail in E1 as [_ E1].
      apply run_snoc in R as [_ R]. apply Forall_app in Hb as [_ Hb]. inversion Hb as [|? ? Hq _]; subst.
      destruct (Nat.ltb_spec (length (text L)) (q + symbol_len L q)) as [|_]; [lia|].
      destruct (first_in_implicit L q G T Hq) as [L1 ->]. exists L1. congruence.
Qed.
(** Its size, its members by number, its first and last edge. *)
Theorem C41_members L (us : list usage) : careful_program L -> (forall u, In u us -> is_edge L (fst u)) ->
  chain L (map fst us) \/ ~ begins_at L (map fst us) (Text 0) ->
  let s := build_all L us in
  sequence_size L s = Ok (length us) /\ (sequence_empty s = true <-> us = []) /\
  (forall i u, nth_error us i = Some u -> exists L', nth_edge s i L = (L', Ok (fst u))) /\
  (forall u r, us = u :: r -> exists L', first_edge s L = (L', Ok (fst u))) /\
  (forall u r, us = r ++ [u] -> exists L', last_edge s L = (L', Ok (fst u))).
Proof. intros HL. destruct (careful_tidy _ HL) as [G T]. now apply members_spec. Qed.
Print Assumptions C41_members.
(** "abą" with symbols and a token over all of it. *)
Definition seq_calls : list op :=
  [AppendString ex_text; AddSymbols (Text 0) (Text 4);
   AddEdge (Text 0) (Text 4) (ex_item WORD ex_text) 4%N empty_sequence 5%Z (-1) (-1)].
Definition seq_lattice : lattice := after seq_calls new_lattice.
Example seq_careful : careful_program seq_lattice.
Proof. unfold seq_lattice, seq_calls. careful. Qed.
Example seq_program : lattice_of_program seq_lattice.
Proof. unfold seq_lattice, seq_calls. program. Qed.
Example C41_example :
  let us := [(Implicit 0, M_Items.ZNull); (Implicit 1, M_Items.ZNull); (Implicit 2, M_Items.ZNull)] in
  let vs := [(Implicit 2, M_Items.ZInt 7); (Explicit 0, M_Items.ZInt 8)] in
  build_all seq_lattice us = Sequence [] 0 4 /\ chain seq_lattice (map fst us) /\
  snd (usages (build_all seq_lattice us) seq_lattice) = Ok us /\ sequence_size seq_lattice (build_all seq_lattice us) = Ok 3 /\
  snd (nth_edge (build_all seq_lattice us) 2 seq_lattice) = Ok (Implicit 2) /\
  ~ begins_at seq_lattice (map fst vs) (Text 0) /\ build_all seq_lattice vs = Sequence vs 0 0.
Proof. vm_compute. repeat split. discriminate. Qed.
(** A sequence that returns to the beginning of the text loses edges, *)
Theorem C41_jumping_refuted :
  ~ (forall L (us : list usage), lattice_of_program L -> (forall u, In u us -> is_edge L (fst u)) ->
       exists L' us', usages (build_all L us) L = (L', Ok us') /\ map fst us' = map fst us).
Proof.
  intros H. destruct (H seq_lattice [(Implicit 0, M_Items.ZNull); (Implicit 2, M_Items.ZNull); (Implicit 0, M_Items.ZNull)] seq_program) as [L' [us' [E1 E2]]].
  - intros u [<-|[<-|[<-|[]]]]; vm_compute; reflexivity.
  - apply (f_equal snd) in E1. vm_compute in E1. injection E1 as <-. discriminate.
Qed.
Print Assumptions C41_jumping_refuted.
(** and a path of hidden symbol edges loses its roles. *)
Theorem C41_roles_refuted :
  ~ (forall L (us : list usage), lattice_of_program L -> (forall u, In u us -> is_edge L (fst u)) -> chain L (map fst us) ->
       exists L', usages (build_all L us) L = (L', Ok us)).
Proof.
  intros H. destruct (H seq_lattice [(Implicit 0, M_Items.ZInt 7)] seq_program) as [L' E1].
  - intros u [<-|[]]; vm_compute; reflexivity.
  - cbn. auto.
  - apply (f_equal snd) in E1. vm_compute in E1. discriminate.
Qed.
Print Assumptions C41_roles_refuted.

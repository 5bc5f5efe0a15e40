(** C55: the corrections of the text of a lattice. *)
From Coq Require Import ZArith List Bool Lia.
From Verif Require Import M_Utf8 S_Utf8 L_Utf8 M_Tags M_Items M_Cutter M_Lattice P_Tags P_Cutter L_Lattice S_Lattice L_LatticeOps L_LatticeTidy.
From Verif Require P_Items.
From Verif Require Import P_Lattice M_LatticeWalk L_LatticeNodes P_LatticeWalk P_LatticeVertices P_LatticePath L_LatticeMarks P_LatticeCut M_LatticeCorrect L_LatticeCorrect.
Import ListNotations.
Local Open Scope nat_scope.
Notation text := M_Lattice.text.

(** * Specification *)
(** The symbol edges as the arcs of an automaton over items ([L_LatticeCorrect.arc]), and
    the words that lead from a vertex to another one. *)
Definition like (a b : item) : Prop := M_Items.item_eqb a b = true.
Inductive words (A : vertex -> item -> vertex -> Prop) : vertex -> list item -> vertex -> Prop :=
  | W_end v : words A v [] v
  | W_arc v x w xs u : A v x w -> words A w xs u -> words A v (x :: xs) u.
(** With one more way from [p] to [q], that reads [way]. *)
Inductive detours (A : vertex -> item -> vertex -> Prop) (p : vertex) (way : list item) (q : vertex) : vertex -> list item -> vertex -> Prop :=
  | D_end v : detours A p way q v [] v
  | D_arc v x w xs u : A v x w -> detours A p way q w xs u -> detours A p way q v (x :: xs) u
  | D_way xs ys u : Forall2 like way xs -> detours A p way q q ys u -> detours A p way q p (xs ++ ys) u.
(** The [m] characters from [p] to [q] have the symbol edges that addSymbols gave them. *)
Fixpoint row (L : lattice) (p m q : nat) : Prop :=
  match m with O => p = q | S m' => bit (implicit L) p = true /\ row L (p + symbol_len L p) m' q end.
(** The place [n] characters ahead. *)
Fixpoint ahead (L : lattice) (p n : nat) : nat := match n with O => p | S n' => ahead L (p + symbol_len L p) n' end.
Definition char_item (L : lattice) (p : nat) : item := symbol_item (sub (text L) p (symbol_len L p)).
(** The characters [cps] over those of the text. *)
Fixpoint over (L : lattice) (p : nat) (cps : list Z) (v : vertex) (x : item) (w : vertex) : Prop :=
  match cps with
  | [] => False
  | c :: r => v = Text p /\ w = Text (p + symbol_len L p) /\ like (symbol_item (enc c)) x \/ over L (p + symbol_len L p) r v x w
  end.
(** Programs with corrections of texts that have their symbols. *)
Inductive correcting : lattice -> Prop :=
  | Co_start : correcting new_lattice
  | Co_call L L' o r : correcting L -> plain_op o -> allowed L o -> tidy_op L o -> exec o L = (L', r) -> r <> Undefined -> correcting L'
  | Co_insert L p cps L' r : correcting L -> bit (implicit L) p = true -> cps <> [] -> Forall scalar cps ->
      correction_insert (Text p) (flat_map enc cps) L = (L', r) -> correcting L'
  | Co_erase L p q L' r : correcting L -> boundary (text L) p -> p <= q -> bit (implicit L) q = true ->
      correction_erase (Text p) (Text q) L = (L', r) -> correcting L'
  | Co_replace L p m q cps L' r : correcting L -> boundary (text L) p -> row L p m q -> (length cps <> m -> bit (implicit L) q = true) -> Forall scalar cps ->
      correction_replace (Text p) (Text q) (flat_map enc cps) L = (L', r) -> correcting L'.
Definition spelling (xs : list item) : list Z := concat (map M_Items.text xs).

(** * Insertion *)
Lemma valid_loose L k : valid L (Loose k) = true <-> k < n_loose L.
Proof. unfold valid. apply Nat.ltb_lt. Qed.
Lemma arc_valid L v x w : good L -> arc L v x w -> valid L v = true /\ valid L w = true.
Proof.
  intros G [d [it [D1 [_ [D3 [D4 _]]]]]]. destruct d as [p|e]; cbn in D1, D3, D4.
  - injection D3 as <-. injection D4 as <-. pose proof (g_bits _ G p D1). cbn. rewrite !Nat.leb_le. lia.
  - destruct (nth_error (edges L) e) as [ed|] eqn:E; [|discriminate]. injection D3 as <-. injection D4 as <-.
    destruct (g_edges _ G e ed E) as [K1 [K2 _]]. split; now apply (g_names _ G).
Qed.
Fixpoint chain (k : nat) (from : vertex) (cps : list Z) (v : vertex) (x : item) (w : vertex) : Prop :=
  match cps with
  | [] => False
  | c :: r => v = from /\ w = Loose k /\ like (symbol_item (enc c)) x \/ chain (S k) (Loose k) r v x w
  end.
Lemma chain_from k from cps v x w : chain k from cps v x w -> v = from \/ exists j, v = Loose j /\ k <= j /\ j + 1 < k + length cps.
Proof.
  revert k from. induction cps as [|c r IH]; intros k from; cbn [chain length]; [tauto|]. intros [[-> _]|H]; [now left|].
  right. destruct r as [|c' r']; [destruct H|]. apply IH in H as [->|[j [-> Hj]]]; [exists k; cbn; split; [reflexivity|lia]|]. exists j. cbn [length] in *. split; [reflexivity|lia].
Qed.
Record same_text (L L' : lattice) : Prop := {
  st_careful : careful_program L';
  st_typed : typed L';
  st_text : text L' = text L;
  st_implicit : implicit L' = implicit L
}.
Lemma insert_chain_spec n : forall from to cps L, careful_program L -> typed L -> valid L from = true -> place L from -> Forall scalar cps -> length (flat_map enc cps) <= n ->
  (exists p, from = Text p) \/ no_symbols_from L from ->
  exists L' to', insert_chain n from to (flat_map enc cps) L = (L', Ok to') /\ same_text L L' /\ n_loose L' = n_loose L + length cps /\
    to' = (match cps with [] => to | _ => Some (Loose (n_loose L + length cps - 1)) end) /\
    forall v x w, arc L' v x w <-> arc L v x w \/ chain (n_loose L) from cps v x w.
Proof.
  induction n as [|n IH]; intros from to cps L HL Ty V P Hc Hn Hf.
  - destruct cps as [|c r]; [|pose proof (enc_length c); cbn [flat_map] in Hn; rewrite app_length in Hn; lia].
    exists L, to. split; [reflexivity|]. split; [now split|]. cbn. split; [lia|]. split; [reflexivity|]. tauto.
  - destruct cps as [|c r].
    { exists L, to. split; [reflexivity|]. split; [now split|]. cbn. split; [lia|]. split; [reflexivity|]. tauto. }
    inversion Hc as [|? ? Hcp Hc']; subst. pose proof (enc_length c) as He. cbn [flat_map] in *. rewrite app_length in Hn.
    destruct (careful_tidy _ HL) as [G T]. destruct (add_loose_vertex L) as [L1 r1] eqn:E1.
    destruct (add_loose_spec _ _ _ G E1) as [G1 [W1 [-> [X1 [X2 [X3 [X4 X5]]]]]]].
    assert (HL1 : careful_program L1) by (apply (C_call L L1 AddLooseVertex (Ok tt)); try easy; cbn [exec]; unfold drop, bind; now rewrite E1).
    assert (Ty1 : typed L1) by (unfold add_loose_vertex in E1; injection E1 as <-; exact Ty).
    assert (A1 : forall v x w, arc L1 v x w <-> arc L v x w) by now apply arc_same.
    assert (V1 : valid L1 from = true).
    { destruct from as [p|k]; [cbn in *; now rewrite X1|]. apply valid_loose in V. apply valid_loose. lia. }
    assert (Hne : from <> Loose (n_loose L)) by (intros ->; apply valid_loose in V; lia).
    destruct (add_symbol L1 from (Loose (n_loose L)) (symbol_item (enc c)) HL1 Ty1 V1) as [L2 [e [E2 S2]]]; try assumption.
    + apply valid_loose. lia.
    + now apply (place_text L).
    + exact I.
    + destruct from; reflexivity.
    + discriminate.
    + destruct Hf as [Hf|Hf]; [right; split; [assumption|left]|left].
      * intros v x K. apply A1 in K. apply (arc_valid _ _ _ _ G) in K as [_ K]. apply valid_loose in K. lia.
      * intros x w K. apply A1 in K. now apply Hf in K.
    + destruct (IH (Loose (n_loose L)) (Some (Loose (n_loose L))) r L2) as [L' [to' [E' [S' [N' [To' A']]]]]].
      * apply S2.
      * apply S2.
      * apply valid_loose. rewrite (sa_loose _ _ _ _ _ S2), X4. lia.
      * exact I.
      * assumption.
      * lia.
      * right. intros x w K. apply (sa_arcs _ _ _ _ _ S2) in K as [K|[K _]]; [|congruence]. apply A1 in K. apply (arc_valid _ _ _ _ G) in K as [K _]. apply valid_loose in K. lia.
      * exists L', to'. rewrite (sa_loose _ _ _ _ _ S2), X4 in *. split.
        { destruct (enc c ++ flat_map enc r) as [|y l] eqn:Ey; [destruct (enc_nonempty c); now apply app_eq_nil in Ey|].
          cbn [insert_chain]. unfold bind at 1. rewrite E1. rewrite <- Ey, (next_enc _ _ Hcp), (append_scalar _ Hcp). unfold bind. rewrite E2. exact E'. }
        split; [split; [apply S'|apply S'| |]|].
        { rewrite (st_text _ _ S'), (sa_text _ _ _ _ _ S2). assumption. }
        { rewrite (st_implicit _ _ S'), (sa_implicit _ _ _ _ _ S2). assumption. }
        split; [cbn [length]; lia|]. split.
        { destruct r; rewrite To'; do 2 f_equal; cbn [length]; lia. }
        { intros v x w. rewrite A', (sa_arcs _ _ _ _ _ S2), A1. cbn [chain]. unfold like. tauto. }
Qed.
(** The way through the loose vertices. *)
Fixpoint way_arcs (k : nat) (from : vertex) (cps : list Z) (it : item) (b : vertex) (v : vertex) (x : item) (w : vertex) : Prop :=
  match cps with
  | [] => v = from /\ w = b /\ like it x
  | c :: r => v = from /\ w = Loose k /\ like (symbol_item (enc c)) x \/ way_arcs (S k) (Loose k) r it b v x w
  end.
Lemma way_chain it b cps : forall k from v x w, cps <> [] ->
  (way_arcs k from cps it b v x w <-> chain k from cps v x w \/ v = Loose (k + length cps - 1) /\ w = b /\ like it x).
Proof.
  induction cps as [|c r IH]; intros k from v x w Hn; [congruence|]. cbn [way_arcs chain length]. destruct r as [|c' r'].
  - cbn [way_arcs chain length]. replace (k + 1 - 1) with k by lia. tauto.
  - rewrite IH by congruence. replace (S k + length (c' :: r') - 1) with (k + S (length (c' :: r')) - 1) by lia. tauto.
Qed.
Lemma char_item_at L p : good L -> tidy L -> bit (implicit L) p = true -> annotation_item L (Implicit p) = Ok (char_item L p) /\ sub (text L) p (symbol_len L p) <> [].
Proof.
  intros G T Hb. destruct (item_at L p) as [cp [Hs [E1 E2]]]; [now apply (t_bits _ T)|now apply bit_in_text|].
  unfold char_item. rewrite E1. split; [exact E2|apply enc_nonempty].
Qed.
Lemma first_implicit L p : careful_program L -> bit (implicit L) p = true -> exists L', first_out_edge (Text p) symbol_mask L = (L', Ok (Implicit p)) /\ careful_program L' /\ core L L'.
Proof.
  intros HL Hb. destruct (careful_tidy _ HL) as [G T]. destruct (out_implicit_first L p G Hb) as [L1 [l E]]. exists L1.
  assert (E' : first_out_edge (Text p) symbol_mask L = (L1, Ok (Implicit p))) by (unfold first_out_edge, bind; rewrite E; reflexivity). split; [assumption|].
  exact (query_op L L1 (FirstOutEdge (Text p) symbol_mask) _ _ (first_out_query _ _ symbol_mask_made) eq_refl HL symbol_mask_made (t_bits _ T p Hb) E').
Qed.
Lemma core_typed L L' : core L L' -> typed L -> typed L'.
Proof. intros C. apply implicits_vvc. apply C. Qed.
Lemma insert_spec L p cps : careful_program L -> typed L -> bit (implicit L) p = true -> cps <> [] -> Forall scalar cps ->
  exists L', correction_insert (Text p) (flat_map enc cps) L = (L', Ok tt) /\ same_text L L' /\ n_loose L' = n_loose L + length cps /\
    forall v x w, arc L' v x w <-> arc L v x w \/ way_arcs (n_loose L) (Text p) cps (char_item L p) (Text (p + symbol_len L p)) v x w.
Proof.
  intros HL Ty Hb Hn Hc. destruct (careful_tidy _ HL) as [G T]. pose proof (bit_in_text _ _ G Hb) as Hlt. pose proof (t_bits _ T p Hb) as Bp.
  destruct (insert_chain_spec (length (flat_map enc cps)) (Text p) None cps L HL Ty) as [L1 [to [E1 [S1 [N1 [To A1]]]]]]; try assumption.
  { cbn. apply Nat.leb_le. lia. } { lia. } { left. eauto. }
  assert (To' : to = Some (Loose (n_loose L + length cps - 1))) by (destruct cps; [congruence|exact To]). clear To. subst to.
  assert (Hb1 : bit (implicit L1) p = true) by now rewrite (st_implicit _ _ S1).
  destruct (first_implicit L1 p (st_careful _ _ S1) Hb1) as [L2 [E2 [HL2 C2]]]. destruct (careful_tidy _ HL2) as [G2 T2].
  assert (Hb2 : bit (implicit L2) p = true) by now rewrite (c_implicit _ _ C2).
  assert (ET : text L2 = text L) by (rewrite (c_text _ _ C2); apply S1). assert (EL : forall q, symbol_len L2 q = symbol_len L q) by (intros q; unfold symbol_len; now rewrite ET).
  destruct (char_item_at L2 p G2 T2 Hb2) as [EI _].
  assert (Ec : char_item L2 p = char_item L p) by (unfold char_item; now rewrite EL, ET). rewrite Ec in EI.
  pose proof (g_bits _ G2 p Hb2) as Hle. rewrite EL, ET in Hle.
  assert (Hlen : 0 < length cps) by (destruct cps; [congruence|cbn; lia]).
  destruct (add_symbol L2 (Loose (n_loose L + length cps - 1)) (Text (p + symbol_len L p)) (char_item L p) HL2) as [L3 [e [E3 S3]]].
  - apply (core_typed _ _ C2), S1.
  - apply valid_loose. rewrite (c_loose _ _ C2), N1. lia.
  - cbn. rewrite ET. now apply Nat.leb_le.
  - exact I.
  - apply (place_text L _ _ ET). apply boundary_step; [apply T|assumption|assumption].
  - discriminate.
  - reflexivity.
  - discriminate.
  - left. intros x w K. apply (core_arc _ _ C2), A1 in K as [K|K].
    + apply (arc_valid _ _ _ _ G) in K as [K _]. apply valid_loose in K. lia.
    + apply chain_from in K as [K|[j [K1 [K2 K3]]]]; [discriminate|]. injection K1 as <-. lia.
  - exists L3. split.
    { unfold correction_insert, bind. rewrite E1. unfold on_no_edge. rewrite E2. unfold ask. cbn [target]. rewrite EL, EI. rewrite E3. reflexivity. }
    split; [split; [apply S3|apply S3| |]|split].
    + rewrite (sa_text _ _ _ _ _ S3). exact ET.
    + rewrite (sa_implicit _ _ _ _ _ S3), (c_implicit _ _ C2). apply S1.
    + rewrite (sa_loose _ _ _ _ _ S3), (c_loose _ _ C2). exact N1.
    + intros v x w. rewrite (sa_arcs _ _ _ _ _ S3), (core_arc _ _ C2), A1, way_chain by assumption. unfold like. tauto.
Qed.
Lemma words_app A u xs v ys w : words A u xs v -> words A v ys w -> words A u (xs ++ ys) w.
Proof. induction 1; intros K; cbn; [assumption|]. econstructor; eauto. Qed.
Lemma words_more (A B : vertex -> item -> vertex -> Prop) u xs v : (forall v x w, A v x w -> B v x w) -> words A u xs v -> words B u xs v.
Proof. intros H. induction 1; econstructor; eauto. Qed.
Lemma way_from k from cps it b v x w : way_arcs k from cps it b v x w -> v = from \/ exists j, v = Loose j /\ k <= j.
Proof.
  revert k from. induction cps as [|c r IH]; intros k from; cbn [way_arcs]; [intros [-> _]; now left|]. intros [[-> _]|H]; [now left|].
  right. apply IH in H as [->|[j [-> Hj]]]; [exists k; split; [reflexivity|lia]|]. exists j. split; [reflexivity|lia].
Qed.
Lemma way_words (A : vertex -> item -> vertex -> Prop) it b cps : forall k from xs, (forall v x w, way_arcs k from cps it b v x w -> A v x w) ->
  Forall2 like (map (fun c => symbol_item (enc c)) cps ++ [it]) xs -> words A from xs b.
Proof.
  induction cps as [|c r IH]; intros k from xs HA F; cbn in F; inversion F as [|a x l xs' F1 F2]; subst; clear F.
  - inversion F2; subst. eapply W_arc; [apply HA; cbn; now repeat split|constructor].
  - eapply W_arc; [apply HA; left; now repeat split|]. apply (IH (S k)); [|assumption]. intros v x0 w K. apply HA. now right.
Qed.
Lemma way_follow (A : vertex -> item -> vertex -> Prop) it b cps : forall k from xs w, (forall j, k <= j -> from <> Loose j) ->
  (forall x u, A from x u -> way_arcs k from cps it b from x u) -> (forall j x u, k <= j -> A (Loose j) x u -> way_arcs k from cps it b (Loose j) x u) ->
  w <> from -> (forall j, k <= j -> w <> Loose j) -> words A from xs w ->
  exists xs1 xs2, xs = xs1 ++ xs2 /\ Forall2 like (map (fun c => symbol_item (enc c)) cps ++ [it]) xs1 /\ words A b xs2 w.
Proof.
  induction cps as [|c r IH]; intros k from xs w Hf H1 H2 Hw Hk HW; destruct HW as [v|v x u xs w Hx HW]; [congruence| |congruence|].
  - apply H1 in Hx as [_ [-> Hx]]. exists [x], xs. split; [reflexivity|]. split; [now repeat constructor|assumption].
  - apply H1 in Hx as [[_ [-> Hx]]|Hx].
    + destruct (IH (S k) (Loose k) xs w) as [xs1 [xs2 [E [F K]]]].
      * intros j Hj [= ->]. lia.
      * intros y z Hy. apply H2 in Hy as [[Hy _]|Hy]; [now destruct (Hf k (le_n k))|assumption|lia].
      * intros j y z Hj Hy. apply H2 in Hy as [[Hy _]|Hy]; [destruct (Hf j); [lia|now symmetry]|assumption|lia].
      * apply Hk. lia.
      * intros j Hj. apply Hk. lia.
      * assumption.
      * exists (x :: xs1), xs2. subst xs. split; [reflexivity|]. split; [now constructor|assumption].
    + apply way_from in Hx as [Hx|[j [Hx Hj]]]; [now destruct (Hf k (le_n k))|]. destruct (Hf j); [lia|assumption].
Qed.
Lemma detour_words L L' p cps it b : good L -> cps <> [] -> valid L (Text p) = true -> valid L b = true ->
  (forall v x w, arc L' v x w <-> arc L v x w \/ way_arcs (n_loose L) (Text p) cps it b v x w) ->
  forall v xs w, valid L v = true -> valid L w = true ->
  (words (arc L') v xs w <-> detours (arc L) (Text p) (map (fun c => symbol_item (enc c)) cps ++ [it]) b v xs w).
Proof.
  intros G Hn Vp Vb HA v xs w Vv Vw. assert (Hold : forall u, valid L u = true -> forall j, n_loose L <= j -> u <> Loose j).
  { intros u Hu j Hj ->. apply valid_loose in Hu. lia. } split.
  - remember (length xs) as n eqn:En. revert v xs En Vv. induction n as [n IH] using lt_wf_ind. intros v xs -> Vv HW.
    inversion HW as [|v0 x u xs' w0 Hx HW']; subst; clear HW; [constructor|]. rename xs' into xs, HW' into HW. apply HA in Hx as [Hx|Hx].
    + apply D_arc with u; [assumption|]. eapply IH; [|reflexivity| |assumption]; [cbn; lia|]. now apply (arc_valid _ _ _ _ G) in Hx.
    + destruct (way_from _ _ _ _ _ _ _ _ Hx) as [->|[j [-> Hj]]]; [|destruct (Hold _ Vv j Hj eq_refl)].
      destruct cps as [|c r]; [congruence|]. cbn [way_arcs] in Hx. destruct Hx as [[_ [-> Hx]]|Hx].
      * destruct (way_follow (arc L') it b r (S (n_loose L)) (Loose (n_loose L)) xs w) as [xs1 [xs2 [E [F K]]]].
        { intros j Hj K. injection K as K. lia. }
        { intros y z Hy. apply HA in Hy as [Hy|[[Hy _]|Hy]]; [|discriminate|assumption]. apply (arc_valid _ _ _ _ G) in Hy as [Hy _]. apply valid_loose in Hy. lia. }
        { intros j y z Hj Hy. apply HA in Hy as [Hy|[[Hy _]|Hy]]; [|discriminate|assumption]. apply (arc_valid _ _ _ _ G) in Hy as [Hy _]. apply valid_loose in Hy. lia. }
        { now apply Hold. } { intros j Hj. apply Hold; [assumption|lia]. } { assumption. }
        subst xs. change (x :: xs1 ++ xs2) with ((x :: xs1) ++ xs2). apply D_way; [cbn; now constructor|].
        eapply IH; [|reflexivity| |assumption]; [cbn; rewrite app_length; lia|assumption].
      * apply way_from in Hx as [Hx|[j [Hx _]]]; discriminate.
  - induction 1 as [v|v x u xs w Hx HW IH|xs ys w F HW IH]; [constructor| |].
    + apply W_arc with u; [apply HA; now left|]. apply IH; [|assumption]. now apply (arc_valid _ _ _ _ G) in Hx.
    + apply words_app with b; [|now apply IH]. eapply way_words; [|exact F]. intros v x u K. apply HA. right. exact K.
Qed.

(** * Erasing *)
Lemma erase_spec L p q : careful_program L -> typed L -> boundary (text L) p -> p < q -> bit (implicit L) q = true ->
  exists L', correction_erase (Text p) (Text q) L = (L', Ok tt) /\ same_text L L' /\ n_loose L' = n_loose L /\
    forall v x w, arc L' v x w <-> arc L v x w \/ v = Text p /\ w = Text (q + symbol_len L q) /\ like (char_item L q) x.
Proof.
  intros HL Ty Bp Hpq Hb. destruct (careful_tidy _ HL) as [G T].
  destruct (first_implicit L q HL Hb) as [L2 [E2 [HL2 C2]]]. destruct (careful_tidy _ HL2) as [G2 T2].
  assert (Hb2 : bit (implicit L2) q = true) by now rewrite (c_implicit _ _ C2).
  pose proof (c_text _ _ C2) as ET. assert (EL : forall q, symbol_len L2 q = symbol_len L q) by (intros r; unfold symbol_len; now rewrite ET).
  destruct (char_item_at L2 q G2 T2 Hb2) as [EI _].
  assert (Ec : char_item L2 q = char_item L q) by (unfold char_item; now rewrite EL, ET). rewrite Ec in EI.
  pose proof (g_bits _ G2 q Hb2) as Hle. rewrite EL, ET in Hle. pose proof (bit_in_text _ _ G Hb) as Hlt. pose proof (t_bits _ T q Hb) as Bq.
  destruct (add_symbol L2 (Text p) (Text (q + symbol_len L q)) (char_item L q) HL2) as [L3 [e [E3 S3]]].
  - exact (core_typed _ _ C2 Ty).
  - cbn. rewrite ET. apply Nat.leb_le. lia.
  - cbn. rewrite ET. now apply Nat.leb_le.
  - now apply (place_text L).
  - apply (place_text L _ _ ET). apply boundary_step; [apply T|assumption|assumption].
  - intros [= K]. lia.
  - unfold reversed. apply Nat.ltb_ge. lia.
  - intros p' [= <-] [= K]. exfalso. rewrite EL in K.
    pose proof (next_boundary (text L) p q Bp Bq Hpq) as K2. pose proof (symbol_len_pos L q). unfold symbol_len in *. lia.
  - right. split; [eauto|]. right. exists q. rewrite EL. now split.
  - exists L3. split.
    { unfold correction_erase. cbn [vertex_eqb]. assert (Nq : (p =? q) = false) by (apply Nat.eqb_neq; lia). rewrite Nq. unfold on_no_edge, bind. rewrite E2. unfold ask. cbn [target]. rewrite EL, EI, E3. reflexivity. }
    split; [split; [apply S3|apply S3| |]|split].
    + rewrite (sa_text _ _ _ _ _ S3). exact ET.
    + rewrite (sa_implicit _ _ _ _ _ S3). apply C2.
    + rewrite (sa_loose _ _ _ _ _ S3). apply C2.
    + intros v x w. rewrite (sa_arcs _ _ _ _ _ S3), (core_arc _ _ C2). unfold like. tauto.
Qed.

(** * Replacing *)
Section Same.
Variables L L' : lattice.
Hypothesis ET : text L' = text L.
Hypothesis EI : implicit L' = implicit L.
Lemma len_same p : symbol_len L' p = symbol_len L p.
Proof. unfold symbol_len. now rewrite ET. Qed.
Lemma row_same m : forall p q, row L p m q -> row L' p m q.
Proof. induction m as [|m IH]; intros p q; cbn; [tauto|]. rewrite EI, len_same. intros [H1 H2]. split; [assumption|now apply IH]. Qed.
Lemma ahead_same n : forall p, ahead L' p n = ahead L p n.
Proof. induction n as [|n IH]; intros p; cbn; [reflexivity|]. now rewrite len_same, IH. Qed.
Lemma over_same cps : forall p v x w, over L' p cps v x w <-> over L p cps v x w.
Proof. induction cps as [|c r IH]; intros p v x w; cbn; [tauto|]. now rewrite len_same, IH. Qed.
Lemma char_item_same p : char_item L' p = char_item L p.
Proof. unfold char_item. now rewrite len_same, ET. Qed.
End Same.
Lemma same_trans L L1 L2 : same_text L L1 -> same_text L1 L2 -> same_text L L2.
Proof. intros S1 S2. split; [apply S2|apply S2| |]; [rewrite (st_text _ _ S2)|rewrite (st_implicit _ _ S2)]; apply S1. Qed.
Lemma row_le L p m q : row L p m q -> p <= q.
Proof. revert p. induction m as [|m IH]; intros p; cbn; [lia|]. intros [_ H]. apply IH in H. lia. Qed.
Lemma row_lt L p m q : row L p (S m) q -> p < q.
Proof. cbn. intros [_ H]. apply row_le in H. pose proof (symbol_len_pos L p). lia. Qed.
Lemma like_refl x : like x x.
Proof. apply item_eqb_refl. Qed.
Lemma char_arc L p x : good L -> tidy L -> bit (implicit L) p = true -> like (char_item L p) x -> arc L (Text p) x (Text (p + symbol_len L p)).
Proof.
  intros G T Hb Hx. exists (Implicit p), (char_item L p). destruct (char_item_at L p G T Hb) as [E _]. repeat split; try assumption; try reflexivity.
Qed.
Lemma replace_one L p c : careful_program L -> typed L -> bit (implicit L) p = true -> scalar c ->
  exists L1, (do d <- first_out_edge (Text p) symbol_mask;
              do v <- ask (fun L => target L d);
              do it <- ask (fun L => annotation_item L d);
              do _ <- (if M_Items.str_eqb (enc c) (M_Items.text it) then ret tt
                       else do _ <- add_symbol_edge (Text p) v (symbol_item (enc c)); ret tt);
              ret v) L = (L1, Ok (Text (p + symbol_len L p))) /\ same_text L L1 /\ n_loose L1 = n_loose L /\
    forall v x w, arc L1 v x w <-> arc L v x w \/ v = Text p /\ w = Text (p + symbol_len L p) /\ like (symbol_item (enc c)) x.
Proof.
  intros HL Ty Hb Hc. destruct (careful_tidy _ HL) as [G T].
  destruct (first_implicit L p HL Hb) as [L2 [E2 [HL2 C2]]]. destruct (careful_tidy _ HL2) as [G2 T2].
  assert (Hb2 : bit (implicit L2) p = true) by now rewrite (c_implicit _ _ C2).
  pose proof (c_text _ _ C2) as ET. pose proof (len_same _ _ ET) as EL.
  destruct (char_item_at L2 p G2 T2 Hb2) as [EI _]. rewrite (char_item_same _ _ ET) in EI.
  pose proof (g_bits _ G2 p Hb2) as Hle. rewrite EL, ET in Hle. pose proof (bit_in_text _ _ G Hb) as Hlt. pose proof (t_bits _ T p Hb) as Bp.
  unfold bind at 1. rewrite E2. unfold ask at 1. unfold bind at 1. cbn [target]. unfold ask, bind at 1. rewrite EL, EI.
  change (M_Items.text (char_item L p)) with (sub (text L) p (symbol_len L p)).
  destruct (M_Items.str_eqb (enc c) (sub (text L) p (symbol_len L p))) eqn:Es.
  - exists L2. split; [reflexivity|]. split; [split; [assumption|exact (core_typed _ _ C2 Ty)|apply C2|apply C2]|]. split; [apply C2|].
    intros v x w. rewrite (core_arc _ _ C2). split; [now left|]. intros [K|[-> [-> K]]]; [assumption|]. apply char_arc; try assumption.
    apply P_Items.str_eqb_spec in Es. unfold char_item. now rewrite <- Es.
  - pose proof (symbol_len_pos L p) as Hpos.
    destruct (add_symbol L2 (Text p) (Text (p + symbol_len L p)) (symbol_item (enc c)) HL2) as [L3 [e [E3 S3]]].
    + exact (core_typed _ _ C2 Ty).
    + cbn. rewrite ET. apply Nat.leb_le. lia.
    + cbn. rewrite ET. now apply Nat.leb_le.
    + now apply (place_text L).
    + apply (place_text L _ _ ET). apply boundary_step; [apply T|assumption|assumption].
    + intros [= K]. lia.
    + unfold reversed. apply Nat.ltb_ge. lia.
    + intros p' [= <-] _. split; [assumption|]. apply enc_nonempty.
    + right. split; [eauto|]. right. exists p. rewrite EL. now split.
    + exists L3. split; [unfold bind; rewrite E3; reflexivity|]. split; [split; [apply S3|apply S3| |]|split].
      * rewrite (sa_text _ _ _ _ _ S3). exact ET.
      * rewrite (sa_implicit _ _ _ _ _ S3). apply C2.
      * rewrite (sa_loose _ _ _ _ _ S3). apply C2.
      * intros v x w. rewrite (sa_arcs _ _ _ _ _ S3), (core_arc _ _ C2). unfold like. tauto.
Qed.
Lemma replace_prefix whole q b a : forall n L p m, careful_program L -> typed L -> row L p m q -> Forall scalar a -> length a <= m -> length (flat_map enc (a ++ b)) <= n ->
  exists n' L1, length (flat_map enc b) <= n' /\
    replace_loop n (Text p) (Text q) whole (flat_map enc (a ++ b)) L = replace_loop n' (Text (ahead L p (length a))) (Text q) whole (flat_map enc b) L1 /\
    same_text L L1 /\ n_loose L1 = n_loose L /\ row L (ahead L p (length a)) (m - length a) q /\
    forall v x w, arc L1 v x w <-> arc L v x w \/ over L p a v x w.
Proof.
  induction a as [|c a IH]; intros n L p m HL Ty HR Hc Hm Hn.
  - exists n, L. split; [assumption|]. split; [reflexivity|]. split; [now split|]. split; [reflexivity|]. cbn. rewrite Nat.sub_0_r. split; [assumption|tauto].
  - inversion Hc as [|? ? Hc1 Hc2]; subst. destruct m as [|m]; [cbn in Hm; lia|]. pose proof (row_lt _ _ _ _ HR) as Hlt. cbn [row] in HR. destruct HR as [Hb HR].
    cbn [app flat_map] in Hn |- *. rewrite app_length in Hn. pose proof (enc_length c) as He.
    destruct n as [|n]; [lia|]. destruct (replace_one L p c HL Ty Hb Hc1) as [L1 [E1 [S1 [N1 A1]]]].
    destruct (IH n L1 (p + symbol_len L p) m) as [n' [L2 [Hn' [E2 [S2 [N2 [HR2 A2]]]]]]].
    + apply S1.
    + apply S1.
    + apply (row_same L); [apply S1|apply S1|assumption].
    + assumption.
    + cbn in Hm. lia.
    + lia.
    + exists n', L2. split; [assumption|]. split; [|split; [exact (same_trans _ _ _ S1 S2)|split; [lia|split]]].
      * destruct (enc c ++ flat_map enc (a ++ b)) as [|y l] eqn:Ey; [destruct (enc_nonempty c); now apply app_eq_nil in Ey|].
        cbn [replace_loop]. cbn [vertex_eqb]. assert (Nq : (p =? q) = false) by (apply Nat.eqb_neq; lia). rewrite Nq. rewrite <- Ey, (next_enc _ _ Hc1), (append_scalar _ Hc1).
        cbn [length ahead]. rewrite <- (ahead_same L L1) by apply S1. rewrite <- E2.
        unfold bind in E1 |- *. destruct (first_out_edge (Text p) symbol_mask L) as [La [d| |]]; [|discriminate|discriminate].
        unfold ask in E1 |- *. destruct (target La d) as [v| |]; [|discriminate|discriminate]. destruct (annotation_item La d) as [it| |]; [|discriminate|discriminate].
        destruct ((if M_Items.str_eqb (enc c) (M_Items.text it) then ret tt else _) La) as [Lb [u| |]]; [|discriminate|discriminate].
        unfold ret in E1. injection E1 as -> ->. reflexivity.
      * cbn [length ahead Nat.sub]. rewrite (ahead_same L L1) in HR2 by apply S1. apply (row_same L1); [symmetry; apply S1|symmetry; apply S1|assumption].
      * intros v x w. rewrite A2, A1, (over_same L L1) by apply S1. cbn [over]. tauto.
Qed.
Definition shorter (L : lattice) (p m q : nat) (cps : list Z) (v : vertex) (x : item) (w : vertex) : Prop :=
  length cps < m /\ v = Text (ahead L p (length cps)) /\ w = Text (q + symbol_len L q) /\ like (char_item L q) x.
Lemma row_boundary L p n m q : careful_program L -> boundary (text L) p -> row L p m q -> n <= m -> boundary (text L) (ahead L p n).
Proof.
  intros HL. destruct (careful_tidy _ HL) as [G T]. revert p m. induction n as [|n IH]; intros p m Bp HR Hm; [exact Bp|]. destruct m as [|m]; [lia|]. destruct HR as [Hb HR].
  cbn [ahead]. apply (IH _ m); [|assumption|lia]. apply boundary_step; [apply T|assumption|]. now apply bit_in_text.
Qed.
Lemma replace_spec L p m q cps : careful_program L -> typed L -> boundary (text L) p -> row L p m q -> Forall scalar cps -> length cps <= m -> (length cps < m -> bit (implicit L) q = true) ->
  exists L', correction_replace (Text p) (Text q) (flat_map enc cps) L = (L', Ok tt) /\ same_text L L' /\ n_loose L' = n_loose L /\
    forall v x w, arc L' v x w <-> arc L v x w \/ over L p cps v x w \/ shorter L p m q cps v x w.
Proof.
  intros HL Ty Bp HR Hc Hm Hb. destruct (replace_prefix (flat_map enc cps) q [] cps (length (flat_map enc cps)) L p m) as [n' [L1 [_ [E1 [S1 [N1 [HR1 A1]]]]]]]; try assumption.
  { now rewrite app_nil_r. }
  rewrite app_nil_r in E1. cbn [flat_map] in E1. unfold correction_replace, on_no_edge. rewrite E1.
  assert (E0 : forall k u w wh, replace_loop k u w wh [] = correction_erase u w) by (intros [|k]; reflexivity). rewrite E0.
  destruct (Nat.eq_dec (length cps) m) as [Em|Em].
  - rewrite Em, Nat.sub_diag in HR1. cbn in HR1. exists L1. split.
    { rewrite Em, HR1. unfold correction_erase. cbn [vertex_eqb]. now rewrite Nat.eqb_refl. }
    split; [assumption|]. split; [assumption|]. intros v x w. rewrite A1. unfold shorter. rewrite Em. split; [tauto|]. intros [K|[K|[K _]]]; [now left|now right|lia].
  - assert (Hlt : length cps < m) by lia. destruct (m - length cps) as [|k] eqn:Ek; [lia|]. apply row_lt in HR1.
    assert (Hb1 : bit (implicit L1) q = true) by (rewrite (st_implicit _ _ S1); now apply Hb).
    destruct (erase_spec L1 (ahead L p (length cps)) q) as [L2 [E2 [S2 [N2 A2]]]]; try apply S1; try assumption.
    { rewrite (st_text _ _ S1). now apply (row_boundary _ _ _ m q). }
    exists L2. rewrite E2. split; [reflexivity|]. split; [exact (same_trans _ _ _ S1 S2)|]. split; [lia|].
    intros v x w. rewrite A2, A1. unfold shorter. rewrite (len_same L L1), (char_item_same L L1) by apply S1. tauto.
Qed.
Lemma replace_longer_spec L p m q a b : careful_program L -> typed L -> row L p m q -> Forall scalar (a ++ b) -> length a = m -> b <> [] -> bit (implicit L) q = true ->
  exists L1 L', correction_replace (Text p) (Text q) (flat_map enc (a ++ b)) L = (L', Ok tt) /\
    same_text L L1 /\ n_loose L1 = n_loose L /\ (forall v x w, arc L1 v x w <-> arc L v x w \/ over L p a v x w) /\
    correction_insert (Text q) (flat_map enc (a ++ b)) L1 = (L', Ok tt) /\ same_text L1 L' /\ 
    forall v x w, arc L' v x w <-> arc L1 v x w \/ way_arcs (n_loose L1) (Text q) (a ++ b) (char_item L1 q) (Text (q + symbol_len L1 q)) v x w.
Proof.
  intros HL Ty HR Hc Hm Hnb Hb. pose proof Hc as Hc'. apply Forall_app in Hc' as [Ha _].
  destruct (replace_prefix (flat_map enc (a ++ b)) q b a (length (flat_map enc (a ++ b))) L p m) as [n' [L1 [Hn' [E1 [S1 [N1 [HR1 A1]]]]]]]; try assumption; try lia.
  rewrite Hm, Nat.sub_diag in HR1. cbn in HR1.
  assert (Hb1 : bit (implicit L1) q = true) by now rewrite (st_implicit _ _ S1).
  destruct (insert_spec L1 q (a ++ b)) as [L2 [E2 [S2 [N2 A2]]]]; try apply S1; try assumption.
  { intros K. apply app_eq_nil in K as [_ K]. congruence. }
  exists L1, L2. split; [|easy]. unfold correction_replace, on_no_edge. rewrite E1. rewrite Hm, HR1.
  destruct b as [|c r]; [congruence|]. cbn [flat_map] in *. pose proof (enc_length c) as He. rewrite app_length in Hn'. destruct n' as [|n']; [lia|].
  destruct (enc c ++ flat_map enc r) as [|y l] eqn:Ey; [destruct (enc_nonempty c); now apply app_eq_nil in Ey|].
  cbn [replace_loop]. cbn [vertex_eqb]. rewrite Nat.eqb_refl, E2. reflexivity.
Qed.

(** * Theorems *)
Lemma correcting_ok L : correcting L -> careful_program L /\ typed L.
Proof.
  induction 1 as [|L L' o r H [HL Ty] Ho Ha Ht E Hr|L p cps L' r H [HL Ty] Hb Hn Hc E|L p q L' r H [HL Ty] Bp Hpq Hb E|L p m q cps L' r H [HL Ty] Bp HR Hb Hc E].
  - split; [constructor|]. intros k ds p K. discriminate.
  - destruct (careful_tidy _ HL) as [G T]. split; [eapply C_call; eassumption|].
    eapply (call_implicits no_text no_text_eq o L L' r); try eassumption. reflexivity.
  - destruct (insert_spec L p cps HL Ty Hb Hn Hc) as [L1 [E1 [S1 _]]]. rewrite E in E1. injection E1 as <- _. split; apply S1.
  - destruct (Nat.eq_dec p q) as [->|Hne].
    + unfold correction_erase in E. cbn [vertex_eqb] in E. rewrite Nat.eqb_refl in E. injection E as <- _. now split.
    + destruct (erase_spec L p q HL Ty Bp ltac:(lia) Hb) as [L1 [E1 [S1 _]]]. rewrite E in E1. injection E1 as <- _. split; apply S1.
  - destruct (Nat.le_gt_cases (length cps) m) as [Hm|Hm].
    + destruct (replace_spec L p m q cps HL Ty Bp HR Hc Hm ltac:(intros; apply Hb; lia)) as [L1 [E1 [S1 _]]]. rewrite E in E1. injection E1 as <- _. split; apply S1.
    + rewrite <- (firstn_skipn m cps) in E, Hc.
      destruct (replace_longer_spec L p m q (firstn m cps) (skipn m cps) HL Ty HR Hc) as [L1 [L2 [E2 [S1 [_ [_ [_ [S2 _]]]]]]]].
      * rewrite firstn_length. lia.
      * intros K. apply (f_equal (@length Z)) in K. rewrite skipn_length in K. cbn in K. lia.
      * apply Hb. lia.
      * rewrite E in E2. injection E2 as <- _. split; apply S2.
Qed.

(** correctionInsert: the words between the vertices there were before are those there were,
    with the detour over the inserted characters and the character behind them. *)
Theorem C55_insert L p cps : correcting L -> bit (implicit L) p = true -> cps <> [] -> Forall scalar cps ->
  exists L', correction_insert (Text p) (flat_map enc cps) L = (L', Ok tt) /\ correcting L' /\ text L' = text L /\ implicit L' = implicit L /\
    n_loose L' = n_loose L + length cps /\ (forall v x w, arc L v x w -> arc L' v x w) /\
    forall v xs w, valid L v = true -> valid L w = true ->
    (words (arc L') v xs w <->
     detours (arc L) (Text p) (map (fun c => symbol_item (enc c)) cps ++ [char_item L p]) (Text (p + symbol_len L p)) v xs w).
Proof.
  intros H Hb Hn Hc. destruct (correcting_ok _ H) as [HL Ty]. destruct (careful_tidy _ HL) as [G T].
  destruct (insert_spec L p cps HL Ty Hb Hn Hc) as [L' [E [S [N A]]]]. exists L'. split; [assumption|].
  split; [exact (Co_insert L p cps L' _ H Hb Hn Hc E)|]. split; [apply S|]. split; [apply S|]. split; [assumption|]. split; [intros v x w K; apply A; now left|].
  pose proof (g_bits _ G p Hb). apply detour_words; try assumption; cbn; apply Nat.leb_le; lia.
Qed.
Print Assumptions C55_insert.

(** correctionErase adds one symbol edge: over the erased characters and the one behind. *)
Theorem C55_erase L p q : correcting L -> boundary (text L) p -> p < q -> bit (implicit L) q = true ->
  exists L', correction_erase (Text p) (Text q) L = (L', Ok tt) /\ correcting L' /\ text L' = text L /\ implicit L' = implicit L /\ n_loose L' = n_loose L /\
    forall v x w, arc L' v x w <-> arc L v x w \/ v = Text p /\ w = Text (q + symbol_len L q) /\ like (char_item L q) x.
Proof.
  intros H Bp Hpq Hb. destruct (correcting_ok _ H) as [HL Ty].
  destruct (erase_spec L p q HL Ty Bp Hpq Hb) as [L' [E [S [N A]]]]. exists L'. split; [assumption|].
  split; [exact (Co_erase L p q L' _ H Bp ltac:(lia) Hb E)|]. split; [apply S|]. split; [apply S|]. now split.
Qed.
Print Assumptions C55_erase.
(** ... and where no symbol edge goes on it is refused, whatever comes before. *)
Theorem C55_erase_without_symbol L v q : careful_program L -> place L (Text q) -> v <> Text q -> (forall x w, ~ arc L (Text q) x w) ->
  exists L', correction_erase v (Text q) L = (L', Throw WrongVertex) /\ core L L'.
Proof.
  intros HL Pq Hne Hno. assert (K : forall L, careful_program L -> place L (Text q) -> (forall x w, ~ arc L (Text q) x w) ->
    exists L', first_out_edge (Text q) symbol_mask L = (L', Throw NoEdge) /\ careful_program L' /\ core L L').
  { clear. intros L HL Pq Hno. destruct (careful_tidy _ HL) as [G T].
    assert (V : valid L (Text q) = true) by (cbn; apply Nat.leb_le; now apply boundary_wf in Pq).
    destruct (out_edges_total L (Text q) symbol_mask V) as [L1 [l E]].
    pose proof (no_out_listed _ _ _ _ G T Hno E) as ->. exists L1.
    assert (E' : first_out_edge (Text q) symbol_mask L = (L1, Throw NoEdge)) by (unfold first_out_edge, bind; rewrite E; reflexivity). split; [assumption|].
    exact (query_op L L1 (OutEdges (Text q) symbol_mask) _ _ (out_edges_query _ _ symbol_mask_made) eq_refl HL symbol_mask_made Pq E). }
  destruct (K L HL Pq Hno) as [L1 [E1 [HL1 C1]]]. destruct (K L1 HL1) as [L2 [E2 [HL2 C2]]].
  { now apply (place_text L _ _ (c_text _ _ C1)). } { intros x w A. apply (core_arc _ _ C1) in A. now apply Hno in A. }
  exists L2. split; [|eapply core_trans; eassumption]. unfold correction_erase. apply vertex_eqb_false in Hne. rewrite Hne. unfold on_no_edge, bind. rewrite E1, E2. reflexivity.
Qed.
Print Assumptions C55_erase_without_symbol.

(** correctionReplace by a text that is not longer: one symbol edge over every character
    there is a new one for, and one over the rest if there is any. *)
Theorem C55_replace L p m q cps : correcting L -> boundary (text L) p -> row L p m q -> Forall scalar cps -> length cps <= m -> (length cps < m -> bit (implicit L) q = true) ->
  exists L', correction_replace (Text p) (Text q) (flat_map enc cps) L = (L', Ok tt) /\ correcting L' /\ text L' = text L /\ implicit L' = implicit L /\ n_loose L' = n_loose L /\
    forall v x w, arc L' v x w <-> arc L v x w \/ over L p cps v x w \/
      length cps < m /\ v = Text (ahead L p (length cps)) /\ w = Text (q + symbol_len L q) /\ like (char_item L q) x.
Proof.
  intros H Bp HR Hc Hm Hb. destruct (correcting_ok _ H) as [HL Ty].
  destruct (replace_spec L p m q cps HL Ty Bp HR Hc Hm Hb) as [L' [E [S [N A]]]]. exists L'. split; [assumption|].
  split; [apply (Co_replace L p m q cps L' (Ok tt)); try assumption; intros; apply Hb; lia|]. split; [apply S|]. split; [apply S|]. now split.
Qed.
Print Assumptions C55_replace.
(** By a longer text: the characters there is room for replace those of the text, and then
    the whole new text is inserted once more. *)
Theorem C55_replace_longer L p m q a b : correcting L -> boundary (text L) p -> row L p m q -> Forall scalar (a ++ b) -> length a = m -> b <> [] -> bit (implicit L) q = true ->
  exists L1 L', correction_replace (Text p) (Text q) (flat_map enc (a ++ b)) L = (L', Ok tt) /\ correcting L' /\
    text L' = text L /\ implicit L' = implicit L /\ (forall v, valid L1 v = valid L v) /\
    (forall v x w, arc L1 v x w <-> arc L v x w \/ over L p a v x w) /\
    forall v xs w, valid L v = true -> valid L w = true ->
    (words (arc L') v xs w <->
     detours (arc L1) (Text q) (map (fun c => symbol_item (enc c)) (a ++ b) ++ [char_item L q]) (Text (q + symbol_len L q)) v xs w).
Proof.
  intros H Bp HR Hc Hm Hnb Hb. destruct (correcting_ok _ H) as [HL Ty].
  destruct (replace_longer_spec L p m q a b HL Ty HR Hc Hm Hnb Hb) as [L1 [L' [E [S1 [N1 [A1 [E2 [S2 A2]]]]]]]]. exists L1, L'. split; [assumption|].
  assert (Va : forall v, valid L1 v = valid L v) by (intros [x|k]; cbn; [now rewrite (st_text _ _ S1)|now rewrite N1]).
  split; [apply (Co_replace L p m q (a ++ b) L' (Ok tt)); try assumption; now intros _|]. split; [rewrite (st_text _ _ S2); apply S1|]. split; [rewrite (st_implicit _ _ S2); apply S1|].
  split; [assumption|]. split; [assumption|]. intros v xs w Vv Vw. destruct (careful_tidy _ (st_careful _ _ S1)) as [G1 T1].
  rewrite (len_same L L1), (char_item_same L L1) in A2 by apply S1. destruct (careful_tidy _ HL) as [G T]. pose proof (g_bits _ G q Hb).
  apply detour_words; try assumption; try (rewrite Va); try assumption.
  - intros K. apply app_eq_nil in K as [_ K]. congruence.
  - cbn. apply Nat.leb_le. lia.
  - cbn. now apply Nat.leb_le.
Qed.
Print Assumptions C55_replace_longer.

(** * The texts *)
Lemma spelling_app xs ys : spelling (xs ++ ys) = spelling xs ++ spelling ys.
Proof. unfold spelling. now rewrite map_app, concat_app. Qed.
Lemma sub_split T p q r : p <= q <= r -> sub T p (r - p) = sub T p (q - p) ++ sub T q (r - q).
Proof.
  intros H. unfold sub. replace (r - p) with ((q - p) + (r - q)) by lia. rewrite <- firstn_skipn with (n := q - p) (l := firstn (q - p + (r - q)) (skipn p T)).
  f_equal; [rewrite firstn_firstn; f_equal; lia|]. rewrite skipn_firstn_comm, skipn_twice. f_equal; [lia|]. f_equal. lia.
Qed.
Lemma row_words L q m : careful_program L -> forall p, row L p m q ->
  exists xs, words (arc L) (Text p) xs (Text q) /\ spelling xs = sub (text L) p (q - p).
Proof.
  intros HL. destruct (careful_tidy _ HL) as [G T]. induction m as [|m IH]; intros p HR.
  - cbn in HR. subst. exists []. split; [constructor|]. now rewrite Nat.sub_diag.
  - cbn [row] in HR. destruct HR as [Hb HR]. pose proof (row_le _ _ _ _ HR) as Hle. destruct (IH _ HR) as [xs [W E]]. exists (char_item L p :: xs). split.
    + apply W_arc with (Text (p + symbol_len L p)); [|assumption]. apply char_arc; try assumption. apply like_refl.
    + rewrite (sub_split _ p (p + symbol_len L p) q) by lia. rewrite <- E. unfold spelling. cbn [map concat]. f_equal. cbn. f_equal. lia.
Qed.
Lemma row_end L p m : row L p m (length (text L)) -> sub (text L) p (length (text L) - p) = skipn p (text L).
Proof. intros _. unfold sub. apply firstn_all2. rewrite skipn_length. lia. Qed.
Lemma spelling_new cps : spelling (map (fun c => symbol_item (enc c)) cps) = flat_map enc cps.
Proof. induction cps as [|c r IH]; [reflexivity|]. unfold spelling in *. cbn. now rewrite IH. Qed.
Lemma Forall2_like xs : Forall2 like xs xs.
Proof. induction xs; constructor; [apply like_refl|assumption]. Qed.
Lemma over_words (A : vertex -> item -> vertex -> Prop) L cps : forall p, (forall v x w, over L p cps v x w -> A v x w) ->
  words A (Text p) (map (fun c => symbol_item (enc c)) cps) (Text (ahead L p (length cps))).
Proof.
  induction cps as [|c r IH]; intros p H; cbn; [constructor|]. apply W_arc with (Text (p + symbol_len L p)); [apply H; left; repeat split; apply like_refl|].
  apply IH. intros v x w K. apply H. now right.
Qed.
Lemma row_ahead L q m : forall p, row L p m q -> ahead L p m = q.
Proof. induction m as [|m IH]; intros p; cbn; [tauto|]. intros [_ H]. now apply IH. Qed.
(** Where the symbols of the text are as addSymbols made them, a way through the symbol edges
    reads the corrected text. *)
Definition reads (L : lattice) (t : list Z) : Prop := exists xs, words (arc L) (Text 0) xs (Text (length (text L))) /\ spelling xs = t.
Lemma sub_start T p : sub T 0 (p - 0) = firstn p T.
Proof. unfold sub. rewrite Nat.sub_0_r. reflexivity. Qed.
Theorem C55_inserted_text L a p b cps : correcting L -> row L 0 a p -> row L p (S b) (length (text L)) -> cps <> [] -> Forall scalar cps ->
  exists L', correction_insert (Text p) (flat_map enc cps) L = (L', Ok tt) /\
    reads L' (firstn p (text L) ++ flat_map enc cps ++ skipn p (text L)).
Proof.
  intros H R1 R2 Hn Hc. destruct (correcting_ok _ H) as [HL Ty]. destruct (row_words L p a HL 0 R1) as [x1 [W1 E1]]. pose proof R2 as [Hb R3].
  destruct (row_words L _ b HL _ R3) as [x3 [W3 E3]]. destruct (C55_insert L p cps H Hb Hn Hc) as [L' [E [_ [ET [_ [_ [More A]]]]]]]. exists L'. split; [assumption|].
  exists (x1 ++ (map (fun c => symbol_item (enc c)) cps ++ [char_item L p]) ++ x3). rewrite ET. split.
  - apply (words_more (arc L) (arc L')) in W1; [|assumption]. apply (words_more (arc L) (arc L')) in W3; [|assumption]. apply words_app with (Text p); [assumption|].
    apply words_app with (Text (p + symbol_len L p)); [|assumption]. destruct (careful_tidy _ HL) as [G T]. pose proof (g_bits _ G p Hb).
    apply A; [cbn; apply Nat.leb_le; lia|cbn; apply Nat.leb_le; lia|]. set (xs := map _ cps ++ _). rewrite <- (app_nil_r xs) at 2. apply D_way; [apply Forall2_like|constructor].
  - rewrite !spelling_app, spelling_new, E1, E3, sub_start. f_equal. rewrite <- app_assoc. f_equal. rewrite <- (row_end L p (S b) R2).
    pose proof (row_le _ _ _ _ R3). rewrite (sub_split _ p (p + symbol_len L p)) by lia. f_equal. unfold spelling. cbn. rewrite app_nil_r. f_equal. lia.
Qed.
Print Assumptions C55_inserted_text.
Theorem C55_erased_text L a p m q b : correcting L -> row L 0 a p -> row L p m q -> row L q (S b) (length (text L)) ->
  exists L', correction_erase (Text p) (Text q) L = (L', Ok tt) /\ reads L' (firstn p (text L) ++ skipn q (text L)).
Proof.
  intros H R1 R2 R3. destruct (correcting_ok _ H) as [HL Ty]. destruct (careful_tidy _ HL) as [G T]. destruct (row_words L p a HL 0 R1) as [x1 [W1 E1]]. pose proof R3 as [Hb R4].
  destruct (row_words L _ b HL _ R4) as [x3 [W3 E3]]. pose proof (row_le _ _ _ _ R2) as Hpq. pose proof (row_le _ _ _ _ R4) as Hqt.
  assert (Es : spelling (x1 ++ char_item L q :: x3) = firstn p (text L) ++ skipn q (text L)).
  { rewrite spelling_app, E1, sub_start. f_equal. unfold spelling in *. cbn [map concat]. rewrite E3, <- (row_end L q (S b) R3).
    rewrite (sub_split _ q (q + symbol_len L q)) by lia. f_equal. cbn. f_equal. lia. }
  assert (Bp : boundary (text L) p). { rewrite <- (row_ahead L p a 0 R1). apply (row_boundary L 0 a a p HL); [apply boundary_0, T|assumption|lia]. }
  destruct (Nat.eq_dec p q) as [<-|Hne].
  - exists L. split; [unfold correction_erase; cbn [vertex_eqb]; now rewrite Nat.eqb_refl|]. exists (x1 ++ char_item L p :: x3). split; [|assumption].
    apply words_app with (Text p); [assumption|]. apply W_arc with (Text (p + symbol_len L p)); [|assumption]. apply char_arc; try assumption. apply like_refl.
  - destruct (C55_erase L p q H Bp ltac:(lia) Hb) as [L' [E [_ [ET [_ [_ A]]]]]]. exists L'. split; [assumption|]. exists (x1 ++ char_item L q :: x3). rewrite ET. split; [|assumption].
    assert (More : forall v x w, arc L v x w -> arc L' v x w) by (intros v x w K; apply A; now left).
    apply words_app with (Text p); [exact (words_more _ _ _ _ _ More W1)|]. apply W_arc with (Text (q + symbol_len L q)); [|exact (words_more _ _ _ _ _ More W3)].
    apply A. right. split; [reflexivity|]. split; [reflexivity|]. apply like_refl.
Qed.
Print Assumptions C55_erased_text.
Theorem C55_replaced_text L a p m q b cps : correcting L -> row L 0 a p -> row L p m q -> row L q b (length (text L)) -> Forall scalar cps ->
  length cps <= m -> (length cps < m -> 0 < b) ->
  exists L', correction_replace (Text p) (Text q) (flat_map enc cps) L = (L', Ok tt) /\
    reads L' (firstn p (text L) ++ flat_map enc cps ++ skipn q (text L)).
Proof.
  intros H R1 R2 R3 Hc Hm Hb. destruct (correcting_ok _ H) as [HL Ty]. destruct (careful_tidy _ HL) as [G T]. destruct (row_words L p a HL 0 R1) as [x1 [W1 E1]].
  assert (Bp : boundary (text L) p). { rewrite <- (row_ahead L p a 0 R1). apply (row_boundary L 0 a a p HL); [apply boundary_0, T|assumption|lia]. }
  assert (Hbq : length cps < m -> bit (implicit L) q = true) by (intros K; apply Hb in K; destruct b; [lia|apply R3]).
  destruct (C55_replace L p m q cps H Bp R2 Hc Hm Hbq) as [L' [E [_ [ET [_ [_ A]]]]]]. exists L'. split; [assumption|].
  assert (More : forall v x w, arc L v x w -> arc L' v x w) by (intros v x w K; apply A; now left).
  assert (Mid : words (arc L') (Text p) (map (fun c => symbol_item (enc c)) cps) (Text (ahead L p (length cps)))) by (apply over_words; intros v x w K; apply A; tauto).
  destruct (Nat.eq_dec (length cps) m) as [Em|Em].
  - rewrite Em, (row_ahead L q m p R2) in Mid. destruct (row_words L _ b HL _ R3) as [x3 [W3 E3]].
    exists (x1 ++ map (fun c => symbol_item (enc c)) cps ++ x3). rewrite ET. split.
    + apply words_app with (Text p); [exact (words_more _ _ _ _ _ More W1)|]. apply words_app with (Text q); [assumption|exact (words_more _ _ _ _ _ More W3)].
    + rewrite !spelling_app, spelling_new, E1, E3, sub_start. now rewrite (row_end L q b R3).
  - destruct b as [|b]; [assert (0 < 0) by (apply Hb; lia); lia|]. pose proof R3 as [Hbit R4]. destruct (row_words L _ b HL _ R4) as [x3 [W3 E3]]. pose proof (row_le _ _ _ _ R4) as Hqt.
    exists (x1 ++ map (fun c => symbol_item (enc c)) cps ++ char_item L q :: x3). rewrite ET. split.
    + apply words_app with (Text p); [exact (words_more _ _ _ _ _ More W1)|]. apply words_app with (Text (ahead L p (length cps))); [assumption|].
      apply W_arc with (Text (q + symbol_len L q)); [|exact (words_more _ _ _ _ _ More W3)]. apply A. right. right. split; [lia|]. split; [reflexivity|]. split; [reflexivity|]. apply like_refl.
    + rewrite !spelling_app, spelling_new, E1, sub_start. do 2 f_equal. unfold spelling in *. cbn [map concat]. rewrite E3, <- (row_end L q (S b) R3).
      rewrite (sub_split _ q (q + symbol_len L q)) by lia. f_equal. cbn. f_equal. lia.
Qed.
Print Assumptions C55_replaced_text.

(** * The text of lattice_tests.cpp lines 831-1030 *)
Definition cear_calls : list op := [AppendString [99; 101; 97; 114]%Z; AddSymbols (Text 0) (Text 4)].
Definition cear : lattice := after cear_calls new_lattice.
Lemma symbol_correcting L : symbol_program L -> correcting L.
Proof. induction 1; [constructor|]. eapply Co_call; eassumption. Qed.
Example cear_correcting : correcting cear.
Proof. apply symbol_correcting. unfold cear, cear_calls. symbols. Qed.
(** What the symbol edges with the best places in the lists read. *)
Definition best_path (L : lattice) : option (list (list Z) * vertex) :=
  match snd (get_path 20 (Text 0) symbol_mask L) with
  | Ok (s, v) =>
      match snd (usages s L) with
      | Ok l => Some (map (fun u => match annotation_item L (fst u) with Ok it => M_Items.text it | _ => [] end) l, v)
      | _ => None
      end
  | _ => None
  end.
Example C55_case :
  correcting cear /\ row cear 0 1 1 /\ row cear 1 2 3 /\ row cear 3 1 (length (text cear)) /\ Forall scalar [120; 121]%Z /\
  best_path cear = Some ([[99]; [101]; [97]; [114]]%Z, Text 4) /\
  best_path (fst (correction_insert (Text 1) [120; 121]%Z cear)) = Some ([[99]; [120]; [121]; [101]; [97]; [114]]%Z, Text 4) /\
  best_path (fst (correction_erase (Text 1) (Text 3) cear)) = Some ([[99]; [114]]%Z, Text 4) /\
  best_path (fst (correction_replace (Text 1) (Text 3) [120; 121]%Z cear)) = Some ([[99]; [120]; [121]; [114]]%Z, Text 4) /\
  best_path (fst (correction_replace (Text 1) (Text 3) [120]%Z cear)) = Some ([[99]; [120]; [114]]%Z, Text 4).
Proof.
  split; [exact cear_correcting|]. split; [vm_compute; auto|]. split; [vm_compute; auto|]. split; [vm_compute; auto|].
  split; [repeat constructor; unfold scalar; lia|]. repeat split; vm_compute; reflexivity.
Qed.

(** ** What goes wrong *)
(** Insertion at the end of the text: the edge to go on with is looked for when the first
    inserted one is there already.  A single character ends in an exception; ... *)
Theorem C55_insert_one_at_the_end_refuted : snd (correction_insert (Text 4) [120]%Z cear) = Throw LoopEdge.
Proof. vm_compute. reflexivity. Qed.
Print Assumptions C55_insert_one_at_the_end_refuted.
(** ... two or more make a circle, and getPath does not come back. *)
Definition circle : lattice := fst (correction_insert (Text 4) [120; 121]%Z cear).
Theorem C55_insert_at_the_end_refuted :
  snd (correction_insert (Text 4) [120; 121]%Z cear) = Ok tt /\ forall n, snd (get_path n (Text 0) symbol_mask circle) = Undefined.
Proof.
  split; [vm_compute; reflexivity|].
  assert (K1 : out_edges (Loose 0) symbol_mask circle = (circle, Ok [Explicit 1]) /\ target circle (Explicit 1) = Ok (Loose 1)) by (split; vm_compute; reflexivity).
  assert (K2 : out_edges (Loose 1) symbol_mask circle = (circle, Ok [Explicit 2]) /\ target circle (Explicit 2) = Ok (Loose 0)) by (split; vm_compute; reflexivity).
  assert (P : forall p d w, out_edges (Text p) symbol_mask circle = (circle, Ok [d]) -> target circle d = Ok w ->
    (forall n b, snd (path_from n w symbol_mask b circle) = Undefined) -> forall n b, snd (path_from n (Text p) symbol_mask b circle) = Undefined).
  { intros p d w E1 E2 IH [|n] b; [reflexivity|]. cbn [path_from]. unfold bind. rewrite E1. cbn [last]. unfold ask. rewrite E2. apply IH. }
  assert (C : forall n b, snd (path_from n (Loose 0) symbol_mask b circle) = Undefined /\ snd (path_from n (Loose 1) symbol_mask b circle) = Undefined).
  { induction n as [|n IH]; intros b; [now split|]. destruct K1 as [E1 T1], K2 as [E2 T2]. split; cbn [path_from]; unfold bind; [rewrite E1|rewrite E2]; cbn [last]; unfold ask; [rewrite T1|rewrite T2]; apply IH. }
  assert (W : forall n b, snd (path_from n (Text 0) symbol_mask b circle) = Undefined).
  { apply (P 0 (Implicit 0) (Text 1)); [vm_compute; reflexivity|vm_compute; reflexivity|]. apply (P 1 (Implicit 1) (Text 2)); [vm_compute; reflexivity|vm_compute; reflexivity|].
    apply (P 2 (Implicit 2) (Text 3)); [vm_compute; reflexivity|vm_compute; reflexivity|]. apply (P 3 (Implicit 3) (Text 4)); [vm_compute; reflexivity|vm_compute; reflexivity|].
    apply (P 4 (Explicit 0) (Loose 0)); [vm_compute; reflexivity|vm_compute; reflexivity|]. intros n b. apply C. }
  intros n. unfold get_path, bind. destruct (path_from n (Text 0) symbol_mask new_builder circle) as [L' r] eqn:E. pose proof (W n new_builder) as K. rewrite E in K. cbn in K. subst r. reflexivity.
Qed.
Print Assumptions C55_insert_at_the_end_refuted.
(** Erasing up to the end of the text is refused. *)
Theorem C55_erase_at_the_end_refuted : snd (correction_erase (Text 1) (Text 4) cear) = Throw WrongVertex.
Proof. vm_compute. reflexivity. Qed.
Print Assumptions C55_erase_at_the_end_refuted.
(** "ea" by "efg": the text with the new characters in the place of the old ones is nowhere;
    the path reads cefefgr. *)
Definition longer : lattice := fst (correction_replace (Text 1) (Text 3) [101; 102; 103]%Z cear).
Theorem C55_replace_longer_refuted :
  snd (correction_replace (Text 1) (Text 3) [101; 102; 103]%Z cear) = Ok tt /\
  best_path longer = Some ([[99]; [101]; [102]; [101]; [102]; [103]; [114]]%Z, Text 4) /\
  ~ reads longer [99; 101; 102; 103; 114]%Z.
Proof.
  split; [vm_compute; reflexivity|]. split; [vm_compute; reflexivity|]. intros [xs [W E]].
  assert (O : forall v x w, arc longer v x w -> M_Items.text x = [99]%Z /\ v = Text 0 /\ w = Text 1 \/ M_Items.text x = [101]%Z /\ v = Text 1 /\ w = Text 2 \/
    M_Items.text x = [97]%Z /\ v = Text 2 \/ M_Items.text x = [102]%Z /\ v = Text 2 /\ w = Text 3 \/ M_Items.text x = [114]%Z /\ v = Text 3 \/ M_Items.text x = [101]%Z /\ v = Text 3 \/ (exists k, v = Loose k)).
  { intros v x w [d [it [D1 [D2 [D3 [D4 [D5 D6]]]]]]]. assert (Ex : M_Items.text it = M_Items.text x).
    { unfold M_Items.item_eqb in D6. repeat (apply andb_true_iff in D6 as [D6 ?]). apply P_Items.str_eqb_spec. assumption. }
    rewrite <- Ex. clear D2 D6 Ex. destruct d as [p|e].
    - change (bit (implicit longer) p = true) in D1. assert (Hi : implicit longer = [true; true; true; true; false]) by (vm_compute; reflexivity). rewrite Hi in D1. destruct p as [|[|[|[|p]]]]; [vm_compute in D3, D4, D5|vm_compute in D3, D4, D5|vm_compute in D3, D4, D5|vm_compute in D3, D4, D5|].
      + injection D3 as <-. injection D4 as <-. injection D5 as <-. auto 10.
      + injection D3 as <-. injection D4 as <-. injection D5 as <-. auto 10.
      + injection D3 as <-. injection D4 as <-. injection D5 as <-. auto 10.
      + injection D3 as <-. injection D4 as <-. injection D5 as <-. auto 10.
      + clear D3 D4 D5. destruct p as [|[|p]]; discriminate D1.
    - change (e < length (edges longer)) in D1. assert (Hl : length (edges longer) = 5) by (vm_compute; reflexivity). rewrite Hl in D1.
      destruct e as [|[|[|[|[|e]]]]]; [vm_compute in D3, D4, D5|vm_compute in D3, D4, D5|vm_compute in D3, D4, D5|vm_compute in D3, D4, D5|vm_compute in D3, D4, D5|lia];
        injection D3 as <-; injection D4 as <-; injection D5 as <-; eauto 12. }
  assert (Lt : length (text longer) = 4) by (vm_compute; reflexivity). rewrite Lt in W. clear Lt.
  assert (St : forall v xs t, words (arc longer) v xs (Text 4) -> v <> Text 4 -> spelling xs = t -> exists x w ys, arc longer v x w /\ words (arc longer) w ys (Text 4) /\ M_Items.text x ++ spelling ys = t).
  { clear. intros v xs t W Hv E. inversion W as [|? x w ys ? A W']; subst; [now destruct Hv|]. exists x, w, ys. auto. }
  destruct (St _ _ _ W ltac:(discriminate) E) as [x1 [v1 [xs1 [A1 [W1 E1]]]]]. apply O in A1 as [[T1 [_ ->]]|[[_ [K _]]|[[_ K]|[[_ [K _]]|[[_ K]|[[_ K]|[k K]]]]]]]; try discriminate K.
  rewrite T1 in E1. injection E1 as E1.
  destruct (St _ _ _ W1 ltac:(discriminate) E1) as [x2 [v2 [xs2 [A2 [W2 E2]]]]]. apply O in A2 as [[_ [K _]]|[[T2 [_ ->]]|[[_ K]|[[_ [K _]]|[[_ K]|[[_ K]|[k K]]]]]]]; try discriminate K.
  rewrite T2 in E2. injection E2 as E2.
  destruct (St _ _ _ W2 ltac:(discriminate) E2) as [x3 [v3 [xs3 [A3 [W3 E3]]]]]. apply O in A3 as [[_ [K _]]|[[_ [K _]]|[[T3 K]|[[T3 [_ ->]]|[[_ K]|[[_ K]|[k K]]]]]]]; try discriminate K.
  { rewrite T3 in E3. discriminate E3. }
  rewrite T3 in E3. injection E3 as E3.
  destruct (St _ _ _ W3 ltac:(discriminate) E3) as [x4 [v4 [xs4 [A4 [W4 E4]]]]]. apply O in A4 as [[_ [K _]]|[[_ [K _]]|[[_ K]|[[_ [K _]]|[[T4 K]|[[T4 K]|[k K]]]]]]]; try discriminate K;
    rewrite T4 in E4; discriminate E4.
Qed.
Print Assumptions C55_replace_longer_refuted.
(** Nothing to insert: the vertex to go on from has no value. *)
Theorem C55_insert_nothing_refuted : snd (correction_insert (Text 1) [] cear) = Undefined.
Proof. vm_compute. reflexivity. Qed.
Print Assumptions C55_insert_nothing_refuted.
(** A second insertion at the same place goes around the first: the path does not have both. *)
Theorem C55_insert_twice_refuted :
  best_path (fst (correction_insert (Text 1) [122]%Z (fst (correction_insert (Text 1) [120; 121]%Z cear)))) = Some ([[99]; [122]; [101]; [97]; [114]]%Z, Text 4).
Proof. vm_compute. reflexivity. Qed.
Print Assumptions C55_insert_twice_refuted.
(** An insertion in front of an inserted character reads outside of the bits. *)
Theorem C55_insert_at_loose_refuted : snd (correction_insert (Loose 0) [122]%Z (fst (correction_insert (Text 1) [120; 121]%Z cear))) = Undefined.
Proof. vm_compute. reflexivity. Qed.
Print Assumptions C55_insert_at_loose_refuted.

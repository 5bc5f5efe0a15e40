(** Lemmas on the building of the packed automaton of rules: reading the lines, numbering the words,
    ordering the states by accesses. *)
From Coq Require Import List ZArith Bool Sorted Permutation Lia PeanoNat.
From Verif Require Import M_OrdSet L_OrdSet M_Fsa M_BinFsa L_BinFsa L_Daciuk M_HashFsa L_HashFsa M_Minfsa L_Minfsa M_Dag.
Import ListNotations.
Local Open Scope nat_scope.

Definition strip (x : warc) : arc := (x_sym x, x_dest x).
Definition arm (x : arc) : warc := Warc (fst x) (snd x) 0.
Definition bin_of (g : dag) : bin := Bin (g_states g) (map strip (g_arcs g)).
Lemma row_bin g p : g_row g p = b_range (bin_of g) p.
Proof. unfold g_row, b_range, b_size, b_pos, b_state. cbn [bin_of b_states b_arcs]. now rewrite map_length. Qed.
Lemma end_bin g p : g_is_end g p = b_is_end (bin_of g) p.
Proof. reflexivity. Qed.
Definition aview (A : auto) : view := View (length A) [0] [] (fun p => p =? 0) (a_end A) (a_arcs A).

(** ** Reading *)
Definition tidy_lines (A : auto) (l : list nat) : list line := flat_map (fun p => end_out A p ++ arcs_out A p) l.
Lemma strip_arm l : map strip (map arm l) = l.
Proof. rewrite map_map. rewrite <- (map_id l) at 2. apply map_ext. now intros [a q]. Qed.
Lemma read_arcs p l : forall g, fold_left read_line (arc_lines (p, l)) (S p, g) = (S p, Dag (g_states g) (g_arcs g ++ map arm l)).
Proof.
  unfold arc_lines. cbn [fst snd]. induction l as [|[a q] l IH]; intros g; cbn [map fold_left].
  - rewrite app_nil_r. now destruct g.
  - cbn [read_line fst snd]. rewrite (proj2 (Nat.eqb_neq (S p) p)) by lia. rewrite IH. cbn [g_states g_arcs]. now rewrite <- app_assoc.
Qed.
Lemma build_lines A2 : forall A1 g, small (length (all_arcs (A1 ++ A2))) -> (forall x, In x A2 -> fst x <> [] \/ snd x = true) ->
  g_states g = posns 0 A1 -> g_arcs g = map arm (all_arcs A1) ->
  fold_left read_line (tidy_lines (A1 ++ A2) (seq (length A1) (length A2))) (length A1, g) =
  (length (A1 ++ A2), Dag (posns 0 (A1 ++ A2)) (map arm (all_arcs (A1 ++ A2)))).
Proof.
  induction A2 as [|[l e] A2 IH]; intros A1 g Sm Hn E1 E2; cbn [length seq].
  - rewrite app_nil_r. cbn. destruct g. cbn in *. now subst.
  - change (tidy_lines (A1 ++ (l, e) :: A2) (length A1 :: seq (S (length A1)) (length A2)))
      with ((end_out (A1 ++ (l, e) :: A2) (length A1) ++ arcs_out (A1 ++ (l, e) :: A2) (length A1)) ++
            tidy_lines (A1 ++ (l, e) :: A2) (seq (S (length A1)) (length A2))).
    rewrite fold_left_app. unfold end_out, arcs_out. rewrite a_end_mid, a_arcs_mid.
    assert (S1 : small (length (all_arcs A1))) by (eapply small_le; [|exact Sm]; rewrite all_arcs_app, app_length; lia).
    assert (Ep : posns 0 (A1 ++ [(l, e)]) = posns 0 A1 ++ [enc (length (all_arcs A1)) e]) by (rewrite posns_app; reflexivity).
    assert (Ea : map arm (all_arcs (A1 ++ [(l, e)])) = map arm (all_arcs A1) ++ map arm l) by (rewrite all_arcs_app; cbn; now rewrite app_nil_r, map_app).
    assert (K : fold_left read_line ((if e then [End (length A1)] else []) ++ arc_lines (length A1, l)) (length A1, g) =
      (length (A1 ++ [(l, e)]), Dag (posns 0 (A1 ++ [(l, e)])) (map arm (all_arcs (A1 ++ [(l, e)]))))).
    { rewrite Ep, Ea, app_length. cbn [length]. rewrite Nat.add_1_r. rewrite fold_left_app.
      assert (Es : u32 (Z.of_nat (length (g_arcs g))) = Z.of_nat (length (all_arcs A1))) by (rewrite E2, map_length; now apply enc_u32).
      destruct e; cbn [fold_left].
      - cbn [read_line]. rewrite Nat.eqb_refl, Es, read_arcs. cbn [g_states g_arcs]. rewrite E1, E2. unfold set_last_bit. now rewrite lor_top.
      - destruct l as [|[a q] l]; [destruct (Hn ([], false) (or_introl eq_refl)); cbn in *; congruence|].
        change (arc_lines (length A1, (a, q) :: l)) with (Arc (length A1) q a :: arc_lines (length A1, l)). cbn [fold_left read_line]. rewrite Nat.eqb_refl.
        rewrite read_arcs. cbn [g_states g_arcs]. rewrite Es, E1, E2. f_equal. f_equal.
        + unfold enc. now rewrite Z.add_0_r.
        + rewrite <- app_assoc. reflexivity. }
    rewrite K. replace (A1 ++ (l, e) :: A2) with ((A1 ++ [(l, e)]) ++ A2) in * by now rewrite <- app_assoc.
    replace (S (length A1)) with (length (A1 ++ [(l, e)])) by (rewrite app_length; cbn; lia).
    apply IH; [assumption| |reflexivity|reflexivity]. intros x Hx. apply Hn. now right.
Qed.
Lemma build_rep A : small (length (all_arcs A)) -> (forall x, In x A -> fst x <> [] \/ snd x = true) ->
  build_from_text (tidy_lines A (seq 0 (length A))) = Dag (posns 0 A) (map arm (all_arcs A)) /\
  rep A (bin_of (build_from_text (tidy_lines A (seq 0 (length A))))).
Proof.
  intros Sm Hn. assert (E : build_from_text (tidy_lines A (seq 0 (length A))) = Dag (posns 0 A) (map arm (all_arcs A))).
  { unfold build_from_text. pose proof (build_lines A [] (Dag [] []) Sm Hn eq_refl eq_refl) as K. cbn [app length] in K. now rewrite K. }
  split; [exact E|]. rewrite E. split; [reflexivity|]. cbn [bin_of b_arcs g_arcs]. rewrite strip_arm. now split.
Qed.

(** ** Numbering *)
Lemma nth_ext_same {X} (d : X) l k : length l = length k -> (forall i, i < length l -> nth i l d = nth i k d) -> l = k.
Proof. intros E H. apply (nth_ext l k d d E H). Qed.
Section Count.
Context (A : auto) (g : dag) (R : rep A (bin_of g)) (D : forall p x, In x (a_arcs A p) -> snd x < length A).
Notation d0 := (Warc 0 0 0).
Definition wts (arcs : list warc) (p : nat) : list Z := map (fun i => x_wt (nth (offset A p + i) arcs d0)) (seq 0 (length (a_arcs A p))).
Definition sim (c : counts) (x : list warc * list Z) : Prop :=
  snd x = c_counts c /\ map strip (fst x) = all_arcs A /\ length (c_weights c) = length A /\
  forall p, p < length A -> nth p (c_weights c) [] = wts (fst x) p.
Lemma offset_mono p q : p <= q -> q <= length A -> offset A p <= offset A q.
Proof.
  intros L Lq. unfold offset. replace (firstn p A) with (firstn p (firstn q A)) by (rewrite firstn_firstn; f_equal; lia).
  rewrite <- (firstn_skipn p (firstn q A)) at 2. rewrite all_arcs_app, app_length. lia.
Qed.
Lemma offset_bound p i : p < length A -> i < length (a_arcs A p) -> offset A p + i < length (all_arcs A).
Proof.
  intros Hp Hi. pose proof (offset_mono (S p) (length A) Hp (le_n _)) as M. unfold offset at 2 in M. rewrite firstn_all in M.
  rewrite offset_succ in M by assumption. lia.
Qed.
Lemma offset_apart p i q j : p < length A -> i < length (a_arcs A p) -> q < length A -> j < length (a_arcs A q) -> p <> q ->
  offset A p + i <> offset A q + j.
Proof.
  intros Hp Hi Hq Hj N. destruct (Nat.lt_trichotomy p q) as [L|[L|L]]; [|contradiction|].
  - pose proof (offset_mono (S p) q L ltac:(lia)) as M. rewrite offset_succ in M by assumption. lia.
  - pose proof (offset_mono (S q) p L ltac:(lia)) as M. rewrite offset_succ in M by assumption. lia.
Qed.
Lemma strip_weight i z arcs : map strip (set_weight i z arcs) = map strip arcs.
Proof. unfold set_weight. revert i. induction arcs as [|x arcs IH]; intros [|i]; cbn; [reflexivity..|]. now rewrite IH. Qed.
Lemma sim_len c x : sim c x -> length (fst x) = length (all_arcs A).
Proof. intros (_ & E & _). rewrite <- E. now rewrite map_length. Qed.
Lemma sim_weight c arcs tn s i z : sim c (arcs, tn) -> s < length A -> i < length (a_arcs A s) ->
  sim (c_weight c s i z) (set_weight (offset A s + i) z arcs, tn).
Proof.
  intros Hs Hb Hi. pose proof (sim_len _ _ Hs) as Ll. pose proof (offset_bound s i Hb Hi) as Lb. destruct Hs as (E1 & E2 & E3 & E4). cbn [fst snd] in *.
  split; [exact E1|]. split; [cbn [fst]; now rewrite strip_weight|]. split; [cbn; now rewrite update_len|].
  intros p Hp. cbn [c_weight c_weights fst]. rewrite nth_upd by lia. unfold wts, set_weight. destruct (Nat.eqb_spec p s) as [->|N].
  - rewrite (E4 s Hb). unfold wts. apply (nth_ext_same 0%Z); [now rewrite update_len, !map_length|]. intros j Hj.
    rewrite update_len, map_length, seq_length in Hj. rewrite nth_upd by (rewrite map_length, seq_length; lia).
    assert (G : forall h, nth j (map h (seq 0 (length (a_arcs A s)))) 0%Z = h j).
    { intros h. rewrite (nth_indep _ 0%Z (h 0)) by (rewrite map_length, seq_length; lia). rewrite map_nth, seq_nth by lia. reflexivity. }
    rewrite !G. rewrite nth_upd by lia. destruct (Nat.eqb_spec j i) as [->|Nj].
    + now rewrite Nat.eqb_refl.
    + destruct (Nat.eqb_spec (offset A s + j) (offset A s + i)); [lia|reflexivity].
  - rewrite (E4 p Hp). unfold wts. apply map_ext_in. intros j Hj. apply in_seq in Hj. rewrite nth_upd by lia.
    destruct (Nat.eqb_spec (offset A p + j) (offset A s + i)) as [K|]; [|reflexivity]. exfalso. apply (offset_apart p j s i); assumption || lia.
Qed.
Lemma sim_set c arcs tn s z : sim c (arcs, tn) -> sim (c_set c s z) (arcs, update s (fun _ => z) tn).
Proof. intros (E1 & E2 & E3 & E4). cbn [fst snd] in *. split; [cbn; now rewrite E1|]. split; [assumption|]. split; [exact E3|exact E4]. Qed.
Lemma sim_dest c x s i : sim c x -> s < length A -> i < length (a_arcs A s) -> x_dest (nth (offset A s + i) (fst x) d0) = snd (nth i (a_arcs A s) (0%Z, 0)).
Proof.
  intros (_ & E & _) Hs Hi. rewrite <- (nth_all A s i (0%Z, 0) Hs Hi), <- E. change (0%Z, 0) with (strip d0). rewrite map_nth. reflexivity.
Qed.
Definition follows (c : option counts) (x : option (list warc * list Z)) : Prop :=
  match c with Some c => exists x', x = Some x' /\ sim c x' | None => x = None end.
Lemma sim_arcs rec rec' s : s < length A ->
  (forall q c x, q < length A -> sim c x -> follows (rec q c) (rec' q x)) ->
  forall l2 l1 c x, a_arcs A s = l1 ++ l2 -> sim c x ->
    follows (number_arcs u32 rec s (length l1) l2 c) (count_arcs rec' s (length l2) (offset A s + length l1) x).
Proof.
  intros Hs Hr. induction l2 as [|[a q] l2 IH]; intros l1 c [arcs tn] E Hm; cbn [number_arcs count_arcs length]; [now exists (arcs, tn)|].
  assert (Hi : length l1 < length (a_arcs A s)) by (rewrite E, app_length; cbn; lia).
  pose proof (sim_dest c (arcs, tn) s (length l1) Hm Hs Hi) as Ed. cbn [fst] in Ed.
  assert (Eq : nth (length l1) (a_arcs A s) (0%Z, 0) = (a, q)) by (rewrite E; apply (nth_middle l1 l2)).
  rewrite Eq in Ed. cbn [snd] in Ed. rewrite Ed.
  assert (Hq : q < length A). { apply (D s (a, q)). rewrite E. apply in_app_iff. right. now left. }
  pose proof (sim_weight c arcs tn s (length l1) (u32 (nth s tn 0%Z)) Hm Hs Hi) as S1.
  assert (Ec : c_get c s = nth s tn 0%Z) by (destruct Hm as (E1 & _); cbn in E1; unfold c_get; now rewrite <- E1). rewrite Ec.
  specialize (Hr q _ _ Hq S1). change (w32 (nth s tn 0%Z)) with (u32 (nth s tn 0%Z)). destruct (rec q _) as [c2|]; cbn [follows] in Hr.
  - destruct Hr as ([arcs2 tn2] & -> & S2).
    assert (E2 : c_counts c2 = tn2) by (destruct S2 as (K & _); now cbn in K). unfold c_get at 1 2. rewrite E2.
    replace (S (length l1)) with (length (l1 ++ [(a, q)])) by (rewrite app_length; cbn; lia).
    replace (S (offset A s + length l1)) with (offset A s + length (l1 ++ [(a, q)])) by (rewrite app_length; cbn; lia).
    apply IH; [now rewrite <- app_assoc|now apply sim_set].
  - now rewrite Hr.
Qed.
Lemma sim_words : forall fuel s c x, s < length A -> sim c x -> follows (number_words u32 fuel (aview A) s c) (count_words fuel g s x).
Proof.
  induction fuel as [|fuel IH]; intros s c x Hs Hm; cbn [number_words count_words]; [reflexivity|].
  assert (Ec : c_get c s = nth s (snd x) 0%Z) by (destruct Hm as (E1 & _); unfold c_get; now rewrite <- E1). rewrite Ec.
  destruct (Z.eqb_spec (nth s (snd x) 0%Z) 0) as [E|N]; [|now exists x].
  rewrite row_bin, (rep_range _ _ R s Hs), offset_succ, Nat.add_comm, Nat.add_sub by assumption. cbn [aview v_arcs].
  pose proof (sim_arcs (number_words u32 fuel (aview A)) (count_words fuel g) s Hs (fun q c x Hq => IH q c x Hq) (a_arcs A s) [] c x eq_refl Hm) as K.
  cbn [length] in K. rewrite Nat.add_0_r in K. change (v_arcs (aview A) s) with (a_arcs A s).
  destruct (number_arcs u32 (number_words u32 fuel (aview A)) s 0 (a_arcs A s) c) as [c1|]; cbn [follows] in *; [|now rewrite K].
  destruct K as ([arcs tn] & -> & S1). rewrite end_bin, (rep_end _ _ R s Hs). cbn [aview v_is_end]. eexists. split; [reflexivity|].
  destruct (a_end A s); [|assumption]. assert (E2 : c_counts c1 = tn) by (destruct S1 as (K & _); now cbn in K). unfold c_get. rewrite E2. now apply sim_set.
Qed.
End Count.

(** ** Words to a state and words from it *)
Lemma nodup_app {X} (l k : list X) : NoDup l -> NoDup k -> (forall x, In x l -> ~ In x k) -> NoDup (l ++ k).
Proof.
  induction 1 as [|x l Hx Hl IH]; intros Hk H; cbn; [assumption|]. constructor.
  - intros K. apply in_app_iff in K as [K|K]; [contradiction|]. now apply (H x (or_introl eq_refl)).
  - apply IH; [assumption|]. intros y Hy. apply H. now right.
Qed.
Lemma nodup_flat {X Y} (h : X -> list Y) l : NoDup l -> (forall x, In x l -> NoDup (h x)) ->
  (forall x y z, In x l -> In y l -> In z (h x) -> In z (h y) -> x = y) -> NoDup (flat_map h l).
Proof.
  induction 1 as [|x l Hx Hl IH]; intros H1 H2; cbn; [constructor|]. apply nodup_app.
  - apply H1. now left.
  - apply IH; [intros y Hy; apply H1; now right|]. intros y z t Hy Hz. apply H2; now right.
  - intros t Ht K. apply in_flat_map in K as (y & Hy & K). apply Hx. rewrite (H2 x y t (or_introl eq_refl) (or_intror Hy) Ht K). exact Hy.
Qed.
Lemma flat_length {X Y} (h : X -> list Y) l : length (flat_map h l) = list_sum (map (fun x => length (h x)) l).
Proof. induction l as [|x l IH]; cbn; [reflexivity|]. now rewrite app_length, IH. Qed.
Lemma inc_str l : increasing str_ltb l -> NoDup l.
Proof.
  unfold increasing. induction 1 as [|w l Hl IH Hw]; constructor; [|assumption]. rewrite Forall_forall in Hw. intros K. specialize (Hw w K).
  destruct str_ltb_strict as [Ir _ _]. rewrite (Ir w) in Hw. discriminate.
Qed.
Lemma nodup_map_inj {X Y} (h : X -> Y) l : NoDup l -> (forall x y, In x l -> In y l -> h x = h y -> x = y) -> NoDup (map h l).
Proof.
  induction 1 as [|x l Hx Hl IH]; intros H; cbn; constructor.
  - intros K. apply in_map_iff in K as (y & E & Hy). apply Hx. rewrite (H x y); [assumption|now left|now right|congruence].
  - apply IH. intros y z Hy Hz. apply H; now right.
Qed.
Section Flow.
Context (A : auto) (HI : sorted_view (aview A)) (HC : closed_view (aview A)) (HA : acyclic (aview A)) (H0 : 0 < length A).
Notation f := (aview A).
(** All states taken for end states, the words are all the ways from a state. *)
Definition open_view : view := View (length A) [0] [] (fun p => p =? 0) (fun _ => true) (a_arcs A).
Lemma rows_inc p : inc (a_arcs A p).
Proof. exact (HI p). Qed.
Lemma spelt_walk p w q : spelt f p w q <-> walk A p w = Some q.
Proof.
  revert p. induction w as [|a w IH]; intros p; cbn [walk].
  - split; [intros H; now inversion H|intros [= <-]; constructor].
  - split.
    + intros H. inversion H as [|? ? c ? ? H1 H2]; subst. rewrite (look_some _ a c (rows_inc p) H1). now apply IH.
    + destruct (look (a_arcs A p) a) as [c|] eqn:E; [|discriminate]. intros H. apply look_in in E. econstructor; [exact E|]. now apply IH.
Qed.
Lemma spelt_open p w q : spelt open_view p w q <-> spelt f p w q.
Proof. split; (induction 1 as [p|p a c w r Hx H IH]; [constructor|econstructor; [exact Hx|assumption]]). Qed.
Lemma open_acyclic : acyclic open_view.
Proof. intros p w N H. apply (HA p w N). now apply spelt_open. Qed.
Definition is_at (q : nat) (u : list M_Fsa.symbol) : bool := match walk A 0 u with Some p => p =? q | None => false end.
Definition paths (q : nat) : list (list M_Fsa.symbol) := filter (is_at q) (words_of open_view 0).
Lemma in_paths q u : In u (paths q) <-> walk A 0 u = Some q.
Proof.
  unfold paths. rewrite filter_In, (in_words open_view HC open_acyclic 0 H0). unfold is_at. split.
  - intros [_ H]. destruct (walk A 0 u) as [p|]; [|discriminate]. apply Nat.eqb_eq in H. congruence.
  - intros H. rewrite H, Nat.eqb_refl. split; [|reflexivity]. exists q. split; [|reflexivity]. apply spelt_open. now apply spelt_walk.
Qed.
Lemma paths_nodup q : NoDup (paths q).
Proof. apply NoDup_filter, inc_str, (words_sorted open_view HI HC open_acyclic 0 H0). Qed.
Definition P (q : nat) : nat := length (paths q).
Definition dests_of (p : nat) : list nat := map snd (a_arcs A p).
Definition flow (q : nat) (l : list nat) : nat := list_sum (map (fun i => count_occ Nat.eq_dec (dests_of i) q * P i) l).
Lemma walk_snoc p u q a r : walk A p u = Some q -> look (a_arcs A q) a = Some r -> walk A p (u ++ [a]) = Some r.
Proof. intros H1 H2. rewrite walk_app, H1. cbn [walk]. now rewrite H2. Qed.
Lemma flow_paths q : q < length A -> (if q =? 0 then 1 else 0) + flow q (seq 0 (length A)) <= P q.
Proof.
  intros Hq.
  set (G := fun i => flat_map (fun x : arc => if snd x =? q then map (fun u => u ++ [fst x]) (paths i) else []) (a_arcs A i)).
  assert (Lg : forall i, length (G i) = count_occ Nat.eq_dec (dests_of i) q * P i).
  { intros i. unfold G, dests_of, P.
    induction (a_arcs A i) as [|x l IH]; cbn [flat_map map count_occ]; [reflexivity|]. rewrite app_length, IH.
    destruct (Nat.eq_dec (snd x) q) as [->|N]; [rewrite Nat.eqb_refl, map_length; lia|]. now rewrite (proj2 (Nat.eqb_neq _ _) N). }
  assert (In_G : forall i w, In w (G i) -> exists u a, w = u ++ [a] /\ walk A 0 u = Some i /\ look (a_arcs A i) a = Some q).
  { intros i w Hw. apply in_flat_map in Hw as ([a c] & Hx & Hw). cbn [fst snd] in Hw. destruct (Nat.eqb_spec c q) as [->|]; [|destruct Hw].
    apply in_map_iff in Hw as (u & <- & Hu). exists u, a. split; [reflexivity|]. split; [now apply in_paths|]. apply look_some; [apply rows_inc|assumption]. }
  set (L := (if q =? 0 then [[]] else []) ++ flat_map G (seq 0 (length A))).
  assert (EL : length L = (if q =? 0 then 1 else 0) + flow q (seq 0 (length A))).
  { unfold L. rewrite app_length, flat_length. unfold flow. f_equal; [now destruct (q =? 0)|]. f_equal. apply map_ext. exact Lg. }
  rewrite <- EL. unfold P. apply NoDup_incl_length.
  - unfold L. apply nodup_app.
    + destruct (q =? 0); repeat constructor; intros [].
    + apply nodup_flat; [apply seq_NoDup| |].
      * intros i _. unfold G. apply nodup_flat.
        -- pose proof (rows_inc i) as K. unfold inc in K. clear -K. induction K as [|x l Hl IH Hx]; constructor; [|assumption].
           rewrite Forall_forall in Hx. intros K. specialize (Hx x K). lia.
        -- intros x _. destruct (snd x =? q); [|constructor]. apply nodup_map_inj; [apply paths_nodup|]. intros u v _ _ E. now apply app_inj_tail in E.
        -- intros [a c] [b d] w Hx Hy Hw Hv. cbn [fst snd] in *. destruct (Nat.eqb_spec c q) as [->|]; [|destruct Hw]. destruct (Nat.eqb_spec d q) as [->|]; [|destruct Hv].
           apply in_map_iff in Hw as (u & <- & _). apply in_map_iff in Hv as (v & E & _). apply app_inj_tail in E as [_ ->]. reflexivity.
      * intros i j w _ _ Hw Hv. destruct (In_G i w Hw) as (u & a & -> & Eu & _). destruct (In_G j _ Hv) as (v & b & E & Ev & _).
        apply app_inj_tail in E as [-> _]. congruence.
    + intros w Hw K. destruct (q =? 0); [destruct Hw as [<-|[]]|destruct Hw]. apply in_flat_map in K as (i & _ & K).
      destruct (In_G i [] K) as (u & a & E & _). destruct u; discriminate.
  - intros w Hw. apply in_paths. unfold L in Hw. apply in_app_iff in Hw as [Hw|Hw].
    + destruct (Nat.eqb_spec q 0) as [->|]; [|destruct Hw]. destruct Hw as [<-|[]]. reflexivity.
    + apply in_flat_map in Hw as (i & _ & Hw). destruct (In_G i w Hw) as (u & a & -> & Eu & El). now apply (walk_snoc 0 u i).
Qed.
Lemma walk_cut u : forall p v u' v', u ++ v = u' ++ v' -> forall q, walk A p u = Some q -> walk A p u' = Some q -> u = u'.
Proof.
  intros p v u' v' E q H H'. destruct (Nat.lt_trichotomy (length u) (length u')) as [L|[L|L]].
  - exfalso. assert (K : exists t, u' = u ++ t /\ t <> []).
    { exists (skipn (length u) u'). assert (Ef : firstn (length u) u' = u).
      { transitivity (firstn (length u) (u' ++ v')); [rewrite firstn_app; replace (length u - length u') with 0 by lia; now rewrite firstn_O, app_nil_r|].
        rewrite <- E, firstn_app, Nat.sub_diag, firstn_O, app_nil_r. apply firstn_all. }
      split; [rewrite <- Ef at 1; symmetry; apply firstn_skipn|]. intros K. apply (f_equal (@length _)) in K. rewrite skipn_length in K. cbn in K. lia. }
    destruct K as (t & -> & N). rewrite walk_app, H in H'. apply (HA q t N). now apply spelt_walk.
  - transitivity (firstn (length u) (u ++ v)); [rewrite firstn_app, Nat.sub_diag, firstn_O, app_nil_r; symmetry; apply firstn_all|].
    rewrite E, L, firstn_app, Nat.sub_diag, firstn_O, app_nil_r. apply firstn_all.
  - exfalso. assert (K : exists t, u = u' ++ t /\ t <> []).
    { exists (skipn (length u') u). assert (Ef : firstn (length u') u = u').
      { transitivity (firstn (length u') (u ++ v)); [rewrite firstn_app; replace (length u' - length u) with 0 by lia; now rewrite firstn_O, app_nil_r|].
        rewrite E, firstn_app, Nat.sub_diag, firstn_O, app_nil_r. apply firstn_all. }
      split; [rewrite <- Ef at 1; symmetry; apply firstn_skipn|]. intros K. apply (f_equal (@length _)) in K. rewrite skipn_length in K. cbn in K. lia. }
    destruct K as (t & -> & N). rewrite walk_app, H' in H. apply (HA q t N). now apply spelt_walk.
Qed.
Lemma through q : q < length A -> P q * cnt f q <= cnt f 0.
Proof.
  intros Hq. set (L := flat_map (fun u => map (app u) (words_of f q)) (paths q)).
  assert (EL : length L = P q * cnt f q).
  { unfold L, P, cnt. rewrite flat_length. induction (paths q) as [|u l IH]; cbn; [reflexivity|]. rewrite map_length. f_equal. exact IH. }
  rewrite <- EL. unfold cnt. apply NoDup_incl_length.
  - apply nodup_flat; [apply paths_nodup| |].
    + intros u _. apply nodup_map_inj; [apply inc_str, (words_sorted f HI HC HA q Hq)|]. intros x y _ _ E. now apply app_inv_head in E.
    + intros u u' w Hu Hu' Hw Hw'. apply in_map_iff in Hw as (v & <- & _). apply in_map_iff in Hw' as (v' & E & _).
      apply in_paths in Hu, Hu'. apply (walk_cut u 0 v u' v' (eq_sym E) q); assumption.
  - intros w Hw. apply in_flat_map in Hw as (u & Hu & Hw). apply in_map_iff in Hw as (v & <- & Hv). apply in_paths in Hu.
    apply (in_words f HC HA q Hq) in Hv as (r & Hv & He). apply (in_words f HC HA 0 H0). exists r. split; [|assumption].
    apply spelt_walk. rewrite walk_app, Hu. now apply spelt_walk.
Qed.
End Flow.

(** ** Branching factors and accesses *)
Lemma u32_small z : (0 <= z < 2 ^ 31)%Z -> u32 z = z.
Proof. unfold u32. intros H. apply Z.mod_small. lia. Qed.
Section Sums.
Context (n : nat).
Definition under (c : list Z) (B : nat -> nat) : Prop := length c = n /\ forall q, q < n -> (0 <= nth q c 0 <= Z.of_nat (B q))%Z.
Lemma under_le c B B' : under c B -> (forall q, q < n -> B q <= B' q) -> under c B'.
Proof. intros [L H] K. split; [assumption|]. intros q Hq. specialize (H q Hq). specialize (K q Hq). lia. Qed.
Lemma add_row (h : nat -> list Z -> Z) (K top : nat -> nat) : (forall q, q < n -> (Z.of_nat (top q) < 2 ^ 31)%Z) ->
  (forall q c, q < n -> under c top -> (0 <= h q c <= Z.of_nat (K q))%Z) ->
  forall l c B, under c B -> (forall q, q < n -> B q + count_occ Nat.eq_dec l q * K q <= top q) -> (forall q, In q l -> q < n) ->
  let c' := fold_left (fun c q => update q (fun z => u32 (z + h q c)%Z) c) l c in
  under c' (fun q => B q + count_occ Nat.eq_dec l q * K q) /\ forall q, q < n -> (nth q c 0 <= nth q c' 0)%Z.
Proof.
  intros Ht Hh. induction l as [|q l IH]; intros c B [Lc Hc] HB Hl; cbn [fold_left].
  - split; [|intros; lia]. split; [assumption|]. intros p Hp. specialize (Hc p Hp). cbn. lia.
  - set (c1 := update q (fun z => u32 (z + h q c)%Z) c). set (B1 := fun p => B p + if p =? q then K q else 0).
    assert (Hq : q < n) by (apply Hl; now left).
    assert (Uc : under c top) by (apply (under_le c B); [now split|]; intros p Hp; specialize (HB p Hp); lia).
    assert (Eq : B q + K q <= top q).
    { specialize (HB q Hq). cbn [count_occ] in HB. destruct (Nat.eq_dec q q); [|contradiction]. cbn [Nat.mul] in HB. lia. }
    pose proof (Hh q c Hq Uc) as Hv. pose proof (Hc q Hq) as Hcq. pose proof (Ht q Hq) as Htq.
    assert (E1 : forall p, p < n -> nth p c1 0%Z = (nth p c 0 + if (p =? q)%nat then h q c else 0)%Z).
    { intros p Hp. unfold c1. rewrite nth_upd by lia. destruct (Nat.eqb_spec p q) as [->|]; [|lia]. rewrite u32_small; lia. }
    assert (U1 : under c1 B1).
    { split; [unfold c1; now rewrite update_len|]. intros p Hp. rewrite (E1 p Hp). specialize (Hc p Hp). unfold B1. destruct (Nat.eqb_spec p q) as [->|]; lia. }
    assert (EB : forall p, B1 p + count_occ Nat.eq_dec l p * K p = B p + count_occ Nat.eq_dec (q :: l) p * K p).
    { intros p. unfold B1. cbn [count_occ]. destruct (Nat.eqb_spec p q) as [->|N].
      - destruct (Nat.eq_dec q q); [|contradiction]. cbn [Nat.mul]. lia.
      - destruct (Nat.eq_dec q p); [congruence|]. lia. }
    destruct (IH c1 B1 U1) as [I1 I2].
    + intros p Hp. rewrite EB. now apply HB.
    + intros p Hp. apply Hl. now right.
    + split; [apply (under_le _ _ _ I1); intros p Hp; now rewrite EB|]. intros p Hp. specialize (I2 p Hp). rewrite (E1 p Hp) in I2.
      destruct (p =? q); lia.
Qed.
Lemma add_rows (h : nat -> nat -> list Z -> Z) (K : nat -> nat -> nat) (top : nat -> nat) (dst : nat -> list nat) (B0 : nat -> nat) :
  (forall q, q < n -> (Z.of_nat (top q) < 2 ^ 31)%Z) ->
  (forall i q c, i < n -> q < n -> under c top -> (0 <= h i q c <= Z.of_nat (K i q))%Z) ->
  (forall i q, In q (dst i) -> q < n) ->
  forall l2 l1 c, (forall i, In i l2 -> i < n) ->
  let S l q := B0 q + list_sum (map (fun i => count_occ Nat.eq_dec (dst i) q * K i q) l) in
  (forall q, q < n -> S (l1 ++ l2) q <= top q) -> under c (S l1) ->
  let c' := fold_left (fun c i => fold_left (fun c q => update q (fun z => u32 (z + h i q c)%Z) c) (dst i) c) l2 c in
  under c' (S (l1 ++ l2)) /\ forall q, q < n -> (nth q c 0 <= nth q c' 0)%Z.
Proof.
  intros Ht Hh Hd. induction l2 as [|i l2 IH]; intros l1 c Hl S HS Hc; cbn [fold_left].
  - rewrite app_nil_r. split; [assumption|intros; lia].
  - assert (ES : forall q, S (l1 ++ [i]) q = S l1 q + count_occ Nat.eq_dec (dst i) q * K i q).
    { intros q. unfold S. rewrite map_app, list_sum_app. cbn. lia. }
    assert (ET : forall q, S (l1 ++ [i]) q <= S (l1 ++ i :: l2) q).
    { intros q. unfold S. rewrite !map_app, !list_sum_app. cbn. lia. }
    destruct (add_row (h i) (K i) top Ht (fun q c Hq => Hh i q c (Hl i (or_introl eq_refl)) Hq) (dst i) c (S l1) Hc) as [U1 M1].
    + intros q Hq. rewrite <- ES. specialize (HS q Hq). specialize (ET q). lia.
    + apply Hd.
    + set (c1 := fold_left _ (dst i) c) in *.
      destruct (IH (l1 ++ [i]) c1) as [U2 M2].
      * intros j Hj. apply Hl. now right.
      * intros q Hq. rewrite <- app_assoc. now apply HS.
      * apply (under_le _ _ _ U1). intros q _. now rewrite <- ES.
      * rewrite <- app_assoc in U2. split; [exact U2|]. intros q Hq. specialize (M1 q Hq). specialize (M2 q Hq). exact (Z.le_trans _ _ _ M1 M2).
Qed.
End Sums.
Lemma list_sum_ext {X} (h k : X -> nat) l : (forall x, In x l -> h x = k x) -> list_sum (map h l) = list_sum (map k l).
Proof. intros H. f_equal. now apply map_ext_in. Qed.
Lemma list_sum_scale {X} (h : X -> nat) m l : list_sum (map (fun x => h x * m) l) = list_sum (map h l) * m.
Proof. unfold list_sum. induction l as [|x l IH]; cbn [map fold_right]; [reflexivity|]. rewrite IH. lia. Qed.
Lemma list_sum_zero {X} (h : X -> nat) l : (forall x, In x l -> h x = 0) -> list_sum (map h l) = 0.
Proof. unfold list_sum. induction l as [|x l IH]; intros H; cbn; [reflexivity|]. rewrite IH by (intros y Hy; apply H; now right). rewrite (H x (or_introl eq_refl)). reflexivity. Qed.
Lemma nth_start m (z : Z) q : q < m -> nth q (update 0 (fun _ => z) (repeat 0%Z m)) 0%Z = if q =? 0 then z else 0%Z.
Proof. intros H. rewrite nth_upd by (rewrite repeat_length; lia). destruct (q =? 0); [reflexivity|]. apply nth_repeat. Qed.
Section Access.
Context (A : auto) (g : dag) (R : rep A (bin_of g)) (HI : sorted_view (aview A)) (HC : closed_view (aview A)) (HA : acyclic (aview A)) (H0 : 0 < length A).
Context (HR : forall p, p < length A -> reach (aview A) 0 p) (HU : forall p, p < length A -> 0 < cnt (aview A) p) (Sm : small31 (cnt (aview A) 0)).
Notation f := (aview A). Notation n := (length A).
Lemma dests_bin p : p < n -> row_dests g p = dests_of A p.
Proof.
  intros Hp. unfold row_dests. rewrite row_bin, (rep_range _ _ R p Hp), offset_succ, Nat.add_comm, Nat.add_sub by assumption.
  unfold dests_of. apply (nth_ext_same 0); [now rewrite !map_length, seq_length|]. intros i Hi. rewrite map_length, seq_length in Hi.
  rewrite (nth_indep _ 0 (x_dest (g_arc g 0))) by (rewrite map_length, seq_length; lia).
  rewrite (map_nth (fun k => x_dest (g_arc g k))), seq_nth by assumption. rewrite (nth_indep _ 0 (snd (0%Z, 0))) by now rewrite map_length.
  rewrite map_nth, <- (nth_all A p i) by assumption. destruct R as (_ & E & _). cbn [bin_of b_arcs] in E. rewrite <- E.
  change (0%Z, 0) with (strip (Warc 0 0 0)). rewrite map_nth. reflexivity.
Qed.
Lemma size_bin : length (g_states g) = n.
Proof. exact (rep_size _ _ R). Qed.
Lemma fold_dests {X} (h : nat -> X -> nat -> X) : forall l c, (forall i, In i l -> i < n) ->
  fold_left (fun c i => fold_left (h i) (row_dests g i) c) l c = fold_left (fun c i => fold_left (h i) (dests_of A i) c) l c.
Proof.
  induction l as [|i l IH]; intros c H; cbn [fold_left]; [reflexivity|]. rewrite dests_bin by (apply H; now left). apply IH. intros j Hj. apply H. now right.
Qed.
Lemma dests_bound i q : In q (dests_of A i) -> q < n.
Proof.
  intros H. unfold dests_of in H. apply in_map_iff in H as (x & <- & Hx). destruct (Nat.lt_ge_cases i n) as [L|L]; [now apply (HC i x L)|].
  unfold a_arcs in Hx. rewrite nth_overflow in Hx by assumption. destruct Hx.
Qed.
Lemma none_to_start i : i < n -> ~ In 0 (dests_of A i).
Proof.
  intros Hi H. unfold dests_of in H. apply in_map_iff in H as ([a q] & E & Hx). cbn in E. subst q. destruct (HR i Hi) as (w & Hw).
  apply (HA 0 (w ++ [a])); [destruct w; discriminate|]. apply (spelt_snoc (aview A) 0 w i a 0 Hw Hx).
Qed.
Lemma P_le q : q < n -> P A q <= cnt f 0.
Proof. intros Hq. pose proof (through A HI HC HA H0 q Hq). pose proof (HU q Hq). nia. Qed.
Lemma branching_bound : under n (branching g) (P A).
Proof.
  unfold branching. rewrite size_bin, fold_dests by (intros i Hi; apply in_seq in Hi; lia).
  destruct (add_rows n (fun i q c => nth i c 0%Z) (fun i q => P A i) (P A) (dests_of A) (fun q => if q =? 0 then 1 else 0)) with (l2 := seq 0 n) (l1 := @nil nat)
    (c := update 0 (fun _ : Z => 1%Z) (repeat 0%Z n)) as [U _].
  - intros q Hq. pose proof (P_le q Hq). unfold small31 in Sm. lia.
  - intros i q c Hi Hq [_ U]. apply (U i Hi).
  - exact dests_bound.
  - intros i Hi. apply in_seq in Hi. lia.
  - intros q Hq. apply (flow_paths A HI HC HA H0 q Hq).
  - split; [now rewrite update_len, repeat_length|]. intros q Hq. rewrite nth_start by assumption. cbn [map list_sum fold_right]. destruct (q =? 0); lia.
  - apply (under_le _ _ _ _ U). intros q Hq. apply (flow_paths A HI HC HA H0 q Hq).
Qed.
Lemma accesses_bound wno : (forall p, p < n -> nth p wno 0%Z = Z.of_nat (cnt f p)) ->
  let acc := accesses g wno (branching g) in length acc = n /\ forall q, q < n -> (0 <= nth q acc 0 <= nth 0 acc 0)%Z.
Proof.
  intros Hw acc. pose proof branching_bound as [Lb Ub].
  set (K := fun i q : nat => P A i * cnt f q). set (B0 := fun q => if q =? 0 then cnt f 0 else 0).
  assert (Top : forall q, q < n -> B0 q + list_sum (map (fun i => count_occ Nat.eq_dec (dests_of A i) q * K i q) (seq 0 n)) <= cnt f 0).
  { intros q Hq. unfold B0. destruct (Nat.eqb_spec q 0) as [->|N].
    - rewrite list_sum_zero; [lia|]. intros i Hi. apply in_seq in Hi. rewrite (proj1 (count_occ_not_In Nat.eq_dec _ _) (none_to_start i ltac:(lia))). reflexivity.
    - assert (E : list_sum (map (fun i => count_occ Nat.eq_dec (dests_of A i) q * K i q) (seq 0 n)) = flow A q (seq 0 n) * cnt f q).
      { unfold flow. rewrite <- list_sum_scale. apply list_sum_ext. intros i _. unfold K. lia. }
      rewrite E. pose proof (flow_paths A HI HC HA H0 q Hq) as F. pose proof (through A HI HC HA H0 q Hq) as T. nia. }
  destruct (add_rows n (fun i q c => nth q wno 0 * nth i (branching g) 0)%Z K (fun _ => cnt f 0) (dests_of A) B0) with (l2 := seq 0 n) (l1 := @nil nat)
    (c := update 0 (fun _ : Z => nth 0 wno 0%Z) (repeat 0%Z n)) as [[La Ua] Ma].
  - intros q Hq. exact Sm.
  - intros i q c Hi Hq _. rewrite (Hw q Hq). specialize (Ub i Hi). unfold K. nia.
  - exact dests_bound.
  - intros i Hi. apply in_seq in Hi. lia.
  - exact Top.
  - split; [now rewrite update_len, repeat_length|]. intros q Hq. rewrite nth_start by assumption. unfold B0. cbn [map list_sum fold_right]. rewrite (Hw 0 H0). destruct (q =? 0); lia.
  - assert (Ea : acc = fold_left (fun c i => fold_left (fun c q => update q (fun z => u32 (z + nth q wno 0 * nth i (branching g) 0)%Z) c) (dests_of A i) c) (seq 0 n)
      (update 0 (fun _ : Z => nth 0 wno 0%Z) (repeat 0%Z n))).
    { unfold acc, accesses. rewrite size_bin. apply (fold_dests (fun i c q => update q (fun z => u32 (z + nth q wno 0 * nth i (branching g) 0)%Z) c)).
      intros i Hi. apply in_seq in Hi. lia. }
    rewrite Ea. cbn zeta in *. split; [exact La|]. intros q Hq. specialize (Ua q Hq). specialize (Ma 0 H0). rewrite nth_start in Ma by assumption. cbn [Nat.eqb] in Ma.
    specialize (Top q Hq). cbn [app] in Ua. split; [exact (proj1 Ua)|]. apply (Z.le_trans _ _ _ (proj2 Ua)). apply (Z.le_trans _ (nth 0 wno 0%Z)); [rewrite (Hw 0 H0); lia|exact Ma].
Qed.
End Access.

(** C27, C28: the packed automaton and incremental minimisation. *)
From Coq Require Import List ZArith Bool Sorted Permutation Lia PeanoNat.
From Verif Require Import M_OrdSet L_OrdSet M_Fsa L_Fsa M_BinFsa L_BinFsa L_Daciuk L_FsaMin.
Import ListNotations.
Local Open Scope nat_scope.

(** ** C27 *)
(** Specification: a construction history and the graph it describes. *)
Inductive op := AddState | AddArc (p : nat) (a : symbol) (q : nat) | SetEnd (p : nat) | UnsetEnd (p : nat).
Record graph := Graph { g_size : nat; g_arcs : list (nat * symbol * nat); g_end : nat -> bool }.
Definition draw (g : graph) (o : op) : graph :=
  match o with
  | AddState => Graph (S (g_size g)) (g_arcs g) (g_end g)
  | AddArc p a q => if p <? g_size g then Graph (g_size g) ((p, a, q) :: g_arcs g) (g_end g) else g
  | SetEnd p => Graph (g_size g) (g_arcs g) (fun x => (x =? p) || g_end g x)
  | UnsetEnd p => Graph (g_size g) (g_arcs g) (fun x => negb (x =? p) && g_end g x)
  end.
Definition blank : graph := Graph 0 [] (fun _ => false).
Definition drawn (h : list op) : graph := fold_left draw h blank.
(** Flags are only changed for states that exist; elsewhere the code writes beyond its vector. *)
Definition allowed (g : graph) (o : op) : Prop :=
  match o with SetEnd p | UnsetEnd p => p < g_size g | _ => True end.
Fixpoint legal_from (g : graph) (h : list op) : Prop :=
  match h with
  | [] => True
  | o :: h' => allowed g o /\ legal_from (draw g o) h'
  end.
Definition legal (h : list op) : Prop := legal_from blank h.
Inductive spells (g : graph) : nat -> list symbol -> nat -> Prop :=
  | spells_nil p : spells g p [] p
  | spells_cons p a q w r : In (p, a, q) (g_arcs g) -> spells g q w r -> spells g p (a :: w) r.
(** At most one arc for a state and a symbol, and arcs lead to states. *)
Definition one_arc (g : graph) : Prop := NoDup (map fst (g_arcs g)).
Definition closed (g : graph) : Prop := forall p a q, In (p, a, q) (g_arcs g) -> q < g_size g.

(** The model's calls. *)
Definition call (b : bin) (o : op) : bin :=
  match o with
  | AddState => snd (b_add_state b)
  | AddArc p a q => b_add_arc p (a, q) b
  | SetEnd p => b_set_end p b
  | UnsetEnd p => b_unset_end p b
  end.
Definition called (h : list op) : bin := fold_left call h b_empty.

Lemma in_put a l x : In x (put a l) <-> x = a \/ In x l.
Proof. induction l as [|y l IH]; cbn [put In]; [intuition|]. destruct (arc_ltb Nat.ltb y a); cbn [In]; [rewrite IH|]; intuition congruence. Qed.
Lemma inc_put a l : inc l -> ~ In (fst a) (map fst l) -> inc (put a l).
Proof.
  unfold inc. induction 1 as [|x l Hl IH Hx]; intros N; cbn [put]; [repeat constructor|].
  assert (Nx : fst x <> fst a) by (intros E; apply N; left; exact E).
  unfold arc_ltb. destruct (Z.ltb_spec (fst x) (fst a)) as [L|L]; cbn [orb].
  - constructor; [apply IH; intros K; apply N; now right|]. rewrite Forall_forall in *. intros y Hy. apply in_put in Hy as [->|Hy]; [exact L|now apply Hx].
  - destruct (Z.eqb_spec (fst x) (fst a)); [contradiction|]. cbn [andb]. constructor; [now constructor|]. rewrite Forall_forall in *.
    intros y [<-|Hy]; [lia|]. apply Hx in Hy. lia.
Qed.
Lemma drawn_snoc h o : drawn (h ++ [o]) = draw (drawn h) o.
Proof. unfold drawn. now rewrite fold_left_app. Qed.
Lemma called_snoc h o : called (h ++ [o]) = call (called h) o.
Proof. unfold called. now rewrite fold_left_app. Qed.
Lemma legal_snoc h o : legal (h ++ [o]) -> legal h /\ allowed (drawn h) o.
Proof.
  unfold legal, drawn. generalize blank. induction h as [|x h IH]; intros g; cbn [app legal_from fold_left]; [tauto|].
  intros [H1 H2]. apply IH in H2. tauto.
Qed.
Lemma arcs_count_put A p a : p < length A -> length (all_arcs (update p (fun x => (put a (fst x), snd x)) A)) = S (length (all_arcs A)).
Proof.
  intros H. destruct (split_at A p H) as (A1 & l & e & A2 & -> & <-). rewrite update_mid, !all_arcs_app. cbn [all_arcs flat_map fst].
  rewrite !app_length, put_length. lia.
Qed.
Lemma refines h : legal h -> one_arc (drawn h) -> small (length (g_arcs (drawn h))) ->
  exists A, rep A (called h) /\ length A = g_size (drawn h) /\ length (all_arcs A) = length (g_arcs (drawn h)) /\
    (forall p, inc (a_arcs A p)) /\ (forall p a q, In (a, q) (a_arcs A p) <-> In (p, a, q) (g_arcs (drawn h))) /\
    (forall p, p < length A -> a_end A p = g_end (drawn h) p) /\ (forall p, g_size (drawn h) <= p -> g_end (drawn h) p = false).
Proof.
  induction h as [|o h IH] using rev_ind; intros Hl Ho Hs.
  - exists []. split; [exact rep_empty|]. split; [reflexivity|]. split; [reflexivity|]. split; [intros [|p]; constructor|].
    split; [intros [|p] a q; now cbn|]. split; [cbn; lia|reflexivity].
  - apply legal_snoc in Hl as [Hl Ha]. rewrite drawn_snoc in *. rewrite called_snoc. set (g := drawn h) in *.
    assert (Ho' : one_arc g).
    { unfold one_arc in *. destruct o; cbn [draw g_arcs] in Ho; try assumption. destruct (p <? g_size g); [now inversion Ho|assumption]. }
    assert (Hs' : small (length (g_arcs g))).
    { destruct o; cbn [draw g_arcs] in Hs; try assumption. destruct (p <? g_size g); [|assumption]. eapply small_le; [|exact Hs]. cbn. lia. }
    destruct (IH Hl Ho' Hs') as (A & Rp & LA & LC & I & E & F & Z0). clear IH.
    destruct o as [|p a q|p|p]; cbn [draw call allowed] in *.
    + exists (A ++ [([], false)]). split; [now apply rep_add_state|]. cbn [g_size g_arcs g_end]. split; [rewrite app_length; cbn; lia|].
      split; [rewrite all_arcs_app; cbn; now rewrite app_nil_r|].
      assert (EN : forall x, nth x (A ++ [([], false)]) ([], false) = nth x A ([], false)).
      { intros x. destruct (Nat.lt_ge_cases x (length A)) as [K|K]; [now rewrite app_nth1|]. rewrite (nth_overflow A) by lia. rewrite app_nth2 by lia.
        destruct (x - length A) as [|[|k]]; reflexivity. }
      unfold a_arcs, a_end in *. split; [intros x; rewrite EN; apply I|]. split; [intros x a q; rewrite EN; apply E|].
      split; [|intros x Hx; apply Z0; lia]. intros x Hx. rewrite EN. destruct (Nat.lt_ge_cases x (length A)) as [K|K]; [now apply F|].
      rewrite nth_overflow by lia. symmetry. apply Z0. lia.
    + destruct (Nat.ltb_spec p (g_size g)) as [K|K].
      * exists (update p (fun x => (put (a, q) (fst x), snd x)) A). cbn [g_size g_arcs g_end] in *.
        assert (EN : forall x, nth x (update p (fun x => (put (a, q) (fst x), snd x)) A) ([], false) = if x =? p then (put (a, q) (a_arcs A x), a_end A x) else nth x A ([], false)).
        { intros x. now rewrite nth_upd by lia. }
        split; [apply rep_add_arc; [assumption|lia|now rewrite LC]|]. split; [now rewrite update_len|].
        split; [rewrite arcs_count_put by lia; cbn; lia|]. split; [|split; [|split; [|assumption]]].
        -- intros x. unfold a_arcs at 1. rewrite EN. destruct (Nat.eqb_spec x p) as [->|N]; [|apply I]. apply inc_put; [apply I|].
           unfold one_arc in Ho. cbn [map fst] in Ho. inversion Ho as [|? ? N _]; subst. cbn [fst]. intros Hin. apply N.
           apply in_map_iff in Hin as ([a' q'] & Ea & Hin). cbn in Ea. subst a'. apply E in Hin. apply (in_map fst) in Hin. exact Hin.
        -- intros x a' q'. unfold a_arcs at 1. rewrite EN. destruct (Nat.eqb_spec x p) as [->|N].
           ++ cbn [fst In]. rewrite in_put, E. intuition congruence.
           ++ cbn [In]. fold (a_arcs A x). rewrite E. intuition congruence.
        -- intros x Hx. rewrite update_len in Hx. unfold a_end at 1. rewrite EN. destruct (x =? p); now apply F.
      * exists A. split; [|tauto]. unfold b_add_arc. rewrite (rep_size A _ Rp). destruct (Nat.ltb_spec p (length A)); [lia|assumption].
    + exists (update p (fun x => (fst x, true)) A). cbn [g_size g_arcs g_end] in *.
      assert (EN : forall x, nth x (update p (fun x => (fst x, true)) A) ([], false) = if x =? p then (a_arcs A x, true) else nth x A ([], false)).
      { intros x. now rewrite nth_upd by lia. }
      split; [apply rep_set_end; [assumption|lia]|]. split; [now rewrite update_len|].
      split; [rewrite all_arcs_update; [assumption|lia|reflexivity]|]. split; [|split; [|split]].
      -- intros x. unfold a_arcs at 1. rewrite EN. destruct (x =? p); apply I.
      -- intros x a' q'. unfold a_arcs at 1. rewrite EN. destruct (x =? p); apply E.
      -- intros x Hx. rewrite update_len in Hx. unfold a_end at 1. rewrite EN. destruct (x =? p); [reflexivity|]. now apply F.
      -- intros x Hx. destruct (Nat.eqb_spec x p); [lia|]. now apply Z0.
    + exists (update p (fun x => (fst x, false)) A). cbn [g_size g_arcs g_end] in *.
      assert (EN : forall x, nth x (update p (fun x => (fst x, false)) A) ([], false) = if x =? p then (a_arcs A x, false) else nth x A ([], false)).
      { intros x. now rewrite nth_upd by lia. }
      split; [apply rep_unset_end; [assumption|lia]|]. split; [now rewrite update_len|].
      split; [rewrite all_arcs_update; [assumption|lia|reflexivity]|]. split; [|split; [|split]].
      -- intros x. unfold a_arcs at 1. rewrite EN. destruct (x =? p); apply I.
      -- intros x a' q'. unfold a_arcs at 1. rewrite EN. destruct (x =? p); apply E.
      -- intros x Hx. rewrite update_len in Hx. unfold a_end at 1. rewrite EN. destruct (x =? p); [reflexivity|]. now apply F.
      -- intros x Hx. rewrite (Z0 x Hx). apply andb_false_r.
Qed.
Theorem C27_recognises_what_was_added h w : legal h -> one_arc (drawn h) -> closed (drawn h) -> 0 < g_size (drawn h) ->
  (Z.of_nat (length (g_arcs (drawn h))) < 2 ^ 31)%Z ->
  (b_in (called h) w = true <-> exists q, spells (drawn h) 0 w q /\ g_end (drawn h) q = true).
Proof.
  intros Hl Ho Hc H0 Hs. destruct (refines h Hl Ho Hs) as (A & Rp & LA & _ & I & E & F & _). set (g := drawn h) in *.
  assert (D : forall p x, In x (a_arcs A p) -> snd x < length A).
  { intros p [a q] Hx. apply E in Hx. rewrite LA. now apply Hc in Hx. }
  unfold b_in. rewrite (in_from_acc A _ Rp I D w 0) by lia. rewrite <- LA in H0. revert H0. generalize 0.
  induction w as [|a w IH]; intros p Hp.
  - unfold acc. cbn. rewrite (F p Hp). split; [intros K; exists p; split; [constructor|assumption]|].
    intros (q & K & K'). inversion K; subst. assumption.
  - rewrite acc_cons. split.
    + destruct (look (a_arcs A p) a) as [q|] eqn:El; [|discriminate]. apply look_in in El. intros K.
      apply IH in K as (r & K1 & K2); [|now apply D in El]. exists r. split; [|assumption]. econstructor; [|exact K1]. now apply E.
    + intros (r & K & K'). inversion K as [|? ? q ? ? K1 K2]; subst. apply E in K1 as K3. rewrite (look_some _ a q (I p) K3).
      apply IH; [now apply D in K3|]. now exists r.
Qed.
Print Assumptions C27_recognises_what_was_added.

(** The stored arcs and flags are those put in, in symbol order. *)
Theorem C27_reads_back h p : legal h -> one_arc (drawn h) -> (Z.of_nat (length (g_arcs (drawn h))) < 2 ^ 31)%Z ->
  b_size (called h) = g_size (drawn h) /\ StronglySorted (fun x y => fst x < fst y)%Z (b_arcs_of (called h) p) /\
  (forall a q, In (a, q) (b_arcs_of (called h) p) <-> In (p, a, q) (g_arcs (drawn h))) /\
  (p < g_size (drawn h) -> b_is_end (called h) p = g_end (drawn h) p).
Proof.
  intros Hl Ho Hs. destruct (refines h Hl Ho Hs) as (A & Rp & LA & _ & I & E & F & _).
  rewrite (rep_size A _ Rp), (rep_arcs A _ Rp). split; [assumption|]. split; [apply I|]. split; [apply E|].
  intros Hp. rewrite (rep_end A _ Rp p) by lia. apply F. lia.
Qed.
Print Assumptions C27_reads_back.

(** With two arcs for the same symbol only the one to the smaller state is followed. *)
Theorem C27_second_arc_refuted : let h := [AddState; AddState; AddState; AddArc 0 97%Z 2; AddArc 0 97%Z 1; SetEnd 2] in
  legal h /\ closed (drawn h) /\ spells (drawn h) 0 [97%Z] 2 /\ g_end (drawn h) 2 = true /\ b_in (called h) [97%Z] = false.
Proof.
  cbv zeta. split; [repeat split; cbn; lia|]. split; [|split; [|split; reflexivity]].
  - intros p a q [[= <- <- <-]|[[= <- <- <-]|[]]]; cbn; lia.
  - econstructor; [right; left; reflexivity|constructor].
Qed.
Print Assumptions C27_second_arc_refuted.

Definition sample : list op :=
  [AddState; AddState; AddArc 0 98%Z 1; AddState; AddArc 0 97%Z 2; AddArc 2 98%Z 1; SetEnd 2; SetEnd 1; UnsetEnd 2; AddArc 1 97%Z 0; AddArc 9 1%Z 1].
Example C27_sample : map (b_in (called sample)) [[98%Z]; [97%Z]; [97%Z; 98%Z]; [98%Z; 97%Z; 97%Z; 98%Z]; []] = [true; false; true; true; false].
Proof. reflexivity. Qed.
Example C27_sample_fits : legal sample /\ one_arc (drawn sample) /\ closed (drawn sample) /\ 0 < g_size (drawn sample).
Proof.
  split; [|split; [|split]].
  - repeat split; cbn; lia.
  - unfold one_arc. cbn. repeat constructor; cbn; intuition congruence.
  - intros p a q H. cbn in H. intuition; repeat match goal with H : (_, _, _) = _ |- _ => injection H as <- <- <- end; cbn; lia.
  - cbn. lia.
Qed.

(** ** C28 *)
(** Words in the order of std::sort on strings; equal words may be repeated. *)
Definition sorted_words (ws : list (list symbol)) : Prop := StronglySorted (fun x y => str_ltb y x = false) ws.
(** A deterministic automaton with any kind of states. *)
Record machine (T : Type) := Machine { m_start : T; m_next : T -> symbol -> option T; m_final : T -> bool }.
Arguments m_start {T}. Arguments m_next {T}. Arguments m_final {T}.
Fixpoint m_run {T} (m : machine T) (s : T) (w : list symbol) : bool :=
  match w with
  | [] => m_final m s
  | a :: w' => match m_next m s a with Some t => m_run m t w' | None => false end
  end.

Lemma sorted_last ws : sorted_words ws -> (exists w, In w ws /\ w <> []) -> last ws [] <> [].
Proof.
  intros S (w & Hw & Nw). destruct (exists_last (l := ws)) as (l & x & ->); [intros ->; now destruct Hw|]. rewrite last_last. intros ->.
  apply in_app_iff in Hw as [Hw|[Hw|[]]]; [|congruence]. apply in_split in Hw as (l1 & l2 & ->). unfold sorted_words in S.
  induction l1 as [|y l1 IH]; cbn [app] in S.
  - inversion S as [|? ? _ F]; subst. rewrite Forall_forall in F. specialize (F [] ltac:(apply in_app_iff; right; now left)).
    destruct w; [congruence|discriminate].
  - inversion S; subst. now apply IH.
Qed.
Lemma sorted_ascending ws : sorted_words ws -> ascending [] ws.
Proof.
  unfold sorted_words. intros S. assert (G : forall ws w, Forall (fun y => str_ltb y w = false) ws -> StronglySorted (fun x y => str_ltb y x = false) ws -> ascending w ws).
  { clear. induction ws as [|x ws IH]; intros w F S; cbn; [trivial|]. inversion F; inversion S; subst. split; [assumption|]. now apply IH. }
  apply G; [|assumption]. apply Forall_forall. intros y _. now destruct y.
Qed.
Theorem C28_accepts_exactly_and_minimal ws : sorted_words ws -> (exists w, In w ws /\ w <> []) ->
  (Z.of_nat (length (concat ws)) < 2 ^ 31)%Z ->
  exists b, minimize_incremental ws = Some b /\
    (forall w, b_in b w = true <-> In w ws) /\
    (forall p q, p < b_size b -> q < b_size b -> (forall w, b_in_from b p w = b_in_from b q w) -> p = q) /\
    (forall T (m : machine T) (l : list T), In (m_start m) l -> (forall s a t, In s l -> m_next m s a = Some t -> In t l) ->
       (forall w, m_run m (m_start m) w = true <-> In w ws) -> b_size b <= length l).
Proof.
  intros S N Sm. destruct (minimise_spec ws (sorted_ascending ws S) (sorted_last ws S N) Sm) as (A & b & R & E & Rp & V & Hc).
  exists b. split; [assumption|]. pose proof (dests _ _ _ _ V) as D. pose proof (v_inc _ _ _ _ V) as I.
  pose proof (in_from_acc A b Rp I D) as Ea.
  assert (H0 : 0 < length A) by (apply (in_states _ _ _ _ _ V); right; now left).
  rewrite (rep_size A b Rp). pose proof (states_distinct A R V) as U.
  split; [intros w; unfold b_in; rewrite Ea by assumption; apply Hc|]. split.
  - intros p q Hp Hq K. apply U; [assumption..|]. intros w. rewrite <- !Ea by assumption. apply K.
  - intros T m l Hs Hn Hm. rewrite <- (seq_length (length A) 0).
    assert (Mr : forall u s s', (fix go s u := match u with [] => Some s | a :: u' => match m_next m s a with Some t => go t u' | None => None end end) s u = Some s' ->
      (In s l -> In s' l) /\ forall v, m_run m s (u ++ v) = m_run m s' v).
    { induction u as [|a u IH]; intros s s' K; cbn in K; [injection K as <-; now split|]. destruct (m_next m s a) as [t|] eqn:Et; [|discriminate].
      destruct (IH _ _ K) as [K1 K2]. split; [intros K3; apply K1; now apply (Hn s a)|]. intros v. cbn. now rewrite Et. }
    assert (Mn : forall u s, (fix go s u := match u with [] => Some s | a :: u' => match m_next m s a with Some t => go t u' | None => None end end) s u = None ->
      forall v, m_run m s (u ++ v) = false).
    { induction u as [|a u IH]; intros s K v; cbn in K; [discriminate|]. cbn. destruct (m_next m s a); [now apply IH|reflexivity]. }
    set (go := fix go s u := match u with [] => Some s | a :: u' => match m_next m s a with Some t => go t u' | None => None end end) in *.
    apply (inject (fun x y => x < length A /\ exists u, walk A 0 u = Some x /\ go (m_start m) u = Some y)).
    + intros x x' y (Hx & u & K1 & K2) (Hx' & u' & K3 & K4). apply U; [assumption..|]. intros v.
      assert (B : forall u x, walk A 0 u = Some x -> go (m_start m) u = Some y -> acc A x v = m_run m y v).
      { intros u0 x0 W G. pose proof (acc_app A u0 0 v) as X. rewrite W in X. rewrite <- X, <- (proj2 (Mr _ _ _ G) v).
        apply eq_true_iff_eq. rewrite Hc. symmetry. apply Hm. }
      now rewrite (B u x K1 K2), (B u' x' K3 K4).
    + apply seq_NoDup.
    + intros x Hx. apply in_seq in Hx. assert (Lx : x < length A) by lia.
      assert (W : (exists u, walk A 0 u = Some x) /\ exists v, acc A x v = true).
      { apply (in_states _ _ _ _ _ V) in Lx as [Lx|[<-|[]]].
        - split; [now apply (v_reach _ _ _ _ V)|now apply (v_live _ _ _ _ V)].
        - split; [now exists []|]. destruct N as (w & Hw & _). exists w. now apply Hc. }
      destruct W as [(u & Hu) (v & Hv)]. destruct (go (m_start m) u) as [y|] eqn:Gy.
      * exists y. split; [now apply (Mr _ _ _ Gy)|]. split; [assumption|]. now exists u.
      * exfalso. pose proof (acc_app A u 0 v) as X. rewrite Hu, Hv in X. apply Hc in X. apply Hm in X. rewrite (Mn _ _ Gy) in X. discriminate.
Qed.
Print Assumptions C28_accepts_exactly_and_minimal.
(** Without a nonempty word the last step looks at the arc before the first one. *)
Theorem C28_no_words_refuted : minimize_incremental [] = None /\ minimize_incremental [[]] = None.
Proof. split; reflexivity. Qed.
Print Assumptions C28_no_words_refuted.
(** The order is needed. *)
Theorem C28_unsorted_refuted : option_map (fun b => b_in b [97]%Z) (minimize_incremental [[98]; [97]]%Z) = Some false.
Proof. vm_compute. reflexivity. Qed.
Print Assumptions C28_unsorted_refuted.

Definition words : list (list symbol) := [[97; 98]; [97; 98; 99]; [98]; [98; 98]; [98; 98; 99]; [98; 98; 99]]%Z.
Example C28_words : sorted_words words /\ (exists w, In w words /\ w <> []) /\
  option_map (fun b => (b_size b, map (b_in b) [[97; 98]; [97]; [98; 98; 99]; [98; 99]; []]%Z)) (minimize_incremental words)
  = Some (5, [true; false; true; false; false]).
Proof.
  split; [|split; [exists [98%Z]; split; [right; right; now left|discriminate]|reflexivity]].
  unfold sorted_words, words. repeat constructor.
Qed.

(** minfsa keeps the unfinished part of the automaton of L_Daciuk and writes out the finished part. *)
From Coq Require Import List ZArith Bool Sorted Permutation Lia PeanoNat.
From Verif Require Import M_OrdSet L_OrdSet M_Fsa L_Fsa M_BinFsa L_BinFsa L_Daciuk M_Minfsa.
Import ListNotations.
Local Open Scope nat_scope.

(** ** Tables and sets *)
Definition keyed (t : table) : Prop := StronglySorted (fun x y : nat * row => fst x < fst y) t.
Lemma put_keys p r t x : In x (t_put p r t) -> x = (p, r) \/ In x t.
Proof.
  induction t as [|[k s] t IH]; cbn [t_put]; [intros [<-|[]]; now left|]. destruct (p <? k); [intros [<-|K]; [now left|now right]|].
  destruct (p =? k); [intros [<-|K]; [now left|right; now right]|]. intros [<-|K]; [right; now left|]. destruct (IH K); [now left|right; now right].
Qed.
Lemma put_keyed p r t : keyed t -> keyed (t_put p r t).
Proof.
  unfold keyed. induction 1 as [|[k s] t Ht IH Hk]; cbn [t_put]; [repeat constructor|]. rewrite Forall_forall in Hk.
  destruct (Nat.ltb_spec p k).
  - constructor; [now constructor; [|apply Forall_forall]|]. constructor; [assumption|]. apply Forall_forall. intros x Hx. specialize (Hk x Hx). cbn in *. lia.
  - destruct (Nat.eqb_spec p k) as [->|N].
    + constructor; [assumption|]. now apply Forall_forall.
    + constructor; [assumption|]. apply Forall_forall. intros x Hx. apply put_keys in Hx as [->|Hx]; [cbn; lia|now apply Hk].
Qed.
Lemma get_put p r t q : keyed t -> t_get q (t_put p r t) = if q =? p then Some r else t_get q t.
Proof.
  unfold keyed. induction 1 as [|[k s] t Ht IH Hk]; cbn [t_put]; [cbn; now destruct (q =? p)|].
  destruct (Nat.ltb_spec p k); [reflexivity|]. destruct (Nat.eqb_spec p k) as [->|N]; cbn.
  - now destruct (q =? k).
  - rewrite IH. destruct (Nat.eqb_spec q k) as [->|]; [|reflexivity]. destruct (Nat.eqb_spec k p); congruence.
Qed.
Lemma erase_keyed (g : nat * row -> bool) t : keyed t -> keyed (filter g t).
Proof.
  unfold keyed. induction 1 as [|x t Ht IH Hk]; cbn; [constructor|]. destruct (g x); [|assumption]. constructor; [assumption|].
  rewrite Forall_forall in *. intros y Hy. apply filter_In in Hy as [Hy _]. now apply Hk.
Qed.
Lemma get_filter (g : nat -> bool) t q : t_get q (filter (fun x => g (fst x)) t) = if g q then t_get q t else None.
Proof.
  induction t as [|[k s] t IH]; cbn; [now destruct (g q)|]. destruct (g k) eqn:E; cbn.
  - rewrite IH. destruct (Nat.eqb_spec q k) as [->|]; [now rewrite E|reflexivity].
  - rewrite IH. destruct (Nat.eqb_spec q k) as [->|]; [now rewrite E|reflexivity].
Qed.
Lemma get_in t p r : keyed t -> (t_get p t = Some r <-> In (p, r) t).
Proof.
  unfold keyed. induction 1 as [|[k s] t Ht IH Hk]; cbn; [split; [discriminate|intros []]|]. rewrite Forall_forall in Hk.
  destruct (Nat.eqb_spec p k) as [->|N].
  - split; [intros [= ->]; now left|]. intros [[= ->]|K]; [reflexivity|]. specialize (Hk _ K). cbn in Hk. lia.
  - rewrite IH. split; [now right|]. intros [[= <- <-]|K]; [now destruct N|assumption].
Qed.
Lemma keyed_nodup t : keyed t -> NoDup (map fst t).
Proof.
  unfold keyed. induction 1 as [|x t Ht IH Hk]; cbn; constructor; [|assumption]. rewrite Forall_forall in Hk.
  intros K. apply in_map_iff in K as (y & E & Hy). specialize (Hk y Hy). lia.
Qed.
Lemma before_filter n t : keyed t -> before n t = filter (fun x => fst x <? n) t.
Proof.
  unfold keyed. induction 1 as [|x t Ht IH Hk]; cbn [before filter]; [reflexivity|]. destruct (Nat.ltb_spec (fst x) n); [now rewrite IH|].
  rewrite Forall_forall in Hk. symmetry. clear -Hk H. induction t as [|y t IH]; [reflexivity|]. cbn [filter].
  assert (K : fst x < fst y) by (apply Hk; now left). destruct (Nat.ltb_spec (fst y) n); [lia|]. apply IH. intros z Hz. apply Hk. now right.
Qed.
Lemma s_put_in p s x : In x (s_put p s) <-> x = p \/ In x s.
Proof.
  induction s as [|k s IH]; cbn [s_put]; [cbn; intuition|]. destruct (p <? k); [cbn; intuition|].
  destruct (Nat.eqb_spec p k) as [->|]; cbn; [intuition|]. rewrite IH. tauto.
Qed.
Lemma s_put_nodup p s : StronglySorted lt s -> StronglySorted lt (s_put p s).
Proof.
  induction 1 as [|k s Hs IH Hk]; cbn [s_put]; [repeat constructor|]. rewrite Forall_forall in Hk. destruct (Nat.ltb_spec p k).
  - constructor; [now constructor; [|apply Forall_forall]|]. constructor; [assumption|]. apply Forall_forall. intros x Hx. specialize (Hk x Hx). lia.
  - destruct (Nat.eqb_spec p k) as [->|N]; [constructor; [assumption|]; now apply Forall_forall|].
    constructor; [assumption|]. apply Forall_forall. intros x Hx. apply s_put_in in Hx as [->|Hx]; [lia|now apply Hk].
Qed.
Lemma s_filter_sorted g s : StronglySorted lt s -> StronglySorted lt (filter g s).
Proof.
  induction 1 as [|x t Ht IH Hk]; cbn; [constructor|]. destruct (g x); [|assumption]. constructor; [assumption|].
  rewrite Forall_forall in *. intros y Hy. apply filter_In in Hy as [Hy _]. now apply Hk.
Qed.
Lemma s_sorted_nodup s : StronglySorted lt s -> NoDup s.
Proof.
  induction 1 as [|x t Ht IH Hk]; constructor; [|assumption]. rewrite Forall_forall in Hk. intros K. specialize (Hk x K). lia.
Qed.
Lemma s_has_in p s : s_has p s = true <-> In p s.
Proof.
  unfold s_has. rewrite existsb_exists. split; [|intros H; exists p; split; [assumption|apply Nat.eqb_refl]].
  intros (x & Hx & E). apply Nat.eqb_eq in E as ->. assumption.
Qed.
Lemma s_put_last n s : (forall x, In x s -> x < n) -> s_put n s = s ++ [n].
Proof.
  induction s as [|k s IH]; intros H; cbn [s_put]; [reflexivity|]. assert (k < n) by (apply H; now left).
  destruct (Nat.ltb_spec n k); [lia|]. destruct (Nat.eqb_spec n k); [lia|]. rewrite IH; [reflexivity|]. intros x Hx. apply H. now right.
Qed.
Lemma r_get_look a r : r_get a r = look r a.
Proof.
  unfold look. induction r as [|[b q] r IH]; cbn; [reflexivity|]. rewrite (Z.eqb_sym b a). destruct (a =? b)%Z; [reflexivity|exact IH].
Qed.
Lemma r_put_last a q r : (forall x, In x r -> (fst x < a)%Z) -> r_put a q r = r ++ [(a, q)].
Proof.
  induction r as [|[b p] r IH]; intros H; cbn [r_put]; [reflexivity|]. assert (b < a)%Z by (apply (H (b, p)); now left).
  destruct (Z.ltb_spec a b); [lia|]. destruct (Z.eqb_spec a b); [lia|]. rewrite IH; [reflexivity|]. intros x Hx. apply H. now right.
Qed.
Lemma row_eqb_eq x y : row_eqb x y = true <-> x = y.
Proof.
  unfold row_eqb. revert y. induction x as [|[a p] x IH]; intros [|[b q] y]; cbn; try (split; [discriminate|discriminate]); [tauto|].
  specialize (IH y). rewrite andb_true_iff in IH. rewrite !andb_true_iff. split.
  - intros (H1 & (H2 & H3) & H4). apply Z.eqb_eq in H2. apply Nat.eqb_eq in H3. subst. f_equal. apply IH. now split.
  - intros [= -> -> ->]. destruct (proj2 IH eq_refl) as [K1 K2]. rewrite Z.eqb_refl, !Nat.eqb_refl. split; [reflexivity|]. split; [now split|exact K2].
Qed.
Lemma sig_eqb_eq x y : sig_eqb x y = true <-> x = y.
Proof.
  destruct x as [e x], y as [e' y]. unfold sig_eqb. cbn. rewrite andb_true_iff, row_eqb_eq, eqb_true_iff. split; [intros [-> ->]; reflexivity|intros [= -> ->]; now split].
Qed.
Lemma with_same f : with_table (f_table f) f = f.
Proof. now destruct f. Qed.

(** ** Lines *)
Definition arcs_out (A : auto) (p : nat) : list line := arc_lines (p, a_arcs A p).
Definition end_out (A : auto) (p : nat) : list line := if a_end A p then [End p] else [].
Definition lines_of (A : auto) (p : nat) : list line := arcs_out A p ++ end_out A p.
Lemma lines_split A l : Permutation (flat_map (lines_of A) l) (flat_map (arcs_out A) l ++ flat_map (end_out A) l).
Proof.
  induction l as [|p l IH]; cbn; [constructor|]. unfold lines_of at 1. rewrite <- !app_assoc. apply Permutation_app_head.
  rewrite IH, !app_assoc. apply Permutation_app_tail, Permutation_app_comm.
Qed.
Lemma lines_same A A' l : (forall p, In p l -> nth p A' ([], false) = nth p A ([], false)) -> flat_map (lines_of A') l = flat_map (lines_of A) l.
Proof.
  intros H. rewrite !flat_map_concat_map. f_equal. apply map_ext_in. intros p Hp. unfold lines_of, arcs_out, end_out, a_arcs, a_end. now rewrite H.
Qed.
Lemma ends_out A l : flat_map (end_out A) l = map End (filter (a_end A) l).
Proof. induction l as [|p l IH]; cbn; [reflexivity|]. unfold end_out at 1. rewrite IH. now destruct (a_end A p). Qed.

(** ** The states kept: the path, and the states registered since the last purge *)
Record during (A : auto) (R0 D Q : list nat) (f : fsa) : Prop := {
  d_states : f_states f = length A;
  d_keyed : keyed (f_table f);
  d_get : forall p, In p (0 :: Q ++ D) -> t_get p (f_table f) = Some (a_arcs A p);
  d_none : forall p, ~ In p (0 :: Q ++ D) -> t_get p (f_table f) = None;
  d_sorted : StronglySorted lt (f_ends f);
  d_ends : forall p, In p (f_ends f) <-> In p (0 :: Q ++ D) /\ a_end A p = true;
  d_sigs : f_sigs f = map (fun r => ((a_end A r, a_arcs A r), r)) (D ++ R0);
  d_out : Permutation (f_out f) (flat_map (lines_of A) R0)
}.
Definition marks (f f' : fsa) : Prop := f_traversed f' = f_traversed f /\ f_added f' = f_added f.
Lemma d_row A R0 D Q f p : during A R0 D Q f -> In p (0 :: Q ++ D) -> t_row p (f_table f) = a_arcs A p /\ with_table (t_touch p (f_table f)) f = f.
Proof.
  intros V Hp. unfold t_row, t_touch. rewrite (d_get _ _ _ _ _ V p Hp). split; [reflexivity|apply with_same].
Qed.
Lemma d_has A R0 D Q f p : during A R0 D Q f -> In p (0 :: Q ++ D) -> s_has p (f_ends f) = a_end A p.
Proof.
  intros V Hp. apply eq_true_iff_eq. rewrite s_has_in, (d_ends _ _ _ _ _ V). tauto.
Qed.
Lemma redirect_row A p q l a c : p < length A -> a_arcs A p = l ++ [(a, c)] -> S p < length A ->
  nth p (removelast (redirect p q A)) ([], false) = (l ++ [(a, q)], a_end A p).
Proof.
  intros Lp E L. rewrite nth_removelast by (unfold redirect; rewrite update_len; lia). unfold redirect. rewrite nth_upd, Nat.eqb_refl by assumption.
  f_equal. transitivity (update (length (a_arcs A p) - 1) (fun y : arc => (fst y, q)) (a_arcs A p)); [reflexivity|]. rewrite E. exact (update_last l (a, c) _).
Qed.
Lemma in_swap (Q D : list nat) c p : In p (0 :: (Q ++ [c]) ++ D) <-> In p (0 :: Q ++ c :: D).
Proof. rewrite <- app_assoc. reflexivity. Qed.

Definition settle (state child : nat) (f : fsa) : option fsa :=
  let (s, f) := make_sig child f in
  match find (fun x => sig_eqb s (fst x)) (f_sigs f) with
  | Some (_, equiv) =>
      match set_last_child state equiv f with
      | None => None
      | Some f => Some (delete_state child f)
      end
  | None => Some (Fsa (f_table f) (f_ends f) ((s, child) :: f_sigs f) (f_states f) (f_traversed f) (f_added f) (f_out f))
  end.
Lemma settle_spec A R0 D Q w a c f : during A R0 D (Q ++ [c]) f -> inv A (D ++ R0) (Q ++ [c]) (w ++ [a]) -> (exists v, acc A c v = true) ->
  let p := last Q 0 in
  exists A' D' f', settle p c f = Some f' /\ during A' R0 D' Q f' /\ inv A' (D' ++ R0) Q w /\ kept A A' p Q /\ marks f f' /\
    (forall r, In r R0 -> nth r A' ([], false) = nth r A ([], false)) /\ (forall r, In r D' -> In r D \/ r = c).
Proof.
  intros U V Lv p. destruct (link_last _ _ _ _ _ _ V) as (L & Sp & (l & El & Il & Lt) & Ic & B). fold p in El, Lt, B.
  assert (Hc : In c (0 :: (Q ++ [c]) ++ D)) by (apply in_swap; right; apply in_app_iff; right; now left).
  assert (Hc' : In c (0 :: Q ++ [c])) by (right; apply in_app_iff; right; now left).
  assert (Hp : In p (0 :: (Q ++ [c]) ++ D)).
  { pose proof (last_in Q) as K. fold p in K. destruct K as [K|K]; [now left|]. right. apply in_app_iff. left. apply in_app_iff. now left. }
  assert (Hp' : In p (0 :: Q ++ [c])).
  { pose proof (last_in Q) as K. fold p in K. destruct K as [K|K]; [now left|]. right. apply in_app_iff. now left. }
  assert (Lc : c < length A) by (apply (in_states _ _ _ _ _ V); now right).
  assert (Nc : ~ In c (0 :: Q ++ D)).
  { intros K. pose proof (nodup_parts _ _ _ _ V) as N. cbn [In] in K. rewrite in_app_iff in K. destruct K as [K|[K|K]].
    - subst c. lia.
    - specialize (B c (or_intror K)). lia.
    - apply (disjoint _ _ _ _ c V); [apply in_app_iff; now left|assumption]. }
  assert (Ns : forall r, In r (D ++ R0) -> r <> p) by (intros r Hr ->; apply (disjoint _ _ _ _ p V Hr Hp')).
  unfold settle, make_sig. destruct (d_row _ _ _ _ _ c U Hc) as [-> ->]. rewrite (d_has _ _ _ _ _ c U Hc), (d_sigs _ _ _ _ _ U).
  destruct (find _ _) as [[s q]|] eqn:Ef.
  - apply find_some in Ef as [Hq Es]. cbn [fst] in Es. apply sig_eqb_eq in Es. subst s.
    apply in_map_iff in Hq as (r & Er & Hr). injection Er as Ee Ea ->.
    unfold set_last_child. destruct (d_row _ _ _ _ _ p U Hp) as [-> _]. rewrite El, rev_app_distr. cbn [rev app]. rewrite rev_involutive.
    destruct (retire_old _ _ _ _ _ _ _ V Hr (eq_sym Ee) (eq_sym Ea)) as (V' & LA & _ & Ha & Hs & Hm & He). fold p in V', LA, Ha, Hs, Hm, He.
    pose proof (last_state _ _ _ _ _ _ _ V Hr (eq_sym Ea)) as Lst.
    pose proof (redirect_row A p q l a c ltac:(lia) El ltac:(lia)) as Rw.
    set (A' := removelast (redirect p q A)) in *. exists A', D.
    unfold delete_state. cbn [f_table with_table]. rewrite get_put by apply U. destruct (Nat.eqb_spec c p); [lia|].
    rewrite (d_get _ _ _ _ _ U c Hc). eexists. split; [reflexivity|].
    assert (Rl : forall r, In r (D ++ R0) -> nth r A' ([], false) = nth r A ([], false)).
    { intros r Hr'. apply Hs; [|now apply Ns]. rewrite <- LA. apply (in_states _ _ _ _ _ V'). now left. }
    assert (Rn : forall x, In x (0 :: Q ++ D) -> x <> p -> nth x A' ([], false) = nth x A ([], false)).
    { intros x Hx Nx. apply Hs; [|assumption]. rewrite <- LA. apply (in_states _ _ _ _ _ V'). destruct Hx as [<-|Hx]; [right; now left|].
      apply in_app_iff in Hx as [Hx|Hx]; [right; now right|left; apply in_app_iff; now left]. }
    assert (Hsub : forall x, In x (0 :: Q ++ D) -> In x (0 :: (Q ++ [c]) ++ D)).
    { intros x Hx. apply in_swap. cbn [In] in *. rewrite in_app_iff in *. cbn [In]. tauto. }
    assert (Hsup : forall x, In x (0 :: (Q ++ [c]) ++ D) -> x <> c -> In x (0 :: Q ++ D)).
    { intros x Hx Nx. apply in_swap in Hx. cbn [In] in *. rewrite in_app_iff in *. cbn [In] in *. intuition congruence. }
    assert (Ee' : forall x, In x (0 :: Q ++ D) -> a_end A' x = a_end A x).
    { intros x Hx. destruct (Nat.eq_dec x p) as [->|N]; [exact He|]. unfold a_end. now rewrite Rn. }
    split; [|split; [exact V'|split; [|split; [|split]]]].
    + constructor; cbn [f_states f_table f_ends f_sigs f_out with_table].
      * rewrite (d_states _ _ _ _ _ U), LA. lia.
      * unfold t_erase. apply erase_keyed, put_keyed, U.
      * intros x Hx. unfold t_erase. rewrite (get_filter (fun k => negb (c =? k))). destruct (Nat.eqb_spec c x) as [<-|N]; [contradiction|]. cbn [negb].
        rewrite get_put by apply U. destruct (Nat.eqb_spec x p) as [->|Nx]; [unfold a_arcs; now rewrite Rw|].
        rewrite (d_get _ _ _ _ _ U x (Hsub x Hx)). unfold a_arcs. now rewrite Rn.
      * intros x Hx. unfold t_erase. rewrite (get_filter (fun k => negb (c =? k))). destruct (Nat.eqb_spec c x) as [<-|N]; [reflexivity|]. cbn [negb].
        assert (Nx : ~ In x (0 :: (Q ++ [c]) ++ D)) by (intros K; apply Hx, Hsup; [assumption|congruence]).
        rewrite get_put by apply U. destruct (Nat.eqb_spec x p) as [->|_]; [contradiction|]. apply (d_none _ _ _ _ _ U x Nx).
      * apply s_filter_sorted, U.
      * intros x. unfold s_erase. rewrite filter_In, (d_ends _ _ _ _ _ U x). destruct (Nat.eqb_spec c x) as [<-|N]; cbn [negb].
        -- split; [intros [_ K]; discriminate|]. intros [K _]. contradiction.
        -- split.
           ++ intros [[K1 K2] _]. assert (K3 : In x (0 :: Q ++ D)) by (apply Hsup; [assumption|congruence]). split; [assumption|]. now rewrite Ee'.
           ++ intros [K1 K2]. rewrite Ee' in K2 by assumption. split; [split; [now apply Hsub|assumption]|reflexivity].
      * rewrite (d_sigs _ _ _ _ _ U). apply map_ext_in. intros r Hr'. unfold a_end, a_arcs. now rewrite Rl.
      * rewrite (lines_same A A'); [apply U|]. intros r Hr'. apply Rl. apply in_app_iff. now right.
    + constructor; [lia|lia| | |assumption|assumption|apply redirect_count; lia].
      * apply (firstn_ext ([], false)); [lia..|]. intros x Hx. apply Hs; lia.
      * intros x v Hx. apply Ha. specialize (B x Hx). lia.
    + split; reflexivity.
    + intros r Hr'. apply Rl. apply in_app_iff. now right.
    + intros r Hr'. now left.
  - exists A, (c :: D). eexists. split; [reflexivity|]. split; [|split; [|split; [|split; [|split]]]].
    + constructor; cbn [f_states f_table f_ends f_sigs f_out].
      * apply U.
      * apply U.
      * intros x Hx. apply (d_get _ _ _ _ _ U). now apply in_swap.
      * intros x Hx. apply (d_none _ _ _ _ _ U). intros K. apply Hx. now apply in_swap.
      * apply U.
      * intros x. rewrite (d_ends _ _ _ _ _ U x), in_swap. reflexivity.
      * reflexivity.
      * apply U.
    + apply (retire_new _ _ _ _ a); [assumption| |assumption]. intros r Hr Ee Ea.
      assert (K : In ((a_end A r, a_arcs A r), r) (map (fun r => ((a_end A r, a_arcs A r), r)) (D ++ R0))) by (apply in_map_iff; now exists r).
      apply (find_none _ _ Ef) in K. cbn [fst] in K. rewrite Ee, Ea in K. rewrite (proj2 (sig_eqb_eq _ _) eq_refl) in K. discriminate.
    + constructor; try reflexivity. lia.
    + split; reflexivity.
    + reflexivity.
    + intros r [<-|Hr]; [now right|now left].
Qed.

Lemma ror_step fuel p f : replace_or_register (S fuel) p f =
  match last_child p f with
  | None => None
  | Some (child, f) =>
      let (deeper, f) := has_children child f in
      match (if deeper then replace_or_register fuel child f else Some f) with
      | None => None
      | Some f => settle p child f
      end
  end.
Proof. reflexivity. Qed.
Lemma last_child_spec A R0 D Q f p l a c : during A R0 D Q f -> In p (0 :: Q ++ D) -> a_arcs A p = l ++ [(a, c)] -> last_child p f = Some (c, f).
Proof.
  intros U Hp E. unfold last_child. destruct (d_row _ _ _ _ _ p U Hp) as [-> ->]. rewrite E, rev_app_distr. reflexivity.
Qed.
Lemma has_children_spec A R0 D Q f p : during A R0 D Q f -> In p (0 :: Q ++ D) -> has_children p f = (negb (length (a_arcs A p) =? 0), f).
Proof. intros U Hp. unfold has_children. now destruct (d_row _ _ _ _ _ p U Hp) as [-> ->]. Qed.

Lemma register_path : forall Q2 w2 Q1 w1 a c fuel A R0 D f, during A R0 D (Q1 ++ c :: Q2) f ->
  inv A (D ++ R0) (Q1 ++ c :: Q2) (w1 ++ a :: w2) -> length w1 = length Q1 ->
  a_arcs A (last Q2 c) = [] -> a_end A (last Q2 c) = true -> length Q2 < fuel ->
  exists A' D' f', replace_or_register fuel (last Q1 0) f = Some f' /\ during A' R0 D' Q1 f' /\ inv A' (D' ++ R0) Q1 w1 /\
    kept A A' (last Q1 0) Q1 /\ marks f f' /\ (forall r, In r R0 -> nth r A' ([], false) = nth r A ([], false)).
Proof.
  induction Q2 as [|d Q2 IH]; intros w2 Q1 w1 a c fuel A R0 D f U V L Hl He Hf.
  all: pose proof (v_spine _ _ _ _ V) as Sp; pose proof (spine_length _ _ _ _ _ Sp) as L2; rewrite !app_length in L2; cbn in L2.
  all: apply spine_app in Sp as [Sp1 Sp2]; [|assumption]; cbn [spine] in Sp2; destruct Sp2 as [(l & El & Il & Lt) Sp2].
  all: set (p := last Q1 0) in *; destruct fuel as [|fuel]; [cbn in Hf; lia|].
  all: assert (Hp : forall Q3, In p (0 :: (Q1 ++ Q3) ++ D)) by
    (intros Q3; pose proof (last_in Q1) as K; fold p in K; destruct K as [K|K]; [now left|]; right; apply in_app_iff; left; apply in_app_iff; now left).
  all: assert (Hc : forall Q3, In c (0 :: (Q1 ++ c :: Q3) ++ D)) by (intros Q3; right; apply in_app_iff; left; apply in_app_iff; right; now left).
  all: rewrite ror_step, (last_child_spec _ _ _ _ _ p l a c U (Hp _) El), (has_children_spec _ _ _ _ _ c U (Hc _)).
  - cbn [last] in Hl, He. rewrite Hl. cbn [length Nat.eqb negb]. destruct w2; [|cbn in L2; lia].
    destruct (settle_spec A R0 D Q1 w1 a c f U V) as (A' & D' & f' & F1 & F2 & F3 & F4 & F5 & F6 & _).
    + exists []. exact He.
    + exists A', D', f'. repeat (split; [assumption|]). assumption.
  - destruct w2 as [|a2 w2]; [cbn in Sp2; easy|]. cbn [spine] in Sp2. destruct Sp2 as [(l2 & El2 & _ & Lt2) Sp2].
    replace (length (a_arcs A c) =? 0) with false by (symmetry; apply Nat.eqb_neq; rewrite El2, app_length; cbn; lia). cbn [negb].
    rewrite last_cons in Hl, He.
    destruct (IH w2 (Q1 ++ [c]) (w1 ++ [a]) a2 d fuel A R0 D f) as (A1 & D1 & f1 & E1 & U1 & V1 & K1 & M1 & O1); try assumption.
    + rewrite <- !app_assoc. exact U.
    + rewrite <- !app_assoc. exact V.
    + rewrite !app_length. cbn. lia.
    + cbn in Hf. lia.
    + rewrite last_snoc in E1, K1. rewrite E1.
      assert (Lp : p < length A) by (assert (c < length A) by (apply (in_states _ _ _ _ _ V); right; right; apply in_app_iff; right; now left); lia).
      assert (Hpre : forall x, x < c -> nth x A1 ([], false) = nth x A ([], false)).
      { intros x Hx. rewrite <- (nth_firstn A1 c), <- (nth_firstn A c) by assumption. now rewrite (k_pre _ _ _ _ K1). }
      assert (Ep : a_arcs A1 p = a_arcs A p) by (unfold a_arcs; now rewrite Hpre).
      destruct (settle_spec A1 R0 D1 Q1 w1 a c f1 U1 V1) as (A2 & D2 & f2 & E2 & U2 & V2 & K2 & M2 & O2 & _).
      { assert (Hw : walk A c (a2 :: w2) = Some (last Q2 d)).
        { rewrite <- (last_cons Q2 d c). apply (spine_walk A (D ++ R0) (v_inc _ _ _ _ V)). split; [|assumption].
          pose proof (v_spine _ _ _ _ V) as Sp. replace (Q1 ++ c :: d :: Q2) with ((Q1 ++ [c]) ++ d :: Q2) in Sp by now rewrite <- app_assoc.
          replace (w1 ++ a :: a2 :: w2) with ((w1 ++ [a]) ++ a2 :: w2) in Sp by now rewrite <- app_assoc.
          apply spine_app in Sp as [_ Sp]; [|rewrite !app_length; cbn; lia]. rewrite last_snoc in Sp. now destruct Sp. }
        exists (a2 :: w2). rewrite (k_acc _ _ _ _ K1); [unfold acc; now rewrite Hw|]. right. apply in_app_iff. right. now left. }
      fold p in E2, K2. exists A2, D2, f2. split; [exact E2|]. split; [assumption|]. split; [assumption|]. split; [|split].
      * constructor.
        -- apply K2.
        -- pose proof (k_size _ _ _ _ K2). pose proof (k_size _ _ _ _ K1). lia.
        -- rewrite (k_pre _ _ _ _ K2). apply (firstn_ext ([], false)); [pose proof (k_in _ _ _ _ K1); lia|lia|]. intros x Hx. apply Hpre. lia.
        -- intros x v Hx. rewrite (k_acc _ _ _ _ K2 x v Hx). apply (k_acc _ _ _ _ K1).
           destruct Hx as [Hx|Hx]; [now left|right; apply in_app_iff; now left].
        -- rewrite (k_sym _ _ _ _ K2). now rewrite Ep.
        -- rewrite (k_end _ _ _ _ K2). unfold a_end. now rewrite Hpre.
        -- pose proof (k_count _ _ _ _ K2). pose proof (k_count _ _ _ _ K1). lia.
      * destruct M1, M2. split; congruence.
      * intros r Hr. rewrite O2 by assumption. now apply O1.
Qed.

(** ** A new branch *)
Definition packed (A : auto) : bin := Bin (posns 0 A) (all_arcs A).
Lemma packed_rep A : small (length (all_arcs A)) -> rep A (packed A).
Proof. intros H. repeat split. exact H. Qed.
Lemma grown_nth A p a : p < length A -> (forall x, In x (a_arcs A p) -> (fst x < a)%Z) -> forall x,
  nth x (grown A p a) ([], false) = if x =? p then (a_arcs A p ++ [(a, length A)], a_end A p) else nth x A ([], false).
Proof.
  intros Lp Hs x. unfold grown. rewrite nth_upd by (rewrite app_length; cbn; lia). destruct (Nat.eqb_spec x p) as [->|N].
  - rewrite app_nth1 by assumption. f_equal. transitivity (put (a, length A) (a_arcs A p)); [reflexivity|]. now apply put_last.
  - destruct (Nat.lt_ge_cases x (length A)) as [K|K]; [now rewrite app_nth1|]. rewrite (nth_overflow A) by lia. rewrite app_nth2 by lia.
    destruct (x - length A) as [|[|k]]; reflexivity.
Qed.
Definition branch_step (current : nat) (a : symbol) (f : fsa) : option fsa :=
  let (next, f) := add_new_state f in
  add_new_transition current next a (Fsa (f_table f) (f_ends f) (f_sigs f) (f_states f) (f_traversed f) (s_put next (f_added f)) (f_out f)).
Lemma branch_cons p a w f : branch p (a :: w) f = match branch_step p a f with None => None | Some f' => branch (f_states f) w f' end.
Proof. reflexivity. Qed.
Lemma branch_step_spec A R0 D Q w a f : during A R0 D Q f -> inv A (D ++ R0) Q w -> (forall x, In x (a_arcs A (last Q 0)) -> (fst x < a)%Z) ->
  exists f', branch_step (last Q 0) a f = Some f' /\ during (grown A (last Q 0) a) R0 D (Q ++ [length A]) f' /\
    f_traversed f' = f_traversed f /\ f_added f' = s_put (length A) (f_added f).
Proof.
  intros U V Hs. set (p := last Q 0) in *. set (n := length A) in *.
  assert (Hp0 : In p (0 :: Q)) by apply last_in.
  assert (Hp : In p (0 :: Q ++ D)) by (destruct Hp0 as [K|K]; [now left|right; apply in_app_iff; now left]).
  assert (Lp : p < n) by (apply (in_states _ _ _ _ _ V); now right).
  assert (Lall : forall x, In x (0 :: Q ++ D) -> x < n).
  { intros x Hx. apply (in_states _ _ _ _ _ V). destruct Hx as [Hx|Hx]; [right; now left|]. apply in_app_iff in Hx as [Hx|Hx]; [right; now right|left; apply in_app_iff; now left]. }
  assert (Nn : ~ In n (0 :: Q ++ D)) by (intros K; specialize (Lall n K); lia).
  assert (Heq : forall x, In x (0 :: (Q ++ [n]) ++ D) <-> In x (0 :: Q ++ D) \/ x = n).
  { intros x. rewrite in_swap. cbn [In]. rewrite !in_app_iff. cbn [In]. intuition congruence. }
  pose proof (grown_nth A p a Lp Hs) as G. fold n in G. set (A' := grown A p a) in *.
  assert (Ea : forall x, a_arcs A' x = if x =? p then a_arcs A p ++ [(a, n)] else a_arcs A x) by (intros x; unfold a_arcs at 1; rewrite G; now destruct (x =? p)).
  assert (Ee : forall x, a_end A' x = a_end A x) by (intros x; unfold a_end at 1; rewrite G; destruct (Nat.eqb_spec x p) as [->|]; reflexivity).
  assert (En : nth n A ([], false) = ([], false)) by (apply nth_overflow; apply le_n).
  unfold branch_step, add_new_state, add_new_transition. cbn [f_table f_ends f_sigs f_states f_traversed f_added f_out].
  rewrite (d_states _ _ _ _ _ U). fold n. rewrite !get_put by apply U. rewrite Nat.eqb_refl. destruct (Nat.eqb_spec p n); [lia|].
  rewrite (d_get _ _ _ _ _ U p Hp). eexists. split; [reflexivity|]. split; [|split; reflexivity].
  constructor; cbn [f_table f_ends f_sigs f_states f_traversed f_added f_out with_table].
  - unfold A', grown. rewrite update_len, app_length. cbn. lia.
  - apply put_keyed, put_keyed, U.
  - intros x Hx. apply Heq in Hx. rewrite get_put by (apply put_keyed, U). rewrite Ea. destruct (Nat.eqb_spec x p) as [->|N].
    + now rewrite r_put_last.
    + rewrite get_put by apply U. destruct (Nat.eqb_spec x n) as [->|Nx].
      * unfold a_arcs. now rewrite En.
      * destruct Hx as [Hx|Hx]; [|contradiction]. apply (d_get _ _ _ _ _ U x Hx).
  - intros x Hx. rewrite get_put by (apply put_keyed, U). destruct (Nat.eqb_spec x p) as [->|N]; [exfalso; apply Hx, Heq; now left|].
    rewrite get_put by apply U. destruct (Nat.eqb_spec x n) as [->|Nx]; [exfalso; apply Hx, Heq; now right|].
    apply (d_none _ _ _ _ _ U). intros K. apply Hx, Heq. now left.
  - apply U.
  - intros x. rewrite (d_ends _ _ _ _ _ U x), Ee, Heq. split; [intros [K1 K2]; split; [now left|assumption]|].
    intros [[K1|K1] K2]; [now split|]. subst x. unfold a_end in K2. rewrite En in K2. discriminate.
  - rewrite (d_sigs _ _ _ _ _ U). apply map_ext_in. intros r Hr. rewrite Ee, Ea. destruct (Nat.eqb_spec r p) as [->|]; [|reflexivity].
    exfalso. apply (disjoint _ _ _ _ p V Hr Hp0).
  - rewrite (lines_same A A'); [apply U|]. intros r Hr. rewrite G. destruct (Nat.eqb_spec r p) as [->|]; [|reflexivity].
    exfalso. apply (disjoint _ _ _ _ p V); [|assumption]. apply in_app_iff. now right.
Qed.
Lemma set_end_spec A R0 D Q w f : during A R0 D Q f -> inv A (D ++ R0) Q w ->
  during (update (last Q 0) (fun x => (fst x, true)) A) R0 D Q (set_end_state (last Q 0) f).
Proof.
  intros U V. set (z := last Q 0). assert (Hz : In z (0 :: Q)) by apply last_in.
  assert (Hz' : In z (0 :: Q ++ D)) by (destruct Hz as [K|K]; [now left|right; apply in_app_iff; now left]).
  assert (Lz : z < length A) by (apply (in_states _ _ _ _ _ V); now right).
  set (A' := update z (fun x => (fst x, true)) A).
  assert (G : forall x, nth x A' ([], false) = if x =? z then (a_arcs A z, true) else nth x A ([], false)).
  { intros x. unfold A'. rewrite nth_upd by assumption. destruct (Nat.eqb_spec x z) as [->|]; reflexivity. }
  assert (Ea : forall x, a_arcs A' x = a_arcs A x) by (intros x; unfold a_arcs at 1; rewrite G; destruct (Nat.eqb_spec x z) as [->|]; reflexivity).
  assert (Ee : forall x, a_end A' x = (x =? z) || a_end A x) by (intros x; unfold a_end at 1; rewrite G; destruct (x =? z); reflexivity).
  assert (Nr : forall r, In r (D ++ R0) -> (r =? z) = false).
  { intros r Hr. apply Nat.eqb_neq. intros ->. apply (disjoint _ _ _ _ z V Hr Hz). }
  constructor; cbn [f_table f_ends f_sigs f_states f_traversed f_added f_out set_end_state].
  - unfold A'. rewrite update_len. apply U.
  - apply U.
  - intros x Hx. rewrite Ea. apply (d_get _ _ _ _ _ U x Hx).
  - apply U.
  - apply s_put_nodup, U.
  - intros x. rewrite s_put_in, (d_ends _ _ _ _ _ U x), Ee. destruct (Nat.eqb_spec x z) as [->|N]; cbn [orb]; [tauto|]. split; [intros [K|K]; [contradiction|assumption]|now right].
  - rewrite (d_sigs _ _ _ _ _ U). apply map_ext_in. intros r Hr. now rewrite Ea, Ee, Nr.
  - rewrite (lines_same A A'); [apply U|]. intros r Hr. rewrite G, Nr; [reflexivity|]. apply in_app_iff. now right.
Qed.
Lemma branch_spec : forall w2 A R0 D Q w f, during A R0 D Q f -> inv A (D ++ R0) Q w ->
  match w2 with [] => True | a :: _ => forall x, In x (a_arcs A (last Q 0)) -> (fst x < a)%Z end ->
  small (length w2 + length (all_arcs A)) -> (forall x, In x (f_added f) -> x < length A) ->
  exists A' f', let Q' := seq (length A) (length w2) in
    branch (last Q 0) w2 f = Some f' /\ during A' R0 D (Q ++ Q') f' /\ inv A' (D ++ R0) (Q ++ Q') (w ++ w2) /\
    (w2 <> [] -> a_arcs A' (last (Q ++ Q') 0) = []) /\ a_end A' (last (Q ++ Q') 0) = true /\
    (forall v, acc A' 0 v = true <-> acc A 0 v = true \/ v = w ++ w2) /\
    length (all_arcs A') = length w2 + length (all_arcs A) /\ f_traversed f' = f_traversed f /\ f_added f' = f_added f ++ Q' /\
    (w2 = [] -> forall x, a_arcs A' x = a_arcs A x).
Proof.
  induction w2 as [|a w2 IH]; intros A R0 D Q w f U V Hs Sm Had.
  - destruct (mark _ _ _ _ V) as (V1 & G1 & G2 & G3 & G4). pose proof (set_end_spec _ _ _ _ _ _ U V) as U1.
    set (A' := update (last Q 0) (fun x => (fst x, true)) A) in *. exists A', (set_end_state (last Q 0) f).
    cbn [length seq branch]. rewrite !app_nil_r. split; [reflexivity|]. split; [assumption|]. split; [assumption|]. split; [congruence|].
    split; [assumption|]. split; [assumption|]. split; [|split; [reflexivity|]; split; [reflexivity|auto]].
    apply all_arcs_update; [|reflexivity]. apply (in_states _ _ _ _ _ V). right. apply last_in.
  - assert (Sm1 : small (length (all_arcs A))) by (eapply small_le; [|exact Sm]; lia).
    destruct (grow A (packed A) (D ++ R0) Q w a (packed_rep A Sm1) V Hs) as (_ & V1 & E1 & E2 & Ha & LA & LB).
    { eapply small_le; [|exact Sm]. cbn. lia. }
    destruct (branch_step_spec A R0 D Q w a f U V Hs) as (f1 & F1 & U1 & T1 & D1).
    set (p := last Q 0) in *. set (A1 := grown A p a) in *. rewrite s_put_last in D1 by assumption.
    destruct (IH A1 R0 D (Q ++ [length A]) (w ++ [a]) f1 U1 V1) as (A2 & f2 & K1 & K2 & K3 & K4 & K5 & K6 & K7 & K8 & K9 & K10).
    + rewrite last_snoc. destruct w2; [trivial|]. rewrite E1. intros x [].
    + rewrite LB. eapply small_le; [|exact Sm]. cbn. lia.
    + rewrite D1, LA. intros x Hx. apply in_app_iff in Hx as [Hx|[<-|[]]]; [specialize (Had x Hx)|]; lia.
    + exists A2, f2. cbv zeta. cbn [length seq]. rewrite last_snoc in K1. rewrite LA in K2, K3, K4, K5, K9.
      rewrite <- !app_assoc in K2, K3, K4, K5. cbn [app] in K2, K3, K4, K5.
      assert (Ew : (w ++ [a]) ++ w2 = w ++ a :: w2) by (symmetry; exact (app_assoc w [a] w2)). rewrite Ew in K3.
      split; [|split; [assumption|split; [exact K3|split; [|split; [assumption|split; [|split; [|split; [|split; [|discriminate]]]]]]]]].
      * rewrite branch_cons, F1, (d_states _ _ _ _ _ U). exact K1.
      * intros _. destruct w2 as [|a2 w2]; [|apply K4; discriminate]. cbn [length seq]. rewrite K10 by reflexivity. now rewrite last_snoc.
      * intros v. rewrite K6, Ew, Ha; [reflexivity|]. apply (in_states _ _ _ _ _ V). right. now left.
      * rewrite K7, LB. cbn. lia.
      * congruence.
      * rewrite K9, D1, <- app_assoc. reflexivity.
Qed.

(** ** Walking along the path *)
Definition pass (p : nat) (f : fsa) : fsa :=
  Fsa (f_table f) (f_ends f) (f_sigs f) (f_states f) (s_put p (f_traversed f)) (f_added f) (f_out f).
Definition alike (f f' : fsa) : Prop :=
  f_table f' = f_table f /\ f_ends f' = f_ends f /\ f_sigs f' = f_sigs f /\ f_states f' = f_states f /\ f_added f' = f_added f /\ f_out f' = f_out f.
Lemma during_alike A R0 D Q f f' : alike f f' -> during A R0 D Q f -> during A R0 D Q f'.
Proof.
  intros (E1 & E2 & E3 & E4 & E5 & E6) [V1 V2 V3 V4 V5 V6 V7 V8]. constructor; rewrite ?E1, ?E2, ?E3, ?E4, ?E6; assumption.
Qed.
Lemma delta_prefix_spec A R0 D Q : (forall p, inc (a_arcs A p)) -> forall u p Q1 a v f, during A R0 D Q f -> spine A (D ++ R0) p u Q1 ->
  (forall x, In x (p :: Q1) -> In x (0 :: Q ++ D)) -> look (a_arcs A (last Q1 p)) a = None ->
  exists f', delta_prefix p (u ++ a :: v) f = Some (last Q1 p, a :: v, f') /\ alike f f' /\
    (forall x, In x (f_traversed f') <-> In x (f_traversed f) \/ In x (p :: Q1)).
Proof.
  intros I. induction u as [|b u IH]; intros p [|c Q1] a v f U S Hin Hn; cbn [spine] in S; try easy.
  - cbn [app last] in *. cbn [delta_prefix]. fold (pass p f). cbn [f_table pass]. rewrite (d_get _ _ _ _ _ U p) by (apply Hin; now left).
    rewrite r_get_look, Hn. exists (pass p f). split; [reflexivity|]. split; [repeat split|]. intros x. cbn [f_traversed pass In]. rewrite s_put_in. intuition congruence.
  - destruct S as [(l & E & _) S]. cbn [app delta_prefix]. fold (pass p f). cbn [f_table pass]. rewrite (d_get _ _ _ _ _ U p) by (apply Hin; now left).
    rewrite r_get_look, (look_some _ b c (I p)) by (rewrite E; apply in_app_iff; right; now left).
    rewrite last_cons in *. destruct (IH c Q1 a v (pass p f)) as (f' & F1 & F2 & F3); try assumption.
    + apply (during_alike _ _ _ _ f); [repeat split|assumption].
    + intros x Hx. apply Hin. now right.
    + exists f'. split; [exact F1|]. split.
      * exact F2.
      * intros x. rewrite F3. cbn [f_traversed pass]. rewrite s_put_in. cbn [In]. intuition congruence.
Qed.

(** ** Purging *)
Lemma s_has_cons x p G : s_has x (p :: G) = (x =? p) || s_has x G.
Proof. reflexivity. Qed.
Lemma purge_each_spec : forall G f, NoDup G -> purge_each G f =
  Fsa (filter (fun x => negb (s_has (fst x) G)) (f_table f)) (filter (fun p => negb (s_has p G)) (f_ends f)) (f_sigs f) (f_states f)
      (f_traversed f) (f_added f) (f_out f ++ map End (filter (fun p => s_has p (f_ends f)) G)).
Proof.
  induction G as [|p G IH]; intros f N; cbn [purge_each].
  - cbn. rewrite app_nil_r. destruct f as [t e s n r a o]. cbn. f_equal; clear; [induction t as [|x t IH]|induction e as [|x t IH]]; cbn; congruence.
  - inversion N as [|? ? N1 N2]; subst. rewrite IH by assumption. clear IH.
    assert (Ft : forall t : table, filter (fun x => negb (s_has (fst x) G)) (t_erase p t) = filter (fun x => negb (s_has (fst x) (p :: G))) t).
    { unfold t_erase. induction t as [|x t IH]; cbn [filter]; [reflexivity|]. rewrite s_has_cons.
      rewrite (Nat.eqb_sym (fst x) p). destruct (p =? fst x); cbn [negb orb filter]; [assumption|]. destruct (negb (s_has (fst x) G)); congruence. }
    assert (Fe : forall t, filter (fun x => negb (s_has x G)) (s_erase p t) = filter (fun x => negb (s_has x (p :: G))) t).
    { unfold s_erase. induction t as [|x t IH]; cbn [filter]; [reflexivity|]. rewrite s_has_cons.
      rewrite (Nat.eqb_sym x p). destruct (p =? x); cbn [negb orb filter]; [assumption|]. destruct (negb (s_has x G)); congruence. }
    assert (Fo : forall t, filter (fun q => s_has q (s_erase p t)) G = filter (fun q => s_has q t) G).
    { intros t. apply filter_ext_in. intros q Hq. apply eq_true_iff_eq. rewrite !s_has_in. unfold s_erase. rewrite filter_In.
      destruct (Nat.eqb_spec p q) as [->|]; [contradiction|]. cbn. tauto. }
    cbn [f_ends with_table]. destruct (s_has p (f_ends f)) eqn:E; cbn [f_table f_ends f_sigs f_states f_traversed f_added f_out with_table filter]; rewrite E.
    + rewrite Ft, Fe, Fo. cbn [map]. rewrite <- app_assoc. reflexivity.
    + rewrite Ft. f_equal. apply filter_ext_in. intros q Hq. rewrite s_has_cons.
      destruct (Nat.eqb_spec q p) as [->|]; [|reflexivity]. apply s_has_in in Hq. congruence.
Qed.
Lemma flat_lines A l : flat_map arc_lines (map (fun p => (p, a_arcs A p)) l) = flat_map (arcs_out A) l.
Proof. induction l as [|p l IH]; cbn; [reflexivity|]. rewrite IH. reflexivity. Qed.
Lemma rows_of A (t : table) : (forall x, In x t -> snd x = a_arcs A (fst x)) -> t = map (fun p => (p, a_arcs A p)) (map fst t).
Proof.
  intros H. rewrite map_map. rewrite <- (map_id t) at 1. apply map_ext_in. intros [p r] Hx. specialize (H _ Hx). cbn in *. now rewrite H.
Qed.
Lemma during_rows A R0 D Q f : during A R0 D Q f -> forall p r, In (p, r) (f_table f) <-> In p (0 :: Q ++ D) /\ r = a_arcs A p.
Proof.
  intros U p r. rewrite <- (get_in _ _ _ (d_keyed _ _ _ _ _ U)). destruct (in_dec Nat.eq_dec p (0 :: Q ++ D)) as [H|H].
  - rewrite (d_get _ _ _ _ _ U p H). split; [intros [= <-]; now split|]. intros [_ ->]. reflexivity.
  - rewrite (d_none _ _ _ _ _ U p H). split; [discriminate|]. intros [K _]. contradiction.
Qed.
Lemma purge_spec A R0 D Q1 n k f w : during A R0 D (Q1 ++ seq n (S k)) f -> inv A (D ++ R0) (Q1 ++ seq n (S k)) w ->
  f_added f = seq n (S k) -> (forall x, In x (f_traversed f) <-> In x (0 :: Q1)) -> (forall x, In x (0 :: Q1 ++ D) -> x < n) ->
  during A (D ++ R0) [] (Q1 ++ seq n (S k)) (purge f).
Proof.
  intros U V Ea Ht Ln. unfold purge. rewrite Ea. cbn [seq]. fold (seq n (S k)).
  set (gone := filter (fun x => negb (s_has (fst x) (f_traversed f))) (before n (f_table f))).
  assert (Dj : forall x, In x D -> In x (0 :: Q1) -> False).
  { intros x H1 H2. apply (disjoint _ _ _ _ x V); [apply in_app_iff; now left|]. destruct H2 as [H2|H2]; [now left|right; apply in_app_iff; now left]. }
  assert (Hg : forall p r, In (p, r) gone <-> In p D /\ r = a_arcs A p).
  { intros p r. unfold gone. rewrite filter_In, (before_filter _ _ (d_keyed _ _ _ _ _ U)), filter_In, (during_rows _ _ _ _ _ U). cbn [fst].
    rewrite negb_true_iff, <- not_true_iff_false, s_has_in, Ht, Nat.ltb_lt. split.
    - intros (((K1 & ->) & K2) & K3). split; [|reflexivity]. cbn [In] in K1, K3. rewrite !in_app_iff in K1.
      destruct K1 as [K1|[[K1|K1]|K1]]; [tauto|tauto| |assumption]. apply in_seq in K1. lia.
    - intros (K1 & ->). split; [split; [split; [|reflexivity]|]|].
      + right. apply in_app_iff. now right.
      + apply Ln. right. apply in_app_iff. now right.
      + intros K2. now apply (Dj p). }
  assert (Kg : keyed gone) by (unfold gone; rewrite (before_filter _ _ (d_keyed _ _ _ _ _ U)); apply erase_keyed, erase_keyed, U).
  set (G := map fst gone). assert (NG : NoDup G) by now apply keyed_nodup.
  assert (HG : forall p, In p G <-> In p D).
  { intros p. unfold G. rewrite in_map_iff. split.
    - intros ([p' r] & <- & K). now apply Hg in K.
    - intros K. exists (p, a_arcs A p). split; [reflexivity|]. now apply Hg. }
  assert (ND : NoDup D).
  { pose proof (nodup_parts _ _ _ _ V) as N. clear -N. induction D as [|d D IH]; [constructor|]. cbn [app] in N. inversion N as [|? ? N1 N2]; subst.
    constructor; [|now apply IH]. intros K. apply N1. rewrite !in_app_iff. left. now left. }
  assert (PG : Permutation G D) by (apply NoDup_Permutation; assumption).
  assert (Eg : gone = map (fun p => (p, a_arcs A p)) G) by (apply rows_of; intros [p r] K; now apply Hg in K).
  assert (NGp : forall x, In x (0 :: (Q1 ++ seq n (S k)) ++ []) -> s_has x G = false).
  { intros x Hx. apply not_true_iff_false. rewrite s_has_in, HG. intros K. rewrite app_nil_r in Hx.
    apply (disjoint _ _ _ _ x V); [apply in_app_iff; now left|assumption]. }
  rewrite purge_each_spec by assumption. cbn [f_table f_ends f_sigs f_states f_traversed f_added f_out].
  constructor; cbn [f_table f_ends f_sigs f_states f_traversed f_added f_out].
  - apply U.
  - apply erase_keyed, U.
  - intros x Hx. rewrite (get_filter (fun p => negb (s_has p G))), (NGp x Hx). cbn [negb]. apply (d_get _ _ _ _ _ U).
    rewrite app_nil_r in Hx. destruct Hx as [Hx|Hx]; [now left|right; apply in_app_iff; now left].
  - intros x Hx. rewrite (get_filter (fun p => negb (s_has p G))). destruct (s_has x G) eqn:Es; cbn [negb]; [reflexivity|].
    apply (d_none _ _ _ _ _ U). intros K. apply Hx. rewrite app_nil_r. destruct K as [K|K]; [now left|].
    apply in_app_iff in K as [K|K]; [now right|]. apply HG, s_has_in in K. congruence.
  - apply s_filter_sorted, U.
  - intros x. rewrite filter_In, (d_ends _ _ _ _ _ U x), negb_true_iff. split.
    + intros [[K1 K2] K3]. split; [|assumption]. rewrite app_nil_r. destruct K1 as [K|K]; [now left|].
      apply in_app_iff in K as [K|K]; [now right|]. apply HG, s_has_in in K. congruence.
    + intros [K1 K2]. split; [split; [|assumption]|now apply NGp]. rewrite app_nil_r in K1. destruct K1 as [K|K]; [now left|right; apply in_app_iff; now left].
  - apply U.
  - rewrite flat_map_app. rewrite Eg, flat_lines, <- app_assoc.
    rewrite (filter_ext_in (fun p => s_has p (f_ends f)) (a_end A)).
    + rewrite <- ends_out, <- lines_split, (Permutation_flat_map (lines_of A) PG), (d_out _ _ _ _ _ U). apply Permutation_app_comm.
    + intros p Hp. apply (d_has _ _ _ _ _ p U). right. apply in_app_iff. right. now apply HG.
Qed.

(** ** Whole words *)
Definition settled (A : auto) (R Q : list nat) (w : list M_Fsa.symbol) (f : fsa) : Prop :=
  during A R [] Q f /\ inv A R Q w /\ a_arcs A (last Q 0) = [] /\ (Q <> [] -> a_end A (last Q 0) = true).
Lemma table_long A R0 D Q w f : during A R0 D Q f -> inv A (D ++ R0) Q w -> length Q < length (f_table f).
Proof.
  intros U V. rewrite <- (map_length fst (f_table f)). change (length (0 :: Q) <= length (map fst (f_table f))). apply NoDup_incl_length.
  - pose proof (nodup_parts _ _ _ _ V) as N. clear -N. induction (D ++ R0) as [|r l IH]; [exact N|]. apply IH. now inversion N.
  - intros p Hp. apply in_map_iff. exists (p, a_arcs A p). split; [reflexivity|]. apply (during_rows _ _ _ _ _ U). split; [|reflexivity].
    destruct Hp as [Hp|Hp]; [now left|right; apply in_app_iff; now left].
Qed.
Lemma add_word_min A R Q w w' f : settled A R Q w f -> str_ltb w' w = false -> w' <> w -> small (length w' + length (all_arcs A)) ->
  exists A' R' Q' f', add_word w' f = Some f' /\ settled A' R' Q' w' f' /\ (forall v, acc A' 0 v = true <-> acc A 0 v = true \/ v = w') /\
    length (all_arcs A') <= length w' + length (all_arcs A).
Proof.
  intros (U & V & Hl & He) Hw Nw Sm. destruct (str_le_split _ _ Hw) as (u & w1 & w2 & E1 & E2 & Hd).
  assert (N2 : w2 <> []) by (intros ->; destruct Hd as [->|(? & ? & ? & ? & _ & K & _)]; [congruence|discriminate]).
  pose proof (v_spine _ _ _ _ V) as Sp. pose proof (spine_length _ _ _ _ _ Sp) as L. pose proof (dests _ _ _ _ V) as D.
  set (Q1 := firstn (length u) Q). set (Q2 := skipn (length u) Q).
  assert (EQ : Q = Q1 ++ Q2) by (unfold Q1, Q2; now rewrite firstn_skipn).
  assert (L1 : length u = length Q1).
  { unfold Q1. rewrite firstn_length. apply (f_equal (@length _)) in E1. rewrite app_length in E1. unfold M_Fsa.symbol in *. lia. }
  rewrite E1, EQ in Sp. apply spine_app in Sp as [Sp1 Sp2]; [|assumption]. set (p := last Q1 0) in *.
  assert (Hin : forall x, In x (0 :: Q1) -> In x (0 :: Q ++ [])).
  { intros x Hx. rewrite app_nil_r, EQ. destruct Hx as [Hx|Hx]; [now left|right; apply in_app_iff; now left]. }
  assert (Hp : In p (0 :: Q ++ [])) by (apply Hin, last_in).
  destruct w2 as [|a' w2]; [congruence|].
  assert (Hn : look (a_arcs A p) a' = None).
  { destruct Hd as [->|(a & r & a'' & r' & -> & E & La)].
    - destruct Q2 as [|c Q2]; [|cbn in Sp2; easy]. rewrite app_nil_r in EQ. unfold p. rewrite <- EQ, Hl. reflexivity.
    - injection E as <- <-. destruct Q2 as [|c Q2]; [cbn in Sp2; easy|]. cbn [spine] in Sp2. destruct Sp2 as [(l & El & _) _].
      destruct (look (a_arcs A p) a') as [d|] eqn:Ed; [|reflexivity]. exfalso. apply look_in in Ed. pose proof (v_inc _ _ _ _ V p) as I.
      rewrite El in Ed, I. apply (inc_le_last _ _ _ _ I) in Ed. cbn in Ed. lia. }
  set (f0 := Fsa (f_table f) (f_ends f) (f_sigs f) (f_states f) [] (f_added f) (f_out f)).
  assert (U0 : during A R [] Q f0) by (apply (during_alike _ _ _ _ f); [repeat split|assumption]).
  destruct (delta_prefix_spec A R [] Q (v_inc _ _ _ _ V) u 0 Q1 a' w2 f0 U0 Sp1 Hin Hn) as (f1 & F1 & F2 & F3). fold p in F1.
  pose proof (during_alike _ _ _ _ _ _ F2 U0) as U1.
  unfold add_word. fold f0. rewrite E2, F1, (has_children_spec _ _ _ _ _ p U1 Hp).
  assert (St : exists A1 D1 f2, (if negb (length (a_arcs A p) =? 0) then replace_or_register (S (length (f_table f1))) p f1 else Some f1) = Some f2 /\
    during A1 R D1 Q1 f2 /\ inv A1 (D1 ++ R) Q1 u /\ (forall v, acc A1 0 v = acc A 0 v) /\ map fst (a_arcs A1 p) = map fst (a_arcs A p) /\
    length (all_arcs A1) <= length (all_arcs A) /\ marks f1 f2 /\ (w1 = [] -> A1 = A)).
  { destruct Hd as [->|(a & r & a'' & r' & -> & E & La)].
    - destruct Q2 as [|c Q2]; [|cbn in Sp2; easy]. rewrite app_nil_r in EQ, E1.
      assert (Ep : a_arcs A p = []) by (unfold p; rewrite <- EQ; exact Hl). rewrite Ep. cbn [length Nat.eqb negb].
      exists A, [], f1. rewrite <- EQ, <- E1. split; [reflexivity|]. split; [assumption|]. split; [assumption|]. split; [reflexivity|].
      split; [now rewrite Ep|]. split; [lia|]. split; [split; reflexivity|reflexivity].
    - destruct Q2 as [|c Q2]; [cbn in Sp2; easy|]. cbn [spine] in Sp2. destruct Sp2 as [(l & El & Il & Lt) Sp2].
      replace (length (a_arcs A p) =? 0) with false by (symmetry; apply Nat.eqb_neq; rewrite El, app_length; cbn; lia). cbn [negb].
      assert (EL : last Q 0 = last Q2 c) by (rewrite EQ; apply last_join).
      rewrite EL in Hl, He. destruct (register_path Q2 r Q1 u a c (S (length (f_table f1))) A R [] f1) as (A1 & D1 & f2 & G1 & G2 & G3 & G4 & G5 & G6).
      + rewrite <- EQ. exact U1.
      + rewrite <- EQ, <- E1. exact V.
      + assumption.
      + assumption.
      + apply He. rewrite EQ. destruct Q1; discriminate.
      + pose proof (table_long A R [] Q w f1 U1 V) as K. rewrite EQ, app_length in K. cbn in K. lia.
      + exists A1, D1, f2. split; [exact G1|]. split; [assumption|]. split; [assumption|]. split; [|split; [|split; [|split; [assumption|discriminate]]]].
        * intros v. apply (k_acc _ _ _ _ G4). now left.
        * apply G4.
        * apply G4. }
  destruct St as (A1 & D1 & f2 & -> & U2 & V2 & Ha & Hm & Hc & M2 & Hid).
  assert (Lall : forall x, In x (0 :: Q1 ++ D1) -> x < length A1).
  { intros x Hx. apply (in_states _ _ _ _ _ V2). destruct Hx as [Hx|Hx]; [right; now left|]. apply in_app_iff in Hx as [Hx|Hx]; [right; now right|left; apply in_app_iff; now left]. }
  set (f3 := Fsa (f_table f2) (f_ends f2) (f_sigs f2) (f_states f2) (f_traversed f2) [] (f_out f2)).
  assert (U3 : during A1 R D1 Q1 f3) by (destruct U2; constructor; assumption).
  destruct (branch_spec (a' :: w2) A1 R D1 Q1 u f3 U3 V2) as (A2 & f4 & G1 & G2 & G3 & G4 & G5 & G6 & G7 & G8 & G9 & _).
  - intros x Hx. fold p in Hx. apply (in_map fst) in Hx. rewrite Hm in Hx. destruct Hd as [->|(a & r & a'' & r' & -> & E & La)].
    + destruct Q2 as [|c Q2]; [|cbn in Sp2; easy]. rewrite app_nil_r in EQ. unfold p in Hx. rewrite <- EQ, Hl in Hx. destruct Hx.
    + injection E as <- <-. destruct Q2 as [|c Q2]; [cbn in Sp2; easy|]. cbn [spine] in Sp2. destruct Sp2 as [(l & El & _) _].
      apply in_map_iff in Hx as (y & Ey & Hy). rewrite <- Ey. pose proof (v_inc _ _ _ _ V p) as I.
      rewrite El in Hy, I. apply (inc_le_last _ _ _ _ I) in Hy. lia.
  - eapply small_le; [|exact Sm]. rewrite E2, app_length. unfold M_Fsa.symbol in *. lia.
  - intros x [].
  - fold p in G1. unfold add_branch. fold f3. rewrite G1. cbn [length] in G2, G3, G4, G5, G9. cbn [f_added f3 app] in G9. cbn [f_traversed f3] in G8.
    pose proof (purge_spec A2 R D1 Q1 (length A1) (length w2) f4 _ G2 G3 G9) as U4.
    exists A2, (D1 ++ R), (Q1 ++ seq (length A1) (S (length w2))), (purge f4). split; [reflexivity|]. split; [|split].
    + split; [|split; [exact G3|split; [apply G4; discriminate|intros _; exact G5]]]. apply U4.
      * intros x. rewrite G8, (proj1 M2), F3. cbn [f_traversed f0]. cbn [In]. tauto.
      * exact Lall.
    + intros v. rewrite G6, Ha. reflexivity.
    + rewrite G7, app_length. unfold M_Fsa.symbol in *. lia.
Qed.
(** Strictly ascending words. *)
Fixpoint climbing (w : list M_Fsa.symbol) (ws : list (list M_Fsa.symbol)) : Prop :=
  match ws with
  | [] => True
  | w' :: ws' => str_ltb w' w = false /\ w' <> w /\ climbing w' ws'
  end.
Lemma add_words_min : forall ws A R Q w f, settled A R Q w f -> climbing w ws -> small (length (concat ws) + length (all_arcs A)) ->
  exists A' R' Q' f', add_words ws f = Some f' /\ settled A' R' Q' (last ws w) f' /\ (forall v, acc A' 0 v = true <-> acc A 0 v = true \/ In v ws) /\
    length (all_arcs A') <= length (concat ws) + length (all_arcs A).
Proof.
  induction ws as [|w' ws IH]; intros A R Q w f V Hc Sm.
  - exists A, R, Q, f. cbn [add_words last In]. split; [reflexivity|]. split; [assumption|]. split; [tauto|]. cbn. lia.
  - destruct Hc as (H1 & H2 & H3). cbn [concat] in Sm. rewrite app_length in Sm.
    destruct (add_word_min A R Q w w' f V H1 H2) as (A1 & R1 & Q1 & f1 & E1 & V1 & C1 & L1).
    { eapply small_le; [|exact Sm]. unfold M_Fsa.symbol in *. lia. }
    destruct (IH A1 R1 Q1 w' f1 V1 H3) as (A2 & R2 & Q2 & f2 & E2 & V2 & C2 & L2).
    { eapply small_le; [|exact Sm]. unfold M_Fsa.symbol in *. lia. }
    exists A2, R2, Q2, f2. cbn [add_words]. rewrite E1. split; [exact E2|]. split; [now rewrite last_cons|].
    split.
    + intros v. rewrite C2, C1. cbn [In]. intuition congruence.
    + cbn [concat]. rewrite app_length. unfold M_Fsa.symbol in *. lia.
Qed.
Lemma start_settled : settled [([], false)] [] [] [] start.
Proof.
  split; [|split; [apply start_inv|split; [reflexivity|now intros []]]]. constructor; cbn; try easy.
  - repeat constructor.
  - intros p [<-|[]]. reflexivity.
  - intros p H. destruct p; [exfalso; apply H; now left|reflexivity].
  - constructor.
  - intros p. split; [intros []|]. intros [[<-|[]] K]. discriminate.
Qed.
Lemma minfsa_spec ws : climbing [] ws -> ws <> [] -> small (length (concat ws)) ->
  exists A R out, minfsa ws = Some out /\ inv A R [] [] /\ (forall v, acc A 0 v = true <-> In v ws) /\
    Permutation out (flat_map (lines_of A) (seq 0 (length A))) /\ length (all_arcs A) <= length (concat ws).
Proof.
  intros Hc Hn Sm. destruct (add_words_min ws _ _ _ _ _ start_settled Hc) as (A1 & R1 & Q1 & f1 & E1 & (U1 & V1 & Hl & He) & C1 & L1).
  { cbn. now rewrite Nat.add_0_r. }
  unfold minfsa. rewrite E1. unfold finalize.
  assert (Nl : last ws [] <> []).
  { clear -Hc Hn. assert (G : forall ws w, ws <> [] -> climbing w ws -> last ws w <> []); [|now apply G].
    clear. induction ws as [|x ws IH]; intros w Hn Hc; [congruence|]. rewrite last_cons. destruct Hc as (H1 & H2 & H3).
    destruct ws as [|y ws]; [|apply IH; [discriminate|assumption]]. cbn. intros ->. destruct w; [congruence|discriminate]. }
  destruct (last ws []) as [|a w] eqn:Ew; [congruence|]. destruct Q1 as [|c Q1]; [apply v_spine in V1; cbn in V1; easy|].
  rewrite last_cons in Hl, He.
  destruct (register_path Q1 w [] [] a c (S (length (f_table f1))) A1 R1 [] f1 U1 V1 eq_refl Hl) as (A2 & D2 & f2 & F1 & U2 & V2 & K & _ & _).
  - apply He. discriminate.
  - pose proof (table_long A1 R1 [] (c :: Q1) _ f1 U1 V1) as K. cbn in K. lia.
  - cbn [last] in F1. rewrite F1. exists A2, (D2 ++ R1). eexists. split; [reflexivity|]. split; [exact V2|]. split.
    + intros v. rewrite (k_acc _ _ _ _ K 0 v (or_introl eq_refl)), C1. split; [|now right]. intros [E|]; [|assumption].
      unfold acc in E. destruct v; discriminate.
    + split; [|pose proof (k_count _ _ _ _ K); cbn in L1; unfold M_Fsa.symbol in *; lia].
      assert (Pt : Permutation (map fst (f_table f2)) (0 :: D2)).
      { apply NoDup_Permutation; [apply keyed_nodup, U2| |].
        - pose proof (nodup_parts _ _ _ _ V2) as N. apply (Permutation_NoDup (l := (D2 ++ R1) ++ [0]) (l' := R1 ++ 0 :: D2)) in N.
          + clear -N. induction R1 as [|r l IH]; [exact N|]. apply IH. now inversion N.
          + rewrite (Permutation_app_comm D2 R1), <- app_assoc. apply Permutation_app_head, Permutation_sym, Permutation_cons_append.
        - intros p. rewrite in_map_iff. split.
          + intros ([p' r] & <- & Hr). now apply (during_rows _ _ _ _ _ U2) in Hr.
          + intros Hp. exists (p, a_arcs A2 p). split; [reflexivity|]. now apply (during_rows _ _ _ _ _ U2). }
      assert (Pe : Permutation (f_ends f2) (filter (a_end A2) (0 :: D2))).
      { apply NoDup_Permutation; [apply s_sorted_nodup, U2| |].
        - apply NoDup_filter. apply (Permutation_NoDup Pt). apply keyed_nodup, U2.
        - intros p. rewrite (d_ends _ _ _ _ _ U2 p), filter_In. reflexivity. }
      rewrite (rows_of A2 (f_table f2)) by (intros [p r] Hr; now apply (during_rows _ _ _ _ _ U2) in Hr).
      rewrite flat_lines, (Permutation_flat_map (arcs_out A2) Pt), (Permutation_map End Pe), <- ends_out, <- lines_split, (d_out _ _ _ _ _ U2), <- flat_map_app.
      apply Permutation_flat_map. rewrite <- (v_all _ _ _ _ V2). rewrite (Permutation_app_comm (D2 ++ R1) [0]). cbn [app].
      rewrite <- Permutation_middle. constructor. apply Permutation_app_comm.
Qed.

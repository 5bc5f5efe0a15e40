(** The invariant of incremental minimisation and its preservation. *)
From Coq Require Import List ZArith Bool Sorted Permutation Lia PeanoNat.
From Verif Require Import M_OrdSet L_OrdSet M_Fsa L_Fsa M_BinFsa L_BinFsa.
Import ListNotations.
Local Open Scope nat_scope.

(** ** Deterministic reading of a list of states *)
Definition look (l : list arc) (a : symbol) : option nat := option_map (fun x : arc => snd x) (find (fun x : arc => (fst x =? a)%Z) l).
Fixpoint walk (A : auto) (p : nat) (w : list symbol) : option nat :=
  match w with
  | [] => Some p
  | a :: w' => match look (a_arcs A p) a with Some q => walk A q w' | None => None end
  end.
Definition acc (A : auto) (p : nat) (w : list symbol) : bool :=
  match walk A p w with Some q => a_end A q | None => false end.
Definition inc (l : list arc) : Prop := StronglySorted (fun x y : arc => (fst x < fst y)%Z) l.

Lemma last_cons {X} (Q : list X) : forall c p, last (c :: Q) p = last Q c.
Proof. induction Q as [|d Q IH]; intros c p; [reflexivity|]. change (last (d :: Q) p = last (d :: Q) c). now rewrite !IH. Qed.
Lemma last_join (Q1 : list nat) : forall c Q2 d, last (Q1 ++ c :: Q2) d = last Q2 c.
Proof. induction Q1 as [|x Q1 IH]; intros c Q2 d; cbn [app]; rewrite last_cons; [reflexivity|apply IH]. Qed.
Lemma look_in l a q : look l a = Some q -> In (a, q) l.
Proof.
  unfold look. destruct (find _ l) as [[a' q']|] eqn:E; [|discriminate]. cbn. intros [= ->].
  apply find_some in E as [E1 E2]. cbn in E2. apply Z.eqb_eq in E2 as ->. exact E1.
Qed.
Lemma look_none l a : look l a = None -> forall q, ~ In (a, q) l.
Proof.
  unfold look. destruct (find _ l) as [x|] eqn:E; [discriminate|]. intros _ q Hq.
  apply (find_none _ _ E) in Hq. cbn in Hq. now rewrite Z.eqb_refl in Hq.
Qed.
Lemma inc_fun l a q q' : inc l -> In (a, q) l -> In (a, q') l -> q = q'.
Proof.
  unfold inc. induction 1 as [|x l Hl IH Hx]; [intros []|]. rewrite Forall_forall in Hx.
  intros [->|K] [E|K']; auto.
  - now injection E.
  - apply Hx in K'. cbn in K'. lia.
  - subst x. apply Hx in K. cbn in K. lia.
Qed.
Lemma look_some l a q : inc l -> In (a, q) l -> look l a = Some q.
Proof.
  intros Hl H. destruct (look l a) as [q'|] eqn:E.
  - f_equal. apply look_in in E. now apply (inc_fun l a).
  - now apply (look_none _ _ E) in H.
Qed.
Lemma find_arc_look l a : inc l -> match find_arc l a with x :: _ => Some (snd x) | [] => None end = look l a.
Proof.
  unfold inc. induction 1 as [|[s d] l Hl IH Hx]; [reflexivity|]. unfold find_arc, look in *. cbn [lower_bound find fst].
  unfold arc_ltb. cbn [fst snd]. destruct (Z.ltb_spec s a) as [L|L]; cbn [orb].
  - destruct (Z.eqb_spec s a); [lia|]. exact IH.
  - destruct (Z.eqb_spec s a) as [->|N]; cbn [andb].
    + rewrite (proj2 (Nat.ltb_ge d 0)) by lia. now rewrite Z.eqb_refl.
    + cbn [fst]. destruct (Z.eqb_spec a s); [lia|]. destruct (find (fun x : arc => (fst x =? a)%Z) l) as [y|] eqn:E; [|reflexivity].
      apply find_some in E as [E1 E2]. apply Z.eqb_eq in E2. rewrite Forall_forall in Hx. apply Hx in E1. cbn in E1. lia.
Qed.
Lemma inc_ext l : forall k, inc l -> inc k -> (forall x, In x l <-> In x k) -> l = k.
Proof.
  unfold inc. induction l as [|x l IH]; intros [|y k] Hl Hk E; [reflexivity|exfalso; now apply (E y); left|exfalso; now apply (E x); left|].
  inversion Hl as [|? ? Hl' Hx]; subst. inversion Hk as [|? ? Hk' Hy]; subst. rewrite Forall_forall in Hx, Hy.
  assert (x = y) as ->.
  { destruct (proj1 (E x) (or_introl eq_refl)) as [->|K1]; [reflexivity|]. destruct (proj2 (E y) (or_introl eq_refl)) as [->|K2]; [reflexivity|].
    apply Hy in K1. apply Hx in K2. lia. }
  f_equal. apply IH; [assumption..|]. intros z. specialize (E z). split; intros Hz.
  - destruct (proj1 E (or_intror Hz)) as [->|]; [|assumption]. apply Hx in Hz. lia.
  - destruct (proj2 E (or_intror Hz)) as [->|]; [|assumption]. apply Hy in Hz. lia.
Qed.
Lemma inc_symbols l k : map fst l = map fst k -> inc l -> inc k.
Proof.
  unfold inc. revert k. induction l as [|x l IH]; intros [|y k] E H; [constructor|discriminate..|]. cbn in E. injection E as E1 E2.
  inversion H as [|? ? H1 H2]; subst. constructor; [now apply IH|]. rewrite Forall_forall in *. intros z Hz.
  apply (in_map fst) in Hz. rewrite <- E2 in Hz. apply in_map_iff in Hz as (z' & <- & Hz'). apply H2 in Hz'. now rewrite <- E1.
Qed.
Lemma walk_app A u : forall p v, walk A p (u ++ v) = match walk A p u with Some q => walk A q v | None => None end.
Proof. induction u as [|a u IH]; intros p v; cbn; [reflexivity|]. destruct (look _ _); [apply IH|reflexivity]. Qed.
Lemma acc_app A u p v : acc A p (u ++ v) = match walk A p u with Some q => acc A q v | None => false end.
Proof. unfold acc. rewrite walk_app. now destruct (walk A p u). Qed.
Lemma acc_cons A p a v : acc A p (a :: v) = match look (a_arcs A p) a with Some q => acc A q v | None => false end.
Proof. unfold acc. cbn. now destruct (look _ _). Qed.
Lemma in_from_acc A b : rep A b -> (forall p, inc (a_arcs A p)) -> (forall p x, In x (a_arcs A p) -> snd x < length A) ->
  forall w p, p < length A -> b_in_from b p w = acc A p w.
Proof.
  intros R I D. induction w as [|a w IH]; intros p Hp; cbn [b_in_from].
  - now rewrite (rep_end A b R p Hp).
  - rewrite (rep_delta A b R p a Hp), (find_arc_look _ _ (I p)), acc_cons. destruct (look _ _) as [q|] eqn:E; [|reflexivity].
    apply look_in in E. apply IH. now apply D in E.
Qed.

(** ** The invariant *)
Fixpoint rank (R : list nat) (r : nat) : nat :=
  match R with
  | [] => 0
  | x :: R' => if x =? r then S (length R') else rank R' r
  end.
Lemma rank_le R r : rank R r <= length R.
Proof. induction R as [|x R IH]; cbn; [lia|]. destruct (x =? r); lia. Qed.
Lemma rank_head c R : rank (c :: R) c = S (length R).
Proof. cbn. now rewrite Nat.eqb_refl. Qed.
Lemma rank_tail c R r : r <> c -> rank (c :: R) r = rank R r.
Proof. intros N. cbn. destruct (Nat.eqb_spec c r); congruence. Qed.
Definition into (R : list nat) (l : list arc) : Prop := forall x, In x l -> In (snd x) R.
Definition link (A : auto) (R : list nat) (p : nat) (a : symbol) (c : nat) : Prop :=
  exists l, a_arcs A p = l ++ [(a, c)] /\ into R l /\ p < c.
Fixpoint spine (A : auto) (R : list nat) (p : nat) (w : list symbol) (Q : list nat) : Prop :=
  match w, Q with
  | [], [] => True
  | a :: w', c :: Q' => link A R p a c /\ spine A R c w' Q'
  | _, _ => False
  end.
Record inv (A : auto) (R : list nat) (Q : list nat) (w : list symbol) : Prop := {
  v_inc : forall p, inc (a_arcs A p);
  v_all : Permutation (R ++ 0 :: Q) (seq 0 (length A));
  v_spine : spine A R 0 w Q;
  v_last : into R (a_arcs A (last Q 0));
  v_reg : forall r, In r R -> forall x, In x (a_arcs A r) -> In (snd x) R /\ rank R (snd x) < rank R r;
  v_low : forall r p, In r R -> In p (0 :: Q) -> r < p -> forall x, In x (a_arcs A r) -> snd x < p;
  v_high : forall r p, In r R -> In p (0 :: Q) -> p < r -> (forall p', In p' (0 :: Q) -> p < p' -> r < p') ->
    exists x, In x (a_arcs A p) /\ In (snd x) R /\ p < snd x /\ rank R r <= rank R (snd x);
  v_live : forall r, In r R -> exists v, acc A r v = true;
  v_dist : forall r r', In r R -> In r' R -> a_end A r = a_end A r' -> a_arcs A r = a_arcs A r' -> r = r';
  v_reach : forall r, In r R -> exists u, walk A 0 u = Some r
}.

Lemma spine_length A R w : forall p Q, spine A R p w Q -> length w = length Q.
Proof. induction w as [|a w IH]; intros p [|c Q]; cbn; try easy. intros [_ H]. f_equal. now apply (IH c). Qed.
Lemma spine_app A R w1 : forall p Q1 w2 Q2, length w1 = length Q1 ->
  (spine A R p (w1 ++ w2) (Q1 ++ Q2) <-> spine A R p w1 Q1 /\ spine A R (last Q1 p) w2 Q2).
Proof.
  induction w1 as [|a w1 IH]; intros p [|c Q1] w2 Q2 E; try discriminate; cbn [app spine].
  - cbn. tauto.
  - rewrite IH by (now injection E). rewrite last_cons. tauto.
Qed.
Lemma last_snoc (Q : list nat) c d : last (Q ++ [c]) d = c.
Proof. apply last_last. Qed.
Lemma spine_asc A R w : forall p Q, spine A R p w Q -> forall x, In x Q -> p < x.
Proof.
  induction w as [|a w IH]; intros p [|c Q]; cbn; try easy. intros [(l & _ & _ & L) H] x [->|Hx]; [assumption|].
  specialize (IH _ _ H x Hx). lia.
Qed.
Lemma last_in (Q : list nat) : In (last Q 0) (0 :: Q).
Proof. destruct (exists_last (l := 0 :: Q)) as (Q' & x & E); [discriminate|]. destruct Q as [|y Q]; [now left|].
  right. destruct (exists_last (l := y :: Q)) as (Q'' & z & ->); [discriminate|]. rewrite last_last. apply in_app_iff. right. now left. Qed.
Lemma spine_split A R w1 a w2 Q : spine A R 0 (w1 ++ a :: w2) Q ->
  exists Q1 c Q2, Q = Q1 ++ c :: Q2 /\ length w1 = length Q1.
Proof.
  intros H. pose proof (spine_length _ _ _ _ _ H) as L. rewrite app_length in L. cbn in L.
  assert (L1 : length (firstn (length w1) Q) = length w1) by (rewrite firstn_length; lia).
  destruct (skipn (length w1) Q) as [|c Q2] eqn:E.
  - apply (f_equal (@length nat)) in E. rewrite skipn_length in E. cbn in E. lia.
  - exists (firstn (length w1) Q), c, Q2. split; [|lia]. rewrite <- E. symmetry. apply firstn_skipn.
Qed.
(** The states of the path before the last one are smaller. *)
Lemma spine_before A R w a Q c : spine A R 0 (w ++ [a]) (Q ++ [c]) -> forall x, In x (0 :: Q) -> x <= last Q 0.
Proof.
  intros H. pose proof (spine_length _ _ _ _ _ H) as L. rewrite !app_length in L. cbn in L.
  apply spine_app in H as [H _]; [|lia]. clear -H. 
  assert (G : forall w p Q, spine A R p w Q -> forall x, In x (p :: Q) -> x <= last Q p).
  { clear. induction w as [|a w IH]; intros p [|c Q]; cbn [spine]; try easy.
    - intros _ x [->|[]]. cbn. lia.
    - intros [(l & _ & _ & L) H] x Hx. specialize (IH _ _ H).
      assert (E : last (c :: Q) p = last Q c).
      { apply last_cons. }
      rewrite E. destruct Hx as [->|Hx]; [|now apply IH]. specialize (IH c (or_introl eq_refl)). lia. }
  now apply (G w).
Qed.
Lemma nodup_parts A R Q w : inv A R Q w -> NoDup (R ++ 0 :: Q).
Proof. intros V. apply (Permutation_NoDup (Permutation_sym (v_all _ _ _ _ V))). apply seq_NoDup. Qed.
Lemma disjoint A R Q w x : inv A R Q w -> In x R -> In x (0 :: Q) -> False.
Proof.
  intros V H1 H2. pose proof (nodup_parts _ _ _ _ V) as N. apply in_split in H1 as (R1 & R2 & ->). rewrite <- app_assoc in N.
  cbn [app] in N. apply NoDup_remove_2 in N. apply N. apply in_app_iff. right. apply in_app_iff. now right.
Qed.
Lemma in_states A R Q w x : inv A R Q w -> (In x R \/ In x (0 :: Q) <-> x < length A).
Proof.
  intros V. rewrite <- in_app_iff. split; intros H.
  - apply (Permutation_in _ (v_all _ _ _ _ V)) in H. apply in_seq in H. lia.
  - apply (Permutation_in _ (Permutation_sym (v_all _ _ _ _ V))). apply in_seq. lia.
Qed.
Lemma spine_into A R w : forall p Q, spine A R p w Q -> forall x, In x (p :: Q) -> x <> last Q p ->
  into (R ++ Q) (a_arcs A x).
Proof.
  induction w as [|a w IH]; intros p [|c Q]; cbn [spine]; try easy.
  - intros _ x [->|[]] N. now cbn in N.
  - intros [(l & E & I & L) H] x Hx N y Hy.
    assert (EL : last (c :: Q) p = last Q c).
    { apply last_cons. }
    rewrite EL in N. apply in_app_iff. destruct Hx as [->|Hx].
    + rewrite E in Hy. apply in_app_iff in Hy as [Hy|[<-|[]]]; [left; now apply I|right; now left].
    + specialize (IH c Q H x Hx N y Hy). apply in_app_iff in IH as [K|K]; [now left|right; now right].
Qed.
Lemma dests A R Q w : inv A R Q w -> forall p x, In x (a_arcs A p) -> snd x < length A.
Proof.
  intros V p x Hx. apply (in_states _ _ _ _ _ V). destruct (Nat.lt_ge_cases p (length A)) as [L|L].
  - apply (in_states _ _ _ _ _ V) in L as [L|L].
    + left. now apply (v_reg _ _ _ _ V p L).
    + destruct (Nat.eq_dec p (last Q 0)) as [->|N]; [left; now apply (v_last _ _ _ _ V)|].
      apply (spine_into _ _ _ _ _ (v_spine _ _ _ _ V) p L N) in Hx. apply in_app_iff in Hx as [K|K]; [now left|right; now right].
  - unfold a_arcs in Hx. now rewrite nth_overflow in Hx.
Qed.
Lemma spine_walk A R : (forall p, inc (a_arcs A p)) -> forall w p Q, spine A R p w Q -> walk A p w = Some (last Q p).
Proof.
  intros I. induction w as [|a w IH]; intros p [|c Q]; cbn [spine walk]; try easy. intros [(l & E & _) H].
  rewrite (look_some _ a c (I p)) by (rewrite E; apply in_app_iff; right; now left). rewrite (IH c Q H). now rewrite last_cons.
Qed.
Lemma spine_mono A R R' w : incl R R' -> forall p Q, spine A R p w Q -> spine A R' p w Q.
Proof.
  intros H. induction w as [|a w IH]; intros p [|c Q]; cbn [spine]; try easy. intros [(l & E & I & L) K].
  split; [|now apply IH]. exists l. split; [assumption|]. split; [|assumption]. intros x Hx. apply H, I, Hx.
Qed.
Lemma spine_same A A' R w : forall p Q, (forall x, In x (p :: Q) -> x <> last Q p -> a_arcs A' x = a_arcs A x) ->
  NoDup (p :: Q) -> spine A R p w Q -> spine A' R p w Q.
Proof.
  induction w as [|a w IH]; intros p [|c Q] E N; cbn [spine]; try easy. intros [(l & El & I & L) K].
  assert (EL : last (c :: Q) p = last Q c).
  { apply last_cons. }
  inversion N as [|? ? N1 N2]; subst. assert (G : In (last Q c) (c :: Q)).
  { clear. destruct (exists_last (l := c :: Q)) as (Q' & x & Ex); [discriminate|].
    destruct Q as [|d Q]; [now left|]. right. destruct (exists_last (l := d :: Q)) as (Q'' & z & ->); [discriminate|].
    rewrite last_last. apply in_app_iff. right. now left. }
  split.
  - exists l. rewrite E; [now repeat split| now left|]. rewrite EL. intros ->. now apply N1.
  - apply IH; [|assumption|assumption]. intros x Hx Nx. apply E; [now right|]. now rewrite EL.
Qed.

(** ** Changing an automaton *)
Lemma nth_upd {X} (l : list X) : forall p g x d, p < length l -> nth x (update p g l) d = if x =? p then g (nth x l d) else nth x l d.
Proof.
  induction l as [|y l IH]; intros [|p] g [|x] d H; cbn in *; try lia; try reflexivity. apply IH. lia.
Qed.
Lemma nth_removelast {X} (l : list X) x d : x < length l - 1 -> nth x (removelast l) d = nth x l d.
Proof.
  intros H. destruct l as [|y l]; [cbn in H; lia|]. destruct (exists_last (l := y :: l)) as (l' & z & E); [discriminate|].
  rewrite E in *. rewrite removelast_last. rewrite app_length in H. cbn in H. rewrite app_nth1 by lia. reflexivity.
Qed.
Lemma length_removelast {X} (l : list X) : length (removelast l) = length l - 1.
Proof. destruct l as [|y l]; [reflexivity|]. destruct (exists_last (l := y :: l)) as (l' & z & ->); [discriminate|]. rewrite removelast_last, app_length. cbn. lia. Qed.
Lemma update_last {X} (l : list X) x g : update (length (l ++ [x]) - 1) g (l ++ [x]) = l ++ [g x].
Proof. rewrite app_length. cbn [length]. rewrite Nat.add_sub. apply update_mid. Qed.
Definition rename (f : nat -> nat) (l : list arc) : list arc := map (fun x => (fst x, f (snd x))) l.
Lemma look_rename f l a : look (rename f l) a = option_map f (look l a).
Proof. unfold look. induction l as [|[s d] l IH]; cbn; [reflexivity|]. destruct (s =? a)%Z; [reflexivity|]. exact IH. Qed.
Lemma rename_id f l : (forall x, In x l -> f (snd x) = snd x) -> rename f l = l.
Proof.
  intros H. unfold rename. rewrite <- (map_id l) at 2. apply map_ext_in. intros [a d] Hx. cbn. f_equal. now apply (H (a, d)).
Qed.
Lemma walk_rename A A' f : (forall x, x < length A -> a_arcs A' (f x) = rename f (a_arcs A x)) ->
  (forall p x, In x (a_arcs A p) -> snd x < length A) ->
  forall v x, x < length A -> walk A' (f x) v = option_map f (walk A x v).
Proof.
  intros E D. induction v as [|a v IH]; intros x Hx; cbn [walk]; [reflexivity|]. rewrite (E x Hx), look_rename.
  destruct (look (a_arcs A x) a) as [q|] eqn:El; cbn [option_map]; [|reflexivity]. apply IH. apply look_in in El. now apply D in El.
Qed.
Lemma walk_bound A : (forall p x, In x (a_arcs A p) -> snd x < length A) -> forall v p q, p < length A -> walk A p v = Some q -> q < length A.
Proof.
  intros D. induction v as [|a v IH]; intros p q Hp; cbn [walk]; [now intros [= <-]|].
  destruct (look (a_arcs A p) a) as [p'|] eqn:El; [|discriminate]. apply IH. apply look_in in El. now apply D in El.
Qed.
Lemma acc_rename A A' f : (forall x, x < length A -> a_arcs A' (f x) = rename f (a_arcs A x)) ->
  (forall x, x < length A -> a_end A' (f x) = a_end A x) ->
  (forall p x, In x (a_arcs A p) -> snd x < length A) ->
  forall v x, x < length A -> acc A' (f x) v = acc A x v.
Proof.
  intros E Ee D v x Hx. unfold acc. rewrite (walk_rename A A' f E D v x Hx). destruct (walk A x v) as [q|] eqn:Eq; cbn; [|reflexivity].
  apply Ee. now apply (walk_bound A D v x).
Qed.
Lemma lex_eq x : forall y, lex_ltb x y = false -> lex_ltb y x = false -> x = y.
Proof.
  pose proof (arc_strict _ nat_strict) as S. induction x as [|a x IH]; intros [|b y]; cbn [lex_ltb]; try easy.
  destruct (arc_ltb Nat.ltb a b) eqn:E1; [discriminate|]. destruct (arc_ltb Nat.ltb b a) eqn:E2; [discriminate|].
  intros K1 K2. rewrite (st_total _ S a b E1 E2). f_equal. now apply IH.
Qed.
Lemma lex_refl x : lex_ltb x x = false.
Proof.
  pose proof (arc_strict _ nat_strict) as S. induction x as [|a x IH]; cbn [lex_ltb]; [reflexivity|]. now rewrite (st_irrefl _ S a).
Qed.
Lemma equiv_spec A b s t : rep A b -> s < length A -> t < length A ->
  (state_equiv b s t = true <-> a_end A s = a_end A t /\ a_arcs A s = a_arcs A t).
Proof.
  intros R Hs Ht. rewrite (rep_equiv A b R s t Hs Ht), !andb_true_iff, !negb_true_iff, eqb_true_iff. split.
  - intros [E [K1 K2]]. split; [assumption|]. now apply lex_eq.
  - intros [E ->]. now rewrite !lex_refl.
Qed.

(** ** Retiring the last state of the path *)
Lemma link_last A R Q w a c : inv A R (Q ++ [c]) (w ++ [a]) ->
  length w = length Q /\ spine A R 0 w Q /\ link A R (last Q 0) a c /\ into R (a_arcs A c) /\ (forall x, In x (0 :: Q) -> x <= last Q 0).
Proof.
  intros V. pose proof (v_spine _ _ _ _ V) as S. pose proof (spine_before _ _ _ _ _ _ S) as B.
  pose proof (spine_length _ _ _ _ _ S) as L. rewrite !app_length in L. cbn in L. assert (L' : length w = length Q) by lia.
  apply spine_app in S as [S1 S2]; [|assumption]. cbn in S2. destruct S2 as [S2 _].
  pose proof (v_last _ _ _ _ V) as I. rewrite last_snoc in I. do 4 (split; [assumption|]). assumption.
Qed.
Lemma retire_new A R Q w a c : inv A R (Q ++ [c]) (w ++ [a]) ->
  (forall r, In r R -> a_end A c = a_end A r -> a_arcs A c = a_arcs A r -> False) -> (exists v, acc A c v = true) ->
  inv A (c :: R) Q w.
Proof.
  intros V N Lv. destruct (link_last _ _ _ _ _ _ V) as (L & Sp & (l & El & Il & Lt) & Ic & B).
  assert (Hc : In c (0 :: Q ++ [c])) by (right; apply in_app_iff; right; now left).
  assert (Nc : ~ In c R) by (intros K; apply (disjoint _ _ _ _ c V K Hc)).
  assert (Rk : forall r, In r R -> rank (c :: R) r = rank R r) by (intros r Hr; apply rank_tail; intros ->; contradiction).
  assert (Hin : forall x, In x (0 :: Q) -> In x (0 :: Q ++ [c])).
  { intros x [->|Hx]; [now left|]. right. apply in_app_iff. now left. }
  constructor.
  - apply (v_inc _ _ _ _ V).
  - rewrite <- (v_all _ _ _ _ V). cbn [app]. rewrite (Permutation_cons_append (R ++ 0 :: Q) c). rewrite <- app_assoc. reflexivity.
  - eapply spine_mono; [|exact Sp]. intros x Hx. now right.
  - intros x Hx. rewrite El in Hx. apply in_app_iff in Hx as [Hx|[<-|[]]]; [right; now apply Il|now left].
  - intros r [<-|Hr] x Hx.
    + pose proof (Ic x Hx) as Hd. split; [now right|]. rewrite (Rk _ Hd), rank_head. pose proof (rank_le R (snd x)). lia.
    + destruct (v_reg _ _ _ _ V r Hr x Hx) as [K1 K2]. split; [now right|]. now rewrite !Rk.
  - intros r p [<-|Hr] Hp Lr x Hx.
    + specialize (B p Hp). lia.
    + apply (v_low _ _ _ _ V r p Hr (Hin p Hp) Lr x Hx).
  - intros r p Hr Hp Lr Nb. destruct (Nat.eq_dec p (last Q 0)) as [->|Np].
    + exists (a, c). cbn [snd]. split; [rewrite El; apply in_app_iff; right; now left|]. split; [now left|]. split; [assumption|].
      rewrite rank_head. destruct Hr as [<-|Hr]; [rewrite rank_head; lia|]. rewrite (Rk r Hr). pose proof (rank_le R r). lia.
    + pose proof (B p Hp) as Bp. pose proof (Nb (last Q 0) (last_in Q) ltac:(lia)) as Hl. destruct Hr as [<-|Hr]; [lia|].
      destruct (v_high _ _ _ _ V r p Hr (Hin p Hp) Lr) as (x & Hx & K1 & K2 & K3).
      { intros p' [<-|Hp'] Lp; [apply Nb; [now left|assumption]|]. apply in_app_iff in Hp' as [Hp'|[<-|[]]]; [apply Nb; [now right|assumption]|]. lia. }
      exists x. split; [assumption|]. split; [now right|]. split; [assumption|]. now rewrite !Rk.
  - intros r [<-|Hr]; [assumption|]. now apply (v_live _ _ _ _ V).
  - intros r r' [<-|Hr] [<-|Hr'] E1 E2; [reflexivity|exfalso; now apply (N r')|exfalso; now apply (N r)|].
    now apply (v_dist _ _ _ _ V).
  - intros r [<-|Hr]; [|now apply (v_reach _ _ _ _ V)]. exists (w ++ [a]).
    rewrite (spine_walk A R (v_inc _ _ _ _ V) _ _ _ (v_spine _ _ _ _ V)). now rewrite last_snoc.
Qed.
Definition redirect (p q : nat) (A : auto) : auto :=
  update p (fun x => (update (length (fst x) - 1) (fun y => (fst y, q)) (fst x), snd x)) A.
Lemma last_state A R Q w a c q : inv A R (Q ++ [c]) (w ++ [a]) -> In q R -> a_arcs A c = a_arcs A q -> S c = length A.
Proof.
  intros V Hq E. destruct (link_last _ _ _ _ _ _ V) as (L & Sp & (l & El & Il & Lt) & Ic & B).
  assert (Hc : In c (0 :: Q ++ [c])) by (right; apply in_app_iff; right; now left).
  assert (Lc : c < length A) by (apply (in_states _ _ _ _ _ V); now right).
  destruct (Nat.eq_dec (S c) (length A)) as [|N]; [assumption|exfalso].
  assert (Hbig : forall r, In r R -> c < r -> exists x, In x (a_arcs A c) /\ In (snd x) R /\ c < snd x /\ rank R r <= rank R (snd x)).
  { intros r Hr Lr. apply (v_high _ _ _ _ V r c Hr Hc Lr). intros p' [<-|Hp'] Lp; [lia|].
    apply in_app_iff in Hp' as [Hp'|[<-|[]]]; [|lia]. specialize (B p' (or_intror Hp')). lia. }
  destruct (Nat.lt_trichotomy q c) as [K|[->|K]].
  - assert (Hl : In (length A - 1) R \/ In (length A - 1) (0 :: Q ++ [c])) by (apply (in_states _ _ _ _ _ V); lia).
    destruct Hl as [Hl|[Hl|Hl]]; [| lia |apply in_app_iff in Hl as [Hl|[Hl|[]]]; [specialize (B _ (or_intror Hl))|]; lia].
    destruct (Hbig _ Hl ltac:(lia)) as (x & Hx & _ & Lx & _). rewrite E in Hx.
    pose proof (v_low _ _ _ _ V q c Hq Hc K x Hx). lia.
  - apply (disjoint _ _ _ _ c V Hq Hc).
  - destruct (Hbig q Hq K) as (x & Hx & _ & _ & Lx). rewrite E in Hx. pose proof (proj2 (v_reg _ _ _ _ V q Hq x Hx)). lia.
Qed.
Lemma retire_old A R Q w a c q : inv A R (Q ++ [c]) (w ++ [a]) -> In q R -> a_end A c = a_end A q -> a_arcs A c = a_arcs A q ->
  let p := last Q 0 in let A' := removelast (redirect p q A) in
  inv A' R Q w /\ length A' = c /\ p < c /\ (forall x v, x < c -> acc A' x v = acc A x v) /\
  (forall x, x < c -> x <> p -> nth x A' ([], false) = nth x A ([], false)) /\
  map fst (a_arcs A' p) = map fst (a_arcs A p) /\ a_end A' p = a_end A p.
Proof.
  intros V Hq Ee Ea p A'. pose proof (last_state _ _ _ _ _ _ _ V Hq Ea) as Lc.
  destruct (link_last _ _ _ _ _ _ V) as (L & Sp & (l & El & Il & Lt) & Ic & B). fold p in El, Lt, B.
  assert (Hc : In c (0 :: Q ++ [c])) by (right; apply in_app_iff; right; now left).
  assert (Nc : ~ In c R) by (intros K; apply (disjoint _ _ _ _ c V K Hc)).
  assert (LR : length (redirect p q A) = length A) by apply update_len.
  assert (LA : length A' = c) by (unfold A'; rewrite length_removelast, LR; lia).
  assert (Hsame : forall x, x < c -> x <> p -> nth x A' ([], false) = nth x A ([], false)).
  { intros x Hx Nx. unfold A'. rewrite nth_removelast by lia. unfold redirect. rewrite nth_upd by lia. destruct (Nat.eqb_spec x p); [contradiction|reflexivity]. }
  assert (Hp : nth p A' ([], false) = (l ++ [(a, q)], a_end A p)).
  { unfold A'. rewrite nth_removelast by lia. unfold redirect. rewrite nth_upd by lia. rewrite Nat.eqb_refl.
    change (fst (nth p A ([], false))) with (a_arcs A p). rewrite El, update_last. reflexivity. }
  assert (Hp1 : a_arcs A' p = l ++ [(a, q)]) by (unfold a_arcs; now rewrite Hp).
  assert (Hp2 : a_end A' p = a_end A p) by (unfold a_end at 1; now rewrite Hp).
  assert (Hs1 : forall x, x < c -> x <> p -> a_arcs A' x = a_arcs A x) by (intros x Hx Nx; unfold a_arcs; now rewrite Hsame).
  assert (Hs2 : forall x, x < c -> x <> p -> a_end A' x = a_end A x) by (intros x Hx Nx; unfold a_end; now rewrite Hsame).
  assert (HR : forall r, In r R -> r < c /\ r <> p).
  { intros r Hr. assert (Lr : r < length A) by (apply (in_states _ _ _ _ _ V); now left).
    assert (Nr : r <> c) by (intros ->; contradiction). split; [lia|]. intros ->. apply (disjoint _ _ _ _ p V Hr).
    pose proof (last_in Q) as K. fold p in K. destruct K as [K|K]; [now left|right; apply in_app_iff; now left]. }
  assert (Dq : forall r, In r R -> into R (a_arcs A r)) by (intros r Hr x Hx; now apply (v_reg _ _ _ _ V r Hr)).
  set (f := fun x => if x =? c then q else x).
  assert (Fr : forall r, r <> c -> f r = r) by (intros r Nr; unfold f; destruct (Nat.eqb_spec r c); congruence).
  assert (Fid : forall k, into R k -> rename f k = k).
  { intros k Hk. apply rename_id. intros x Hx. apply Fr. intros E. apply Nc. rewrite <- E. now apply Hk. }
  assert (HF : forall x, x < length A -> a_arcs A' (f x) = rename f (a_arcs A x) /\ a_end A' (f x) = a_end A x).
  { intros x Hx. destruct (Nat.eq_dec x c) as [->|Nx].
    - replace (f c) with q by (unfold f; now rewrite Nat.eqb_refl). destruct (HR q Hq) as [K1 K2].
      rewrite (Hs1 q K1 K2), (Hs2 q K1 K2), (Fid _ Ic), Ea, Ee. now split.
    - rewrite (Fr x Nx). destruct (Nat.eq_dec x p) as [->|Np].
      + rewrite Hp1, Hp2, El. split; [|reflexivity]. unfold rename. rewrite map_app. fold (rename f l). rewrite (Fid l Il). cbn.
        unfold f. now rewrite Nat.eqb_refl.
      + rewrite (Hs1 x), (Hs2 x) by lia. split; [|reflexivity]. symmetry. apply rename_id. intros y Hy. apply Fr.
        apply (in_states _ _ _ _ _ V) in Hx as [Hx|Hx].
        * intros E. apply Nc. rewrite <- E. now apply (Dq x Hx).
        * assert (Hx' : In x (0 :: Q)).
          { destruct Hx as [Hx|Hx]; [now left|]. apply in_app_iff in Hx as [Hx|[Hx|[]]]; [now right|]. congruence. }
          pose proof (spine_into _ _ _ _ _ Sp x Hx' Np y Hy) as K. apply in_app_iff in K as [K|K]; [intros E; apply Nc; now rewrite <- E|].
          specialize (B _ (or_intror K)). lia. }
  pose proof (dests _ _ _ _ V) as D.
  assert (HA : forall x v, x < length A -> acc A' (f x) v = acc A x v).
  { intros x v. apply acc_rename; [intros y Hy; now apply HF..|assumption]. }
  assert (HW : forall x v, x < length A -> walk A' (f x) v = option_map f (walk A x v)).
  { intros x v. apply walk_rename; [intros y Hy; now apply HF|assumption]. }
  assert (Nz : f 0 = 0) by (apply Fr; lia).
  split; [|repeat split; try assumption].
  2: { intros x v Hx. rewrite <- (Fr x) at 1 by lia. apply HA. lia. }
  2: { rewrite Hp1, El, !map_app. reflexivity. }
  constructor.
  - intros x. destruct (Nat.lt_ge_cases x c) as [Lx|Lx].
    + destruct (Nat.eq_dec x p) as [->|Np].
      * apply (inc_symbols (a_arcs A p)); [rewrite Hp1, El, !map_app; reflexivity|apply (v_inc _ _ _ _ V)].
      * rewrite (Hs1 x Lx Np). apply (v_inc _ _ _ _ V).
    + unfold a_arcs. rewrite nth_overflow by lia. constructor.
  - pose proof (v_all _ _ _ _ V) as P. rewrite <- Lc, seq_S in P. rewrite app_comm_cons, app_assoc in P. apply Permutation_app_inv_r in P.
    now rewrite LA.
  - apply (spine_same A); [| |assumption].
    + intros x Hx Nx. fold p in Nx. apply Hs1; [specialize (B x Hx); lia|assumption].
    + pose proof (nodup_parts _ _ _ _ V) as N. rewrite app_comm_cons, app_assoc in N. apply NoDup_remove_1 in N. rewrite app_nil_r in N.
      clear -N. induction R as [|r R IH]; [exact N|]. apply IH. now inversion N.
  - fold p. rewrite Hp1. intros x Hx. apply in_app_iff in Hx as [Hx|[<-|[]]]; [now apply Il|assumption].
  - intros r Hr x Hx. destruct (HR r Hr) as [K1 K2]. rewrite (Hs1 r K1 K2) in Hx. now apply (v_reg _ _ _ _ V r Hr).
  - intros r p' Hr Hp' Lr x Hx. destruct (HR r Hr) as [K1 K2]. rewrite (Hs1 r K1 K2) in Hx. apply (v_low _ _ _ _ V r p' Hr); [|assumption|assumption].
    destruct Hp' as [Hp'|Hp']; [now left|right; apply in_app_iff; now left].
  - intros r p' Hr Hp' Lr Nb. destruct (HR r Hr) as [K1 K2].
    destruct (v_high _ _ _ _ V r p' Hr) as (x & Hx & I1 & I2 & I3); [|assumption| |].
    { destruct Hp' as [Hp'|Hp']; [now left|right; apply in_app_iff; now left]. }
    { intros p'' [Hpp|Hpp] Lpp; [apply Nb; [now left|assumption]|]. apply in_app_iff in Hpp as [Hpp|[<-|[]]]; [apply Nb; [now right|assumption]|assumption]. }
    exists x. split; [|now repeat split]. destruct (Nat.eq_dec p' p) as [->|Np].
    + rewrite El in Hx. rewrite Hp1. apply in_app_iff in Hx as [Hx|[<-|[]]]; [apply in_app_iff; now left|]. contradiction.
    + rewrite Hs1; [assumption| |assumption]. specialize (B p' Hp'). lia.
  - intros r Hr. destruct (HR r Hr) as [K1 K2]. destruct (v_live _ _ _ _ V r Hr) as (v & Hv). exists v.
    rewrite <- (Fr r) by lia. rewrite HA by lia. assumption.
  - intros r r' Hr Hr' E1 E2. destruct (HR r Hr) as [K1 K2]. destruct (HR r' Hr') as [K3 K4].
    rewrite !Hs1 in E2 by assumption. rewrite !Hs2 in E1 by assumption. now apply (v_dist _ _ _ _ V).
  - intros r Hr. destruct (HR r Hr) as [K1 K2]. destruct (v_reach _ _ _ _ V r Hr) as (u & Hu). exists u.
    rewrite <- Nz, HW by lia. rewrite Hu. cbn. f_equal. apply Fr. lia.
Qed.

(** ** replace_or_register *)
Lemma offset_succ A p : p < length A -> offset A (S p) = offset A p + length (a_arcs A p).
Proof. intros H. destruct (split_at A p H) as (A1 & l & e & A2 & -> & <-). now rewrite offset_next, offset_mid, a_arcs_mid. Qed.
Lemma nth_all A p k d : p < length A -> k < length (a_arcs A p) -> nth (offset A p + k) (all_arcs A) d = nth k (a_arcs A p) d.
Proof.
  intros H. destruct (split_at A p H) as (A1 & l & e & A2 & -> & <-). rewrite offset_mid, a_arcs_mid. intros Hk.
  rewrite all_arcs_app, app_nth2 by lia. rewrite Nat.add_comm, Nat.add_sub. cbn [all_arcs flat_map fst]. now rewrite app_nth1.
Qed.
Lemma all_arcs_update A p g : p < length A -> length (fst (g (nth p A ([], false)))) = length (a_arcs A p) ->
  length (all_arcs (update p g A)) = length (all_arcs A).
Proof.
  intros H. destruct (split_at A p H) as (A1 & l & e & A2 & -> & <-). rewrite a_arcs_mid, nth_middle, update_mid. intros E.
  rewrite !all_arcs_app. cbn [all_arcs flat_map fst]. rewrite !app_length. cbn in E. lia.
Qed.
Lemma all_arcs_removelast A : length (all_arcs (removelast A)) <= length (all_arcs A).
Proof.
  destruct A as [|x A]; [reflexivity|]. destruct (exists_last (l := x :: A)) as (A1 & z & ->); [discriminate|].
  rewrite removelast_last, all_arcs_app, app_length. lia.
Qed.
Lemma redirect_count A p q : p < length A -> length (all_arcs (removelast (redirect p q A))) <= length (all_arcs A).
Proof.
  intros H. etransitivity; [apply all_arcs_removelast|]. unfold redirect. rewrite all_arcs_update; [lia|assumption|]. cbn [fst]. apply update_len.
Qed.
(** What stays of the automaton. *)
Record kept (A A' : auto) (p : nat) (Q : list nat) : Prop := {
  k_in : p < length A';
  k_size : length A' <= length A;
  k_pre : firstn p A' = firstn p A;
  k_acc : forall x v, In x (0 :: Q) -> acc A' x v = acc A x v;
  k_sym : map fst (a_arcs A' p) = map fst (a_arcs A p);
  k_end : a_end A' p = a_end A p;
  k_count : length (all_arcs A') <= length (all_arcs A)
}.
Lemma firstn_ext {X} (d : X) n : forall l k, n <= length l -> n <= length k -> (forall x, x < n -> nth x l d = nth x k d) -> firstn n l = firstn n k.
Proof.
  induction n as [|n IH]; intros [|x l] [|y k] H1 H2 E; cbn in *; try lia; try reflexivity. f_equal.
  - apply (E 0). lia.
  - apply IH; [lia|lia|]. intros i Hi. apply (E (S i)). lia.
Qed.
Lemma retire A b R Q w a c : rep A b -> inv A R (Q ++ [c]) (w ++ [a]) -> (exists v, acc A c v = true) ->
  let p := last Q 0 in
  exists A' b' R', match reg_find b R c with
    | Some q => Some (b_delete_last (b_set_dest (offset A p + (length (a_arcs A p) - 1)) q b), R)
    | None => Some (b, c :: R) end = Some (b', R') /\ rep A' b' /\ inv A' R' Q w /\ kept A A' p Q.
Proof.
  intros Rp V Lv p. destruct (link_last _ _ _ _ _ _ V) as (L & Sp & (l & El & Il & Lt) & Ic & B). fold p in El, Lt, B.
  assert (Hc : In c (0 :: Q ++ [c])) by (right; apply in_app_iff; right; now left).
  assert (Lc : c < length A) by (apply (in_states _ _ _ _ _ V); now right).
  assert (LR : forall r, In r R -> r < length A) by (intros r Hr; apply (in_states _ _ _ _ _ V); now left).
  destruct (reg_find b R c) as [q|] eqn:E.
  - apply find_some in E as [Hq E]. apply (equiv_spec A b c q Rp Lc (LR q Hq)) in E as [Ee Ea].
    destruct (retire_old _ _ _ _ _ _ _ V Hq Ee Ea) as (V' & LA & _ & Ha & Hs & Hm & He). fold p in V', LA, Ha, Hs, Hm, He.
    exists (removelast (redirect p q A)), (b_delete_last (b_set_dest (offset A p + (length (a_arcs A p) - 1)) q b)), R.
    split; [reflexivity|]. split; [|split; [assumption|]].
    + apply rep_delete_last.
      * assert (K : rep (update p (fun x => (update (length (a_arcs A p) - 1) (fun y => (fst y, q)) (fst x), snd x)) A) (b_set_dest (offset A p + (length (a_arcs A p) - 1)) q b)).
        { apply rep_set_dest; [assumption|lia|]. rewrite El, app_length. cbn. lia. }
        replace (redirect p q A) with (update p (fun x => (update (length (a_arcs A p) - 1) (fun y => (fst y, q)) (fst x), snd x)) A); [exact K|].
        unfold redirect. assert (Lp : p < length A) by lia. clear -Lp. destruct (split_at A p Lp) as (A1 & k & e & A2 & -> & <-).
        rewrite a_arcs_mid, !update_mid. reflexivity.
      * intros K. apply (f_equal (@length _)) in K. unfold redirect in K. rewrite update_len in K. cbn in K. lia.
    + constructor; [lia|lia| | |assumption|assumption|apply redirect_count; lia].
      * apply (firstn_ext ([], false)); [lia..|]. intros x Hx. apply Hs; lia.
      * intros x v Hx. apply Ha. specialize (B x Hx). lia.
  - exists A, b, (c :: R). split; [reflexivity|]. split; [assumption|]. split.
    + apply (retire_new _ _ _ _ a); [assumption| |assumption]. intros r Hr Ee Ea.
      apply (find_none _ _ E) in Hr as K. rewrite (proj2 (equiv_spec A b c r Rp Lc (LR r Hr)) (conj Ee Ea)) in K. discriminate.
    + constructor; try reflexivity. lia.
Qed.
Lemma nth_firstn {X} (l : list X) : forall n x d, x < n -> nth x (firstn n l) d = nth x l d.
Proof. induction l as [|y l IH]; intros [|n] [|x] d H; cbn; try lia; try reflexivity. apply IH. lia. Qed.
Lemma ror : forall Q2 w2 Q1 w1 a c fuel A b R, rep A b -> inv A R (Q1 ++ c :: Q2) (w1 ++ a :: w2) -> length w1 = length Q1 ->
  a_arcs A (last Q2 c) = [] -> a_end A (last Q2 c) = true -> length Q2 < fuel ->
  exists A' b' R', replace_or_register fuel b R (last Q1 0) = Some (b', R') /\ rep A' b' /\ inv A' R' Q1 w1 /\ kept A A' (last Q1 0) Q1.
Proof.
  induction Q2 as [|d Q2 IH]; intros w2 Q1 w1 a c fuel A b R Rp V L Hl He Hf.
  all: pose proof (v_spine _ _ _ _ V) as Sp; pose proof (spine_length _ _ _ _ _ Sp) as L2; rewrite !app_length in L2; cbn in L2.
  all: apply spine_app in Sp as [Sp1 Sp2]; [|assumption]; cbn [spine] in Sp2; destruct Sp2 as [(l & El & Il & Lt) Sp2].
  all: set (p := last Q1 0) in *; destruct fuel as [|fuel]; [cbn in Hf; lia|].
  all: assert (Hc : In c (0 :: Q1 ++ c :: [])) by (right; apply in_app_iff; right; now left).
  all: assert (Lc : c < length A) by (apply (in_states _ _ _ _ _ V); right; right; apply in_app_iff; right; now left).
  all: assert (Lp : p < length A) by lia.
  all: assert (Rg : b_range b p = (offset A p, offset A p + length (a_arcs A p))) by (rewrite (rep_range A b Rp p Lp), offset_succ by assumption; reflexivity).
  all: assert (Lg : length (a_arcs A p) = S (length l)) by (rewrite El, app_length; cbn; lia).
  all: assert (Ch : snd (nth (offset A p + (length (a_arcs A p) - 1)) (b_arcs b) (0%Z, 0)) = c).
  1, 3: rewrite (proj1 (proj2 Rp)), nth_all by lia; rewrite Lg, El; cbn [Nat.sub]; rewrite Nat.sub_0_r, nth_middle; reflexivity.
  all: cbn [replace_or_register]; rewrite Rg, Lg.
  all: replace (offset A p =? offset A p + S (length l)) with false by (symmetry; apply Nat.eqb_neq; lia).
  all: replace (offset A p + S (length l) - 1) with (offset A p + (S (length l) - 1)) by lia; rewrite <- Lg, Ch.
  all: rewrite (rep_range A b Rp c Lc), offset_succ by assumption.
  - cbn [last] in Hl, He. rewrite Hl. cbn [length]. rewrite Nat.add_0_r, Nat.eqb_refl.
    destruct w2; [|cbn in L2; lia]. apply (retire A b R Q1 w1 a c Rp V). exists []. exact He.
  - destruct w2 as [|a2 w2]; [cbn in Sp2; easy|]. cbn [spine] in Sp2. destruct Sp2 as [(l2 & El2 & _ & Lt2) Sp2].
    replace (offset A c =? offset A c + length (a_arcs A c)) with false by (symmetry; apply Nat.eqb_neq; rewrite El2, app_length; cbn; lia).
    rewrite last_cons in Hl, He.
    destruct (IH w2 (Q1 ++ [c]) (w1 ++ [a]) a2 d fuel A b R) as (A1 & b1 & R1 & E1 & Rp1 & V1 & K1); try assumption.
    + rewrite <- !app_assoc. exact V.
    + rewrite !app_length. cbn. lia.
    + cbn in Hf. lia.
    + rewrite last_snoc in E1, K1. rewrite E1.
      assert (Hpre : forall x, x < c -> nth x A1 ([], false) = nth x A ([], false)).
      { intros x Hx. rewrite <- (nth_firstn A1 c), <- (nth_firstn A c) by assumption. now rewrite (k_pre _ _ _ _ K1). }
      assert (Eo : offset A1 p = offset A p).
      { unfold offset. f_equal. f_equal. apply (firstn_ext ([], false)); [pose proof (k_in _ _ _ _ K1); lia|lia|]. intros x Hx. apply Hpre. lia. }
      assert (Ep : a_arcs A1 p = a_arcs A p) by (unfold a_arcs; now rewrite Hpre).
      destruct (retire A1 b1 R1 Q1 w1 a c Rp1 V1) as (A2 & b2 & R2 & E2 & Rp2 & V2 & K2).
      { assert (Hw : walk A c (a2 :: w2) = Some (last Q2 d)).
        { rewrite <- (last_cons Q2 d c). apply (spine_walk A R (v_inc _ _ _ _ V)). split; [|assumption].
          pose proof (v_spine _ _ _ _ V) as Sp. replace (Q1 ++ c :: d :: Q2) with ((Q1 ++ [c]) ++ d :: Q2) in Sp by now rewrite <- app_assoc.
          replace (w1 ++ a :: a2 :: w2) with ((w1 ++ [a]) ++ a2 :: w2) in Sp by now rewrite <- app_assoc.
          apply spine_app in Sp as [_ Sp]; [|rewrite !app_length; cbn; lia]. rewrite last_snoc in Sp. now destruct Sp. }
        exists (a2 :: w2). rewrite (k_acc _ _ _ _ K1) by assumption. unfold acc. now rewrite Hw. }
      fold p in E2, K2. rewrite Eo, Ep in E2. exists A2, b2, R2. split; [exact E2|]. split; [assumption|]. split; [assumption|].
      constructor.
      * apply K2.
      * pose proof (k_size _ _ _ _ K2). pose proof (k_size _ _ _ _ K1). lia.
      * rewrite (k_pre _ _ _ _ K2). apply (firstn_ext ([], false)); [pose proof (k_in _ _ _ _ K1); lia|lia|]. intros x Hx. apply Hpre. lia.
      * intros x v Hx. rewrite (k_acc _ _ _ _ K2 x v Hx). apply (k_acc _ _ _ _ K1).
        destruct Hx as [Hx|Hx]; [now left|right; apply in_app_iff; now left].
      * rewrite (k_sym _ _ _ _ K2). now rewrite Ep.
      * rewrite (k_end _ _ _ _ K2). unfold a_end. now rewrite Hpre.
      * pose proof (k_count _ _ _ _ K2). pose proof (k_count _ _ _ _ K1). lia.
Qed.

(** ** Only the current word leads to the end of the path *)
Lemma spine_succ A R w : forall p Q, spine A R p w Q -> forall x, In x (p :: Q) -> x <> last Q p ->
  exists a c, link A R x a c /\ In c Q /\ (forall y, In y Q -> x < y -> c <= y).
Proof.
  induction w as [|a w IH]; intros p [|c Q]; cbn [spine]; try easy.
  - intros _ x [->|[]] N. now cbn in N.
  - intros [K S] x Hx N. rewrite last_cons in N. destruct Hx as [->|Hx].
    + exists a, c. split; [assumption|]. split; [now left|]. intros y [->|Hy] _; [lia|]. apply (spine_asc _ _ _ _ _ S) in Hy. lia.
    + destruct (IH c Q S x Hx N) as (a' & c' & K1 & K2 & K3). exists a', c'. split; [assumption|]. split; [now right|].
      intros y [->|Hy] L; [|now apply K3]. exfalso. destruct Hx as [->|Hx]; [lia|]. apply (spine_asc _ _ _ _ _ S) in Hx. lia.
Qed.
Lemma link_inj A R p a c a' c' : link A R p a c -> link A R p a' c' -> a = a' /\ c = c'.
Proof.
  intros (l & E & _) (l' & E' & _). rewrite E in E'. apply app_inj_tail in E' as [_ [= -> ->]]. now split.
Qed.
Lemma walk_last A R : forall Q Q2 w2 w v, inv A R (Q ++ Q2) (w ++ w2) -> length w = length Q ->
  walk A 0 v = Some (last Q 0) -> v = w.
Proof.
  induction Q as [|c Q IH] using rev_ind; intros Q2 w2 w v V L Hw.
  all: pose proof (v_spine _ _ _ _ V) as S.
  all: assert (H0 : 0 < length A) by (apply (in_states _ _ _ _ _ V); right; now left).
  all: destruct v as [|a' v _] using rev_ind.
  - destruct w; [reflexivity|discriminate].
  - exfalso. rewrite walk_app in Hw. destruct (walk A 0 v) as [x|] eqn:Ex; [|discriminate]. cbn [walk last] in Hw.
    destruct (look (a_arcs A x) a') as [y|] eqn:Ey; [|discriminate]. injection Hw as ->. apply look_in in Ey.
    assert (N0 : ~ In 0 (R ++ [] ++ Q2)).
    { cbn [app]. intros K. apply in_app_iff in K as [K|K]; [apply (disjoint _ _ _ _ 0 V K); now left|].
      cbn [app] in S. apply (spine_asc _ _ _ _ _ S) in K. lia. }
    apply (walk_bound A (dests _ _ _ _ V) _ _ _ H0) in Ex. apply (in_states _ _ _ _ _ V) in Ex as [Ex|Ex].
    + apply N0, in_app_iff. left. now apply (v_reg _ _ _ _ V x Ex) in Ey.
    + destruct (Nat.eq_dec x (last ([] ++ Q2) 0)) as [->|N].
      * apply N0, in_app_iff. left. now apply (v_last _ _ _ _ V) in Ey.
      * apply (spine_into _ _ _ _ _ S x Ex N) in Ey. now apply N0.
  - exfalso. cbn in Hw. rewrite last_snoc in Hw. injection Hw as <-. assert (K : In 0 ((Q ++ [0]) ++ Q2)) by (rewrite !in_app_iff; left; right; now left).
    apply (spine_asc _ _ _ _ _ S) in K. lia.
  - destruct (exists_last (l := w)) as (w' & a & ->); [intros ->; rewrite app_length in L; cbn in L; lia|].
    rewrite !app_length in L. cbn in L. rewrite walk_app, last_snoc in Hw.
    destruct (walk A 0 v) as [x|] eqn:Ex; [|discriminate]. cbn [walk] in Hw.
    destruct (look (a_arcs A x) a') as [y|] eqn:Ey; [|discriminate]. injection Hw as ->. apply look_in in Ey.
    assert (Hc : In c (0 :: (Q ++ [c]) ++ Q2)) by (right; rewrite !in_app_iff; left; right; now left).
    assert (Nc : ~ In c R) by (intros K; apply (disjoint _ _ _ _ c V K Hc)).
    pose proof S as S'. apply spine_app in S' as [S' _]; [|rewrite !app_length; cbn; lia]. apply spine_app in S' as [_ S']; [|lia]. cbn in S'. destruct S' as [Kp _].
    assert (Kp' := Kp). destruct Kp' as (l & El & Il & Lt). set (p := last Q 0) in *.
    assert (Hp : In p (0 :: (Q ++ [c]) ++ Q2)).
    { pose proof (last_in Q) as K. fold p in K. destruct K as [K|K]; [now left|right; rewrite !in_app_iff; left; now left]. }
    assert (Hlast : forall x, x = last ((Q ++ [c]) ++ Q2) 0 -> ~ In (a', c) (a_arcs A x)).
    { intros z -> K. apply (v_last _ _ _ _ V) in K. contradiction. }
    assert (Np : p <> last ((Q ++ [c]) ++ Q2) 0).
    { intros E. apply Nc. apply (v_last _ _ _ _ V (a, c)). rewrite <- E, El. apply in_app_iff. right. now left. }
    assert (x = p) as ->.
    { assert (Hx := Ex). apply (walk_bound A (dests _ _ _ _ V) _ _ _ H0) in Hx. apply (in_states _ _ _ _ _ V) in Hx as [Hx|Hx].
      - exfalso. apply Nc. now apply (v_reg _ _ _ _ V x Hx) in Ey.
      - destruct (Nat.eq_dec x (last ((Q ++ [c]) ++ Q2) 0)) as [E|N]; [exfalso; now apply (Hlast x E)|].
        destruct (spine_succ _ _ _ _ _ S x Hx N) as (ax & cx & Kx & Ix & Bx).
        assert (cx = c) as ->.
        { destruct Kx as (lx & Elx & Ilx & _). rewrite Elx in Ey. apply in_app_iff in Ey as [Ey|[Ey|[]]]; [|now injection Ey].
          exfalso. apply Nc. now apply Ilx in Ey. }
        destruct (spine_succ _ _ _ _ _ S p Hp Np) as (ap & cp & Kp2 & Ip & Bp).
        destruct (link_inj _ _ _ _ _ _ _ Kp Kp2) as [_ <-]. destruct Kx as (lx & _ & _ & Lx).
        destruct (Nat.lt_trichotomy x p) as [K|[K|K]]; [|assumption|]; exfalso.
        + destruct Hp as [Hp|Hp]; [lia|]. specialize (Bx p Hp K). lia.
        + destruct Hx as [Hx|Hx]; [lia|]. specialize (Bp x Hx K). lia. }
    assert (a' = a) as ->.
    { rewrite El in Ey. apply in_app_iff in Ey as [Ey|[Ey|[]]]; [|now injection Ey]. exfalso. apply Nc. now apply Il in Ey. }
    f_equal. apply (IH ([c] ++ Q2) ([a] ++ w2) w' v); [|lia|exact Ex]. rewrite !app_assoc. exact V.
Qed.

(** ** Adding the rest of a word *)
Lemma walk_reg A R Q w : inv A R Q w -> forall v r q, In r R -> walk A r v = Some q -> In q R.
Proof.
  intros V. induction v as [|a v IH]; intros r q Hr; cbn [walk]; [now intros [= <-]|].
  destruct (look (a_arcs A r) a) as [x|] eqn:E; [|discriminate]. apply look_in in E. apply IH. now apply (v_reg _ _ _ _ V r Hr) in E.
Qed.
Lemma put_last a l : (forall x, In x l -> (fst x < fst a)%Z) -> put a l = l ++ [a].
Proof.
  induction l as [|x l IH]; intros H; cbn [put app]; [reflexivity|].
  assert (E : arc_ltb Nat.ltb x a = true) by (unfold arc_ltb; apply orb_true_iff; left; apply Z.ltb_lt, H; now left). rewrite E. f_equal. apply IH. intros y Hy. apply H. now right.
Qed.
Lemma inc_snoc l a : inc l -> (forall x, In x l -> (fst x < fst a)%Z) -> inc (l ++ [a]).
Proof.
  unfold inc. induction 1 as [|x l Hl IH Hx]; intros H; cbn [app]; [repeat constructor|]. constructor.
  - apply IH. intros y Hy. apply H. now right.
  - rewrite Forall_forall in *. intros y Hy. apply in_app_iff in Hy as [Hy|[<-|[]]]; [now apply Hx|]. apply H. now left.
Qed.
Lemma grown_count A p a n : p < length A ->
  length (all_arcs (update p (fun x => (put (a, n) (fst x), snd x)) (A ++ [([], false)]))) = S (length (all_arcs A)).
Proof.
  intros Lp. destruct (split_at A p Lp) as (A1 & l & e & A2 & -> & <-). rewrite <- app_assoc. cbn [app].
  rewrite update_mid, !all_arcs_app. cbn [fst all_arcs flat_map]. rewrite !app_length, put_length. rewrite flat_map_app, app_length. cbn. lia.
Qed.
Definition grown (A : auto) (p : nat) (a : symbol) : auto :=
  update p (fun x => (put (a, length A) (fst x), snd x)) (A ++ [([], false)]).
Lemma grow A b R Q w a : rep A b -> inv A R Q w -> (forall x, In x (a_arcs A (last Q 0)) -> (fst x < a)%Z) ->
  small (S (length (all_arcs A))) -> let p := last Q 0 in let q := length A in let A' := grown A p a in
  rep A' (b_add_arc p (a, q) (snd (b_add_state b))) /\ inv A' R (Q ++ [q]) (w ++ [a]) /\ a_arcs A' q = [] /\ a_end A' q = false /\
  (forall x v, x < length A -> acc A' x v = acc A x v) /\ length A' = S (length A) /\ length (all_arcs A') = S (length (all_arcs A)).
Proof.
  intros Rp V Hs Sm p q A'. destruct (rep_add_state A b Rp) as [_ Rp1].
  assert (Hp : In p (0 :: Q)) by apply last_in.
  assert (Lp : p < length A) by (apply (in_states _ _ _ _ _ V); now right).
  assert (L1 : length (A ++ [([], false)]) = S (length A)) by (rewrite app_length; cbn; lia).
  assert (LA : length A' = S (length A)) by (unfold A', grown; rewrite update_len; exact L1).
  assert (Hsame : forall x, x <> p -> nth x A' ([], false) = nth x A ([], false)).
  { intros x Nx. unfold A', grown. rewrite nth_upd by lia. destruct (Nat.eqb_spec x p); [contradiction|].
    destruct (Nat.lt_ge_cases x (length A)) as [K|K]; [now rewrite app_nth1|]. rewrite (nth_overflow A) by lia. rewrite app_nth2 by lia.
    destruct (x - length A) as [|[|k]]; reflexivity. }
  assert (Hpn : nth p A' ([], false) = (a_arcs A p ++ [(a, q)], a_end A p)).
  { unfold A', grown. rewrite nth_upd by lia. rewrite Nat.eqb_refl, app_nth1 by lia. now rewrite put_last. }
  assert (Ep : a_arcs A' p = a_arcs A p ++ [(a, q)]) by (unfold a_arcs at 1; now rewrite Hpn).
  assert (Ee : a_end A' p = a_end A p) by (unfold a_end at 1; now rewrite Hpn).
  assert (Es : forall x, x <> p -> a_arcs A' x = a_arcs A x) by (intros x Nx; unfold a_arcs; now rewrite Hsame).
  assert (Es2 : forall x, x <> p -> a_end A' x = a_end A x) by (intros x Nx; unfold a_end; now rewrite Hsame).
  assert (Eq1 : a_arcs A' q = []) by (rewrite Es by (unfold q; lia); unfold a_arcs; now rewrite nth_overflow).
  assert (Eq2 : a_end A' q = false) by (rewrite Es2 by (unfold q; lia); unfold a_end; now rewrite nth_overflow).
  assert (HR : forall r, In r R -> r <> p) by (intros r Hr ->; apply (disjoint _ _ _ _ p V Hr Hp)).
  pose proof (dests _ _ _ _ V) as D.
  assert (Iq : inc (a_arcs A' p)) by (rewrite Ep; apply inc_snoc; [apply (v_inc _ _ _ _ V)|exact Hs]).
  assert (Lk : forall x s, s <> a \/ x <> p -> look (a_arcs A' x) s = look (a_arcs A x) s).
  { intros x s H. destruct (Nat.eq_dec x p) as [->|N]; [|now rewrite Es]. rewrite Ep. destruct H as [H|H]; [|congruence]. unfold look.
    clear -H. induction (a_arcs A p) as [|[s' d] l IH]; cbn.
    - destruct (Z.eqb_spec a s); [congruence|reflexivity].
    - destruct (s' =? s)%Z; [reflexivity|exact IH]. }
  assert (Ln : look (a_arcs A p) a = None).
  { destruct (look (a_arcs A p) a) as [d|] eqn:E; [|reflexivity]. apply look_in in E. apply Hs in E. cbn in E. lia. }
  assert (Lq : look (a_arcs A' p) a = Some q) by (apply look_some; [assumption|]; rewrite Ep; apply in_app_iff; right; now left).
  assert (Hacc : forall v x, x < length A -> acc A' x v = acc A x v).
  { induction v as [|s v IH]; intros x Hx.
    - unfold acc. cbn. destruct (Nat.eq_dec x p) as [->|N]; [assumption|now apply Es2].
    - rewrite !acc_cons. destruct (Z.eq_dec s a) as [->|Ns]; [destruct (Nat.eq_dec x p) as [->|N]|].
      + rewrite Lq, Ln. destruct v as [|s v]; [exact Eq2|]. rewrite acc_cons, Eq1. reflexivity.
      + rewrite Lk by now right. destruct (look (a_arcs A x) a) as [y|] eqn:E; [|reflexivity]. apply look_in in E. apply D in E. now apply IH.
      + rewrite Lk by now left. destruct (look (a_arcs A x) s) as [y|] eqn:E; [|reflexivity]. apply look_in in E. apply D in E. now apply IH. }
  assert (Hwalk : forall v x y, walk A x v = Some y -> walk A' x v = Some y).
  { induction v as [|s v IH]; intros x y; cbn [walk]; [trivial|]. destruct (look (a_arcs A x) s) as [z|] eqn:E; [|discriminate].
    rewrite Lk; [rewrite E; apply IH|]. destruct (Nat.eq_dec x p) as [->|N]; [|now right]. left. intros ->. congruence. }
  split; [|split; [|repeat split; try assumption; try (intros x v Hx; now apply Hacc)]].
  - apply (rep_add_arc _ _ Rp1 p (a, q)); [lia|]. rewrite all_arcs_app. cbn [all_arcs flat_map fst app]. now rewrite app_nil_r.
  - constructor.
    + intros x. destruct (Nat.eq_dec x p) as [->|N]; [assumption|]. rewrite (Es x N). apply (v_inc _ _ _ _ V).
    + rewrite LA, seq_S. rewrite app_comm_cons, app_assoc. apply Permutation_app_tail. apply (v_all _ _ _ _ V).
    + pose proof (spine_length _ _ _ _ _ (v_spine _ _ _ _ V)) as Lw. apply spine_app; [assumption|]. split.
      * apply (spine_same A); [| |apply (v_spine _ _ _ _ V)].
        -- intros x _ Nx. now apply Es.
        -- pose proof (nodup_parts _ _ _ _ V) as N. clear -N. induction R as [|r R IH]; [exact N|]. apply IH. now inversion N.
      * cbn. split; [|trivial]. exists (a_arcs A p). split; [exact Ep|]. split; [apply (v_last _ _ _ _ V)|exact Lp].
    + rewrite last_snoc, Eq1. intros x [].
    + intros r Hr x Hx. rewrite (Es r (HR r Hr)) in Hx. now apply (v_reg _ _ _ _ V r Hr).
    + intros r p' Hr Hp' Lr x Hx. rewrite (Es r (HR r Hr)) in Hx. destruct Hp' as [Hp'|Hp'].
      * apply (v_low _ _ _ _ V r p' Hr); [now left|assumption..].
      * apply in_app_iff in Hp' as [Hp'|[<-|[]]]; [apply (v_low _ _ _ _ V r p' Hr); [now right|assumption..]|]. now apply D in Hx.
    + intros r p' Hr Hp' Lr Nb. assert (Lr' : r < length A) by (apply (in_states _ _ _ _ _ V); now left).
      assert (Hp2 : In p' (0 :: Q)).
      { destruct Hp' as [Hp'|Hp']; [now left|]. apply in_app_iff in Hp' as [Hp'|[<-|[]]]; [now right|]. unfold q in Lr. lia. }
      destruct (v_high _ _ _ _ V r p' Hr Hp2 Lr) as (x & Hx & K).
      { intros p'' Hpp. apply Nb. destruct Hpp as [Hpp|Hpp]; [now left|right; apply in_app_iff; now left]. }
      exists x. split; [|exact K]. destruct (Nat.eq_dec p' p) as [->|N]; [rewrite Ep; apply in_app_iff; now left|now rewrite Es].
    + intros r Hr. destruct (v_live _ _ _ _ V r Hr) as (v & Hv). exists v. rewrite Hacc; [assumption|]. apply (in_states _ _ _ _ _ V). now left.
    + intros r r' Hr Hr' E1 E2. rewrite !Es in E2 by now apply HR. rewrite !Es2 in E1 by now apply HR. now apply (v_dist _ _ _ _ V).
    + intros r Hr. destruct (v_reach _ _ _ _ V r Hr) as (u & Hu). exists u. now apply Hwalk.
  - apply grown_count. assumption.
Qed.
Lemma suffix : forall w2 A b R Q w, rep A b -> inv A R Q w ->
  match w2 with [] => True | a :: _ => forall x, In x (a_arcs A (last Q 0)) -> (fst x < a)%Z end ->
  small (length w2 + length (all_arcs A)) ->
  exists A' b' Q', add_suffix b (last Q 0) w2 = (last (Q ++ Q') 0, b') /\ rep A' b' /\ inv A' R (Q ++ Q') (w ++ w2) /\
    (w2 <> [] -> a_arcs A' (last (Q ++ Q') 0) = []) /\ (w2 = [] -> A' = A) /\
    (forall x v, x < length A -> acc A' x v = acc A x v) /\ length A <= length A' /\ length (all_arcs A') = length w2 + length (all_arcs A).
Proof.
  induction w2 as [|a w2 IH]; intros A b R Q w Rp V Hs Sm.
  - exists A, b, []. rewrite !app_nil_r. cbn [add_suffix]. do 3 (split; [assumption||reflexivity|]). split; [congruence|]. repeat split; lia.
  - destruct (grow A b R Q w a Rp V Hs) as (Rp1 & V1 & E1 & E2 & Ha & LA & LB).
    { eapply small_le; [|exact Sm]. cbn. lia. }
    set (p := last Q 0) in *. set (A1 := grown A p a) in *.
    destruct (IH A1 _ R (Q ++ [length A]) (w ++ [a]) Rp1 V1) as (A2 & b2 & Q2 & F1 & F2 & F3 & F4 & F5 & F6 & F7 & F8).
    + rewrite last_snoc. destruct w2; [trivial|]. rewrite E1. intros x [].
    + rewrite LB. eapply small_le; [|exact Sm]. cbn. lia.
    + exists A2, b2, ([length A] ++ Q2). rewrite last_snoc in F1. rewrite <- !app_assoc in F1, F3.
      replace ((w ++ [a]) ++ w2) with (w ++ a :: w2) in F3 by exact (app_assoc w [a] w2). cbn [add_suffix].
      destruct (b_add_state b) as [q b1] eqn:Eb. pose proof (rep_add_state A b Rp) as [Eq _]. rewrite Eb in Eq. cbn [fst] in Eq. subst q.
      cbn [snd] in F1. split; [exact F1|]. split; [assumption|]. split; [exact F3|]. split; [|split; [discriminate|split; [|split]]].
      * intros _. destruct w2 as [|a2 w2]; [|rewrite app_assoc; apply F4; discriminate]. rewrite F5 by reflexivity.
        pose proof (spine_length _ _ _ _ _ (v_spine _ _ _ _ F3)) as L. pose proof (spine_length _ _ _ _ _ (v_spine _ _ _ _ V)) as L0.
        rewrite !app_length in L. cbn in L. destruct Q2; [|cbn in L; lia]. now rewrite app_nil_r, last_snoc.
      * intros x v Hx. rewrite F6 by lia. now apply Ha.
      * lia.
      * rewrite F8, LB. cbn. lia.
Qed.
(** Marking the end of the path. *)
Lemma mark A R Q w : inv A R Q w -> let z := last Q 0 in let A' := update z (fun x => (fst x, true)) A in
  inv A' R Q w /\ (forall x, a_arcs A' x = a_arcs A x) /\ a_end A' z = true /\ length A' = length A /\
  (forall v, acc A' 0 v = true <-> acc A 0 v = true \/ v = w).
Proof.
  intros V z A'. assert (Hz : In z (0 :: Q)) by apply last_in.
  assert (Lz : z < length A) by (apply (in_states _ _ _ _ _ V); now right).
  assert (LA : length A' = length A) by apply update_len.
  assert (Ea : forall x, a_arcs A' x = a_arcs A x).
  { intros x. unfold a_arcs, A'. rewrite nth_upd by assumption. now destruct (x =? z). }
  assert (Ee : forall x, a_end A' x = (x =? z) || a_end A x).
  { intros x. unfold a_end, A'. rewrite nth_upd by assumption. now destruct (x =? z). }
  assert (Ew : forall v x, walk A' x v = walk A x v).
  { induction v as [|a v IH]; intros x; cbn [walk]; [reflexivity|]. rewrite Ea. now destruct (look _ _). }
  assert (NR : forall r, In r R -> (r =? z) = false).
  { intros r Hr. apply Nat.eqb_neq. intros ->. apply (disjoint _ _ _ _ z V Hr Hz). }
  assert (Er : forall r v, In r R -> acc A' r v = acc A r v).
  { intros r v Hr. unfold acc. rewrite Ew. destruct (walk A r v) as [q|] eqn:E; [|reflexivity]. apply (walk_reg _ _ _ _ V) in E; [|assumption].
    rewrite Ee, NR by assumption. reflexivity. }
  split; [|split; [assumption|split; [|split; [assumption|]]]].
  - constructor.
    + intros p. rewrite Ea. apply (v_inc _ _ _ _ V).
    + rewrite LA. apply (v_all _ _ _ _ V).
    + apply (spine_same A); [intros; apply Ea| |apply (v_spine _ _ _ _ V)].
      pose proof (nodup_parts _ _ _ _ V) as N. clear -N. induction R as [|r R IH]; [exact N|]. apply IH. now inversion N.
    + rewrite Ea. apply (v_last _ _ _ _ V).
    + intros r Hr x. rewrite Ea. now apply (v_reg _ _ _ _ V).
    + intros r p Hr Hp L x. rewrite Ea. now apply (v_low _ _ _ _ V).
    + intros r p. rewrite Ea. apply (v_high _ _ _ _ V).
    + intros r Hr. destruct (v_live _ _ _ _ V r Hr) as (v & Hv). exists v. now rewrite Er.
    + intros r r' Hr Hr'. rewrite !Ea, !Ee, !NR by assumption. now apply (v_dist _ _ _ _ V).
    + intros r Hr. destruct (v_reach _ _ _ _ V r Hr) as (u & Hu). exists u. now rewrite Ew.
  - rewrite Ee, Nat.eqb_refl. reflexivity.
  - intros v. unfold acc. rewrite Ew. pose proof (spine_walk A R (v_inc _ _ _ _ V) _ _ _ (v_spine _ _ _ _ V)) as Hw.
    destruct (walk A 0 v) as [q|] eqn:E.
    + rewrite Ee. destruct (Nat.eqb_spec q z) as [->|N]; cbn [orb].
      * split; [|trivial]. intros _. right. apply (walk_last A R Q [] [] w v); [now rewrite !app_nil_r|apply (spine_length _ _ _ _ _ (v_spine _ _ _ _ V))|exact E].
      * split; [now left|]. intros [K| ->]; [assumption|]. rewrite Hw in E. injection E as E. unfold z in N. congruence.
    + split; [now left|]. intros [K| ->]; [assumption|]. rewrite Hw in E. discriminate.
Qed.

(** ** Whole words *)
Lemma str_le_split (w : list symbol) : forall w' : list symbol, str_ltb w' w = false -> exists u w1 w2 : list symbol, w = u ++ w1 /\ w' = u ++ w2 /\
  (w1 = [] \/ exists a r a' r', w1 = a :: r /\ w2 = a' :: r' /\ (a < a')%Z).
Proof.
  induction w as [|a w IH]; intros w' H.
  - exists [], [], w'. repeat split. now left.
  - destruct w' as [|b w']; [discriminate|]. cbn in H. destruct (Z.ltb_spec b a) as [L|L]; [discriminate|].
    destruct (Z.ltb_spec a b) as [L'|L'].
    + exists [], (a :: w), (b :: w'). repeat split. right. now exists a, w, b, w'.
    + assert (a = b) as -> by lia. destruct (IH w' H) as (u & w1 & w2 & E1 & E2 & K). exists (b :: u), w1, w2. rewrite E1, E2. now repeat split.
Qed.
Lemma walk_prefix_spine A b R : rep A b -> (forall p, inc (a_arcs A p)) -> (forall p x, In x (a_arcs A p) -> snd x < length A) ->
  forall u p Q v, p < length A -> spine A R p u Q -> walk_prefix b p (u ++ v) = walk_prefix b (last Q p) v.
Proof.
  intros Rp I D. induction u as [|a u IH]; intros p [|c Q] v Hp; cbn [spine]; try easy. intros [(l & E & _) S].
  cbn [app walk_prefix]. rewrite (rep_delta A b Rp p a Hp), (find_arc_look _ _ (I p)).
  assert (K : In (a, c) (a_arcs A p)) by (rewrite E; apply in_app_iff; right; now left).
  rewrite (look_some _ a c (I p) K), last_cons. apply IH; [|assumption]. now apply D in K.
Qed.
Lemma inc_le_last l a c x : inc (l ++ [(a, c)]) -> In x (l ++ [(a, c)]) -> (fst x <= a)%Z.
Proof.
  unfold inc. induction l as [|y l IH]; cbn [app]; intros H Hx.
  - destruct Hx as [<-|[]]. cbn. lia.
  - inversion H as [|? ? H1 H2]; subst. destruct Hx as [->|Hx]; [|now apply IH]. rewrite Forall_forall in H2.
    specialize (H2 (a, c) ltac:(apply in_app_iff; right; now left)). cbn in H2. lia.
Qed.
Lemma add_word_spec A b R Q w w' : rep A b -> inv A R Q w -> a_arcs A (last Q 0) = [] -> (Q <> [] -> a_end A (last Q 0) = true) ->
  str_ltb w' w = false -> small (length w' + length (all_arcs A)) ->
  exists A' b' R' Q', add_word b R w' = Some (b', R') /\ rep A' b' /\ inv A' R' Q' w' /\ a_arcs A' (last Q' 0) = [] /\
    a_end A' (last Q' 0) = true /\ (forall v, acc A' 0 v = true <-> acc A 0 v = true \/ v = w') /\
    length (all_arcs A') <= length w' + length (all_arcs A).
Proof.
  intros Rp V Hl He Hw Sm. destruct (str_le_split _ _ Hw) as (u & w1 & w2 & E1 & E2 & Hd).
  pose proof (v_spine _ _ _ _ V) as Sp. pose proof (spine_length _ _ _ _ _ Sp) as L. pose proof (dests _ _ _ _ V) as D.
  set (Q1 := firstn (length u) Q). set (Q2 := skipn (length u) Q).
  assert (EQ : Q = Q1 ++ Q2) by (unfold Q1, Q2; now rewrite firstn_skipn).
  assert (L1 : length u = length Q1).
  { unfold Q1. rewrite firstn_length. apply (f_equal (@length _)) in E1. rewrite app_length in E1. unfold symbol in *. lia. }
  rewrite E1, EQ in Sp. apply spine_app in Sp as [Sp1 Sp2]; [|assumption]. set (p := last Q1 0) in *.
  assert (H0 : 0 < length A) by (apply (in_states _ _ _ _ _ V); right; now left).
  assert (Hp : p < length A).
  { apply (in_states _ _ _ _ _ V). right. pose proof (last_in Q1) as K. fold p in K. rewrite EQ. destruct K as [K|K]; [now left|right; apply in_app_iff; now left]. }
  assert (Wk : walk_prefix b 0 w' = (p, w2)).
  { rewrite E2, (walk_prefix_spine A b R Rp (v_inc _ _ _ _ V) D u 0 Q1 w2 H0 Sp1). fold p.
    destruct w2 as [|a' w2]; [reflexivity|]. cbn [walk_prefix]. rewrite (rep_delta A b Rp p a' Hp), (find_arc_look _ _ (v_inc _ _ _ _ V p)).
    destruct Hd as [->|(a & r & a'' & r' & -> & E & La)].
    - destruct Q2 as [|c Q2]; [|cbn in Sp2; easy]. rewrite app_nil_r in EQ. unfold p. rewrite <- EQ, Hl. reflexivity.
    - injection E as <- <-. destruct Q2 as [|c Q2]; [cbn in Sp2; easy|]. cbn [spine] in Sp2. destruct Sp2 as [(l & El & _) _].
      destruct (look (a_arcs A p) a') as [d|] eqn:Ed; [|reflexivity]. exfalso. apply look_in in Ed. pose proof (v_inc _ _ _ _ V p) as I.
      rewrite El in Ed, I. apply (inc_le_last _ _ _ _ I) in Ed. cbn in Ed. lia. }
  unfold add_word. rewrite Wk, (rep_range A b Rp p Hp), (offset_succ A p Hp).
  assert (St : exists A1 b1 R1, (if offset A p =? offset A p + length (a_arcs A p) then Some (@pair bin register b R) else replace_or_register (S (b_size b)) b R p) = Some (b1, R1) /\
    rep A1 b1 /\ inv A1 R1 Q1 u /\ (forall v, acc A1 0 v = acc A 0 v) /\ map fst (a_arcs A1 p) = map fst (a_arcs A p) /\ length (all_arcs A1) <= length (all_arcs A) /\ (w1 = [] -> A1 = A)).
  { destruct Hd as [->|(a & r & a' & r' & -> & E & La)].
    - destruct Q2 as [|c Q2]; [|cbn in Sp2; easy]. rewrite app_nil_r in EQ, E1.
      assert (Ep : a_arcs A p = []) by (unfold p; rewrite <- EQ; exact Hl). rewrite Ep. cbn [length].
      rewrite Nat.add_0_r, Nat.eqb_refl. exists A, b, R. rewrite <- EQ, <- E1. split; [reflexivity|]. split; [assumption|]. split; [assumption|].
      split; [reflexivity|]. split; [now rewrite Ep|]. split; [lia|reflexivity].
    - destruct Q2 as [|c Q2]; [cbn in Sp2; easy|]. cbn [spine] in Sp2. destruct Sp2 as [(l & El & Il & Lt) Sp2].
      replace (offset A p =? offset A p + length (a_arcs A p)) with false by (symmetry; apply Nat.eqb_neq; rewrite El, app_length; cbn; lia).
      assert (EL : last Q 0 = last Q2 c).
      { rewrite EQ. apply last_join. }
      rewrite EL in Hl, He. destruct (ror Q2 r Q1 u a c (S (b_size b)) A b R Rp) as (A1 & b1 & R1 & F1 & F2 & F3 & F4).
      + rewrite <- EQ, <- E1. exact V.
      + assumption.
      + assumption.
      + apply He. rewrite EQ. destruct Q1; discriminate.
      + rewrite (rep_size A b Rp). pose proof (Permutation_length (v_all _ _ _ _ V)) as K. rewrite seq_length, app_length, EQ in K. cbn in K. rewrite app_length in K. cbn in K. lia.
      + exists A1, b1, R1. split; [exact F1|]. split; [assumption|]. split; [assumption|]. split; [|split; [|split]].
        * intros v. apply (k_acc _ _ _ _ F4). now left.
        * apply F4.
        * apply F4.
        * discriminate. }
  destruct St as (A1 & b1 & R1 & -> & Rp1 & V1 & Ha & Hm & Hc & Hid).
  destruct (suffix w2 A1 b1 R1 Q1 u Rp1 V1) as (A2 & b2 & Q' & F1 & F2 & F3 & F4 & F5 & F6 & F7 & F8).
  - destruct Hd as [->|(a & r & a' & r' & -> & -> & La)].
    + destruct Q2 as [|c Q2]; [|cbn in Sp2; easy]. rewrite app_nil_r in EQ. destruct w2; [trivial|]. intros x. fold p. unfold p. rewrite (Hid eq_refl), <- EQ, Hl. intros [].
    + destruct Q2 as [|c Q2]; [cbn in Sp2; easy|]. cbn [spine] in Sp2. destruct Sp2 as [(l & El & _) _]. intros x Hx. fold p in Hx.
      apply (in_map fst) in Hx. rewrite Hm in Hx. apply in_map_iff in Hx as (y & Ey & Hy). rewrite <- Ey. pose proof (v_inc _ _ _ _ V p) as I.
      rewrite El in Hy, I. apply (inc_le_last _ _ _ _ I) in Hy. lia.
  - eapply small_le; [|exact Sm]. rewrite E2, app_length. unfold symbol in *. lia.
  - fold p in F1. rewrite F1. destruct (mark _ _ _ _ F3) as (V3 & G1 & G2 & G3 & G4). set (z := last (Q1 ++ Q') 0) in *.
    exists (update z (fun x => (fst x, true)) A2), (b_set_end z b2), R1, (Q1 ++ Q'). split; [reflexivity|]. fold z. split; [|split; [|split; [|split; [|split]]]].
    + apply rep_set_end; [assumption|]. apply (in_states _ _ _ _ _ F3). right. apply last_in.
    + now rewrite E2.
    + rewrite G1. destruct w2 as [|a' w2]; [|apply F4; discriminate]. rewrite (F5 eq_refl).
      destruct Hd as [->|(a & r & a' & r' & -> & E & La)]; [|discriminate].
      destruct Q2 as [|c Q2]; [|cbn in Sp2; easy]. rewrite app_nil_r in EQ. rewrite (Hid eq_refl).
      pose proof (spine_length _ _ _ _ _ (v_spine _ _ _ _ F3)) as K. rewrite app_nil_r, app_length in K. destruct Q'; [|cbn in K; lia].
      unfold z. rewrite app_nil_r, <- EQ. exact Hl.
    + exact G2.
    + intros v. rewrite G4, F6, Ha, E2; [reflexivity|]. apply (in_states _ _ _ _ _ V1). right. now left.
    + rewrite all_arcs_update; [|apply (in_states _ _ _ _ _ F3); right; apply last_in|reflexivity]. rewrite F8, E2, app_length. unfold symbol in *. lia.
Qed.
Fixpoint ascending (w : list symbol) (ws : list (list symbol)) : Prop :=
  match ws with
  | [] => True
  | w' :: ws' => str_ltb w' w = false /\ ascending w' ws'
  end.
Lemma add_words_spec : forall ws A b R Q w, rep A b -> inv A R Q w -> a_arcs A (last Q 0) = [] -> (Q <> [] -> a_end A (last Q 0) = true) ->
  ascending w ws -> small (length (concat ws) + length (all_arcs A)) ->
  exists A' b' R' Q', add_words b R ws = Some (b', R') /\ rep A' b' /\ inv A' R' Q' (last ws w) /\ a_arcs A' (last Q' 0) = [] /\
    (Q' <> [] -> a_end A' (last Q' 0) = true) /\ (forall v, acc A' 0 v = true <-> acc A 0 v = true \/ In v ws).
Proof.
  induction ws as [|w' ws IH]; intros A b R Q w Rp V Hl He Ha Sm.
  - exists A, b, R, Q. cbn [add_words last In]. split; [reflexivity|]. do 4 (split; [assumption|]). intros v. tauto.
  - destruct Ha as [Ha1 Ha2]. cbn [concat] in Sm. rewrite app_length in Sm.
    destruct (add_word_spec A b R Q w w' Rp V Hl He Ha1) as (A1 & b1 & R1 & Q1 & E1 & Rp1 & V1 & Hl1 & He1 & Hc & Hn).
    { eapply small_le; [|exact Sm]. unfold symbol in *. lia. }
    destruct (IH A1 b1 R1 Q1 w' Rp1 V1 Hl1 (fun _ => He1) Ha2) as (A2 & b2 & R2 & Q2 & E2 & Rp2 & V2 & Hl2 & He2 & Hc2).
    { eapply small_le; [|exact Sm]. unfold symbol in *. lia. }
    exists A2, b2, R2, Q2. cbn [add_words]. rewrite E1. split; [exact E2|]. split; [assumption|]. split; [|split; [assumption|split; [assumption|]]].
    + now rewrite last_cons.
    + intros v. rewrite Hc2, Hc. cbn [In]. intuition congruence.
Qed.
Lemma start_inv : inv [([], false)] [] [] [].
Proof.
  constructor; cbn; try easy.
  - intros [|[|p]]; constructor.
Qed.
Lemma minimise_spec (ws : list (list symbol)) : ascending [] ws -> last ws [] <> [] -> small (length (concat ws)) ->
  exists A b R, minimize_incremental ws = Some b /\ rep A b /\ inv A R [] [] /\ (forall v, acc A 0 v = true <-> In v ws).
Proof.
  intros Ha Hn Sm. unfold minimize_incremental. pose proof (rep_add_state [] b_empty rep_empty) as [_ Rp].
  destruct (b_add_state b_empty) as [q b]. cbn [snd app] in Rp.
  destruct (add_words_spec ws [([], false)] b [] [] [] Rp start_inv) as (A1 & b1 & R1 & Q1 & -> & Rp1 & V1 & Hl & He & Hc); [reflexivity|now intros []| assumption| |].
  { cbn. now rewrite Nat.add_0_r. }
  destruct (last ws []) as [|a w] eqn:Ew; [congruence|]. destruct Q1 as [|c Q1]; [apply v_spine in V1; cbn in V1; easy|].
  rewrite last_cons in Hl, He. destruct (ror Q1 w [] [] a c (S (b_size b1)) A1 b1 R1 Rp1 V1 eq_refl Hl) as (A2 & b2 & R2 & E2 & Rp2 & V2 & K).
  - apply He. discriminate.
  - rewrite (rep_size A1 b1 Rp1). pose proof (Permutation_length (v_all _ _ _ _ V1)) as K. rewrite seq_length, app_length in K. cbn in K. lia.
  - cbn [last] in E2. rewrite E2. exists A2, b2, R2. split; [reflexivity|]. split; [assumption|]. split; [assumption|].
    intros v. rewrite (k_acc _ _ _ _ K 0 v (or_introl eq_refl)), Hc. split; [|now right]. intros [E|]; [|assumption].
    unfold acc in E. destruct v; discriminate.
Qed.

(** ** Registered states tell apart *)
Lemma same_arcs A R x y : (forall p, inc (a_arcs A p)) -> into R (a_arcs A x) -> into R (a_arcs A y) ->
  (forall r, In r R -> exists v, acc A r v = true) ->
  (forall a r r', In (a, r) (a_arcs A x) -> In (a, r') (a_arcs A y) -> (forall v, acc A r v = acc A r' v) -> r = r') ->
  (forall v, acc A x v = acc A y v) -> a_arcs A x = a_arcs A y.
Proof.
  intros I Ix Iy Lv U E. apply inc_ext; [apply I..|].
  assert (G : forall a r, In (a, r) (a_arcs A x) -> exists r', In (a, r') (a_arcs A y) /\ forall v, acc A r v = acc A r' v).
  { intros a r H. destruct (Lv r (Ix _ H)) as (v & Hv). pose proof (E (a :: v)) as K. rewrite !acc_cons, (look_some _ a r (I x) H), Hv in K.
    destruct (look (a_arcs A y) a) as [r'|] eqn:Er; [|discriminate]. exists r'. split; [now apply look_in|].
    intros v'. pose proof (E (a :: v')) as K'. now rewrite !acc_cons, (look_some _ a r (I x) H), Er in K'. }
  intros [a r]. split; intros H.
  - destruct (G a r H) as (r' & H' & K). now rewrite (U a r r' H H' K).
  - destruct (Lv r (Iy _ H)) as (v & Hv). pose proof (E (a :: v)) as K. rewrite !acc_cons, (look_some _ a r (I y) H), Hv in K.
    destruct (look (a_arcs A x) a) as [r'|] eqn:Er; [|discriminate]. apply look_in in Er as H'. destruct (G a r' H') as (r'' & H'' & K').
    pose proof (inc_fun _ _ _ _ (I y) H H'') as <-. now rewrite <- (U a r' r H' H K').
Qed.
Lemma distinct A R Q w : inv A R Q w -> forall n r r', rank R r < n -> In r R -> In r' R -> (forall v, acc A r v = acc A r' v) -> r = r'.
Proof.
  intros V. induction n as [|n IH]; intros r r' Hn Hr Hr' E; [lia|]. apply (v_dist _ _ _ _ V); [assumption..|exact (E [])|].
  apply (same_arcs A R); [apply (v_inc _ _ _ _ V)|intros x Hx; now apply (v_reg _ _ _ _ V r Hr)|intros x Hx; now apply (v_reg _ _ _ _ V r' Hr')|apply (v_live _ _ _ _ V)| |assumption].
  intros a c c' H H' K. apply (v_reg _ _ _ _ V r Hr) in H as [H1 H2]. apply (v_reg _ _ _ _ V r' Hr') in H' as [H3 _].
  cbn [snd] in *. apply IH; [lia|assumption..].
Qed.
Lemma states_distinct A R : inv A R [] [] -> forall x y, x < length A -> y < length A -> (forall v, acc A x v = acc A y v) -> x = y.
Proof.
  intros V x y Hx Hy E.
  assert (Z : forall r, In r R -> (forall v, acc A 0 v = acc A r v) -> False).
  { intros r Hr Er. assert (Ea : a_arcs A 0 = a_arcs A r).
    { apply (same_arcs A R); [apply (v_inc _ _ _ _ V)|apply (v_last _ _ _ _ V)|intros z Hz; now apply (v_reg _ _ _ _ V r Hr)|apply (v_live _ _ _ _ V)| |assumption].
      intros a c c' H H' K. apply (v_last _ _ _ _ V) in H. apply (v_reg _ _ _ _ V r Hr) in H' as [H' _]. cbn [snd] in *.
      apply (distinct _ _ _ _ V (S (rank R c)) c c'); [lia|assumption..]. }
    assert (Nz : 0 < r). { destruct r; [|lia]. exfalso. apply (disjoint _ _ _ _ 0 V Hr). now left. }
    destruct (v_high _ _ _ _ V r 0 Hr (or_introl eq_refl) Nz) as (z & Hz & Iz & Lz & Rz).
    { intros p' [<-|[]]. lia. }
    rewrite Ea in Hz. pose proof (proj2 (v_reg _ _ _ _ V r Hr z Hz)). lia. }
  apply (in_states _ _ _ _ _ V) in Hx, Hy. destruct Hx as [Hx|[<-|[]]], Hy as [Hy|[<-|[]]].
  - apply (distinct _ _ _ _ V (S (rank R x)) x y); [lia|assumption..].
  - exfalso. now apply (Z x Hx).
  - exfalso. now apply (Z y Hy).
  - reflexivity.
Qed.

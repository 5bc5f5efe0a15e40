(** Lemmas on the automata that are built while translating. *)
From Coq Require Import List ZArith NArith Bool Sorted Permutation Lia PeanoNat.
From Verif Require Import M_Fsa L_Fsa M_Minfsa M_Dag M_SimpleDag S_SimpleDag.
Import ListNotations.
Local Open Scope nat_scope.

(** ** Bitsets *)
Lemma has_with_bit s i j : has (with_bit s i) j = (i =? j) || has s j.
Proof.
  unfold has, with_bit. rewrite N.setbit_eqb. f_equal. apply eq_true_iff_eq. rewrite N.eqb_eq, Nat.eqb_eq. lia.
Qed.
Lemma has_none i : has 0 i = false.
Proof. apply N.bits_0. Qed.
Lemma has_inj s t : (forall i, has s i = has t i) -> s = t.
Proof. intros H. apply N.bits_inj. intros i. specialize (H (N.to_nat i)). unfold has in H. now rewrite N2Nat.id in H. Qed.
Lemma in_bits n s i : In i (bits n s) <-> i < n /\ has s i = true.
Proof. unfold bits. rewrite filter_In, in_seq. intuition lia. Qed.
Lemma has_small n s : (forall i, has s i = true -> i < n) -> (s < 2 ^ N.of_nat n)%N.
Proof.
  intros H. replace s with (s mod 2 ^ N.of_nat n)%N; [apply N.mod_lt; now apply N.pow_nonzero|].
  apply N.bits_inj. intros i. destruct (N.lt_ge_cases i (N.of_nat n)) as [L|L].
  - now apply N.mod_pow2_bits_low.
  - rewrite N.mod_pow2_bits_high by assumption. symmetry. apply not_true_iff_false. intros E.
    specialize (H (N.to_nat i)). unfold has in H. rewrite N2Nat.id in H. specialize (H E). lia.
Qed.
Lemma with_bit_twice s i : with_bit (with_bit s i) i = with_bit s i.
Proof. apply has_inj. intros j. rewrite !has_with_bit. now destruct (i =? j). Qed.

(** ** Rows *)
Lemma is_end_in d p : s_is_end d p = true <-> In p (s_ends d).
Proof.
  unfold s_is_end. rewrite existsb_exists. split; [intros (x & H & E); apply Nat.eqb_eq in E; now subst|].
  intros H. exists p. split; [assumption|apply Nat.eqb_refl].
Qed.
Lemma row_beyond d p : s_size d <= p -> s_row d p = [].
Proof. apply nth_overflow. Qed.
Lemma row_inside d p x : In x (s_row d p) -> p < s_size d.
Proof. intros H. destruct (Nat.lt_ge_cases p (s_size d)) as [L|L]; [assumption|]. now rewrite row_beyond in H. Qed.
Lemma new_state_size b d : s_size (new_state b d) = S (s_size d).
Proof. unfold new_state, s_size. destruct b; cbn [s_rows s_set_start]; rewrite app_length; cbn; lia. Qed.
Lemma new_state_row b d p : s_row (new_state b d) p = s_row d p.
Proof.
  unfold new_state, s_row. destruct b; cbn [s_rows s_set_start]; (destruct (Nat.lt_ge_cases p (length (s_rows d))) as [L|L];
    [now rewrite app_nth1|rewrite app_nth2, (nth_overflow (s_rows d)) by assumption; now destruct (p - length (s_rows d)) as [|[|]]]).
Qed.
Lemma new_state_ends b d : s_ends (new_state b d) = s_ends d.
Proof. now destruct b. Qed.
Lemma new_state_start d : new_state true d = s_set_start (s_size d) (new_state false d).
Proof. reflexivity. Qed.
Lemma leads_app d p u q w r : leads d p u q -> leads d q w r -> leads d p (u ++ w) r.
Proof. intros H K. induction H; [assumption|]. cbn. econstructor; eauto. Qed.
Lemma leads_split d u : forall p w r, leads d p (u ++ w) r -> exists q, leads d p u q /\ leads d q w r.
Proof.
  induction u as [|a u IH]; intros p w r H; [exists p; split; [constructor|assumption]|].
  inversion H as [|? ? q' v ? ? Hx Hl]; subst. apply IH in Hl as (q & H1 & H2). exists q. split; [|assumption]. econstructor; eassumption.
Qed.
Lemma leads_inside d p w q : whole d -> leads d p w q -> p < s_size d -> q < s_size d.
Proof. intros (H & _) K. induction K; intros L; [assumption|]. apply IHK. eapply H. eassumption. Qed.

Section Sort.
Context (asort : list warc -> list warc) (Hsort : sorts asort).
Notation new_arc := (new_arc asort).
Lemma new_arc_size p q a w d : s_size (new_arc p q a w d) = s_size d.
Proof. apply update_length. Qed.
Lemma new_arc_row p q a w d r : p < s_size d ->
  Permutation (s_row (new_arc p q a w d) r) (s_row d r ++ if r =? p then [Warc a q w] else []).
Proof.
  intros L. unfold s_row, new_arc. cbn [s_rows]. rewrite update_nth by assumption.
  destruct (r =? p); [apply Hsort|now rewrite app_nil_r].
Qed.
Lemma new_arc_ordered p q a w d : p < s_size d -> ordered d -> ordered (new_arc p q a w d).
Proof.
  intros L O r. unfold s_row, new_arc. cbn [s_rows]. rewrite update_nth by assumption.
  destruct (r =? p); [apply Hsort|apply O].
Qed.
Lemma new_state_ordered b d : ordered d -> ordered (new_state b d).
Proof. intros O p. rewrite new_state_row. apply O. Qed.

(** ** Reversal *)
Definition add_arc (d : sdag) (x : nat * warc) : sdag := new_arc (fst x) (x_dest (snd x)) (x_sym (snd x)) (x_wt (snd x)) d.
Definition at_row (r : nat) (l : list (nat * warc)) : list warc := map snd (filter (fun x => r =? fst x) l).
Lemma add_arcs l : forall d, (forall x, In x l -> fst x < s_size d) ->
  let e := fold_left add_arc l d in
  s_size e = s_size d /\ s_starts e = s_starts d /\ s_ends e = s_ends d /\ (ordered d -> ordered e) /\
  forall r, Permutation (s_row e r) (s_row d r ++ at_row r l).
Proof.
  induction l as [|[p [a q w]] l IH]; intros d H; cbn [fold_left].
  - repeat (split; [easy|]). intros r. unfold at_row. cbn. now rewrite app_nil_r.
  - assert (L : p < s_size d) by (apply (H (p, Warc a q w)); now left).
    destruct (IH (add_arc d (p, Warc a q w))) as (E1 & E2 & E3 & E4 & E5).
    { intros x Hx. unfold add_arc. rewrite new_arc_size. apply H. now right. }
    unfold add_arc in E1, E2, E3, E4, E5. cbn [fst snd x_dest x_sym x_wt] in *. rewrite new_arc_size in E1.
    split; [exact E1|]. split; [exact E2|]. split; [exact E3|]. split.
    + intros O. apply E4. now apply new_arc_ordered.
    + intros r. eapply Permutation_trans; [apply E5|]. eapply Permutation_trans; [apply Permutation_app_tail, new_arc_row, L|].
      unfold at_row. cbn [filter fst]. rewrite <- app_assoc. destruct (r =? p); reflexivity.
Qed.
Lemma fold_flat {A B S} (f : S -> A -> S) (g : B -> list A) l : forall s,
  fold_left (fun s b => fold_left f (g b) s) l s = fold_left f (flat_map g l) s.
Proof. induction l as [|b l IH]; intros s; cbn; [reflexivity|]. now rewrite fold_left_app, IH. Qed.
Lemma fold_map {A B S} (f : S -> A -> S) (g : B -> A) l : forall s, fold_left (fun s b => f s (g b)) l s = fold_left f (map g l) s.
Proof. induction l as [|b l IH]; intros s; cbn; [reflexivity|]. apply IH. Qed.
Lemma fold_same {A S} (f g : S -> A -> S) l : (forall s x, f s x = g s x) -> forall s, fold_left f l s = fold_left g l s.
Proof. intros H. induction l as [|b l IH]; intros s; cbn; [reflexivity|]. now rewrite H, IH. Qed.
Definition turned (d : sdag) : list (nat * warc) :=
  flat_map (fun i => map (fun x => (x_dest x, Warc (x_sym x) i (x_wt x))) (s_row d i)) (seq 0 (s_size d)).
Definition rev_states (d : sdag) (n : nat) : sdag :=
  fold_left (fun n i =>
      let n := new_state false n in
      let n := if s_is_end d i then s_set_start i n else n in
      if has (s_starts d) i then s_set_end i n else n) (seq 0 n) s_empty.
Lemma rev_states_spec d n : s_size (rev_states d n) = n /\ (forall r, s_row (rev_states d n) r = []) /\
  (forall i, has (s_starts (rev_states d n)) i = true <-> i < n /\ In i (s_ends d)) /\
  (forall i, In i (s_ends (rev_states d n)) <-> i < n /\ start_of d i).
Proof.
  induction n as [|n (IH1 & IH2 & IH3 & IH4)].
  - split; [reflexivity|]. split; [intros [|]; reflexivity|]. change (rev_states d 0) with s_empty. cbn [s_starts s_empty s_ends].
    split; intros i; [rewrite has_none; split; [easy|lia]|split; [easy|lia]].
  - unfold rev_states in *. rewrite seq_S, fold_left_app. set (R := fold_left _ (seq 0 n) s_empty) in *. cbn [fold_left Nat.add].
    assert (E : forall i, has (s_starts d) i = true <-> start_of d i) by (intros i; reflexivity).
    set (R1 := if s_is_end d n then s_set_start n (new_state false R) else new_state false R).
    assert (F1 : s_size R1 = S n) by (unfold R1; destruct (s_is_end d n); exact (eq_trans (new_state_size false R) (f_equal S IH1))).
    assert (F2 : forall r, s_row R1 r = []) by (intros r; unfold R1; destruct (s_is_end d n); exact (eq_trans (new_state_row false R r) (IH2 r))).
    assert (F3 : s_ends R1 = s_ends R) by (unfold R1; now destruct (s_is_end d n)).
    assert (F4 : forall i, has (s_starts R1) i = true <-> i < S n /\ In i (s_ends d)).
    { intros i. unfold R1. destruct (s_is_end d n) eqn:En.
      - cbn [s_starts s_set_start new_state]. rewrite has_with_bit, orb_true_iff, IH3, Nat.eqb_eq. apply is_end_in in En. split.
        + intros [<-|[L H]]; split; try assumption; lia.
        + intros [L H]. destruct (Nat.eq_dec n i) as [D|D]; [now left|right]. split; [lia|assumption].
      - cbn [s_starts new_state]. rewrite IH3. split; intros [L H]; split; try assumption; try lia.
        destruct (Nat.eq_dec n i) as [<-|D]; [|lia]. apply is_end_in in H. congruence. }
    destruct (has (s_starts d) n) eqn:Es.
    + split; [exact F1|]. split; [exact F2|]. split; [exact F4|]. intros i. cbn [s_ends s_set_end]. rewrite F3. cbn [In]. rewrite IH4. split.
      * intros [<-|[L H]]; split; try assumption; lia.
      * intros [L H]. destruct (Nat.eq_dec n i) as [D|D]; [now left|right]. split; [lia|assumption].
    + split; [exact F1|]. split; [exact F2|]. split; [exact F4|]. intros i. rewrite F3, IH4. split; intros [L H]; split; try assumption; try lia.
      destruct (Nat.eq_dec n i) as [<-|D]; [|lia]. unfold start_of in H. unfold has in Es. congruence.
Qed.
Lemma in_turned d r x : In (r, x) (turned d) <-> x_dest x < s_size d /\ In (Warc (x_sym x) r (x_wt x)) (s_row d (x_dest x)).
Proof.
  unfold turned. rewrite in_flat_map. split.
  - intros (i & Hi & H). apply in_map_iff in H as ([a q v] & E & H). inversion E; subst. cbn in *. split; [apply in_seq in Hi; lia|assumption].
  - intros [L H]. exists (x_dest x). split; [apply in_seq; lia|]. apply in_map_iff. exists (Warc (x_sym x) r (x_wt x)). cbn. split; [|assumption]. now destruct x.
Qed.
Lemma in_at_row r l x : In x (at_row r l) <-> In (r, x) l.
Proof.
  unfold at_row. rewrite in_map_iff. split.
  - intros ([r' x'] & <- & H). apply filter_In in H as [H E]. apply Nat.eqb_eq in E. cbn in *. now subst.
  - intros H. exists (r, x). split; [reflexivity|]. apply filter_In. split; [assumption|apply Nat.eqb_refl].
Qed.
Lemma reverse_spec d : whole d ->
  let e := reverse asort d in
  s_size e = s_size d /\ ordered e /\ whole e /\
  (forall i, start_of e i <-> In i (s_ends d)) /\ (forall i, In i (s_ends e) <-> start_of d i) /\
  (forall p a q v, In (Warc a q v) (s_row e p) <-> In (Warc a p v) (s_row d q)).
Proof.
  intros (W1 & W2 & W3) e. destruct (rev_states_spec d (s_size d)) as (R1 & R2 & R3 & R4).
  assert (Ee : e = fold_left add_arc (turned d) (rev_states d (s_size d))).
  { unfold e, reverse, turned. fold (rev_states d (s_size d)). rewrite <- fold_flat. apply fold_same. intros s i.
    rewrite <- (fold_map add_arc (fun x => (x_dest x, Warc (x_sym x) i (x_wt x)))). reflexivity. }
  destruct (add_arcs (turned d) (rev_states d (s_size d))) as (E1 & E2 & E3 & E4 & E5).
  { intros [r x] H. apply in_turned in H as [_ H]. rewrite R1. cbn. now apply W1 in H. }
  rewrite <- Ee in E1, E2, E3, E4, E5.
  assert (Arcs : forall p a q v, In (Warc a q v) (s_row e p) <-> In (Warc a p v) (s_row d q)).
  { intros p a q v. rewrite (Permutation_in' eq_refl (E5 p)), R2. cbn [app]. rewrite in_at_row, in_turned. cbn.
    split; [easy|]. intros H. split; [|assumption]. now apply row_inside in H. }
  assert (Starts : forall i, start_of e i <-> In i (s_ends d)).
  { intros i. unfold start_of. rewrite E2. change (has (s_starts (rev_states d (s_size d))) i = true <-> In i (s_ends d)). rewrite R3. split; [easy|]. intros H. split; [now apply W3|assumption]. }
  assert (Ends : forall i, In i (s_ends e) <-> start_of d i).
  { intros i. rewrite E3, R4. split; [easy|]. intros H. split; [now apply W2|assumption]. }
  split; [now rewrite E1|]. split.
  { apply E4. intros p. rewrite R2. constructor. }
  split; [|now split].
  split; [|split].
  - intros p a q v H. rewrite E1, R1. apply Arcs in H. now apply row_inside in H.
  - intros p H. rewrite E1, R1. apply W3. now apply Starts.
  - intros p H. rewrite E1, R1. apply W2. now apply Ends.
Qed.
Lemma reverse_leads d : whole d -> forall p w q, leads (reverse asort d) p w q <-> leads d q (rev w) p.
Proof.
  intros W. destruct (reverse_spec d W) as (_ & _ & _ & _ & _ & A). intros p w q. split.
  - intros H. induction H as [p|p a q v w r Hx _ IH]; [constructor|]. cbn [rev]. apply (leads_app _ _ _ q); [assumption|].
    apply A in Hx. econstructor; [eassumption|constructor].
  - revert p. induction w as [|a w IH]; intros p H; cbn [rev] in H; [inversion H; constructor|].
    apply leads_split in H as (r & H1 & H2). inversion H2 as [|? ? q' v ? ? Hx Hl]; subst. inversion Hl; subst.
    apply A in Hx. econstructor; [eassumption|]. now apply IH.
Qed.
Lemma reverse_words d : whole d -> forall w, words (reverse asort d) w <-> words d (rev w).
Proof.
  intros W w. destruct (reverse_spec d W) as (_ & _ & _ & S & E & _). split; intros (p & q & H1 & H2 & H3); exists q, p.
  - rewrite <- E, <- S. rewrite <- reverse_leads by assumption. auto.
  - rewrite E, S. rewrite reverse_leads by assumption. auto.
Qed.
End Sort.

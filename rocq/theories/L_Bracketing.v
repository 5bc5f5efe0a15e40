(** Lemmas for the bracketing writer: the order of the pieces, their nesting and their places. *)
From Coq Require Import String Ascii List ZArith NArith Bool Arith Lia Permutation.
From Verif Require Import M_Quoter M_Cutter M_Bracketing.
Import ListNotations.
Local Open Scope nat_scope.

(** ** What the output is to be *)
Section Spec.
Context {X : Type}.
Notation piece := (piece X).
(** Brackets that are well nested. *)
Inductive nested : list piece -> Prop :=
| N_nil : nested []
| N_bytes s : nested [Bytes s]
| N_app a b : nested a -> nested b -> nested (a ++ b)
| N_pair x l : nested l -> nested (Open x :: l ++ [Close x]).
Definition bytes_of (p : piece) : list Z := match p with Bytes s => s | _ => [] end.
(** The brackets with the number of bytes of the text before them. *)
Fixpoint opened (n : nat) (l : list piece) : list (nat * X) :=
  match l with [] => [] | Open x :: l' => (n, x) :: opened n l' | Close _ :: l' => opened n l' | Bytes s :: l' => opened (n + length s) l' end.
Fixpoint closed (n : nat) (l : list piece) : list (nat * X) :=
  match l with [] => [] | Close x :: l' => (n, x) :: closed n l' | Open _ :: l' => closed n l' | Bytes s :: l' => closed (n + length s) l' end.

(** A stack of open brackets. *)
Inductive runs : list X -> list piece -> list X -> Prop :=
| R_done st : runs st [] st
| R_open x st l st' : runs (x :: st) l st' -> runs st (Open x :: l) st'
| R_close x st l st' : runs st l st' -> runs (x :: st) (Close x :: l) st'
| R_bytes s st l st' : runs st l st' -> runs st (Bytes s :: l) st'.
Fixpoint closes (st : list X) (l : list piece) : Prop :=
  match st with [] => nested l | x :: st' => exists a b, l = a ++ Close x :: b /\ nested a /\ closes st' b end.
Lemma closes_front n st l : nested n -> closes st l -> closes st (n ++ l).
Proof.
  destruct st as [|x st]; cbn; intros N H; [now constructor|]. destruct H as [a [b [-> [Na H]]]]. exists (n ++ a), b. rewrite <- app_assoc. repeat split; [now constructor|assumption].
Qed.
Lemma runs_closes st l st' : runs st l st' -> st' = [] -> closes st l.
Proof.
  induction 1 as [st|x st l st' _ IH|x st l st' _ IH|s st l st' _ IH]; intros E.
  - subst. cbn. constructor.
  - destruct (IH E) as [a [b [-> [Na Hb]]]]. replace (Open x :: a ++ Close x :: b) with ((Open x :: a ++ [Close x]) ++ b) by (cbn; now rewrite <- app_assoc).
    apply closes_front; [now constructor|assumption].
  - exists [], l. repeat split; [constructor|auto].
  - change (Bytes s :: l) with ([Bytes s] ++ l). apply closes_front; [constructor|auto].
Qed.
Lemma runs_nested l : runs [] l [] -> nested l.
Proof. intros H. exact (runs_closes _ _ _ H eq_refl). Qed.
Lemma runs_app st l st1 l' st2 : runs st l st1 -> runs st1 l' st2 -> runs st (l ++ l') st2.
Proof. induction 1; cbn; intros H2; [assumption|constructor; auto ..]. Qed.
Lemma runs_opens xs : forall st, runs st (map Open xs) (rev xs ++ st).
Proof. induction xs as [|x xs IH]; intros st; [constructor|]. cbn. constructor. rewrite <- app_assoc. apply IH. Qed.
Lemma runs_closings xs : forall st, runs (xs ++ st) (map Close xs) st.
Proof. induction xs as [|x xs IH]; intros st; cbn; constructor. apply IH. Qed.
End Spec.

(** ** The places *)
Lemma step_pos T i : 1 <= symbol_length T i.
Proof. unfold symbol_length. cbv zeta. destruct (Z.to_nat _); cbn; lia. Qed.
Lemma around_down size i n : forall m j, n < m -> i <= j -> j = i + n -> j < size -> around m size i j = rev (seq (i + 1) n).
Proof.
  induction n as [|n IH]; intros m j Hm Hi Hj Hs; (destruct m as [|m]; [lia|]); cbn [around].
  - destruct (Nat.eqb_spec j i); [reflexivity|lia].
  - destruct (Nat.eqb_spec j i); [lia|]. replace ((j + size - 1) mod size) with (j - 1).
    + rewrite (IH m (j - 1)) by lia. rewrite seq_S, rev_app_distr. cbn. f_equal. lia.
    + replace (j + size - 1) with (j - 1 + 1 * size) by lia. rewrite Nat.mod_add, Nat.mod_small by lia. reflexivity.
Qed.
Lemma around_wrap size i j : forall m, j < i -> i < size -> j + 1 + (size - 1 - i) < m -> around m size i j = rev (seq 0 (j + 1)) ++ rev (seq (i + 1) (size - 1 - i)).
Proof.
  induction j as [|j IH]; intros m Hj Hi Hm; (destruct m as [|m]; [lia|]); cbn [around].
  - destruct (Nat.eqb_spec 0 i); [lia|]. replace ((0 + size - 1) mod size) with (size - 1) by (rewrite Nat.mod_small; lia).
    rewrite (around_down size i (size - 1 - i)) by lia. reflexivity.
  - destruct (Nat.eqb_spec (S j) i); [lia|]. replace ((S j + size - 1) mod size) with j.
    + rewrite (IH m) by lia. rewrite (seq_S (j + 1) 0 : seq 0 (S j + 1) = _), rev_app_distr. cbn. f_equal. lia.
    + replace (S j + size - 1) with (j + 1 * size) by lia. rewrite Nat.mod_add, Nat.mod_small by lia. reflexivity.
Qed.
Lemma around_all n i : i <= n -> around (n + 1) (n + 1) i ((i + (n + 1) - 1) mod (n + 1)) = rev (seq 0 i) ++ rev (seq (i + 1) (n - i)).
Proof.
  intros Hi. destruct i as [|i].
  - replace ((0 + (n + 1) - 1) mod (n + 1)) with n by (rewrite Nat.mod_small; lia). rewrite (around_down _ _ n) by lia. cbn. now rewrite Nat.sub_0_r.
  - replace ((S i + (n + 1) - 1) mod (n + 1)) with i.
    + rewrite around_wrap by lia. rewrite Nat.add_1_r at 1. do 3 f_equal. lia.
    + replace (S i + (n + 1) - 1) with (i + 1 * (n + 1)) by lia. rewrite Nat.mod_add, Nat.mod_small by lia. reflexivity.
Qed.
Lemma places_le T : forall f i k, In k (places f T i) -> i <= k <= length T.
Proof.
  induction f as [|f IH]; intros i k H; [destruct H|]. cbn [places] in H. destruct (Nat.ltb_spec i (length T + 1)); [|destruct H].
  destruct H as [<-|H]; [lia|]. apply IH in H. pose proof (step_pos T i). lia.
Qed.
Lemma marks_le T k : In k (marks T) -> k <= length T.
Proof. intros H. apply places_le in H. lia. Qed.
Lemma places_nodup T : forall f i, NoDup (places f T i).
Proof.
  induction f as [|f IH]; intros i; cbn [places]; [constructor|]. destruct (i <? length T + 1); [|constructor]. constructor; [|apply IH].
  intros H. apply places_le in H. pose proof (step_pos T i). lia.
Qed.
Lemma is_mark_spec T i : is_mark T i = true <-> In i (marks T).
Proof. unfold is_mark. rewrite existsb_exists. split; [intros [x [H E]]; apply Nat.eqb_eq in E; now subst|intros H; exists i; split; [assumption|apply Nat.eqb_refl]]. Qed.

Section Cells.
Context {X : Type}.
Variable T : list Z.
Variable cell : nat -> nat -> list X.
Notation n := (length T).
(** The cells that are printed. *)
Definition shown (i j : nat) : list X := if is_mark T i && is_mark T j && (i <? j) then cell i j else [].
Lemma bracket_shown i j : bracket T cell i j = map Open (shown i j) ++ map Close (rev (shown j i)).
Proof.
  unfold bracket, shown. rewrite (andb_comm (is_mark T j)). destruct (is_mark T i && is_mark T j); cbn [negb andb]; [|reflexivity].
  destruct (Nat.ltb_spec i j); destruct (Nat.ltb_spec j i); try lia; cbn; rewrite ?app_nil_r; reflexivity.
Qed.
Definition closings (i : nat) : list (piece X) := flat_map (fun j => map Close (rev (shown j i))) (rev (seq 0 i)).
Definition openings (i : nat) : list (piece X) := flat_map (fun j => map Open (shown i j)) (rev (seq (i + 1) (n - i))).
Lemma flat_map_same {A B} (f g : A -> list B) l : (forall x, In x l -> f x = g x) -> flat_map f l = flat_map g l.
Proof. induction l as [|x l IH]; cbn; intros H; [reflexivity|]. rewrite (H x) by now left. rewrite IH; [reflexivity|]. intros y Hy. apply H. now right. Qed.
Lemma shown_lt i j : ~ i < j -> shown i j = [].
Proof. intros H. unfold shown. destruct (Nat.ltb_spec i j); [lia|]. now rewrite andb_false_r. Qed.
Lemma at_mark_form i : i <= n -> at_mark T cell i = closings i ++ openings i ++ [Bytes (firstn (symbol_length T i) (skipn i T))].
Proof.
  intros Hi. unfold at_mark. cbv zeta. rewrite around_all by assumption. rewrite flat_map_app, <- app_assoc. f_equal; [|f_equal].
  - apply flat_map_same. intros j Hj. apply in_rev, in_seq in Hj. rewrite bracket_shown, (shown_lt i j) by lia. reflexivity.
  - apply flat_map_same. intros j Hj. apply in_rev, in_seq in Hj. rewrite bracket_shown, (shown_lt j i) by lia. cbn. now rewrite app_nil_r.
Qed.

(** *** The text *)
Lemma bytes_brackets l : (forall x, In x l -> bytes_of x = []) -> flat_map (@bytes_of X) l = [].
Proof. induction l as [|x l IH]; cbn; intros H; [reflexivity|]. rewrite (H x) by now left. apply IH. intros y Hy. apply H. now right. Qed.
Lemma closings_bytes i : flat_map bytes_of (closings i) = [].
Proof. apply bytes_brackets. intros x H. apply in_flat_map in H as [j [_ H]]. apply in_map_iff in H as [y [<- _]]. reflexivity. Qed.
Lemma openings_bytes i : flat_map bytes_of (openings i) = [].
Proof. apply bytes_brackets. intros x H. apply in_flat_map in H as [j [_ H]]. apply in_map_iff in H as [y [<- _]]. reflexivity. Qed.
Lemma skipn_plus {A} (a b : nat) (l : list A) : skipn a (skipn b l) = skipn (b + a) l.
Proof. revert l. induction b as [|b IH]; intros l; [reflexivity|]. destruct l; [now rewrite !skipn_nil|]. cbn. apply IH. Qed.
Lemma pieces_bytes : forall f i, n + 1 <= i + f -> flat_map bytes_of (flat_map (at_mark T cell) (places f T i)) = skipn i T.
Proof.
  induction f as [|f IH]; intros i Hf; cbn [places].
  - rewrite skipn_all2 by lia. reflexivity.
  - destruct (Nat.ltb_spec i (n + 1)); [|rewrite skipn_all2 by lia; reflexivity]. cbn [flat_map]. rewrite flat_map_app, at_mark_form by lia.
    rewrite !flat_map_app, closings_bytes, openings_bytes. cbn. rewrite app_nil_r, IH by (pose proof (step_pos T i); lia).
    rewrite <- skipn_plus. apply firstn_skipn.
Qed.

(** *** Nesting *)
Hypothesis apart : forall i j i' j', shown i j <> [] -> shown i' j' <> [] -> ~ (i < i' /\ i' < j /\ j < j').
(** The brackets that are open behind place p: of those that begin at b (b = p, ..., 0) and end behind p. *)
Definition standing (p b : nat) : list X := flat_map (fun q => rev (shown b q)) (seq (p + 1) (n - p)).
Definition stack (p : nat) (k : nat) : list X := flat_map (standing p) (rev (seq 0 k)).
Lemma flat_map_nil {A B} (f : A -> list B) l : (forall x, In x l -> f x = []) -> flat_map f l = [].
Proof. induction l as [|x l IH]; cbn; intros H; [reflexivity|]. rewrite (H x) by now left. apply IH. intros y Hy. apply H. now right. Qed.
Lemma flat_map_some {A B} (f : A -> list B) l : flat_map f l <> [] -> exists x, In x l /\ f x <> [].
Proof.
  induction l as [|x l IH]; cbn; intros H; [now destruct H|]. destruct (f x) as [|y r] eqn:E; [|exists x; rewrite E; split; [now left|discriminate]].
  destruct (IH H) as [z [Hz Ez]]. exists z. auto.
Qed.
(** Closing brackets at p: what begins at b and ends at p is on the top. *)
Lemma closing_runs p : forall k front, k <= p -> p <= n -> (forall b, b < k -> shown b p <> [] -> front = []) ->
  runs (front ++ flat_map (fun b => rev (shown b p) ++ standing p b) (rev (seq 0 k))) (flat_map (fun b => map Close (rev (shown b p))) (rev (seq 0 k))) (front ++ stack p k).
Proof.
  induction k as [|k IH]; intros front Hk Hp Hf.
  - cbn. rewrite app_nil_r. constructor.
  - unfold stack. rewrite seq_S, rev_app_distr. cbn [rev app flat_map plus]. eapply runs_app.
    + instantiate (1 := (front ++ standing p k) ++ flat_map (fun b => rev (shown b p) ++ standing p b) (rev (seq 0 k))). rewrite <- !app_assoc.
      destruct (shown k p) as [|x r] eqn:E; [cbn; constructor|]. assert (front = []) as -> by (apply (Hf k); [lia|congruence]). cbn [app].
      apply runs_closings.
    + rewrite app_assoc. apply IH; [lia|lia|]. intros b Hb Hs. rewrite (Hf b) by (lia || assumption). cbn.
      destruct (standing p k) as [|y r] eqn:E; [reflexivity|]. exfalso. assert (Hn : standing p k <> []) by (rewrite E; discriminate).
      apply flat_map_some in Hn as [q [Hq Hn]]. apply in_seq in Hq. apply (apart b p k q); [assumption|intros E'; rewrite E' in Hn; now apply Hn|]. lia.
Qed.
Lemma opening_runs p st : runs st (openings p) (standing p p ++ st).
Proof.
  unfold openings, standing. generalize (seq (p + 1) (n - p)) as l. intros l. revert st. induction l as [|q l IH]; intros st; cbn; [constructor|].
  rewrite flat_map_app. cbn. rewrite app_nil_r, <- app_assoc. eapply runs_app; [apply IH|]. apply runs_opens.
Qed.
(** From behind place p to behind place p', the next one. *)
Lemma stack_next p p' : p < p' -> p' <= n -> (forall q, p < q -> q < p' -> is_mark T q = false) ->
  stack p (p + 1) = flat_map (fun b => rev (shown b p') ++ standing p' b) (rev (seq 0 p')).
Proof.
  intros H1 H2 Hn. unfold stack. replace (seq 0 p') with (seq 0 (p + 1) ++ seq (p + 1) (p' - p - 1)) by (replace p' with (p + 1 + (p' - p - 1)) at 2 by lia; rewrite (seq_app (p + 1) (p' - p - 1) 0); reflexivity). rewrite rev_app_distr, flat_map_app. cbn [plus].
  rewrite (flat_map_nil _ (rev (seq (p + 1) _))).
  - cbn. apply flat_map_same. intros b Hb. apply in_rev, in_seq in Hb. unfold standing. replace (n - p) with (p' - p - 1 + (1 + (n - p'))) by lia.
    rewrite seq_app, flat_map_app. replace (p + 1 + (p' - p - 1)) with p' by lia. rewrite (flat_map_nil _ (seq (p + 1) _)).
    + cbn [seq flat_map app plus]. rewrite <- (Nat.add_1_r p'). reflexivity.
    + intros q Hq. apply in_seq in Hq. unfold shown. rewrite (Hn q) by lia. rewrite andb_false_r. reflexivity.
  - intros b Hb. apply in_rev, in_seq in Hb. unfold standing, shown. rewrite (Hn b) by lia. cbn. apply flat_map_nil. reflexivity.
Qed.
Lemma pieces_runs : forall f p i, n + 1 <= i + f -> (forall q, p < q -> (is_mark T q = true <-> In q (places f T i))) -> p < i -> p <= n ->
  runs (stack p (p + 1)) (flat_map (at_mark T cell) (places f T i)) [].
Proof.
  induction f as [|f IH]; intros p i Hf Hm Hp Hpn.
  - cbn [places flat_map]. replace (stack p (p + 1)) with (@nil X); [constructor|]. symmetry. apply flat_map_nil. intros b _. apply flat_map_nil. intros q Hq. apply in_seq in Hq.
    unfold shown. destruct (is_mark T q) eqn:E; [apply Hm in E; [destruct E|lia]|]. now rewrite andb_false_r.
  - cbn [places] in *. destruct (Nat.ltb_spec i (n + 1)).
    + cbn [flat_map]. rewrite at_mark_form by lia. rewrite <- !app_assoc.
      assert (Hq : forall q, p < q -> q < i -> is_mark T q = false).
      { intros q H1 H2. destruct (is_mark T q) eqn:E; [|reflexivity]. apply Hm in E; [|lia]. destruct E as [E|E]; [lia|]. apply places_le in E. pose proof (step_pos T i). lia. }
      rewrite (stack_next p i) by (assumption || lia). eapply runs_app; [exact (closing_runs i i [] (le_n _) ltac:(lia) ltac:(reflexivity))|].
      cbn [app]. eapply runs_app; [apply opening_runs|]. cbn [app]. constructor. pose proof (step_pos T i) as Hs.
      replace (standing i i ++ stack i i) with (stack i (i + 1)).
      * destruct (Nat.le_gt_cases (i + symbol_length T i) n) as [Hl|Hl].
        -- apply IH; [lia| |lia|lia]. intros q H1. rewrite Hm by lia. split; [|intros K; now right]. intros [K|K]; [lia|assumption].
        -- apply IH; [lia| |lia|lia]. intros q H1. rewrite Hm by lia. split; [|intros K; now right]. intros [K|K]; [lia|assumption].
      * unfold stack. rewrite (Nat.add_1_r i), seq_S, rev_app_distr. reflexivity.
    + cbn [flat_map]. replace (stack p (p + 1)) with (@nil X); [constructor|]. symmetry. apply flat_map_nil. intros b _. apply flat_map_nil. intros q Hq. apply in_seq in Hq.
      unfold shown. destruct (is_mark T q) eqn:E; [apply Hm in E; [destruct E|lia]|]. now rewrite andb_false_r.
Qed.
Lemma pieces_nested : runs [] (pieces T cell) [].
Proof.
  unfold pieces, marks. rewrite Nat.add_1_r. cbn [places]. destruct (Nat.ltb_spec 0 (n + 1)); [|lia]. cbn [flat_map plus]. rewrite at_mark_form by lia.
  rewrite <- !app_assoc. cbn [closings seq rev flat_map app]. eapply runs_app; [apply opening_runs|]. constructor. rewrite app_nil_r.
  replace (standing 0 0) with (stack 0 (0 + 1)) by (unfold stack; cbn; apply app_nil_r). pose proof (step_pos T 0). apply pieces_runs; [lia| |lia|lia].
  intros q Hq. rewrite is_mark_spec. unfold marks. rewrite Nat.add_1_r. cbn [places]. destruct (Nat.ltb_spec 0 (n + 1)); [|lia]. cbn. split; [intros [E|E]; [lia|assumption]|now right].
Qed.
End Cells.

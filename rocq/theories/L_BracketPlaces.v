(** Lemmas for the bracketing writer: how often and where brackets are put out, the order of edges of one place. *)
From Coq Require Import String Ascii List ZArith NArith Bool Arith Lia Permutation.
From Verif Require Import M_Quoter M_Cutter M_Bracketing L_Bracketing.
Import ListNotations.
Local Open Scope nat_scope.

Section Where.
Context {X : Type}.
Notation piece := (piece X).
Lemma opened_app (a : list piece) : forall k b, opened k (a ++ b) = opened k a ++ opened (k + length (flat_map bytes_of a)) b.
Proof.
  induction a as [|x a IH]; intros k b; cbn; [now rewrite Nat.add_0_r|]. destruct x as [x|x|s]; cbn; rewrite IH; [reflexivity|reflexivity|]. rewrite app_length, Nat.add_assoc. reflexivity.
Qed.
Lemma closed_app (a : list piece) : forall k b, closed k (a ++ b) = closed k a ++ closed (k + length (flat_map bytes_of a)) b.
Proof.
  induction a as [|x a IH]; intros k b; cbn; [now rewrite Nat.add_0_r|]. destruct x as [x|x|s]; cbn; rewrite IH; [reflexivity|reflexivity|]. rewrite app_length, Nat.add_assoc. reflexivity.
Qed.
Lemma opened_opens k (xs : list X) : opened k (map Open xs) = map (pair k) xs.
Proof. induction xs as [|x xs IH]; cbn; congruence. Qed.
Lemma opened_closes k (xs : list X) : opened k (map Close xs) = [].
Proof. induction xs as [|x xs IH]; cbn; congruence. Qed.
Lemma closed_opens k (xs : list X) : closed k (map Open xs) = [].
Proof. induction xs as [|x xs IH]; cbn; congruence. Qed.
Lemma closed_closes k (xs : list X) : closed k (map Close xs) = map (pair k) xs.
Proof. induction xs as [|x xs IH]; cbn; congruence. Qed.
Lemma bytes_opens (xs : list X) : flat_map bytes_of (map Open xs) = [].
Proof. induction xs; cbn; congruence. Qed.
Lemma bytes_closes (xs : list X) : flat_map bytes_of (map Close xs) = [].
Proof. induction xs; cbn; congruence. Qed.
Lemma opened_all (f : nat -> list X) k l : opened k (flat_map (fun j => map Open (f j)) l) = flat_map (fun j => map (pair k) (f j)) l.
Proof. induction l as [|j l IH]; cbn; [reflexivity|]. now rewrite opened_app, opened_opens, bytes_opens, Nat.add_0_r, IH. Qed.
Lemma opened_none (f : nat -> list X) k l : opened k (flat_map (fun j => map Close (f j)) l) = [].
Proof. induction l as [|j l IH]; cbn; [reflexivity|]. now rewrite opened_app, opened_closes, bytes_closes, Nat.add_0_r, IH. Qed.
Lemma closed_all (f : nat -> list X) k l : closed k (flat_map (fun j => map Close (f j)) l) = flat_map (fun j => map (pair k) (f j)) l.
Proof. induction l as [|j l IH]; cbn; [reflexivity|]. now rewrite closed_app, closed_closes, bytes_closes, Nat.add_0_r, IH. Qed.
Lemma closed_none (f : nat -> list X) k l : closed k (flat_map (fun j => map Open (f j)) l) = [].
Proof. induction l as [|j l IH]; cbn; [reflexivity|]. now rewrite closed_app, closed_opens, bytes_opens, Nat.add_0_r, IH. Qed.

Variable T : list Z.
Variable cell : nat -> nat -> list X.
Notation n := (length T).
Notation shown := (shown T cell).
Lemma opened_places : forall f i, opened i (flat_map (at_mark T cell) (places f T i)) = flat_map (fun i => flat_map (fun j => map (pair i) (shown i j)) (rev (seq (i + 1) (n - i)))) (places f T i).
Proof.
  induction f as [|f IH]; intros i; [reflexivity|]. cbn [places]. destruct (Nat.ltb_spec i (n + 1)); [|reflexivity]. cbn [flat_map].
  rewrite at_mark_form by lia. rewrite <- !app_assoc. unfold closings at 1, openings at 1. rewrite opened_app, opened_none. cbn [app].
  change (flat_map (fun j => map Close (rev (shown j i))) (rev (seq 0 i))) with (closings T cell i). rewrite closings_bytes. cbn [length]. rewrite Nat.add_0_r.
  rewrite opened_app, opened_all. f_equal. change (flat_map (fun j => map Open (shown i j)) (rev (seq (i + 1) (n - i)))) with (openings T cell i). rewrite openings_bytes.
  cbn [length app opened]. rewrite Nat.add_0_r, firstn_length, skipn_length. destruct (Nat.le_gt_cases (symbol_length T i) (n - i)).
  - rewrite Nat.min_l by assumption. apply IH.
  - assert (E : places f T (i + symbol_length T i) = []) by (destruct f; [reflexivity|]; cbn [places]; destruct (Nat.ltb_spec (i + symbol_length T i) (n + 1)); [lia|reflexivity]).
    rewrite E. reflexivity.
Qed.
Lemma closed_places : forall f i, closed i (flat_map (at_mark T cell) (places f T i)) = flat_map (fun i => flat_map (fun j => map (pair i) (rev (shown j i))) (rev (seq 0 i))) (places f T i).
Proof.
  induction f as [|f IH]; intros i; [reflexivity|]. cbn [places]. destruct (Nat.ltb_spec i (n + 1)); [|reflexivity]. cbn [flat_map].
  rewrite at_mark_form by lia. rewrite <- !app_assoc. unfold closings at 1, openings at 1. rewrite closed_app, closed_all.
  change (flat_map (fun j => map Close (rev (shown j i))) (rev (seq 0 i))) with (closings T cell i). rewrite closings_bytes. cbn [length]. rewrite Nat.add_0_r.
  f_equal. rewrite closed_app, closed_none. cbn [app]. change (flat_map (fun j => map Open (shown i j)) (rev (seq (i + 1) (n - i)))) with (openings T cell i). rewrite openings_bytes.
  cbn [length app closed]. rewrite Nat.add_0_r, firstn_length, skipn_length. destruct (Nat.le_gt_cases (symbol_length T i) (n - i)).
  - rewrite Nat.min_l by assumption. apply IH.
  - assert (E : places f T (i + symbol_length T i) = []) by (destruct f; [reflexivity|]; cbn [places]; destruct (Nat.ltb_spec (i + symbol_length T i) (n + 1)); [lia|reflexivity]).
    rewrite E. reflexivity.
Qed.
End Where.

(** ** Summing over all places *)
Lemma flat_map_perm {A B} (f : A -> list B) l l' : Permutation l l' -> Permutation (flat_map f l) (flat_map f l').
Proof.
  induction 1; cbn; [constructor|now apply Permutation_app_head|rewrite !app_assoc; apply Permutation_app_tail, Permutation_app_comm|now transitivity (flat_map f l')].
Qed.
Lemma flat_map_perms {A B} (f g : A -> list B) l : (forall x, In x l -> Permutation (f x) (g x)) -> Permutation (flat_map f l) (flat_map g l).
Proof. induction l as [|x l IH]; cbn; intros H; [constructor|]. apply Permutation_app; [apply H; now left|]. apply IH. intros y Hy. apply H. now right. Qed.
Lemma flat_map_filter {A B} (f : A -> list B) (p : A -> bool) l : (forall x, In x l -> p x = false -> f x = []) -> flat_map f l = flat_map f (filter p l).
Proof.
  induction l as [|x l IH]; cbn; intros H; [reflexivity|]. rewrite IH by (intros y Hy; apply H; now right). destruct (p x) eqn:E; [reflexivity|].
  rewrite (H x) by (assumption || now left). reflexivity.
Qed.
Lemma marks_seq {B} T (f : nat -> list B) : (forall i, is_mark T i = false -> f i = []) -> Permutation (flat_map f (marks T)) (flat_map f (seq 0 (length T + 1))).
Proof.
  intros H. rewrite (flat_map_filter f (is_mark T) (seq 0 _)) by auto. apply flat_map_perm, NoDup_Permutation.
  - apply places_nodup.
  - apply NoDup_filter, seq_NoDup.
  - intros x. rewrite filter_In, in_seq, is_mark_spec. split; [|tauto]. intros K. split; [|assumption]. apply marks_le in K. lia.
Qed.
Lemma seq_rev {B} (f : nat -> list B) a k n : a + k <= n -> (forall j, ~ (a <= j < a + k) -> f j = []) -> Permutation (flat_map f (rev (seq a k))) (flat_map f (seq 0 n)).
Proof.
  intros H E. transitivity (flat_map f (seq a k)); [apply flat_map_perm; symmetry; apply Permutation_rev|].
  replace (seq 0 n) with (seq 0 a ++ seq a k ++ seq (a + k) (n - a - k)).
  - rewrite !flat_map_app. rewrite (flat_map_nil f (seq 0 a)), (flat_map_nil f (seq (a + k) _)), app_nil_r; [reflexivity|..]; intros j Hj; apply in_seq in Hj; apply E; lia.
  - rewrite <- seq_app. replace (seq a (k + (n - a - k))) with (seq (0 + a) (k + (n - a - k))) by reflexivity. rewrite <- seq_app. f_equal. lia.
Qed.
Section Sums.
Context {X : Type}.
Variable T : list Z.
Variable cell : nat -> nat -> list X.
Notation n := (length T).
Notation shown := (shown T cell).
Lemma shown_mark1 i j : is_mark T i = false -> shown i j = [].
Proof. intros E. unfold L_Bracketing.shown. now rewrite E. Qed.
Lemma shown_mark2 i j : is_mark T j = false -> shown i j = [].
Proof. intros E. unfold L_Bracketing.shown. now rewrite E, andb_false_r. Qed.
Lemma shown_out i j : n < j -> shown i j = [].
Proof. intros H. apply shown_mark2. destruct (is_mark T j) eqn:E; [|reflexivity]. apply is_mark_spec, marks_le in E. lia. Qed.
Lemma opened_sum : Permutation (opened 0 (pieces T cell)) (flat_map (fun i => flat_map (fun j => map (pair i) (shown i j)) (seq 0 (n + 1))) (seq 0 (n + 1))).
Proof.
  unfold pieces, marks. rewrite opened_places. change (places (n + 1) T 0) with (marks T).
  transitivity (flat_map (fun i => flat_map (fun j => map (pair i) (shown i j)) (seq 0 (n + 1))) (marks T)).
  - apply flat_map_perms. intros i Hi. apply marks_le in Hi. apply seq_rev; [lia|]. intros j Hj. destruct (Nat.le_gt_cases j n); [rewrite shown_lt by lia|rewrite shown_out by assumption]; reflexivity.
  - apply marks_seq. intros i Hi. apply flat_map_nil. intros j _. now rewrite shown_mark1.
Qed.
Lemma closed_sum : Permutation (closed 0 (pieces T cell)) (flat_map (fun j => flat_map (fun i => map (pair j) (shown i j)) (seq 0 (n + 1))) (seq 0 (n + 1))).
Proof.
  unfold pieces, marks. rewrite closed_places. change (places (n + 1) T 0) with (marks T).
  transitivity (flat_map (fun j => flat_map (fun i => map (pair j) (shown i j)) (seq 0 (n + 1))) (marks T)).
  - apply flat_map_perms. intros i Hi. apply marks_le in Hi. transitivity (flat_map (fun j => map (pair i) (shown j i)) (rev (seq 0 i))).
    + apply flat_map_perms. intros j _. apply Permutation_map. symmetry. apply Permutation_rev.
    + apply seq_rev; [lia|]. intros j Hj. rewrite shown_lt by lia. reflexivity.
  - apply marks_seq. intros i Hi. apply flat_map_nil. intros j _. now rewrite shown_mark2.
Qed.
End Sums.

(** Every element of a list is at one place of a table. *)
Lemma insert_one {A} (F G : nat -> list A) (S : list nat) b x : NoDup S -> In b S -> (forall i, i <> b -> F i = G i) -> Permutation (F b) (x :: G b) -> Permutation (flat_map F S) (x :: flat_map G S).
Proof.
  induction S as [|s S IH]; cbn; intros N I E P; [destruct I|]. inversion N as [|? ? N1 N2]; subst. destruct I as [->|I].
  - assert (flat_map F S = flat_map G S) as -> by (apply flat_map_same; intros i Hi; apply E; intros ->; now apply N1). change (x :: G b ++ flat_map G S) with ((x :: G b) ++ flat_map G S). now apply Permutation_app_tail.
  - rewrite E by (intros ->; now apply N1). rewrite (IH N2 I E P). symmetry. apply Permutation_middle.
Qed.
Section Table.
Context {E Y : Type}.
Variable at_ : nat -> nat -> E -> bool.
Variable ok : nat -> nat -> bool.
Variable h : E -> Y.
Variable S : list nat.
Hypothesis S_nodup : NoDup S.
Hypothesis at_one : forall i j i' j' e, at_ i j e = true -> at_ i' j' e = true -> i = i' /\ j = j'.
Definition seen (e : E) : bool := existsb (fun i => existsb (fun j => ok i j && at_ i j e) S) S.
Lemma table_sum es : Permutation (flat_map (fun i => flat_map (fun j => if ok i j then map h (filter (at_ i j) es) else []) S) S) (map h (filter seen es)).
Proof.
  induction es as [|e es IH]; cbn [filter].
  - cbn. rewrite flat_map_nil; [constructor|]. intros i _. apply flat_map_nil. intros j _. now destruct (ok i j).
  - destruct (seen e) eqn:V.
    + apply existsb_exists in V as [b [Hb V]]. apply existsb_exists in V as [t [Ht V]]. apply andb_true_iff in V as [Ho Ha]. cbn [map]. etransitivity; [|apply perm_skip, IH].
      apply (insert_one _ _ _ b); [assumption|assumption|..].
      * intros i Hi. apply flat_map_same. intros j _. destruct (at_ i j e) eqn:A; [|reflexivity]. destruct (at_one _ _ _ _ _ A Ha). now subst.
      * apply (insert_one _ _ _ t); [assumption|assumption|..].
        -- intros j Hj. destruct (at_ b j e) eqn:A; [|reflexivity]. destruct (at_one _ _ _ _ _ A Ha). now subst.
        -- rewrite Ho, Ha. reflexivity.
    + etransitivity; [|exact IH]. apply flat_map_perms. intros i Hi. apply flat_map_perms. intros j Hj. destruct (ok i j) eqn:Ho; [|constructor].
      destruct (at_ i j e) eqn:A; [|reflexivity]. exfalso. rewrite <- not_true_iff_false in V. apply V, existsb_exists. exists i. split; [assumption|]. apply existsb_exists. exists j. now rewrite Ho, A.
Qed.
End Table.

(** ** The order of edges of one place *)
Section Order.
Variable edge : Type.
Variable same_edge : edge -> edge -> bool.
Notation printed := (printed edge).
Notation linked := (linked edge same_edge).
Notation order := (order edge same_edge).
Lemma nth_split2 {A} (l : list A) a b x y : a < b -> nth_error l a = Some x -> nth_error l b = Some y ->
  exists p q r, l = p ++ x :: q ++ y :: r /\ length p = a /\ length p + S (length q) = b.
Proof.
  intros H Ha Hb. apply nth_error_split in Ha as [p [s [-> Hp]]]. rewrite nth_error_app2 in Hb by lia. destruct (b - length p) as [|k] eqn:E; [lia|]. cbn in Hb.
  apply nth_error_split in Hb as [q [r [-> Hq]]]. exists p, q, r. repeat split; lia.
Qed.
Lemma set_at_form {A} (p : list A) x y r : set_at (p ++ x :: r) (length p) y = p ++ y :: r.
Proof.
  unfold set_at. rewrite firstn_app, Nat.sub_diag, firstn_all. cbn [firstn]. rewrite app_nil_r. f_equal. f_equal.
  replace (S (length p)) with (length (p ++ [x])) by (rewrite app_length; cbn; lia). replace (p ++ x :: r) with ((p ++ [x]) ++ r) by (now rewrite <- app_assoc). rewrite skipn_app, skipn_all, Nat.sub_diag. reflexivity.
Qed.
Lemma swap_form l a b (x y : printed) : a < b -> nth_error l a = Some x -> nth_error l b = Some y ->
  exists p q r, l = p ++ x :: q ++ y :: r /\ swap_at edge l a b x y = p ++ y :: q ++ x :: r /\ length p = a.
Proof.
  intros H Ha Hb. destruct (nth_split2 _ _ _ _ _ H Ha Hb) as [p [q [r [-> [Hp Hb']]]]]. exists p, q, r. split; [reflexivity|]. split; [|assumption]. unfold swap_at. rewrite <- Hp, set_at_form.
  replace b with (length (p ++ y :: q)) by (rewrite app_length; cbn; lia). replace (p ++ y :: q ++ y :: r) with ((p ++ y :: q) ++ y :: r) by (now rewrite <- app_assoc).
  rewrite set_at_form, <- app_assoc. reflexivity.
Qed.
Lemma swap_perm l a b x y : a < b -> nth_error l a = Some x -> nth_error l b = Some y -> Permutation (swap_at edge l a b x y) l.
Proof.
  intros H Ha Hb. destruct (swap_form _ _ _ _ _ H Ha Hb) as [p [q [r [-> [-> _]]]]]. apply Permutation_app_head.
  transitivity (x :: y :: q ++ r); [rewrite perm_swap; apply perm_skip; symmetry; apply Permutation_middle|]. apply perm_skip, Permutation_middle.
Qed.
Lemma order_perm : forall f a b v w, a < b -> order f a b v = Some w -> Permutation w v.
Proof.
  induction f as [|f IH]; intros a b v w Hab H; [discriminate H|]. cbn [M_Bracketing.order] in H.
  destruct (a <? length v); [|injection H as <-; reflexivity]. destruct (b <? length v); [|eapply IH; [|exact H]; lia].
  destruct (nth_error v a) as [x|] eqn:Ea; [|discriminate]. destruct (nth_error v b) as [y|] eqn:Eb; [|discriminate].
  destruct (linked x y); [|eapply IH; [|exact H]; lia]. rewrite <- (swap_perm _ _ _ _ _ Hab Ea Eb). eapply IH; [|exact H]. lia.
Qed.
(** What has been looked at. *)
Definition looked (a b : nat) (v : list printed) : Prop :=
  forall i j x y, i < j -> (i < a \/ i = a /\ j < b) -> (i, j) <> (0, 1) -> nth_error v i = Some x -> nth_error v j = Some y -> linked x y = false.
Lemma order_looked : forall f a b v w, a < b -> looked a b v -> order f a b v = Some w ->
  forall i j x y, i < j -> (i, j) <> (0, 1) -> nth_error w i = Some x -> nth_error w j = Some y -> linked x y = false.
Proof.
  induction f as [|f IH]; intros a b v w Hab L H; [discriminate H|]. cbn [M_Bracketing.order] in H.
  destruct (Nat.ltb_spec a (length v)); [|injection H as <-; intros i j x y Hij Hn Hi Hj; apply (L i j); try assumption; left; enough (i < length v) by lia; apply nth_error_Some; congruence].
  destruct (Nat.ltb_spec b (length v)).
  - destruct (nth_error v a) as [x|] eqn:Ea; [|discriminate]. destruct (nth_error v b) as [y|] eqn:Eb; [|discriminate].
    destruct (linked x y) eqn:El; (eapply IH; [| |exact H]; [lia|]).
    + intros i j x' y' K1 K2 K3. exfalso. destruct K2 as [K2|[-> K2]]; [lia|]. apply K3. f_equal. lia.
    + intros i j x' y' K1 K2 K3 Hi Hj. destruct K2 as [K2|[-> K2]]; [apply (L i j); auto|]. destruct (Nat.eq_dec j b) as [->|Hjb]; [congruence|]. apply (L a j); auto. right. lia.
  - eapply IH; [| |exact H]; [lia|]. intros i j x' y' K1 K2 K3 Hi Hj. apply (L i j); auto. destruct K2 as [K2|[-> K2]]; [|lia].
    assert (j < length v) by (apply nth_error_Some; congruence). lia.
Qed.
(** It ends if there is a rank: what is made of an edge has a greater one. *)
Section Ends.
Variable rank : printed -> nat.
Fixpoint weight (B : nat) (v : list printed) : nat := match v with [] => 0 | x :: v' => rank x * B ^ length v' + weight B v' end.
Lemma weight_app B p q : weight B (p ++ q) = weight B p * B ^ length q + weight B q.
Proof. induction p as [|x p IH]; cbn; [reflexivity|]. rewrite IH, app_length, Nat.pow_add_r. lia. Qed.
Lemma weight_less B v : Forall (fun x => rank x < B) v -> weight B v < B ^ length v.
Proof. induction 1 as [|x v H _ IH]; cbn; [lia|]. nia. Qed.
Lemma weight_swap B p q r x y : 1 <= B -> Forall (fun z => rank z < B) (p ++ x :: q ++ y :: r) -> rank x < rank y -> weight B (p ++ x :: q ++ y :: r) < weight B (p ++ y :: q ++ x :: r).
Proof.
  intros HB F H. rewrite !weight_app. assert (El : length (x :: q ++ y :: r) = length (y :: q ++ x :: r)) by (cbn; rewrite !app_length; reflexivity). rewrite El.
  enough (weight B (x :: q ++ y :: r) < weight B (y :: q ++ x :: r)) by lia. apply Forall_app in F as [_ F]. inversion F as [|? ? Fx F']; subst. apply weight_less in F'.
  cbn [weight]. replace (length (q ++ x :: r)) with (length (q ++ y :: r)) by (rewrite !app_length; reflexivity). nia.
Qed.
Definition left_over (B a b : nat) (v : list printed) : nat :=
  let L := length v in (B ^ L - weight B v) * ((L + 1) * (L + 2) + 1) + (L - a) * (L + 2) + (L + 2 - b).
Lemma order_ends B : 1 <= B -> forall f a b v, a < b -> Forall (fun x => rank x < B) v -> (forall x y, In x v -> In y v -> linked x y = true -> rank x < rank y) ->
  left_over B a b v < f -> exists w, order f a b v = Some w.
Proof.
  intros HB. induction f as [|f IH]; intros a b v Hab F R Hf; [lia|]. cbn [M_Bracketing.order].
  destruct (Nat.ltb_spec a (length v)) as [Ha|Ha]; [|eauto]. destruct (Nat.ltb_spec b (length v)) as [Hb|Hb].
  - destruct (nth_error v a) as [x|] eqn:Ea; [|apply nth_error_None in Ea; lia]. destruct (nth_error v b) as [y|] eqn:Eb; [|apply nth_error_None in Eb; lia].
    destruct (linked x y) eqn:El.
    + pose proof (swap_perm _ _ _ _ _ Hab Ea Eb) as P. apply IH; [lia| | |].
      * eapply Permutation_Forall; [symmetry; exact P|assumption].
      * intros x' y' Hx Hy. apply R; eapply Permutation_in; eassumption.
      * assert (Hw : weight B v < weight B (swap_at edge v a b x y)).
        { destruct (swap_form _ _ _ _ _ Hab Ea Eb) as [p [q [r [E1 [-> _]]]]]. rewrite E1. apply weight_swap; [assumption|now rewrite <- E1|].
          apply R; [eapply nth_error_In; eassumption|eapply nth_error_In; eassumption|assumption]. }
        pose proof (Permutation_length P) as Pl. assert (F2 : Forall (fun x => rank x < B) (swap_at edge v a b x y)) by (eapply Permutation_Forall; [symmetry; exact P|assumption]).
        apply weight_less in F2. rewrite Pl in F2. unfold left_over in *. cbv zeta in *. rewrite Pl. nia.
    + apply IH; [lia|assumption|assumption|]. unfold left_over in *. cbv zeta in *. lia.
  - apply IH; [lia|assumption|assumption|]. unfold left_over in *. cbv zeta in *. nia.
Qed.
End Ends.
End Order.

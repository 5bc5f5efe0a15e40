(** Lemmas on choosing the places of nonterminals and on the automata for them. *)
From Coq Require Import List ZArith NArith Bool Sorted Permutation Lia PeanoNat.
From Verif Require Import M_Fsa L_Fsa M_BinFsa M_HashFsa M_Minfsa M_Dag L_Dag M_SimpleDag S_SimpleDag L_SimpleDag L_SimpleCopy L_SimpleDet P_SimpleDag M_MultiHash M_Intersector.
Import ListNotations.
Local Open Scope nat_scope.

(** ** Runs and the order of choices *)
Definition run (m : Z) (h : nat) : list Z := map (fun j => m + Z.of_nat j)%Z (seq 1 h).
Lemma run_length m h : length (run m h) = h.
Proof. unfold run. now rewrite map_length, seq_length. Qed.
Lemma run_S m h : run m (S h) = run m h ++ [(m + Z.of_nat (S h))%Z].
Proof. unfold run. rewrite seq_S, map_app. reflexivity. Qed.
Lemma run_cons m h : run m (S h) = (m + 1)%Z :: run (m + 1) h.
Proof. unfold run. cbn [seq map]. f_equal. rewrite <- seq_shift, map_map. apply map_ext. intros j. lia. Qed.
Lemma in_run m h x : In x (run m h) <-> (m < x <= m + Z.of_nat h)%Z.
Proof.
  unfold run. rewrite in_map_iff. split.
  - intros (j & <- & H). apply in_seq in H. lia.
  - intros H. exists (Z.to_nat (x - m)). split; [lia|]. apply in_seq. lia.
Qed.
Lemma run_sorted m h : StronglySorted Z.lt (run m h).
Proof.
  revert m. induction h as [|h IH]; intros m; [constructor|]. rewrite run_cons. constructor; [apply IH|]. apply Forall_forall. intros x H. apply in_run in H. lia.
Qed.
Fixpoint slex (a b : list Z) : Prop :=
  match a, b with
  | x :: a, y :: b => (x < y)%Z \/ (x = y /\ slex a b)
  | _, _ => False
  end.
Lemma slex_trans a : forall b c, slex a b -> slex b c -> slex a c.
Proof.
  induction a as [|x a IH]; intros [|y b] [|z c]; cbn; try tauto. intros [H1|[-> H1]] [H2|[-> H2]]; [left; lia|left; assumption|left; assumption|right].
  split; [reflexivity|now apply (IH b)].
Qed.
Definition valid (n k : nat) (b : list Z) : Prop := length b = k /\ StronglySorted Z.lt b /\ forall x, In x b -> (1 <= x <= Z.of_nat n)%Z.
Lemma run_least h : forall m b, length b = h -> StronglySorted Z.lt b -> (forall x, In x b -> (m < x)%Z) -> b = run m h \/ slex (run m h) b.
Proof.
  induction h as [|h IH]; intros m [|y b] L S H; try discriminate; [now left|]. rewrite run_cons. cbn in L. injection L as L. apply StronglySorted_inv in S as [S F]. rewrite Forall_forall in F.
  pose proof (H y (or_introl eq_refl)) as Hy. destruct (Z.eq_dec y (m + 1)) as [->|N]; [|right; left; lia].
  destruct (IH (m + 1)%Z b L S F) as [->|K]; [now left|right; right; now split].
Qed.
Lemma run_greatest h : forall n b, length b = h -> StronglySorted Z.lt b -> (forall x, In x b -> (x <= n)%Z) ->
  ~ slex (run (n - Z.of_nat h) h) b.
Proof.
  assert (Top : forall h n b, length b = h -> StronglySorted Z.lt b -> (forall x, In x b -> (x <= n)%Z) -> forall y, nth_error b 0 = Some y -> (y <= n - Z.of_nat h + 1)%Z).
  { induction h0 as [|h0 IH]; intros n b L S H y E; [destruct b; discriminate|]. destruct b as [|y' b]; [discriminate|]. cbn in E. injection E as ->.
    apply StronglySorted_inv in S as [S F]. rewrite Forall_forall in F. cbn in L. injection L as L. destruct b as [|z b]; [cbn in L; subst; specialize (H y (or_introl eq_refl)); lia|].
    specialize (IH n (z :: b) L S (fun x K => H x (or_intror K)) z eq_refl). specialize (F z (or_introl eq_refl)). lia. }
  induction h as [|h IH]; intros n b L S H K; [destruct b; [destruct K|discriminate]|]. rewrite run_cons in K. destruct b as [|y b]; [discriminate|]. cbn in K.
  pose proof (Top (Datatypes.S h) n (y :: b) L S H y eq_refl) as T. destruct K as [K|[K1 K2]]; [lia|].
  apply StronglySorted_inv in S as [S _]. injection L as L. apply (IH n b L S); [intros x Hx; apply H; now right|]. replace (n - Z.of_nat h)%Z with (n - Z.of_nat (Datatypes.S h) + 1)%Z by lia. assumption.
Qed.
Lemma top_only n k b : valid n k b -> forall y, nth_error b 0 = Some y -> y = (Z.of_nat n - Z.of_nat k + 1)%Z -> b = run (Z.of_nat n - Z.of_nat k) k.
Proof.
  intros (L & S & H) y E ->. destruct k as [|k]; [destruct b; [discriminate|discriminate]|]. destruct b as [|z b]; [discriminate|]. cbn in E. injection E as ->.
  rewrite run_cons. apply StronglySorted_inv in S as [S F]. rewrite Forall_forall in F. injection L as L.
  assert (H' : forall x, In x b -> (x <= Z.of_nat n)%Z) by (intros x Hx; apply H; now right).
  f_equal. destruct (run_least k _ b L S F) as [E|K]; [exact E|]. exfalso. apply (run_greatest k (Z.of_nat n) b L S H').
  replace (Z.of_nat n - Z.of_nat k)%Z with (Z.of_nat n - Z.of_nat (Datatypes.S k) + 1)%Z by lia. exact K.
Qed.
(** Nothing lies between a choice and the next one. *)
Lemma successor n v t : t = run (n - Z.of_nat (length t)) (length t) -> forall p b, length b = length (p ++ v :: t) -> StronglySorted Z.lt b ->
  (forall x, In x b -> (x <= n)%Z) -> slex (p ++ v :: t) b -> b = p ++ run v (S (length t)) \/ slex (p ++ run v (S (length t))) b.
Proof.
  intros Ht. induction p as [|x p IH]; intros [|y b] L S H K; try discriminate; cbn [app] in *.
  - apply StronglySorted_inv in S as [S F]. rewrite Forall_forall in F. injection L as L. destruct K as [K|[-> K]].
    + rewrite run_cons. destruct (Z.eq_dec y (v + 1)) as [->|N]; [|right; left; lia].
      destruct (run_least (length t) (v + 1) b L S F) as [->|R]; [now left|right; right; now split].
    + exfalso. rewrite Ht in K. apply (run_greatest (length t) n b L S) in K; [assumption|]. intros x Hx. apply H. now right.
  - cbn in K |- *. apply StronglySorted_inv in S as [S F]. injection L as L. destruct K as [K|[-> K]]; [right; now left|].
    destruct (IH b L S (fun x Hx => H x (or_intror Hx)) K) as [->|R]; [now left|right; right; now split].
Qed.
Lemma successor_after v t p : slex (p ++ v :: t) (p ++ run v (S (length t))).
Proof. induction p as [|x p IH]; cbn [app]; [rewrite run_cons; left; lia|right; now split]. Qed.
(** A measure for the end of the loop. *)
Fixpoint val (n : nat) (a : list Z) : Z :=
  match a with [] => 0 | x :: a' => x * Z.of_nat (S n) ^ Z.of_nat (length a') + val n a' end%Z.
Lemma val_bound n a : (forall x, In x a -> (0 <= x <= Z.of_nat n)%Z) -> (0 <= val n a < Z.of_nat (S n) ^ Z.of_nat (length a))%Z.
Proof.
  induction a as [|x a IH]; intros H; cbn [val length]; [cbn; lia|]. specialize (IH (fun y K => H y (or_intror K))). specialize (H x (or_introl eq_refl)).
  rewrite (Nat2Z.inj_succ (length a)), Z.pow_succ_r by lia. nia.
Qed.
Lemma slex_val n a : forall b, length a = length b -> (forall x, In x a -> (0 <= x <= Z.of_nat n)%Z) -> (forall x, In x b -> (0 <= x <= Z.of_nat n)%Z) ->
  slex a b -> (val n a < val n b)%Z.
Proof.
  induction a as [|x a IH]; intros [|y b] L Ha Hb K; cbn in K; try tauto. injection L as L. cbn [val]. rewrite <- L.
  pose proof (val_bound n a (fun z Hz => Ha z (or_intror Hz))) as B. pose proof (val_bound n b (fun z Hz => Hb z (or_intror Hz))) as B'. rewrite <- L in B'.
  destruct K as [K|[-> K]]; [nia|]. specialize (IH b L (fun z Hz => Ha z (or_intror Hz)) (fun z Hz => Hb z (or_intror Hz)) K). lia.
Qed.

(** ** nextksb *)
Lemma fill_spec k a m h : length a = k -> h <= k ->
  fold_left (fun a j => update (k + j - h - 1) (fun _ => m + Z.of_nat j)%Z a) (seq 1 h) a = firstn (k - h) a ++ run m h.
Proof.
  intros L Lh. assert (G : forall i, i <= h -> fold_left (fun a j => update (k + j - h - 1) (fun _ => m + Z.of_nat j)%Z a) (seq 1 i) a = firstn (k - h) a ++ run m i ++ skipn (k - h + i) a).
  { induction i as [|i IH]; intros Li.
    - cbn [seq fold_left run map app]. rewrite Nat.add_0_r. symmetry. apply firstn_skipn.
    - rewrite seq_S, fold_left_app, IH by lia. cbn [fold_left Nat.add]. rewrite run_S, <- app_assoc. cbn [app].
      destruct (skipn (k - h + i) a) as [|z r] eqn:E.
      { apply (f_equal (@length _)) in E. rewrite skipn_length in E. cbn in E. lia. }
      assert (Er : r = skipn (k - h + S i) a).
      { replace (k - h + S i) with (S (k - h + i)) by lia. clear - E. revert E. generalize (k - h + i) as q. induction a as [|y a IH]; intros [|q] E; cbn in *; try discriminate; [now injection E|]. now apply IH. }
      rewrite Er. rewrite !app_assoc. set (p := firstn (k - h) a ++ run m i).
      assert (Lp : length p = k + S i - h - 1) by (unfold p; rewrite app_length, firstn_length, run_length; lia). rewrite <- Lp. clear.
      induction p as [|y p IH]; cbn; [reflexivity|]. now f_equal. }
  rewrite (G h (Nat.le_refl h)). replace (k - h + h) with (length a) by lia. now rewrite skipn_all, app_nil_r.
Qed.
Record choice (n k : nat) (a : list Z) (h : nat) (m : Z) : Prop := Choice {
  ch_valid : valid n k a;
  ch_h : 1 <= h <= k;
  ch_m : (0 <= m)%Z;
  ch_run : a = firstn (k - h) a ++ run m h;
  ch_gap : forall x, In x (firstn (k - h) a) -> (x < m)%Z }.
Lemma sorted_app_l {X} (R : X -> X -> Prop) l r : StronglySorted R (l ++ r) -> StronglySorted R l.
Proof. induction l as [|x l IH]; intros H; [constructor|]. cbn in H. apply StronglySorted_inv in H as [H F]. constructor; [now apply IH|]. now apply Forall_app in F. Qed.
Lemma sorted_app_lt {X} (R : X -> X -> Prop) l r : StronglySorted R (l ++ r) -> forall x y, In x l -> In y r -> R x y.
Proof.
  induction l as [|z l IH]; intros H x y; [intros []|]. cbn in H. apply StronglySorted_inv in H as [H F]. rewrite Forall_forall in F.
  intros [->|Hx] Hy; [apply F, in_app_iff; now right|now apply IH].
Qed.
Lemma sorted_app {X} (R : X -> X -> Prop) l r : StronglySorted R l -> StronglySorted R r -> (forall x y, In x l -> In y r -> R x y) -> StronglySorted R (l ++ r).
Proof.
  intros H K C. induction H as [|z l H IH F]; [assumption|]. cbn. constructor; [apply IH; intros x y Hx; apply C; now right|].
  apply Forall_app. split; [assumption|]. apply Forall_forall. intros y Hy. apply C; [now left|assumption].
Qed.
Lemma next_choice n k a h m : choice n k a h m ->
  match nextksb a h m k n with
  | Stop => a = run (Z.of_nat n - Z.of_nat k) k
  | Next a' h' m' => choice n k a' h' m' /\ exists p v t, t = run (Z.of_nat n - Z.of_nat (length t)) (length t) /\ a = p ++ v :: t /\ a' = p ++ run v (S (length t))
  | Outside => False
  end.
Proof.
  intros [V [H1 H2] Hm Hr Hg]. pose proof V as (L & S & B). unfold nextksb. destruct (Nat.eqb_spec k 0) as [->|Nk]; [lia|]. rewrite L, Nat.eqb_refl. cbn [negb].
  destruct (Z.eqb_spec (nth 0 a 0%Z) (Z.of_nat n - Z.of_nat k + 1)) as [E|E].
  { apply (top_only n k a V (nth 0 a 0%Z)); [apply nth_error_nth'; lia|assumption]. }
  set (pre := firstn (k - h) a) in *.
  assert (Lpre : length pre = k - h) by (unfold pre; rewrite firstn_length; lia).
  assert (Top : (m + Z.of_nat h <= Z.of_nat n)%Z).
  { apply B. rewrite Hr. apply in_app_iff. right. apply in_run. lia. }
  destruct (Z.ltb_spec m (Z.of_nat n - Z.of_nat h)) as [Lt|Ge].
  - destruct (Nat.ltb_spec k 1) as [C|_]; [lia|]. rewrite fill_spec by lia.
    assert (Ea : a = (pre ++ run m (h - 1)) ++ [(m + Z.of_nat h)%Z]).
    { rewrite Hr. replace h with (Datatypes.S (h - 1)) at 1 by lia. rewrite run_S, app_assoc. repeat f_equal. lia. }
    assert (Lp : length (pre ++ run m (h - 1)) = k - 1) by (rewrite app_length, run_length; lia).
    assert (Ev : nth (k - 1) a 0%Z = (m + Z.of_nat h)%Z).
    { rewrite Ea, app_nth2, Lp, Nat.sub_diag by lia. reflexivity. }
    assert (Ef : firstn (k - 1) a = pre ++ run m (h - 1)).
    { rewrite Ea, firstn_app, Lp, Nat.sub_diag. cbn. rewrite app_nil_r. rewrite <- Lp. apply firstn_all. }
    rewrite Ev, Ef. set (p := pre ++ run m (h - 1)) in *. set (v := (m + Z.of_nat h)%Z) in *.
    assert (Bp : forall x, In x p -> (1 <= x < v)%Z).
    { intros x Hx. split; [apply B; rewrite Ea; apply in_app_iff; now left|]. unfold p in Hx. apply in_app_iff in Hx as [Hx|Hx]; [apply Hg in Hx; lia|apply in_run in Hx; lia]. }
    split; [|exists p, v, []; split; [reflexivity|split; [assumption|reflexivity]]].
    constructor.
    + split; [rewrite app_length, run_length; lia|]. split.
      * apply sorted_app; [rewrite Ea in S; now apply sorted_app_l in S|apply run_sorted|]. intros x y Hx Hy. apply Bp in Hx. apply in_run in Hy. lia.
      * intros x Hx. apply in_app_iff in Hx as [Hx|Hx]; [apply Bp in Hx; lia|apply in_run in Hx; lia].
    + lia.
    + lia.
    + rewrite firstn_app, Lp, Nat.sub_diag. cbn [firstn]. rewrite app_nil_r, <- Lp, firstn_all. reflexivity.
    + rewrite firstn_app, Lp, Nat.sub_diag. cbn [firstn]. rewrite app_nil_r, <- Lp, firstn_all. intros x Hx. apply Bp in Hx. lia.
  - assert (Em : m = (Z.of_nat n - Z.of_nat h)%Z) by lia.
    destruct (Nat.eq_dec h k) as [->|Nh].
    { exfalso. apply E. rewrite Hr. unfold pre. rewrite Nat.sub_diag. cbn [firstn app]. destruct k; [lia|]. rewrite run_cons. cbn [nth]. lia. }
    destruct (Nat.ltb_spec k (Datatypes.S h)) as [C|_]; [lia|]. rewrite fill_spec by lia.
    destruct (exists_last (l := pre)) as (p & v & Ep); [intros ->; cbn in Lpre; lia|].
    assert (Lp : length p = k - Datatypes.S h) by (rewrite Ep, app_length in Lpre; cbn in Lpre; lia).
    assert (Ea : a = p ++ v :: run m h) by (rewrite Hr, Ep, <- app_assoc; reflexivity).
    assert (Ev : nth (k - Datatypes.S h) a 0%Z = v) by (rewrite Ea, app_nth2, Lp, Nat.sub_diag by lia; reflexivity).
    assert (Ef : firstn (k - Datatypes.S h) a = p) by (rewrite Ea, firstn_app, Lp, Nat.sub_diag; cbn; rewrite app_nil_r, <- Lp; apply firstn_all).
    rewrite Ev, Ef.
    assert (Bv : (1 <= v < m)%Z).
    { split; [apply B; rewrite Ea; apply in_app_iff; right; now left|]. apply Hg. rewrite Ep. apply in_app_iff. right. now left. }
    assert (Bp : forall x, In x p -> (1 <= x < v)%Z).
    { intros x Hx. split; [apply B; rewrite Ea; apply in_app_iff; now left|]. rewrite Ea in S. apply (sorted_app_lt _ _ _ S x v Hx). now left. }
    split.
    + constructor.
      * split; [rewrite app_length, run_length; lia|]. split.
        -- apply sorted_app; [rewrite Ea in S; now apply sorted_app_l in S|apply run_sorted|]. intros x y Hx Hy. apply Bp in Hx. apply in_run in Hy. lia.
        -- intros x Hx. apply in_app_iff in Hx as [Hx|Hx]; [apply Bp in Hx; lia|apply in_run in Hx; lia].
      * lia.
      * lia.
      * rewrite firstn_app, Lp, Nat.sub_diag. cbn [firstn]. rewrite app_nil_r, <- Lp, firstn_all. reflexivity.
      * rewrite firstn_app, Lp, Nat.sub_diag. cbn [firstn]. rewrite app_nil_r, <- Lp, firstn_all. intros x Hx. apply Bp in Hx. lia.
    + exists p, v, (run m h). rewrite run_length. split; [now rewrite Em|]. now split.
Qed.
Lemma first_choice n k h m : 1 <= k -> k <= n -> nextksb [] h m k n = Next (run 0 k) k 0 /\ choice n k (run 0 k) k 0.
Proof.
  intros H1 H2. split.
  - unfold nextksb. destruct (Nat.eqb_spec k 0) as [->|_]; [lia|]. cbn [length]. destruct (Nat.eqb_spec 0 k) as [<-|_]; [lia|]. cbn [negb].
    destruct (Z.eqb_spec (nth 0 (repeat 0%Z k) 0%Z) (Z.of_nat n - Z.of_nat k + 1)) as [E|_]; [rewrite nth_repeat in E; lia|].
    rewrite fill_spec by (rewrite ?repeat_length; lia). now rewrite Nat.sub_diag.
  - constructor; [|lia|lia|now rewrite Nat.sub_diag|rewrite Nat.sub_diag; easy].
    split; [apply run_length|]. split; [apply run_sorted|]. intros x Hx. apply in_run in Hx. lia.
Qed.

(** ** The automata *)
Section Sort.
Context (asort : list warc -> list warc) (Hsort : sorts asort).
Lemma new_arc_in p q a v d r x : p < s_size d -> In x (s_row (new_arc asort p q a v d) r) <-> In x (s_row d r) \/ (r = p /\ x = Warc a q v).
Proof.
  intros Lp. rewrite (Permutation_in' eq_refl (new_arc_row asort Hsort p q a v d r Lp)), in_app_iff. apply or_iff_compat_l.
  destruct (Nat.eqb_spec r p); cbn; intuition congruence.
Qed.
Lemma partial_from_spec : forall n i a q d, S q = s_size d -> StronglySorted Z.lt a -> (forall x, In x a -> (Z.of_nat i < x)%Z) ->
  let e := partial_from asort n i a q d in
  s_size e = s_size d + n /\ s_starts e = s_starts d /\
  (forall p, In p (s_ends e) <-> In p (s_ends d) \/ (q < p /\ p <= q + n)) /\
  forall r x, In x (s_row e r) <-> In x (s_row d r) \/
    exists j, j < n /\ r = q + j /\ x_dest x = q + j + 1 /\ x_wt x = 0%Z /\ (x_sym x = 0%Z \/ (x_sym x = 1%Z /\ In (Z.of_nat (i + j) + 1)%Z a)).
Proof.
  induction n as [|n IH]; intros i a q d Hq S H; cbn [partial_from].
  - split; [lia|]. split; [reflexivity|]. split; [intros p; split; [now left|]; intros [K|K]; [assumption|lia]|]. intros r x. split; [now left|]. intros [K|(j & K & _)]; [assumption|lia].
  - set (p := s_size d). set (d1 := new_arc asort q p 0 0 (s_set_end p (new_state false d))).
    assert (Z1 : s_size (s_set_end p (new_state false d)) = Datatypes.S p) by (change (s_size (new_state false d) = Datatypes.S p); apply new_state_size).
    assert (D1 : s_size d1 = Datatypes.S p) by (unfold d1; rewrite new_arc_size; exact Z1).
    assert (D2 : s_starts d1 = s_starts d) by reflexivity.
    assert (D3 : s_ends d1 = p :: s_ends d) by reflexivity.
    assert (D4 : forall r x, In x (s_row d1 r) <-> In x (s_row d r) \/ (r = q /\ x = Warc 0 p 0)).
    { intros r x. unfold d1. rewrite new_arc_in by (rewrite Z1; lia). change (s_row (s_set_end p (new_state false d)) r) with (s_row (new_state false d) r). now rewrite new_state_row. }
    assert (Go : forall a' b, StronglySorted Z.lt a' -> (forall x, In x a' -> (Z.of_nat (Datatypes.S i) < x)%Z) ->
      (forall x, In x a <-> In x a' \/ (b = true /\ x = Z.of_nat i + 1)%Z) ->
      let e := partial_from asort n (Datatypes.S i) a' p (if b then new_arc asort q p 1 0 d1 else d1) in
      s_size e = s_size d + Datatypes.S n /\ s_starts e = s_starts d /\
      (forall p, In p (s_ends e) <-> In p (s_ends d) \/ (q < p /\ p <= q + Datatypes.S n)) /\
      forall r x, In x (s_row e r) <-> In x (s_row d r) \/
        exists j, j < Datatypes.S n /\ r = q + j /\ x_dest x = q + j + 1 /\ x_wt x = 0%Z /\ (x_sym x = 0%Z \/ (x_sym x = 1%Z /\ In (Z.of_nat (i + j) + 1)%Z a))).
    { intros a' b Sa' Ha' Ea. set (d2 := if b then new_arc asort q p 1 0 d1 else d1).
      assert (F1 : s_size d2 = Datatypes.S p) by (unfold d2; destruct b; rewrite ?new_arc_size; exact D1).
      assert (F2 : s_starts d2 = s_starts d) by (unfold d2; now destruct b).
      assert (F3 : s_ends d2 = p :: s_ends d) by (unfold d2; now destruct b).
      assert (F4 : forall r x, In x (s_row d2 r) <-> In x (s_row d r) \/ (r = q /\ (x = Warc 0 p 0 \/ (b = true /\ x = Warc 1 p 0)))).
      { intros r x. unfold d2. destruct b; [rewrite new_arc_in by (rewrite D1; lia)|]; rewrite D4; intuition congruence. }
      destruct (IH (Datatypes.S i) a' p d2 (eq_sym F1) Sa' Ha') as (G1 & G2 & G3 & G4).
      split; [rewrite G1, F1; fold p; lia|]. split; [now rewrite G2|]. split.
      - intros r. rewrite G3, F3. cbn [In]. fold p. split.
        + intros [[<-|K]|K]; [right; lia|now left|right; lia].
        + intros [K|K]; [left; now right|]. destruct (Nat.eq_dec p r) as [->|N]; [left; now left|right; lia].
      - intros r x. rewrite G4, F4. split.
        + intros [[K|(-> & [->|[Eb ->]])]|(j & Lj & -> & K1 & K2 & K3)].
          * now left.
          * right. exists 0. cbn [x_dest x_wt x_sym]. repeat split; try lia.
          * right. exists 0. cbn [x_dest x_wt x_sym]. repeat split; try lia. right. split; [reflexivity|]. apply Ea. right. split; [assumption|]. lia.
          * right. exists (Datatypes.S j). repeat split; try lia; try assumption. destruct K3 as [K3|[K3 K4]]; [now left|right]. split; [assumption|].
            apply Ea. left. replace (Z.of_nat (i + Datatypes.S j) + 1)%Z with (Z.of_nat (Datatypes.S i + j) + 1)%Z by lia. assumption.
        + intros [K|(j & Lj & -> & K1 & K2 & K3)]; [left; now left|]. destruct j as [|j].
          * left. right. split; [lia|]. destruct x as [xs xd xw]. cbn [x_dest x_wt x_sym] in *. assert (xd = p) as -> by lia. subst xw.
            destruct K3 as [->|[-> K3]]; [now left|right]. split; [|reflexivity]. apply Ea in K3 as [K3|[K3 _]]; [|assumption]. apply Ha' in K3. lia.
          * right. exists j. repeat split; try lia; try assumption. destruct K3 as [K3|[K3 K4]]; [now left|right]. split; [assumption|].
            apply Ea in K4 as [K4|[_ K4]]; [|lia]. replace (Z.of_nat (Datatypes.S i + j) + 1)%Z with (Z.of_nat (i + Datatypes.S j) + 1)%Z by lia. assumption. }
    destruct a as [|y a].
    + apply (Go [] false); [constructor|intros x []|]. intros x. cbn. intuition congruence.
    + apply StronglySorted_inv in S as [S F]. rewrite Forall_forall in F. pose proof (H y (or_introl eq_refl)) as Hy. destruct (Z.eqb_spec y (Z.of_nat i + 1)) as [->|N].
      * apply (Go a true); [assumption| |intros x; cbn; intuition congruence]. intros x Hx. specialize (F x Hx). lia.
      * apply (Go (y :: a) false); [constructor; [assumption|now apply Forall_forall]| |intros x; cbn; intuition congruence].
        intros x [<-|Hx]; [lia|]. specialize (F x Hx). lia.
Qed.
Definition allowed (a : list Z) (j : nat) (v : list Z) : Prop :=
  forall i b, nth_error v i = Some b -> b = 0%Z \/ (b = 1%Z /\ In (Z.of_nat (j + i) + 1)%Z a).
Lemma partial_spec n a : StronglySorted Z.lt a -> (forall x, In x a -> (0 < x)%Z) ->
  whole (partial asort n a) /\ forall w, words (partial asort n a) w <-> exists v, w = 1%Z :: v /\ 1 <= length v <= n /\ allowed a 0 v.
Proof.
  intros Sa Ha. unfold partial. set (d0 := new_arc asort 0 1 1 0 (new_state false (new_state true s_empty))).
  assert (D1 : s_size d0 = 2) by (unfold d0; now rewrite new_arc_size).
  assert (D4 : forall r x, In x (s_row d0 r) <-> r = 0 /\ x = Warc 1 1 0).
  { intros r x. unfold d0. rewrite new_arc_in by (cbn; lia). rewrite !new_state_row. destruct r as [|r]; cbn; [|destruct r]; intuition congruence. }
  assert (D2 : forall p, start_of d0 p <-> p = 0).
  { intros p. change (start_of (new_state true s_empty) p <-> p = 0). rewrite new_state_start, start_of_bit. cbn [s_size s_empty s_rows length].
    change (start_of (new_state false s_empty) p) with (has 0 p = true). rewrite has_none. intuition congruence. }
  destruct (partial_from_spec n 0 a 1 d0 (eq_sym D1) Sa Ha) as (E1 & E2 & E3 & E4). set (e := partial_from asort n 0 a 1 d0) in *.
  assert (St : forall p, start_of e p <-> p = 0) by (intros p; unfold start_of; rewrite E2; apply D2).
  assert (En : forall p, In p (s_ends e) <-> 1 < p /\ p <= 1 + n) by (intros p; rewrite E3; change (s_ends d0) with (@nil nat); cbn [In]; tauto).
  assert (Row : forall r x, In x (s_row e r) <-> (r = 0 /\ x = Warc 1 1 0) \/ exists j, j < n /\ r = 1 + j /\ x_dest x = 2 + j /\ x_wt x = 0%Z /\ (x_sym x = 0%Z \/ (x_sym x = 1%Z /\ In (Z.of_nat j + 1)%Z a))).
  { intros r x. rewrite E4, D4. apply or_iff_compat_l. split; intros (j & K1 & K2 & K3 & K4); exists j; repeat split; try lia; try tauto; cbn [Nat.add] in *; tauto. }
  rewrite D1 in E1. split.
  - split; [|split].
    + intros p b q v K. rewrite E1. apply Row in K as [[-> K]|(j & K1 & _ & K2 & _)]; [inversion K; lia|cbn in K2; lia].
    + intros p K. apply St in K. lia.
    + intros p K. apply En in K. lia.
  - assert (Walk : forall v j p, leads e (1 + j) v p <-> p = 1 + j + length v /\ (v = [] \/ j + length v <= n) /\ allowed a j v).
    { induction v as [|b v IH]; intros j p.
      - split; [inversion 1; subst; cbn; split; [lia|]; split; [now left|]; intros [|] ? E; discriminate|]. intros (-> & _). cbn. rewrite Nat.add_0_r. constructor.
      - split.
        + inversion 1 as [|? ? q z w r Hx Hl]; subst. apply Row in Hx as [[Hx _]|(j' & K1 & K2 & K3 & K4 & K5)]; [lia|]. cbn [x_dest x_sym] in *. assert (j' = j) as -> by lia. subst q.
          change (2 + j) with (1 + S j) in Hl. apply IH in Hl as (-> & L1 & L2). cbn [length]. split; [lia|]. split; [right; destruct L1 as [->|L1]; cbn; lia|].
          intros [|i] c E; cbn in E; [injection E as <-; now rewrite Nat.add_0_r|]. rewrite <- Nat.add_succ_comm. now apply L2.
        + intros (-> & [L1|L1] & L2); [discriminate|]. cbn [length] in *. apply (leads_arc _ _ b (2 + j) 0%Z).
          * apply Row. right. exists j. cbn [x_dest x_wt x_sym]. repeat split; try lia. specialize (L2 0 b eq_refl). now rewrite Nat.add_0_r in L2.
          * change (2 + j) with (1 + S j). apply IH. split; [lia|]. split; [destruct v; [now left|right; cbn in *; lia]|]. intros i c E. rewrite Nat.add_succ_comm. now apply L2. }
    intros w. split.
    + intros (p & q & H1 & H2 & H3). apply St in H1 as ->. apply En in H3. inversion H2 as [|? b q' z v r Hx Hl]; subst; [lia|].
      apply Row in Hx as [[_ Hx]|(j & _ & K & _)]; [|lia]. injection Hx as -> -> _. change 1 with (1 + 0) in Hl. apply Walk in Hl as (-> & L1 & L2).
      exists v. split; [reflexivity|]. split; [|assumption]. destruct L1 as [->|L1]; cbn in *; lia.
    + intros (v & -> & L & L2). exists 0, (1 + length v). split; [now apply St|]. split; [|apply En; lia]. apply (leads_arc _ _ 1%Z 1 0%Z); [apply Row; left; now split|].
      change 1 with (1 + 0) at 1. apply Walk. split; [lia|]. split; [right; lia|assumption].
Qed.
Lemma valid_partial n k b : valid n k b -> whole (partial asort n b) /\ forall w, words (partial asort n b) w <-> exists v, w = 1%Z :: v /\ 1 <= length v <= n /\ allowed b 0 v.
Proof. intros (_ & S & B). apply partial_spec; [assumption|]. intros x Hx. apply B in Hx. lia. Qed.
Lemma slex_irrefl a : ~ slex a a.
Proof. induction a as [|x a IH]; cbn; [tauto|]. intros [H|[_ H]]; [lia|contradiction]. Qed.
Lemma more_spec n k : forall fuel i a h m, whole i -> choice n k a h m ->
  match more_partials asort fuel n k i a h m with
  | Built j => whole j /\ forall w, words j w <-> words i w \/ exists b, valid n k b /\ slex a b /\ words (partial asort n b) w
  | Unfinished => (Z.of_nat fuel + val n a < Z.of_nat (S n) ^ Z.of_nat k)%Z
  | Astray => False
  end.
Proof.
  induction fuel as [|fuel IH]; intros i a h m W C; cbn [more_partials]; pose proof (next_choice n k a h m C) as N.
  - destruct (nextksb a h m k n) as [|a' h' m'|]; [| |contradiction].
    + split; [assumption|]. intros w. split; [now left|]. intros [K|(b & (L & S & B) & K & _)]; [assumption|]. exfalso. rewrite N in K.
      apply (run_greatest k (Z.of_nat n) b L S) in K; [assumption|]. intros x Hx. now apply B in Hx.
    + destruct (ch_valid _ _ _ _ _ C) as (L & _ & B). rewrite <- L. pose proof (val_bound n a ltac:(intros x Hx; apply B in Hx; lia)). lia.
  - destruct (nextksb a h m k n) as [|a' h' m'|]; [| |contradiction].
    + split; [assumption|]. intros w. split; [now left|]. intros [K|(b & (L & S & B) & K & _)]; [assumption|]. exfalso. rewrite N in K.
      apply (run_greatest k (Z.of_nat n) b L S) in K; [assumption|]. intros x Hx. now apply B in Hx.
    + destruct N as (C' & p & v & t & Ht & -> & ->). pose proof (ch_valid _ _ _ _ _ C) as V. pose proof (ch_valid _ _ _ _ _ C') as V'.
      destruct (valid_partial n k _ V') as [Wp _]. destruct (union_whole asort Hsort i _ W Wp) as [Wu _]. specialize (IH _ _ _ _ Wu C').
      destruct (more_partials asort fuel n k _ _ h' m') as [j| |]; [|destruct V as (L & _ & B); destruct V' as (L' & _ & B')|contradiction].
      * destruct IH as [Wj Ej]. split; [assumption|]. intros w. rewrite Ej, union_words by assumption. destruct V as (L & _ & _). split.
        -- intros [[K|K]|(b & Vb & K & Kw)]; [now left| |]; right.
           ++ exists (p ++ run v (S (length t))). split; [assumption|]. split; [apply successor_after|assumption].
           ++ exists b. split; [assumption|]. split; [|assumption]. apply (slex_trans _ (p ++ run v (S (length t)))); [apply successor_after|assumption].
        -- intros [K|(b & Vb & K & Kw)]; [left; now left|]. pose proof Vb as (Lb & Sb & Bb).
           destruct (successor (Z.of_nat n) v t Ht p b ltac:(lia) Sb ltac:(intros x Hx; now apply Bb in Hx) K) as [->|K']; [left; now right|right; now exists b].
      * assert (val n (p ++ v :: t) < val n (p ++ run v (S (length t))))%Z; [|lia].
        apply slex_val; [lia| | |apply successor_after]; intros x Hx; [apply B in Hx|apply B' in Hx]; lia.
Qed.
(** All choices together. *)
Lemma choices_spec n k fuel h m i : whole i -> 1 <= k -> k <= n ->
  match more_partials asort fuel n k i [] h m with
  | Built j => whole j /\ forall w, words j w <-> words i w \/ exists b, valid n k b /\ words (partial asort n b) w
  | Unfinished => (Z.of_nat fuel < Z.of_nat (S n) ^ Z.of_nat k)%Z
  | Astray => False
  end.
Proof.
  intros W H1 H2. destruct (first_choice n k h m H1 H2) as [E C]. pose proof (ch_valid _ _ _ _ _ C) as V. pose proof V as (L & S & B).
  destruct fuel as [|fuel]; cbn [more_partials]; rewrite E; [lia|]. destruct (valid_partial n k _ V) as [Wp _]. destruct (union_whole asort Hsort i _ W Wp) as [Wu _].
  pose proof (more_spec n k fuel _ _ _ _ Wu C) as M. destruct (more_partials asort fuel n k _ (run 0 k) k 0) as [j| |]; [|assert (0 < val n (run 0 k))%Z|contradiction].
  - destruct M as [Wj Ej]. split; [assumption|]. intros w. rewrite Ej, union_words by assumption. split.
    + intros [[K|K]|(b & Vb & _ & K)]; [now left|right; now exists (run 0 k)|right; now exists b].
    + intros [K|(b & Vb & K)]; [left; now left|]. pose proof Vb as (Lb & Sb & Bb).
      destruct (run_least k 0 b Lb Sb) as [->|R]; [intros x Hx; apply Bb in Hx; lia|left; now right|right; now exists b].
  - destruct k as [|k]; [lia|]. rewrite run_cons. cbn [val]. pose proof (val_bound n (run (0 + 1) k)) as Q. rewrite run_length in *.
    assert (0 < Z.of_nat (Datatypes.S n) ^ Z.of_nat k)%Z by (apply Z.pow_pos_nonneg; lia). rewrite run_cons in B. specialize (Q ltac:(intros x Hx; specialize (B x (or_intror Hx)); lia)). lia.
  - lia.
Qed.
End Sort.

(** ** Counting *)
Definition places (v : list Z) : list nat := filter (fun i => nth i v 0 =? 1)%Z (seq 0 (length v)).
Lemma places_count v : length (places v) = count_occ Z.eq_dec v 1%Z.
Proof.
  unfold places. assert (G : forall v s u, length u = s -> length (filter (fun i => nth i (u ++ v) 0 =? 1)%Z (seq s (length v))) = count_occ Z.eq_dec v 1%Z).
  { clear v. induction v as [|b v IH]; intros s u Hu; [reflexivity|]. cbn [length seq filter count_occ]. rewrite app_nth2, Hu, Nat.sub_diag by lia. cbn [nth].
    specialize (IH (S s) (u ++ [b]) ltac:(rewrite app_length; cbn; lia)). rewrite <- app_assoc in IH. cbn [app] in IH.
    destruct (Z.eqb_spec b 1), (Z.eq_dec b 1); try contradiction; cbn [length]; now rewrite IH. }
  apply (G v 0 []). reflexivity.
Qed.
Lemma in_places v i : In i (places v) <-> nth_error v i = Some 1%Z.
Proof.
  unfold places. rewrite filter_In, in_seq, Z.eqb_eq. split.
  - intros [L E]. rewrite <- E. apply nth_error_nth'. lia.
  - intros E. assert (i < length v) by (apply nth_error_Some; congruence). split; [lia|]. now apply nth_error_nth.
Qed.
Definition binary (v : list Z) : Prop := forall b, In b v -> b = 0%Z \/ b = 1%Z.
Lemma allowed_count a v : allowed a 0 v -> binary v /\ count_occ Z.eq_dec v 1%Z <= length a.
Proof.
  intros H. split.
  - intros b Hb. apply In_nth_error in Hb as (i & E). specialize (H i b E). tauto.
  - rewrite <- places_count, <- (map_length (fun i => Z.of_nat i + 1)%Z (places v)). apply NoDup_incl_length.
    + apply FinFun.Injective_map_NoDup; [intros i j E; lia|]. apply NoDup_filter, seq_NoDup.
    + intros x Hx. apply in_map_iff in Hx as (i & <- & Hi). apply in_places in Hi. destruct (H i _ Hi) as [C|[_ C]]; [discriminate|assumption].
Qed.
Lemma count_allowed n k v : k <= n -> length v <= n -> binary v -> count_occ Z.eq_dec v 1%Z <= k -> exists a, valid n k a /\ allowed a 0 v.
Proof.
  intros Hk Hn Hb Hc. rewrite <- places_count in Hc. set (rest := filter (fun i => negb (nth i v 0 =? 1)%Z) (seq 0 n)).
  set (one := filter (fun i => (nth i v 0 =? 1)%Z) (seq 0 n)).
  assert (E1 : forall i, In i one <-> nth_error v i = Some 1%Z).
  { intros i. unfold one. rewrite filter_In, in_seq, Z.eqb_eq. split.
    - intros [L E]. destruct (Nat.lt_ge_cases i (length v)) as [Li|Li]; [rewrite <- E; now apply nth_error_nth'|]. rewrite nth_overflow in E by assumption. discriminate.
    - intros E. assert (i < length v) by (apply nth_error_Some; congruence). split; [lia|]. now apply nth_error_nth. }
  assert (L1 : length one = length (places v)).
  { apply Nat.le_antisymm; apply NoDup_incl_length; try (apply NoDup_filter, seq_NoDup); intros i Hi; [apply in_places, E1, Hi|apply E1, in_places, Hi]. }
  assert (L2 : length one + length rest = n).
  { unfold one, rest. rewrite <- (seq_length n 0) at 3. generalize (seq 0 n). intros l. induction l as [|i l IH]; cbn; [reflexivity|]. destruct (nth i v 0 =? 1)%Z; cbn; lia. }
  set (L := one ++ firstn (k - length one) rest).
  assert (NL : NoDup L).
  { assert (Nr : NoDup rest) by apply NoDup_filter, seq_NoDup. assert (No : NoDup one) by apply NoDup_filter, seq_NoDup.
    assert (Nf : NoDup (firstn (k - length one) rest)) by (rewrite <- (firstn_skipn (k - length one) rest) in Nr; clear - Nr; induction (firstn (k - length one) rest) as [|x l IH]; [constructor|]; inversion Nr; subst; constructor; [rewrite in_app_iff in *; tauto|auto]).
    assert (D : forall x, In x one -> ~ In x (firstn (k - length one) rest)).
    { intros x Hx Hy. assert (Hr : In x rest) by (rewrite <- (firstn_skipn (k - length one) rest); apply in_app_iff; now left). apply filter_In in Hx as [_ Hx]. apply filter_In in Hr as [_ Hr]. now rewrite Hx in Hr. }
    unfold L. now apply L_Dag.nodup_app. }
  assert (LL : length L = k) by (unfold L; rewrite app_length, firstn_length; lia).
  assert (BL : forall i, In i L -> i < n).
  { intros i Hi. apply in_app_iff in Hi as [Hi|Hi].
    - apply filter_In in Hi as [Hi _]. apply in_seq in Hi. lia.
    - assert (Hr : In i rest) by (rewrite <- (firstn_skipn (k - length one) rest); apply in_app_iff; now left). apply filter_In in Hr as [Hr _]. apply in_seq in Hr. lia. }
  set (F := filter (fun i => existsb (Nat.eqb i) L) (seq 0 n)).
  assert (EF : forall i, In i F <-> In i L).
  { intros i. unfold F. rewrite filter_In, in_seq, existsb_exists. split.
    - intros [_ (j & Hj & E)]. apply Nat.eqb_eq in E. now rewrite E.
    - intros Hi. split; [specialize (BL i Hi); lia|]. exists i. split; [assumption|apply Nat.eqb_refl]. }
  assert (LF : length F = k).
  { rewrite <- LL. apply Nat.le_antisymm; apply NoDup_incl_length; try assumption; try (apply NoDup_filter, seq_NoDup); intros i Hi; now apply EF. }
  exists (map (fun i => Z.of_nat i + 1)%Z F). split; [split; [now rewrite map_length|split]|].
  - unfold F. assert (G : forall s m f, StronglySorted Z.lt (map (fun i => Z.of_nat i + 1)%Z (filter f (seq s m)))).
    { clear. intros s m f. revert s. induction m as [|m IH]; intros s; cbn [seq filter]; [constructor|]. destruct (f s); [|apply IH]. cbn [map]. constructor; [apply IH|].
      apply Forall_forall. intros x Hx. apply in_map_iff in Hx as (i & <- & Hi). apply filter_In in Hi as [Hi _]. apply in_seq in Hi. lia. }
    apply G.
  - intros x Hx. apply in_map_iff in Hx as (i & <- & Hi). apply EF, BL in Hi. lia.
  - intros i b E. cbn [Nat.add]. pose proof (nth_error_In _ _ E) as Ib. apply Hb in Ib as [->| ->]; [now left|right]. split; [reflexivity|].
    apply in_map_iff. exists i. split; [reflexivity|]. apply EF. unfold L. apply in_app_iff. left. now apply E1.
Qed.

(** Intersection of automata. *)
From Coq Require Import List ZArith Bool Sorted Permutation Lia PeanoNat.
From Verif Require Import M_OrdSet L_OrdSet M_Fsa S_Fsa L_Fsa L_FsaTraverse L_FsaLang L_FsaOps L_FsaMin.
Import ListNotations.
Local Open Scope nat_scope.

Definition meets (any : bool) (b c a : Z) : Prop :=
  (b = c /\ a = b) \/ (any = true /\ (b = ANY /\ a = c \/ b <> ANY /\ c = ANY /\ a = b)).
Lemma joined_spec any x y a q : In (a, q) (joined any x y) <-> meets any (fst x) (fst y) a /\ q = (snd x, snd y).
Proof.
  unfold joined, meets. rewrite in_app_iff.
  destruct (Z.eqb_spec (fst x) (fst y)) as [E|E]; destruct any; cbn [In];
    try destruct (Z.eqb_spec (fst x) ANY) as [E1|E1]; try destruct (Z.eqb_spec (fst y) ANY) as [E2|E2]; cbn [In];
    (split; [intros K; repeat match goal with
                            | H : _ \/ _ |- _ => destruct H
                            | H : False |- _ => destruct H
                            | H : (_, _) = (_, _) |- _ => injection H as <- <-
                            end; (split; [|reflexivity]; intuition congruence)
            |intros [K ->]; repeat match goal with
                            | H : _ \/ _ |- _ => destruct H
                            | H : _ /\ _ |- _ => destruct H
                            end; subst; try congruence; try discriminate; tauto]).
Qed.
Lemma int_step v1 v2 any p1 p2 a q1 q2 : v_wf v1 -> v_wf v2 -> p1 < v_size v1 -> p2 < v_size v2 ->
  (step (intersector v1 v2 any) (p1, p2) a (q1, q2) <->
   exists r1 r2 b c, eps_reach EPS (v_step v1) p1 r1 /\ eps_reach EPS (v_step v2) p2 r2 /\
     v_step v1 r1 b q1 /\ v_step v2 r2 c q2 /\ meets any b c a).
Proof.
  intros H1 H2 L1 L2. unfold step. cbn [intersector w_arcs fst snd]. rewrite (in_arc_set _ pair_strict), in_flat_map. split.
  - intros (r1 & K1 & K). apply in_flat_map in K as (r2 & K2 & K). apply in_flat_map in K as ([b x] & K3 & K).
    apply in_flat_map in K as ([c y] & K4 & K). apply joined_spec in K as [K5 K6]. cbn in K5, K6. injection K6 as -> ->.
    exists r1, r2, b, c. apply (eps_closure_spec v1 p1 r1 H1 L1) in K1. apply (eps_closure_spec v2 p2 r2 H2 L2) in K2. repeat split; assumption.
  - intros (r1 & r2 & b & c & K1 & K2 & K3 & K4 & K5). exists r1. split; [now apply (eps_closure_spec v1 p1 r1 H1 L1)|].
    apply in_flat_map. exists r2. split; [now apply (eps_closure_spec v2 p2 r2 H2 L2)|].
    apply in_flat_map. exists (b, q1). split; [exact K3|]. apply in_flat_map. exists (c, q2). split; [exact K4|].
    apply joined_spec. cbn. auto.
Qed.
Lemma int_start v1 v2 any p1 p2 : In (p1, p2) (w_start (intersector v1 v2 any)) <-> In p1 (v_starts v1) /\ In p2 (v_starts v1).
Proof.
  cbn [intersector w_start]. rewrite (in_insert_all _ pair_strict), in_flat_map. split.
  - intros [(x & K1 & K2)|[]]. apply in_map_iff in K2 as (y & E & K2). injection E as -> ->. auto.
  - intros [K1 K2]. left. exists p1. split; [assumption|]. now apply in_map.
Qed.
Lemma int_start_nodup v1 v2 any : NoDup (w_start (intersector v1 v2 any)).
Proof.
  apply (increasing_nodup _ pair_strict). cbn [intersector w_start]. apply (increasing_insert_all _ pair_strict). constructor.
Qed.
(** Both sets of start states must be states of the second automaton. *)
Lemma int_reach v1 v2 any : v_wf v1 -> v_wf v2 -> (forall p, In p (v_starts v1) -> p < v_size v2) ->
  forall p, reach (intersector v1 v2 any) p -> fst p < v_size v1 /\ snd p < v_size v2.
Proof.
  intros H1 H2 S p K. induction K as [[p1 p2] K|[p1 p2] a [q1 q2] K IH K'].
  - apply int_start in K as [K1 K2]. cbn. split; [now apply (vw_starts _ H1)|auto].
  - cbn in IH. apply (int_step v1 v2 any p1 p2 a q1 q2 H1 H2 (proj1 IH) (proj2 IH)) in K' as (r1 & r2 & b & c & _ & _ & K1 & K2 & _).
    cbn. apply (vw_arcs _ H1) in K1. apply (vw_arcs _ H2) in K2. cbn in *. lia.
Qed.
Lemma int_univ v1 v2 any : v_wf v1 -> v_wf v2 -> (forall p, In p (v_starts v1) -> p < v_size v2) ->
  forall p, reach (intersector v1 v2 any) p -> In p (list_prod (seq 0 (v_size v1)) (seq 0 (v_size v2))).
Proof.
  intros H1 H2 S [p1 p2] K. apply (int_reach v1 v2 any H1 H2 S) in K as [K1 K2]. cbn in K1, K2. apply in_prod; apply in_seq; lia.
Qed.

(** Without epsilon arcs: words whose letters meet one by one. *)
Inductive blend (any : bool) : word -> word -> word -> Prop :=
| blend_nil : blend any [] [] []
| blend_cons b c a x y u : meets any b c a -> blend any x y u -> blend any (b :: x) (c :: y) (a :: u).
Lemma blend_exact x y u : blend false x y u <-> x = u /\ y = u.
Proof.
  split.
  - induction 1 as [|b c a x y u [[-> ->]|[K _]] _ [-> ->]]; [auto|auto|discriminate].
  - intros [-> ->]. induction u as [|a u IH]; constructor; [left; auto|assumption].
Qed.
Lemma int_path v1 v2 any : v_wf v1 -> v_wf v2 -> free v1 -> free v2 ->
  forall u p1 p2 q1 q2, p1 < v_size v1 -> p2 < v_size v2 ->
  (path EPS (step (intersector v1 v2 any)) (p1, p2) u (q1, q2) <->
   exists x y, blend any x y u /\ path EPS (v_step v1) p1 x q1 /\ path EPS (v_step v2) p2 y q2).
Proof.
  intros H1 H2 F1 F2.
  assert (St : forall p1 p2 a q1 q2, p1 < v_size v1 -> p2 < v_size v2 ->
    (step (intersector v1 v2 any) (p1, p2) a (q1, q2) <-> exists b c, v_step v1 p1 b q1 /\ v_step v2 p2 c q2 /\ meets any b c a)).
  { intros p1 p2 a q1 q2 L1 L2. rewrite (int_step v1 v2 any p1 p2 a q1 q2 H1 H2 L1 L2). split.
    - intros (r1 & r2 & b & c & K1 & K2 & K3 & K4 & K5). apply (path_free _ _ F1) in K1. apply (path_free _ _ F2) in K2.
      subst. now exists b, c.
    - intros (b & c & K3 & K4 & K5). exists p1, p2, b, c. repeat split; try assumption; constructor. }
  assert (Fw : forall p1 p2 q, p1 < v_size v1 -> p2 < v_size v2 -> ~ step (intersector v1 v2 any) (p1, p2) EPS q).
  { intros p1 p2 [q1 q2] L1 L2 K. apply (St _ _ _ _ _ L1 L2) in K as (b & c & K1 & K2 & K3).
    destruct K3 as [[-> <-]|[_ [[_ <-]|[_ [_ <-]]]]]; [now apply F1 in K1|now apply F2 in K2|now apply F1 in K1]. }
  induction u as [|a u IH]; intros p1 p2 q1 q2 L1 L2.
  - split.
    + intros K. exists [], []. split; [constructor|]. inversion K as [|? q ? ? K' _|]; subst; [split; constructor|].
      now apply (Fw p1 p2 q L1 L2) in K'.
    + intros (x & y & K1 & K2 & K3). inversion K1; subst. apply (path_free _ _ F1) in K2. apply (path_free _ _ F2) in K3.
      subst. constructor.
  - split.
    + intros K. inversion K as [|? q ? ? K' _|? ? [r1 r2] ? ? Ha K1 K2]; subst; [now apply (Fw p1 p2 q L1 L2) in K'|].
      apply (St _ _ _ _ _ L1 L2) in K1 as (b & c & J1 & J2 & J3).
      assert (M1 : r1 < v_size v1) by (apply (vw_arcs _ H1) in J1; cbn in J1; lia).
      assert (M2 : r2 < v_size v2) by (apply (vw_arcs _ H2) in J2; cbn in J2; lia).
      apply (IH r1 r2 q1 q2 M1 M2) in K2 as (x & y & K3 & K4 & K5). exists (b :: x), (c :: y).
      split; [now constructor|]. split.
      * apply (path_cons _ _ p1 b r1); [intros ->; now apply F1 in J1|assumption..].
      * apply (path_cons _ _ p2 c r2); [intros ->; now apply F2 in J2|assumption..].
    + intros (x & y & K1 & K2 & K3). inversion K1 as [|b c ? x' y' ? J1 J2]; subst.
      apply (path_free _ _ F1) in K2 as (r1 & K2 & K4). apply (path_free _ _ F2) in K3 as (r2 & K3 & K5).
      assert (M1 : r1 < v_size v1) by (apply (vw_arcs _ H1) in K2; cbn in K2; lia).
      assert (M2 : r2 < v_size v2) by (apply (vw_arcs _ H2) in K3; cbn in K3; lia).
      assert (K : step (intersector v1 v2 any) (p1, p2) a (r1, r2)) by (apply St; [assumption..|now exists b, c]).
      apply (path_cons _ _ (p1, p2) a (r1, r2)).
      * intros ->. now apply (Fw p1 p2 (r1, r2) L1 L2) in K.
      * assumption.
      * apply (IH r1 r2 q1 q2 M1 M2). now exists x', y'.
Qed.
(** The second automaton is read from the start states of the first. *)
Definition started (v : view) (starts : list nat) : lang :=
  accepted EPS (v_step v) (fun p => In p starts) (fun p => v_is_end v p = true).
Lemma int_lang v1 v2 any : v_wf v1 -> v_wf v2 -> free v1 -> free v2 -> (forall p, In p (v_starts v1) -> p < v_size v2) ->
  same (w_lang (intersector v1 v2 any)) (fun u => exists x y, blend any x y u /\ v_lang v1 x /\ started v2 (v_starts v1) y).
Proof.
  intros H1 H2 F1 F2 S u. split.
  - intros ([p1 p2] & [q1 q2] & K1 & K2 & K3). apply int_start in K1 as [K1 K4]. cbn in K2. apply andb_true_iff in K2 as [K2 K5].
    apply (int_path v1 v2 any H1 H2 F1 F2) in K3 as (x & y & J1 & J2 & J3); [|now apply (vw_starts _ H1)|auto].
    exists x, y. split; [assumption|]. split; [now exists p1, q1|now exists p2, q2].
  - intros (x & y & K1 & (p1 & q1 & K2 & K3 & K4) & (p2 & q2 & K5 & K6 & K7)).
    exists (p1, p2), (q1, q2). split; [now apply int_start|]. split; [cbn; now rewrite K3, K6|].
    apply (int_path v1 v2 any H1 H2 F1 F2); [now apply (vw_starts _ H1)|auto|]. now exists x, y.
Qed.
Lemma intersect_spec fuel f v any g : wf f -> v_wf v -> nd_free f -> free v -> (forall p, In p (n_starts f) -> p < v_size v) ->
  intersect fuel f v any = Some g ->
  wf g /\ same (nd_lang g) (fun u => exists x y, blend any x y u /\ nd_lang f x /\ started v (n_starts f) y).
Proof.
  intros Hwf Hv F Fv S E. unfold intersect in E. pose proof (n_view_wf f Hwf) as Hf. pose proof (nd_free_view f F) as Ff.
  destruct (traverse_empty_lang (intersector (n_view f) v any) fuel g pair_strict (int_start_nodup _ _ _) E) as [H1 H2].
  split; [assumption|]. intros u. rewrite (H2 u), (int_lang _ _ any Hf Hv Ff Fv S u). split; intros (x & y & K1 & K2 & K3); exists x, y;
    (split; [assumption|]; split; [now apply n_view_lang|assumption]).
Qed.
Lemma intersect_ends f v any : wf f -> v_wf v -> (forall p, In p (n_starts f) -> p < v_size v) ->
  exists fuel g, intersect fuel f v any = Some g.
Proof.
  intros Hwf Hv S. pose proof (n_view_wf f Hwf) as Hf.
  destruct (traverse_ends (intersector (n_view f) v any) pair_strict empty _ empty_wf (int_start_nodup _ _ _)
              (int_univ _ _ any Hf Hv S) _ (le_n _)) as [g E].
  eexists. exists g. exact E.
Qed.

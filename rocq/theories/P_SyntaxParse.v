(** C94: the branchings that Parse finds. *)
From Coq Require Import List Arith Bool Lia Sorted Permutation.
From Verif Require Import M_SyntaxTree P_SyntaxTree.
Import ListNotations.
Local Open Scope nat_scope.

(** Every word has a node of its own. *)
Fixpoint full (f : forest) : Prop :=
  match f with
  | FNil => True
  | FWord _ => False
  | FTree k f => (k = FWord FNil \/ (k <> FNil /\ full k)) /\ full f
  end.
(** A node with these kids starts at this word. *)
Inductive Occurs : forest -> nat -> forest -> nat -> Prop :=
| O_here k f w : Occurs (FTree k f) w k w
| O_kids k f w k' s : Occurs k w k' s -> Occurs (FTree k f) w k' s
| O_next k f w k' s : Occurs f (w + width k) k' s -> Occurs (FTree k f) w k' s
| O_word f w k' s : Occurs f (S w) k' s -> Occurs (FWord f) w k' s.
(** At least two trees, and where each of them ends. *)
Definition branching (k : forest) : Prop := match k with FTree _ (FTree _ _) => True | _ => False end.
Fixpoint bounds (s : nat) (k : forest) : list nat :=
  match k with FTree k' f => s + width k' :: bounds (s + width k') f | _ => [] end.

Lemma full_solid f : full f -> solid f.
Proof.
  induction f as [|f IH|k IHk f IH]; cbn; [trivial|tauto|]. intros [[->|[Hn Hk]] Hf]; [cbn; repeat split; [lia|now apply IH]|].
  specialize (IHk Hk). repeat split; [|exact IHk|now apply IH]. destruct k as [|k|k1 k2]; [now elim Hn|cbn; lia|]. cbn in IHk |- *. lia.
Qed.
Lemma occurs_full f w k s : Occurs f w k s -> full f -> k = FWord FNil \/ (k <> FNil /\ full k).
Proof. induction 1; cbn; intros F; try tauto. destruct F as [[->|[_ F]] _]; [exfalso; inversion H; subst; match goal with X : Occurs FNil _ _ _ |- _ => inversion X end|now apply IHOccurs]. Qed.

Definition In_span (a b : nat) (l : list snode) : Prop := exists n, In n l /\ s_start n = a /\ s_end n = b.
Lemma has_ok l a b : has l a b = true <-> In_span a b l.
Proof.
  unfold has, In_span. rewrite existsb_exists. split; intros (n & I & H); exists n.
  - apply andb_prop in H as [H1 H2]. apply Nat.eqb_eq in H1, H2. auto.
  - destruct H as [-> ->]. rewrite !Nat.eqb_refl. auto.
Qed.
Lemma span_bounds f w i a b : solid f -> In_span a b (upward w i f) -> w <= a <= b /\ b < w + width f.
Proof. intros H (n & I & <- & <-). apply upward_in in I; [lia|exact H]. Qed.
Lemma span_tree k f w i a b : In_span a b (upward w i (FTree k f)) <->
  In_span a b (upward w i k) \/ (a = w /\ b = w + width k - 1) \/ In_span a b (upward (w + width k) (i + count k + 1) f).
Proof.
  cbn [upward]. split.
  - intros (n & I & <- & <-). apply in_app_or in I as [I|[<-|I]]; [left; now exists n|right; left; now split|right; right; now exists n].
  - intros [(n & I & H)|[[-> ->]|(n & I & H)]].
    + exists n. split; [apply in_or_app; now left|exact H].
    + eexists. split; [apply in_or_app; right; now left|now split].
    + exists n. split; [apply in_or_app; right; now right|exact H].
Qed.
Lemma span_number f : forall w i j a b, In_span a b (upward w i f) -> In_span a b (upward w j f).
Proof.
  induction f as [|f IH|k IHk f IH]; intros w i j a b H; [destruct H as (n & [] & _)|cbn in *; now apply IH with i|].
  apply span_tree in H. apply span_tree. destruct H as [H|[H|H]]; [left; now apply IHk with i|right; now left|right; right].
  now apply IH with (i + count k + 1).
Qed.
Lemma occurs_in f w k s : Occurs f w k s -> forall i, solid f -> solid k /\ 0 < width k /\ w <= s /\ s + width k <= w + width f
  /\ In_span s (s + width k - 1) (upward w i f)
  /\ (forall a b, In_span a b (upward s 0 k) -> In_span a b (upward w i f))
  /\ (forall a b, In_span a b (upward w i f) -> s <= a -> b < s + width k -> In_span a b (upward s 0 k) \/ (a = s /\ b = s + width k - 1)).
Proof.
  induction 1 as [k f w|k f w k' s H IH|k f w k' s H IH|f w k' s H IH]; intros i So.
  - destruct So as (S1 & S2 & S3). split; [exact S2|]. split; [exact S1|]. cbn [width]. split; [lia|]. split; [lia|].
    split; [apply span_tree; right; left; now split|]. split; [intros a b I; apply span_tree; left; now apply span_number with 0|].
    intros a b I Ha Hb. apply span_tree in I as [I|[[-> ->]|I]]; [left; now apply span_number with i|right; split; lia|].
    apply span_bounds in I; [lia|exact S3].
  - destruct So as (S1 & S2 & S3). destruct (IH i S2) as (T1 & T2 & T3 & T4 & T5 & T6 & T7). split; [exact T1|]. split; [exact T2|].
    cbn [width]. split; [lia|]. split; [lia|]. split; [apply span_tree; now left|]. split; [intros a b I; apply span_tree; left; now apply T6|].
    intros a b I Ha Hb. apply span_tree in I as [I|[[-> ->]|I]]; [now apply T7|right; split; lia|]. apply span_bounds in I; [lia|exact S3].
  - destruct So as (S1 & S2 & S3). destruct (IH (i + count k + 1) S3) as (T1 & T2 & T3 & T4 & T5 & T6 & T7). split; [exact T1|]. split; [exact T2|].
    cbn [width]. split; [lia|]. split; [lia|]. split; [apply span_tree; right; now right|]. split; [intros a b I; apply span_tree; right; right; now apply T6|].
    intros a b I Ha Hb. apply span_tree in I as [I|[[-> ->]|I]]; [|lia|now apply T7]. apply span_bounds in I; [lia|exact S2].
  - destruct (IH i So) as (T1 & T2 & T3 & T4 & T5 & T6 & T7). cbn [width upward]. repeat split; try assumption; lia.
Qed.

(** The search finds the last place for which there is a node. *)
Lemma find_mid_ok nodes i c : forall mid m, c < m -> m <= mid -> has nodes (i + c) (i + m - 1) = true ->
  (forall x, m < x -> x <= mid -> has nodes (i + c) (i + x - 1) = false) -> find_mid nodes i c mid = Some m.
Proof.
  induction mid as [|mid IH]; intros m H1 H2 H3 H4; [lia|]. cbn [find_mid]. destruct (Nat.ltb_spec c (S mid)) as [L|L]; [|lia].
  destruct (Nat.eq_dec m (S mid)) as [->|N]; [now rewrite H3|]. rewrite H4 by lia. apply IH; [exact H1|lia|exact H3|]. intros x X1 X2. apply H4; lia.
Qed.

(** Going on over the trees that are left. *)
Lemma split_rest nodes s len k0 : (forall a b, In_span a b nodes -> s <= a -> b < s + len -> In_span a b (upward s 0 k0) \/ (a = s /\ b = s + len - 1)) ->
  (forall a b, In_span a b (upward s 0 k0) -> In_span a b nodes) ->
  forall k c first fuel points, full k -> c + width k = len -> (c = 0 -> first = 1 /\ k = k0 /\ branching k) -> (0 < c -> first = 0) ->
  (forall a b, s + c <= a -> In_span a b (upward s 0 k0) <-> In_span a b (upward (s + c) 0 k)) -> width k < fuel ->
  split_loop fuel nodes s len first c points = Some (points ++ bounds (s + c) k).
Proof.
  intros Only All. induction k as [|k _|k1 _ k IH]; intros c first fuel points F W C0 C1 Same L.
  - destruct fuel as [|fuel]; [lia|]. cbn [split_loop bounds]. cbn in W. destruct (Nat.ltb_spec c len); [lia|]. now rewrite app_nil_r.
  - destruct F.
  - pose proof (full_solid _ F) as So. destruct So as (S1 & S2 & S3). cbn [width] in *. destruct fuel as [|fuel]; [lia|].
    cbn [split_loop]. destruct (Nat.ltb_spec c len) as [_|]; [|lia].
    assert (Small : c + width k1 <= len - first).
    { destruct (Nat.eq_dec c 0) as [->|N]; [|rewrite C1 by lia; lia]. destruct (C0 eq_refl) as (-> & _ & B).
      destruct k as [|k|k2 k]; [destruct B|destruct B|]. destruct S3 as (S4 & _). cbn [width] in W. lia. }
    rewrite (find_mid_ok nodes s c (len - first) (c + width k1)); [|lia|exact Small| |].
    + cbn [bounds]. rewrite IH with (first := 0).
      * rewrite <- app_assoc. cbn [app]. replace (s + (c + width k1)) with (s + c + width k1) by lia. reflexivity.
      * apply F.
      * lia.
      * lia.
      * reflexivity.
      * intros a b Ha. rewrite Same by lia. rewrite span_tree. replace (s + (c + width k1)) with (s + c + width k1) by lia. split.
        -- intros [I|[[-> ->]|I]]; [apply span_bounds in I; [lia|exact S2]|lia|now apply span_number with (0 + count k1 + 1)].
        -- intros I. right. right. now apply span_number with 0.
      * lia.
    + apply has_ok, All, Same; [lia|]. apply span_tree. right. left. split; [reflexivity|lia].
    + intros x X1 X2. destruct (has nodes (s + c) (s + x - 1)) eqn:E; [|reflexivity]. exfalso. apply has_ok in E.
      destruct (Only _ _ E ltac:(lia) ltac:(lia)) as [I|[I1 I2]].
      * apply Same in I; [|lia]. apply span_tree in I as [I|[I|I]]; [apply span_bounds in I; [lia|exact S2]|lia|].
        apply span_bounds in I; [lia|exact S3].
      * assert (c = 0) by lia. subst c. destruct (C0 eq_refl) as (-> & _). lia.
Qed.

Lemma split_ok f k s : full f -> Occurs f 0 k s -> branching k -> split_points (upward 0 0 f) s (width k) = Some (s :: bounds s k).
Proof.
  intros F O B. destruct (occurs_in f 0 k s O 0 (full_solid f F)) as (T1 & T2 & T3 & T4 & T5 & T6 & T7).
  destruct (occurs_full f 0 k s O F) as [->|[_ Fk]]; [destruct B|]. unfold split_points.
  rewrite (split_rest (upward 0 0 f) s (width k) k T7 T6 k 0 1); [rewrite Nat.add_0_r; reflexivity|exact Fk|lia|auto|lia| |lia].
  intros a b _. rewrite Nat.add_0_r. reflexivity.
Qed.

(** A node over two words or more branches, itself or further down. *)
Lemma branch_down f : forall w i a b, full f -> In_span a b (upward w i f) -> a < b -> exists k, Occurs f w k a /\ branching k /\ a + width k = S b.
Proof.
  induction f as [|f IH|k IHk f IH]; intros w i a b F I L; [destruct I as (n & [] & _)|destruct F|].
  destruct F as [Fk Ff]. apply span_tree in I. assert (Kids : In_span a b (upward w i k) -> exists k0, Occurs (FTree k f) w k0 a /\ branching k0 /\ a + width k0 = S b).
  { intros I'. destruct Fk as [->|[_ Fk]]; [destruct I' as (n & [] & _)|]. destruct (IHk w i a b Fk I' L) as (k0 & O & H). exists k0. split; [now apply O_kids|exact H]. }
  destruct I as [I|[[-> ->]|I]]; [now apply Kids| |].
  - destruct Fk as [->|[Nk Fk]]; [cbn in L; lia|]. destruct k as [|k|k1 [|k2|k2 k3]].
    + now elim Nk.
    + destruct Fk.
    + apply Kids. apply span_tree. right. left. cbn [width]. split; [reflexivity|lia].
    + destruct Fk as [_ []].
    + exists (FTree k1 (FTree k2 k3)). split; [constructor|]. split; [exact I|]. pose proof (full_solid _ Fk) as (S1 & _). cbn [width] in *. lia.
  - destruct (IH _ _ a b Ff I L) as (k0 & O & H). exists k0. split; [now apply O_next|exact H].
Qed.

Lemma all_parsed_some l : Forall (fun x => x <> None) l -> exists r, all_parsed l = Some r /\ map Some r = l.
Proof.
  induction 1 as [|x l Hx Hl IH]; [exists []; now split|]. destruct x as [x|]; [|now elim Hx]. destruct IH as (r & E & M).
  exists (x :: r). cbn [all_parsed map]. rewrite E, M. now split.
Qed.

Lemma starts_all f : forall w i, full f -> forall x, In x (map s_start (upward w i f)) <-> w <= x < w + width f.
Proof.
  induction f as [|f IH|k IHk f IH]; intros w i F x; [cbn; lia|destruct F|]. pose proof (full_solid _ F) as (Wk & _). destruct F as [Fk Ff]. cbn [upward width]. rewrite map_app, in_app_iff. cbn [map In s_start].
  rewrite IH by exact Ff. destruct Fk as [->|[_ Fk]]; [cbn; lia|]. rewrite (IHk w i Fk x).
  lia.
Qed.
Lemma size_ok f : full f -> index_size (upward 0 0 f) = width f.
Proof.
  intros F. unfold index_size. rewrite <- (seq_length (width f) 0). apply Permutation_length. apply NoDup_Permutation; [apply NoDup_nodup|apply seq_NoDup|].
  intros x. rewrite nodup_In, in_seq. apply starts_all. exact F.
Qed.

(** If every word has a node of its own, Parse ends, and gives exactly the places where the nodes with
    two children or more and their children begin and end. *)
Theorem C94_parse : forall f, full f -> exists ps, parse (upward 0 0 f) = Some ps
  /\ forall points, In points ps <-> exists k s, Occurs f 0 k s /\ branching k /\ points = s :: bounds s k.
Proof.
  intros f F. unfold parse. cbv zeta. rewrite (size_ok f F).
  set (spans := flat_map _ _). pose proof (full_solid f F) as So.
  assert (Each : forall x, In x spans <-> exists k s, Occurs f 0 k s /\ branching k /\ x = Some (s :: bounds s k)).
  { intros x. unfold spans. rewrite in_flat_map. split.
    - intros (len & Il & H). apply in_flat_map in H as (i & Ii & H). apply in_seq in Il, Ii. destruct (has (upward 0 0 f) i (i + len - 1)) eqn:E; [|destruct H].
      destruct H as [<-|[]]. apply has_ok in E. destruct (branch_down f 0 0 i _ F E ltac:(lia)) as (k & O & B & W).
      exists k, i. split; [exact O|]. split; [exact B|]. replace len with (width k) by lia. now apply split_ok.
    - intros (k & s & O & B & ->). destruct (occurs_in f 0 k s O 0 So) as (T1 & T2 & T3 & T4 & T5 & T6 & T7).
      assert (2 <= width k). { destruct k as [|k|k1 [|k2|k2 k3]]; try (now destruct B). destruct T1 as (U1 & _ & U2 & _). cbn [width]. lia. }
      exists (width k). split; [apply in_seq; lia|]. apply in_flat_map. exists s. split; [apply in_seq; lia|].
      apply has_ok in T5. rewrite T5. left. now apply split_ok. }
  destruct (all_parsed_some spans) as (r & E & M).
  - apply Forall_forall. intros x I. apply Each in I as (k & s & _ & _ & ->). discriminate.
  - exists r. split; [exact E|]. intros points. split.
    + intros I. assert (I' : In (Some points) spans) by (rewrite <- M; now apply in_map). apply Each in I' as (k & s & O & B & Q). exists k, s. injection Q as ->. auto.
    + intros (k & s & O & B & ->). assert (I' : In (Some (s :: bounds s k)) spans) by (apply Each; exists k, s; auto).
      rewrite <- M in I'. apply in_map_iff in I' as (y & Q & I'). injection Q as ->. exact I'.
Qed.
Print Assumptions C94_parse.

(** A word without a node of its own makes the loop go on for ever. *)
Theorem C94_parse_refuted : let f := FTree (FTree (FWord FNil) (FWord FNil)) FNil in
  good f /\ has (upward 0 0 f) 0 1 = true /\ forall fuel, split_loop fuel (upward 0 0 f) 0 2 1 0 [0] = None.
Proof.
  cbv zeta. split; [cbn; lia|]. split; [reflexivity|]. set (nodes := upward 0 0 _). assert (H : forall fuel, split_loop fuel nodes 0 2 0 1 [0; 1] = None).
  { induction fuel as [|fuel IH]; [reflexivity|]. exact IH. }
  intros [|fuel]; [reflexivity|]. exact (H fuel).
Qed.
Print Assumptions C94_parse_refuted.

(** S over NP over D and N, and V. *)
Example C94_parse_case : let t := FTree (FWord FNil) in let f := FTree (FTree (t (t FNil)) (t FNil)) FNil in
  full f /\ parse (upward 0 0 f) = Some [[0; 1; 2]; [0; 2; 3]].
Proof. cbn. split; [intuition discriminate|reflexivity]. Qed.

(** Lemmas on looking up in the automata that are built while translating. *)
From Coq Require Import List ZArith NArith Bool Sorted Permutation Lia PeanoNat.
From Verif Require Import M_Fsa L_Fsa M_BinFsa M_HashFsa M_Minfsa M_Dag L_DagFind M_SimpleDag S_SimpleDag L_SimpleDag L_SimpleDet.
Import ListNotations.
Local Open Scope nat_scope.

Lemma strict_nth (l : list warc) z : StronglySorted (fun x y => (x_sym x < x_sym y)%Z) l -> forall j k, j < k -> k < length l -> (x_sym (nth j l z) < x_sym (nth k l z))%Z.
Proof.
  induction 1 as [|x l H IH F]; intros j k L1 L2; [cbn in L2; lia|]. destruct k as [|k]; [lia|]. cbn [length] in L2.
  destruct j as [|j]; cbn [nth]; [|apply IH; lia]. rewrite Forall_forall in F. apply F. apply nth_In. lia.
Qed.
Lemma find_some_arc d p a x : StronglySorted (fun x y => (x_sym x < x_sym y)%Z) (s_row d p) -> In x (s_row d p) -> x_sym x = a -> s_find d p a = Some x.
Proof.
  intros H Hx Ex. apply (In_nth _ _ (Warc 0 0 0)) in Hx as (i & Li & Ei). unfold s_find. set (row := s_row d p) in *.
  assert (Inc : forall j k, j < k -> k < length row -> (x_sym (g_arc (Dag [] row) (0 + j)) < x_sym (g_arc (Dag [] row) (0 + k)))%Z) by (intros j k; now apply strict_nth).
  assert (Ea : x_sym (g_arc (Dag [] row) (0 + i)) = a) by (unfold g_arc; cbn [g_arcs Nat.add]; now rewrite Ei).
  assert (R : (if 10 <? length row then binsearch (S (length row)) (Dag [] row) a 0 (Z.of_nat (length row) - 1) else linsearch (Dag [] row) (length row) 0 a) = Some i).
  { destruct (10 <? length row).
    - apply (binsearch_hit (Dag [] row) 0 (length row) a Inc i Li Ea); lia.
    - apply (linsearch_hit (Dag [] row) 0 (length row) a Inc i Li Ea (length row) 0); lia. }
  rewrite R. unfold g_arc. cbn [g_arcs]. now rewrite Ei.
Qed.
Lemma find_no_arc d p a : (forall x, In x (s_row d p) -> x_sym x <> a) -> s_find d p a = None.
Proof.
  intros H. unfold s_find. set (row := s_row d p) in *.
  assert (M : forall i, i < length row -> x_sym (g_arc (Dag [] row) (0 + i)) <> a) by (intros i Li; apply H; unfold g_arc; cbn [g_arcs Nat.add]; now apply nth_In).
  destruct (10 <? length row).
  - rewrite (binsearch_miss (Dag [] row) 0 (length row) a M); [reflexivity|lia|lia].
  - pose proof (linsearch_miss (Dag [] row) 0 (length row) a M (length row) 0 ltac:(lia)) as E. cbn [Nat.add] in E. now rewrite E.
Qed.
Lemma delta_leads d p a : (forall p, StronglySorted (fun x y => (x_sym x < x_sym y)%Z) (s_row d p)) ->
  match s_delta d p a with
  | Some q => exists v, In (Warc (u32 a) q v) (s_row d p)
  | None => forall q v, ~ In (Warc (u32 a) q v) (s_row d p)
  end.
Proof.
  intros H. unfold s_delta. destruct (s_rows d) as [|r rs] eqn:E.
  - intros q v K. apply row_inside in K. unfold s_size in K. rewrite E in K. cbn in K. lia.
  - destruct (find (fun x => (x_sym x =? u32 a)%Z) (s_row d p)) as [x|] eqn:F.
    + apply find_some in F as [F1 F2]. apply Z.eqb_eq in F2. rewrite (find_some_arc d p (u32 a) x) by auto. exists (x_wt x). rewrite <- F2. now destruct x.
    + rewrite find_no_arc; [|intros x Hx Ex; apply (find_none _ _ F) in Hx; apply Z.eqb_neq in Hx; contradiction].
      intros q v K. apply (find_none _ _ F) in K. cbn in K. apply Z.eqb_neq in K. now apply K.
Qed.
Lemma in_from_leads d : (forall p, StronglySorted (fun x y => (x_sym x < x_sym y)%Z) (s_row d p)) -> forall w p, s_in_from d p w = true <-> accepts d p (map u32 w).
Proof.
  intros H. induction w as [|a w IH]; intros p; cbn [s_in_from map].
  - rewrite is_end_in. split; [intros E; exists p; split; [constructor|assumption]|]. intros (r & L & E). inversion L; now subst.
  - pose proof (delta_leads d p a H) as D. destruct (s_delta d p a) as [q|].
    + destruct D as (v & D). rewrite IH. split.
      * intros (r & L & E). exists r. split; [|assumption]. econstructor; eassumption.
      * intros (r & L & E). inversion L as [|? ? q' v' ? ? Hx L']; subst. pose proof (strict_distinct d H p _ _ D Hx eq_refl) as Eq. inversion Eq; subst. now exists r.
    + split; [discriminate|]. intros (r & L & E). inversion L as [|? ? q' v' ? ? Hx L']; subst. elim (D _ _ Hx).
Qed.
Lemma prefix_from_leads d : (forall p, StronglySorted (fun x y => (x_sym x < x_sym y)%Z) (s_row d p)) -> forall w p, s_prefix_from d p w = true <-> exists q, leads d p (map u32 w) q.
Proof.
  intros H. induction w as [|a w IH]; intros p; cbn [s_prefix_from map].
  - split; [intros _; exists p; constructor|reflexivity].
  - pose proof (delta_leads d p a H) as D. destruct (s_delta d p a) as [q|].
    + destruct D as (v & D). rewrite IH. split.
      * intros (r & L). exists r. econstructor; eassumption.
      * intros (r & L). inversion L as [|? ? q' v' ? ? Hx L']; subst. pose proof (strict_distinct d H p _ _ D Hx eq_refl) as Eq. inversion Eq; subst. now exists r.
    + split; [discriminate|]. intros (r & L). inversion L as [|? ? q' v' ? ? Hx L']; subst. elim (D _ _ Hx).
Qed.

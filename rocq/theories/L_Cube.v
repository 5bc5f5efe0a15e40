From Coq Require Import List ZArith Bool PeanoNat Lia Permutation Sorted.
From Verif Require Import M_Cube S_Cube.
Import ListNotations.
Local Open Scope nat_scope.

Lemma flat_map_index {A B} (q : list A) (f : nat -> list B) (g : A -> list B) : forall s,
  (forall i x, nth_error q i = Some x -> f (s + i) = g x) -> flat_map f (seq s (length q)) = flat_map g q.
Proof.
  induction q as [|x q IH]; intros s H; [easy|]. cbn [length seq flat_map]. f_equal.
  - specialize (H 0 x eq_refl). now rewrite Nat.add_0_r in H.
  - apply IH. intros i y E. specialize (H (S i) y E). now rewrite <- plus_n_Sm in H.
Qed.
Lemma nodup_map_eq {A B} (f : A -> B) l a b : NoDup (map f l) -> In a l -> In b l -> f a = f b -> a = b.
Proof.
  induction l as [|x l IH]; intros N Ia Ib E; [easy|]. cbn in N. apply NoDup_cons_iff in N as [N1 N2].
  destruct Ia as [->|Ia], Ib as [->|Ib]; [easy| | |now apply IH].
  - exfalso. apply N1. rewrite E. now apply in_map.
  - exfalso. apply N1. rewrite <- E. now apply in_map.
Qed.

Section L.
Context {T R : Type} (build : T -> list R -> R) (cost : R -> Z).
Notation cand := (cand T R).
Notation hyper := (hyper T R).
Notation cand_at := (cand_at build).
Notation dcost c := (cost (d_trans c)).

Definition indexes (kids : list (list R)) : list (list nat) := ways (map (fun q => seq 0 (length q)) kids).
Definition some_list {A} (o : option A) : list A := match o with Some a => [a] | None => [] end.
Definition universe1 (h : hyper) : list cand :=
  flat_map (fun i => flat_map (fun r => some_list (cand_at h i r)) (indexes (e_kids h))) (seq 0 (length (e_ts h))).
Definition universe (hs : list hyper) : list cand := flat_map universe1 hs.

Lemma ways_pick (kids : list (list R)) : map (fun r => pick r kids) (indexes kids) = map Some (ways kids).
Proof.
  induction kids as [|q kids IH]; [easy|]. unfold indexes. cbn [map ways]. fold (indexes kids).
  rewrite !flat_map_concat_map, !concat_map, !map_map, <- !flat_map_concat_map.
  apply flat_map_index. intros i x E. cbn [Nat.add]. rewrite !map_map.
  rewrite (map_ext _ (fun r => match pick r kids with Some l => Some (x :: l) | None => None end)).
  2:{ intros r. cbn [pick]. rewrite E. easy. }
  rewrite <- (map_map (fun r => pick r kids) (fun o => match o with Some l => Some (x :: l) | None => None end)), IH, map_map. easy.
Qed.
Lemma some_lists {A B} (f : A -> option B) l m : map f l = map Some m -> flat_map (fun x => some_list (f x)) l = m.
Proof.
  revert m. induction l as [|x l IH]; intros [|y m]; cbn [map flat_map]; try easy. intros E. inversion E as [[E1 E2]].
  rewrite E1. cbn. f_equal. now apply IH.
Qed.
Lemma universe_trans hs : map (@d_trans T R) (universe hs) = translations build hs.
Proof.
  unfold universe, translations. induction hs as [|h hs IH]; [easy|]. cbn [flat_map]. rewrite map_app, IH. f_equal. clear IH hs.
  unfold universe1. rewrite flat_map_concat_map, concat_map, map_map, <- flat_map_concat_map. apply flat_map_index.
  intros i t E. cbn [Nat.add].
  assert (K : map (cand_at h i) (indexes (e_kids h)) =
              map (fun r => match pick r (e_kids h) with Some l => Some (Cand h i r (build t l)) | None => None end) (indexes (e_kids h))).
  { apply map_ext. intros r. unfold M_Cube.cand_at. now rewrite E. }
  pose proof (ways_pick (e_kids h)) as W. revert K W. generalize (indexes (e_kids h)) as rs. generalize (ways (e_kids h)) as ws.
  intros ws rs. revert ws. induction rs as [|r rs IH]; intros [|w ws] K W; cbn [map flat_map] in *; try easy.
  inversion W as [[W1 W2]]. inversion K as [[K1 K2]]. rewrite K1, W1. cbn [some_list app map d_trans]. f_equal. now apply IH.
Qed.
Lemma pick_index (kids : list (list R)) : forall r l, pick r kids = Some l -> In r (indexes kids).
Proof.
  induction kids as [|q kids IH]; intros [|i r] l E; cbn in E; try easy; [now left|].
  destruct (nth_error q i) eqn:Ei; [|easy]. destruct (pick r kids) eqn:Er; [|easy]. unfold indexes. cbn [map ways].
  apply in_flat_map. exists i. split; [|apply in_map; now apply (IH r l0)]. apply in_seq.
  split; [lia|]. cbn. apply nth_error_Some. congruence.
Qed.
Definition valid (c : cand) : Prop := cand_at (d_edge c) (d_r0 c) (d_r c) = Some c.
Lemma cand_at_valid h i r c : cand_at h i r = Some c -> valid c /\ d_edge c = h /\ d_r0 c = i /\ d_r c = r.
Proof.
  unfold valid. unfold M_Cube.cand_at. destruct (nth_error (e_ts h) i) eqn:A; [|easy]. destruct (pick r (e_kids h)) eqn:B; [|easy].
  intros E. inversion E; subst. cbn. now rewrite A, B.
Qed.
Lemma universe_in hs c : In c (universe hs) <-> In (d_edge c) hs /\ valid c.
Proof.
  unfold universe, universe1. rewrite in_flat_map. split.
  - intros (h & Ih & H). apply in_flat_map in H as (i & Ii & H). apply in_flat_map in H as (r & Ir & H).
    destruct (cand_at h i r) as [d|] eqn:E; [|easy]. destruct H as [->|[]]. apply cand_at_valid in E as (V & <- & _). easy.
  - intros [H V]. exists (d_edge c). split; [easy|]. unfold valid in V. apply in_flat_map. exists (d_r0 c).
    pose proof V as V'. unfold M_Cube.cand_at in V'. destruct (nth_error (e_ts (d_edge c)) (d_r0 c)) eqn:A; [|easy].
    destruct (pick (d_r c) (e_kids (d_edge c))) eqn:B; [|easy]. split.
    + apply in_seq. split; [lia|]. cbn. apply nth_error_Some. congruence.
    + apply in_flat_map. exists (d_r c). split; [now apply pick_index in B|]. rewrite V. now left.
Qed.
Lemma valid_trans hs c : In (d_edge c) hs -> valid c -> In (d_trans c) (translations build hs).
Proof. intros H V. rewrite <- universe_trans. apply in_map. now apply universe_in. Qed.

(** Candidates. *)
Definition by_cost (c d : cand) : Prop := (dcost c < dcost d)%Z.
Lemma insert_in (c x : cand) cs : In x (insert_cand cost c cs) -> x = c \/ In x cs.
Proof.
  induction cs as [|d cs IH]; cbn [insert_cand]; [intros [<-|[]]; now left|].
  destruct (_ <? _)%Z; [intros [<-|H]; auto|]. destruct (_ <? _)%Z; [|auto]. intros [<-|H]; [right; now left|].
  apply IH in H as [H|H]; [auto|right; now right].
Qed.
Lemma insert_keeps (c x : cand) cs : In x cs -> In x (insert_cand cost c cs).
Proof.
  induction cs as [|d cs IH]; cbn [insert_cand]; [easy|]. intros H. destruct (_ <? _)%Z; [now right|]. destruct (_ <? _)%Z; [|easy].
  destruct H as [->|H]; [now left|right; now apply IH].
Qed.
Lemma insert_cost (c : cand) cs : exists x, In x (insert_cand cost c cs) /\ dcost x = dcost c.
Proof.
  induction cs as [|d cs IH]; cbn [insert_cand]; [exists c; split; [now left|easy]|].
  destruct (Z.ltb_spec (dcost c) (dcost d)) as [A|A]; [exists c; split; [now left|easy]|].
  destruct (Z.ltb_spec (dcost d) (dcost c)) as [B|B]; [destruct IH as (x & I & E); exists x; split; [now right|easy]|].
  exists d. split; [now left|lia].
Qed.
Lemma insert_sorted (c : cand) cs : StronglySorted by_cost cs -> StronglySorted by_cost (insert_cand cost c cs).
Proof.
  induction cs as [|d cs IH]; intros S; cbn [insert_cand]; [repeat constructor|]. apply StronglySorted_inv in S as [S H].
  destruct (Z.ltb_spec (dcost c) (dcost d)) as [A|A].
  - constructor; [now constructor|]. constructor; [easy|]. eapply Forall_impl; [|exact H]. unfold by_cost. intros; lia.
  - destruct (Z.ltb_spec (dcost d) (dcost c)) as [B|B]; [|now constructor].
    constructor; [now apply IH|]. rewrite Forall_forall in *. intros x Hx. apply insert_in in Hx as [->|Hx]; [easy|now apply H].
Qed.
Definition insert_all (ds cs : list cand) : list cand := fold_left (fun cs d => insert_cand cost d cs) ds cs.
Lemma insert_all_in ds : forall cs x, In x (insert_all ds cs) -> In x ds \/ In x cs.
Proof.
  unfold insert_all. induction ds as [|d ds IH]; intros cs x H; cbn [fold_left] in *; [now right|]. apply IH in H as [H|H]; [left; now right|].
  apply insert_in in H as [->|H]; [left; now left|now right].
Qed.
Lemma insert_all_keeps ds : forall cs x, In x cs -> In x (insert_all ds cs).
Proof. unfold insert_all. induction ds as [|d ds IH]; intros cs x H; cbn [fold_left]; [easy|]. apply IH. now apply insert_keeps. Qed.
Lemma insert_all_cost ds : forall cs d, In d ds -> exists x, In x (insert_all ds cs) /\ dcost x = dcost d.
Proof.
  unfold insert_all. induction ds as [|e ds IH]; intros cs d H; [easy|]. cbn [fold_left]. destruct H as [->|H]; [|now apply IH].
  destruct (insert_cost d cs) as (x & I & E). exists x. split; [|easy]. now apply insert_all_keeps.
Qed.
Lemma insert_all_sorted ds : forall cs, StronglySorted by_cost cs -> StronglySorted by_cost (insert_all ds cs).
Proof. unfold insert_all. induction ds as [|d ds IH]; intros cs H; cbn [fold_left]; [easy|]. apply IH. now apply insert_sorted. Qed.
Lemma corners_all (hs : list hyper) : forall cs0 cs, corners build cost hs cs0 = Some cs ->
  exists ds, cs = insert_all ds cs0 /\ Forall2 (fun h d => cand_at h 0 (repeat 0 (length (e_kids h))) = Some d) hs ds.
Proof.
  induction hs as [|h hs IH]; intros cs0 cs E; cbn in E.
  - exists []. inversion E. split; [easy|constructor].
  - destruct (cand_at h 0 _) as [d|] eqn:Ed; [|easy]. apply IH in E as (ds & -> & F). exists (d :: ds). split; [easy|]. now constructor.
Qed.

(** Steps from one candidate to others. *)
Lemma next_in (c d : cand) : In d (next build c) <->
  (exists i, i < length (d_r c) /\ cand_at (d_edge c) (d_r0 c) (bump i (d_r c)) = Some d) \/ cand_at (d_edge c) (S (d_r0 c)) (d_r c) = Some d.
Proof.
  unfold next. rewrite in_flat_map. split.
  - intros (i & Hi & H). apply in_seq in Hi. destruct (Nat.ltb_spec i (length (d_r c))) as [L|L].
    + destruct (cand_at _ _ (bump _ _)) as [e|] eqn:E; [|easy]. destruct H as [->|[]]. left. now exists i.
    + destruct (cand_at _ (S _) _) as [e|] eqn:E; [|easy]. destruct H as [->|[]]. now right.
  - intros [(i & L & E)|E].
    + exists i. split; [apply in_seq; lia|]. apply Nat.ltb_lt in L. rewrite L, E. now left.
    + exists (length (d_r c)). split; [apply in_seq; lia|]. rewrite Nat.ltb_irrefl, E. now left.
Qed.
Lemma next_valid (c d : cand) : In d (next build c) -> valid d /\ d_edge d = d_edge c.
Proof. intros H. apply next_in in H as [(i & _ & E)|E]; apply cand_at_valid in E as (V & E & _); easy. Qed.
Definition before (c x : cand) : Prop := d_edge c = d_edge x /\ d_r0 c <= d_r0 x /\ Forall2 le (d_r c) (d_r x).
Lemma le_refl_list (r : list nat) : Forall2 le r r.
Proof. induction r; constructor; auto. Qed.
Lemma le_bump r s : Forall2 le r s -> r = s \/ exists i, i < length r /\ Forall2 le (bump i r) s.
Proof.
  induction 1 as [|x y r s L H [->|(i & Hi & B)]]; [now left| |].
  - destruct (Nat.eq_dec x y) as [->|N]; [now left|]. right. exists 0. cbn. split; [lia|]. constructor; [lia|apply le_refl_list].
  - right. exists (S i). cbn. split; [lia|]. now constructor.
Qed.
Lemma pick_below (kids : list (list R)) : forall r s, Forall2 le r s -> pick s kids <> None -> pick r kids <> None.
Proof.
  induction kids as [|q kids IH]; intros r s H; destruct H as [|x y r s L H]; cbn; try easy.
  specialize (IH r s H). destruct (nth_error q y) eqn:E; [|easy]. destruct (pick s kids) eqn:Es; [|easy]. intros _.
  destruct (nth_error q x) eqn:Ex.
  - destruct (pick r kids); [easy|]. now apply IH.
  - apply nth_error_None in Ex. assert (y < length q) by (apply nth_error_Some; congruence). lia.
Qed.
Lemma cand_at_below h i j r s x : i <= j -> Forall2 le r s -> cand_at h j s = Some x -> exists c, cand_at h i r = Some c.
Proof.
  unfold M_Cube.cand_at. intros L F. destruct (nth_error (e_ts h) j) eqn:A; [|easy]. destruct (pick s (e_kids h)) eqn:B; [|easy]. intros _.
  destruct (nth_error (e_ts h) i) eqn:C.
  - destruct (pick r (e_kids h)) eqn:D; [eauto|]. exfalso. apply (pick_below (e_kids h) r s F); congruence.
  - apply nth_error_None in C. assert (j < length (e_ts h)) by (apply nth_error_Some; congruence). lia.
Qed.
Lemma before_step c x : valid c -> valid x -> before c x -> c = x \/ exists d, In d (next build c) /\ before d x.
Proof.
  intros Vc Vx (E & L & F). destruct (Nat.eq_dec (d_r0 c) (d_r0 x)) as [E0|N0].
  - destruct (le_bump _ _ F) as [Er|(i & Hi & B)].
    + left. unfold valid in *. rewrite E, E0, Er in Vc. congruence.
    + right. unfold valid in Vx. destruct (cand_at_below _ (d_r0 c) _ _ _ _ L B Vx) as [d Ed]. exists d. split.
      * apply next_in. left. exists i. rewrite E. easy.
      * apply cand_at_valid in Ed as (_ & E1 & E2 & E3). unfold before. rewrite E1, E2, E3. easy.
  - right. assert (L' : S (d_r0 c) <= d_r0 x) by lia. unfold valid in Vx. destruct (cand_at_below _ _ _ _ _ _ L' F Vx) as [d Ed]. exists d. split.
    + apply next_in. right. rewrite E. easy.
    + apply cand_at_valid in Ed as (_ & E1 & E2 & E3). unfold before. rewrite E1, E2, E3. easy.
Qed.
Lemma before_cost c x : monotone build cost (d_edge c) -> valid c -> valid x -> before c x -> (dcost c <= dcost x)%Z.
Proof.
  intros M Vc Vx (E & L & F). unfold valid in *. rewrite <- E in Vx.
  destruct c as [h i r t], x as [h' j s u]. cbn [d_edge d_r0 d_r d_trans] in *. subst h'. unfold M_Cube.cand_at in Vc, Vx.
  destruct (nth_error (e_ts h) i) eqn:A; [|easy]. destruct (pick r (e_kids h)) eqn:B; [|easy].
  destruct (nth_error (e_ts h) j) eqn:C; [|easy]. destruct (pick s (e_kids h)) eqn:D; [|easy].
  inversion Vc; subst. inversion Vx; subst. exact (M i j t0 t1 L A C r s l l0 F B D).
Qed.
Lemma zeros_le (kids : list (list R)) : forall s l, pick s kids = Some l -> Forall2 le (repeat 0 (length kids)) s.
Proof.
  induction kids as [|q kids IH]; intros [|i s] l E; cbn in *; try easy. destruct (nth_error q i); [|easy].
  destruct (pick s kids) eqn:Es; [|easy]. constructor; [lia|]. now apply (IH s l0).
Qed.
Lemma valid_corner x d : valid x -> cand_at (d_edge x) 0 (repeat 0 (length (e_kids (d_edge x)))) = Some d -> before d x.
Proof.
  intros V E. apply cand_at_valid in E as (_ & E1 & E2 & E3). unfold before. rewrite E1, E2, E3. split; [easy|]. split; [lia|].
  unfold valid, M_Cube.cand_at in V. destruct (nth_error _ _); [|easy]. destruct (pick _ _) eqn:B; [|easy]. now apply zeros_le in B.
Qed.
End L.

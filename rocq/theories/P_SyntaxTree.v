(** C94: the parents that ConnectNodes finds. *)
From Coq Require Import String Ascii List Arith Bool Lia Sorted Permutation.
From Verif Require Import M_XmlTree P_XmlTree P_XmlDoc M_SyntaxTree.
Import ListNotations.
Local Open Scope nat_scope.

(** Spec: what is under a node, from left to right, is words and trees. *)
Inductive forest := FNil | FWord (f : forest) | FTree (kids f : forest).
Fixpoint width (f : forest) : nat :=
  match f with FNil => 0 | FWord f => S (width f) | FTree k f => width k + width f end.
Fixpoint count (f : forest) : nat :=
  match f with FNil => 0 | FWord f => count f | FTree k f => count k + S (count f) end.
(** The nodes of the trees, children before their parents, from a word and a number on. *)
Fixpoint upward (w i : nat) (f : forest) : list snode :=
  match f with
  | FNil => []
  | FWord f => upward (S w) i f
  | FTree k f => upward w i k ++ mkS (i + count k) w (w + width k - 1) :: upward (w + width k) (i + count k + 1) f
  end.
(** The nodes with their parents, parents before their children. *)
Fixpoint downward (w i : nat) (p : option snode) (f : forest) : links :=
  match f with
  | FNil => []
  | FWord f => downward (S w) i p f
  | FTree k f =>
    let n := mkS (i + count k) w (w + width k - 1) in
    (n, p) :: downward w i (Some n) k ++ downward (w + width k) (i + count k + 1) p f
  end.
(** Every node has a word, and if it has children, it does not begin with a word of its own. *)
Definition child_first (k : forest) : Prop := match k with FTree _ _ => True | _ => count k = 0 end.
Fixpoint good (f : forest) : Prop :=
  match f with
  | FNil => True
  | FWord f => good f
  | FTree k f => 0 < width k /\ child_first k /\ good k /\ good f
  end.
Fixpoint solid (f : forest) : Prop :=
  match f with FNil => True | FWord f => solid f | FTree k f => 0 < width k /\ solid k /\ solid f end.
Lemma good_solid f : good f -> solid f.
Proof. induction f as [|f IH|k IHk f IH]; cbn; [trivial|exact IH|tauto]. Qed.

(** The order of the index *)
Definition before (a b : snode) : Prop :=
  s_start a < s_start b \/ (s_start a = s_start b /\ s_end b < s_end a) \/ (s_start a = s_start b /\ s_end a = s_end b /\ s_id b < s_id a).
Lemma before_trans a b c : before a b -> before b c -> before a c.
Proof. unfold before. lia. Qed.
Lemma before_irrefl a : ~ before a a.
Proof. unfold before. lia. Qed.

Lemma place_perm n l : Permutation (n :: l) (place n l).
Proof.
  induction l as [|m l IH]; [reflexivity|]. cbn [place]. destruct (_ || _); [|reflexivity].
  rewrite perm_swap. now apply perm_skip.
Qed.
Lemma place_sorted n l : StronglySorted before l -> Forall (fun m => s_id m < s_id n) l -> StronglySorted before (place n l).
Proof.
  induction l as [|m l IH]; intros H F; cbn [place]; [repeat constructor|].
  inversion H as [|? ? H1 H2]; subst. inversion F as [|? ? F1 F2]; subst.
  destruct ((s_start m <? s_start n) || ((s_start m =? s_start n) && (s_end n <? s_end m))) eqn:E.
  - constructor; [now apply IH|]. apply (Permutation_Forall (place_perm n l)). constructor; [|exact H2].
    unfold before. apply orb_prop in E as [E|E]; [apply Nat.ltb_lt in E; lia|]. apply andb_prop in E as [E1 E2].
    apply Nat.eqb_eq in E1. apply Nat.ltb_lt in E2. lia.
  - apply orb_false_elim in E as [E1 E2]. apply Nat.ltb_ge in E1.
    assert (B : before n m).
    { unfold before. destruct (Nat.eq_dec (s_start m) (s_start n)) as [Q|Q]; [|lia]. rewrite Q, Nat.eqb_refl in E2. cbn [andb] in E2. apply Nat.ltb_ge in E2. lia. }
    constructor; [exact H|]. constructor; [exact B|]. apply Forall_impl with (2 := H2). intros x. now apply before_trans.
Qed.
Definition ids_up (l : list snode) : Prop := StronglySorted (fun a b => s_id a < s_id b) l.
Lemma order_ok l : ids_up l -> Permutation l (order l) /\ StronglySorted before (order l).
Proof.
  unfold order. assert (G : forall l acc, ids_up l -> Forall (fun m => Forall (fun n => s_id m < s_id n) l) acc -> StronglySorted before acc ->
    Permutation (acc ++ l) (fold_left (fun l n => place n l) l acc) /\ StronglySorted before (fold_left (fun l n => place n l) l acc)).
  { clear l. induction l as [|n l IH]; intros acc H F So; cbn [fold_left]; [rewrite app_nil_r; now split|].
    inversion H as [|? ? H1 H2]; subst.
    assert (Fn : Forall (fun m => s_id m < s_id n) acc) by (apply Forall_impl with (2 := F); intros m Fm; now inversion Fm).
    destruct (IH (place n acc) H1) as [P Q].
    - apply (Permutation_Forall (place_perm n acc)). constructor; [exact H2|]. apply Forall_impl with (2 := F). intros m Fm. now inversion Fm.
    - now apply place_sorted.
    - split; [|exact Q]. rewrite <- P. rewrite <- (place_perm n acc). symmetry. apply Permutation_middle. }
  intros H. apply (G l []); [exact H|constructor|constructor].
Qed.
Lemma sorted_unique l : StronglySorted before l -> forall l', StronglySorted before l' -> Permutation l l' -> l = l'.
Proof.
  induction 1 as [|a l Hl IH Ha]; intros l' H' P; [now apply Permutation_nil in P|].
  destruct l' as [|b l']; [apply Permutation_sym, Permutation_nil in P; discriminate P|].
  inversion H' as [|? ? Hl' Hb]; subst. assert (a = b) as <-.
  { assert (Ia : In a (b :: l')) by (apply (Permutation_in _ P); now left). assert (Ib : In b (a :: l)) by (apply (Permutation_in _ (Permutation_sym P)); now left).
    destruct Ia as [->|Ia]; [reflexivity|]. destruct Ib as [->|Ib]; [reflexivity|].
    pose proof (proj1 (Forall_forall _ _) Ha b Ib) as B1. pose proof (proj1 (Forall_forall _ _) Hb a Ia) as B2.
    elim (before_irrefl a). now apply before_trans with b. }
  f_equal. apply IH; [exact Hl'|]. now apply Permutation_cons_inv in P.
Qed.

Lemma SSorted_app {A} (R : A -> A -> Prop) l l' : StronglySorted R l -> StronglySorted R l' ->
  Forall (fun x => Forall (R x) l') l -> StronglySorted R (l ++ l').
Proof.
  induction 1 as [|a l Hl IH Ha]; intros H' F; [exact H'|]. inversion F; subst. cbn [app]. constructor; [now apply IH|].
  apply Forall_app. now split.
Qed.
Lemma upward_in f : forall w i n, solid f -> In n (upward w i f) ->
  i <= s_id n < i + count f /\ w <= s_start n <= s_end n /\ s_end n < w + width f.
Proof.
  induction f as [|f IH|k IHk f IH]; intros w i n H I; [destruct I| |].
  - apply IH in I; [|exact H]. cbn [count width]. lia.
  - destruct H as (H1 & H2 & H3). cbn [upward] in I. cbn [count width]. apply in_app_or in I as [I|[<-|I]].
    + apply IHk in I; [lia|exact H2].
    + cbn. lia.
    + apply IH in I; [lia|exact H3].
Qed.
Lemma upward_ids f : forall w i, solid f -> ids_up (upward w i f).
Proof.
  induction f as [|f IH|k IHk f IH]; intros w i H; [constructor|apply IH; exact H|]. destruct H as (H1 & H2 & H3). cbn [upward].
  apply SSorted_app; [now apply IHk| |].
  - constructor; [now apply IH|]. apply Forall_forall. intros n I. apply upward_in in I; [cbn; lia|exact H3].
  - apply Forall_forall. intros m Im. apply upward_in in Im; [|exact H2]. apply Forall_forall. intros n [<-|I]; [cbn; lia|].
    apply upward_in in I; [lia|exact H3].
Qed.
Lemma downward_perm f : forall w i p, Permutation (upward w i f) (map fst (downward w i p f)).
Proof.
  induction f as [|f IH|k IHk f IH]; intros w i p; [constructor|apply IH|]. cbn [upward downward map fst]. rewrite map_app.
  rewrite <- Permutation_middle. apply perm_skip. apply Permutation_app; [apply IHk|apply IH].
Qed.
Lemma downward_sorted f : forall w i p, solid f -> StronglySorted before (map fst (downward w i p f)).
Proof.
  induction f as [|f IH|k IHk f IH]; intros w i p H; [constructor|apply IH; exact H|]. destruct H as (H1 & H2 & H3).
  assert (In' : forall g w i p n, solid g -> In n (map fst (downward w i p g)) -> i <= s_id n < i + count g /\ w <= s_start n <= s_end n /\ s_end n < w + width g).
  { intros g w0 i0 p0 n Hg I. apply upward_in; [exact Hg|]. apply (Permutation_in _ (Permutation_sym (downward_perm g w0 i0 p0))). exact I. }
  cbn [downward map fst]. rewrite map_app. constructor.
  - apply SSorted_app; [now apply IHk|now apply IH|]. apply Forall_forall. intros m Im. apply In' in Im; [|exact H2]. apply Forall_forall. intros n I.
    apply In' in I; [|exact H3]. unfold before. lia.
  - apply Forall_app. split; apply Forall_forall; intros n I; apply In' in I; try assumption; unfold before; cbn [s_start s_end s_id]; lia.
Qed.
(** The nodes are gone through with parents before their children. *)
Lemma order_upward f w i p : solid f -> order (upward w i f) = map fst (downward w i p f).
Proof.
  intros H. destruct (order_ok (upward w i f) (upward_ids f w i H)) as [P So].
  apply sorted_unique; [exact So|now apply downward_sorted|]. rewrite <- P. apply downward_perm.
Qed.

(** Climbing *)
Fixpoint up (n : nat) (d : links) (a q : snode) (e : nat) : Prop :=
  match n with
  | O => a = q
  | S n' => s_end a < e /\ exists b, parent_of d a = Some b /\ up n' d b q e
  end.
Lemma climb_up n : forall fuel d a q e, n < fuel -> up n d a q e -> e <= s_end q -> climb fuel d a e = Some q.
Proof.
  induction n as [|n IH]; intros [|fuel] d a q e L H He; try lia; cbn [climb].
  - cbn in H. subst a. destruct (Nat.ltb_spec (s_end q) e); [lia|reflexivity].
  - destruct H as (H1 & b & H2 & H3). destruct (Nat.ltb_spec (s_end a) e); [|lia]. rewrite H2. apply IH; [lia|exact H3|exact He].
Qed.
Lemma parent_keeps d d' n p : parent_of d n = Some p -> parent_of (d ++ d') n = Some p.
Proof. induction d as [|[m q] d IH]; [discriminate|]. cbn [app parent_of]. destruct (s_id m =? s_id n); [tauto|exact IH]. Qed.
Lemma parent_new d n p : (forall m, In m (map fst d) -> s_id m <> s_id n) -> parent_of (d ++ [(n, p)]) n = p.
Proof.
  induction d as [|[m q] d IH]; intros H; cbn [app parent_of]; [now rewrite Nat.eqb_refl|].
  destruct (Nat.eqb_spec (s_id m) (s_id n)) as [E|E]; [elim (H m); [now left|exact E]|]. apply IH. intros x I. apply H. now right.
Qed.
Lemma up_keeps n : forall d d' a q e e', e <= e' -> up n d a q e -> up n (d ++ d') a q e'.
Proof.
  induction n as [|n IH]; intros d d' a q e e' L H; [exact H|]. destruct H as (H1 & b & H2 & H3). split; [lia|].
  exists b. split; [now apply parent_keeps|]. now apply IH with e.
Qed.
Lemma up_snoc n : forall d a r q e, up n d a r e -> s_end r < e -> parent_of d r = Some q -> up (S n) d a q e.
Proof.
  induction n as [|n IH]; intros d a r q e H He P.
  - cbn in H. subst a. split; [exact He|]. exists q. split; [exact P|reflexivity].
  - destruct H as (H1 & b & H2 & H3). split; [exact H1|]. exists b. split; [exact H2|]. now apply IH with r.
Qed.

(** The node before is left of a word, and above it are nodes left of this word up to q. *)
Definition Ready (b : nat) (prev : snode) (d : links) (q : snode) (w : nat) : Prop :=
  s_start prev < w /\ exists n a, parent_of d prev = Some a /\ n + b <= length d /\ up n d a q w.
Lemma ready_later b prev d d' q w w' : w <= w' -> Ready b prev d q w -> Ready b prev (d ++ d') q w'.
Proof.
  intros L (H1 & n & a & H2 & H3 & H4). split; [lia|]. exists n, a. split; [now apply parent_keeps|]. split; [rewrite app_length; lia|].
  now apply up_keeps with w.
Qed.
Lemma connect_forest f : forall b w i q prev d rest, b <= length d -> good f -> w + width f <= S (s_end q) ->
  (forall m, In m (map fst d) -> ~ (i <= s_id m < i + count f)) ->
  ((prev = q /\ s_start q = w /\ child_first f) \/ Ready b prev d q w) ->
  exists prev', connect_loop (Some prev) d (map fst (downward w i (Some q) f) ++ rest) = connect_loop (Some prev') (d ++ downward w i (Some q) f) rest
    /\ ((prev' = prev /\ count f = 0) \/ Ready b prev' (d ++ downward w i (Some q) f) q (w + width f)).
Proof.
  induction f as [|f IH|k IHk f IH]; intros b w i q prev d rest Lb G L Hid C.
  - exists prev. cbn [downward map app]. rewrite app_nil_r. split; [reflexivity|]. now left.
  - cbn [downward width count] in *. assert (Z : forall g w i p, count g = 0 -> downward w i p g = []).
    { induction g as [|g IHg|k' _ g _]; intros; cbn in *; [reflexivity|now apply IHg|lia]. }
    destruct C as [(_ & _ & C)|C].
    + cbn [child_first count] in C. exists prev. rewrite (Z f _ _ _ C). cbn [map app]. rewrite app_nil_r. split; [reflexivity|]. now left.
    + destruct (IH b (S w) i q prev d rest Lb G ltac:(lia) Hid) as (prev' & E & H).
      * right. rewrite <- (app_nil_r d). apply ready_later with w; [lia|exact C].
      * exists prev'. split; [exact E|]. replace (w + S (width f)) with (S w + width f) by lia. exact H.
  - destruct G as (Gw & Gc & Gk & Gf). cbn [width count] in *. cbn [downward]. cbv zeta. set (r := mkS (i + count k) w (w + width k - 1)).
    cbn [map fst]. rewrite map_app. set (d1 := d ++ [(r, Some q)]).
    assert (Step : forall l, connect_loop (Some prev) d (r :: l) = connect_loop (Some r) d1 l).
    { intros l. cbn [connect_loop]. destruct C as [(-> & Es & _)|(Cs & n & a & C1 & C2 & C3)].
      - change (s_start r) with w. rewrite Es, Nat.eqb_refl. reflexivity.
      - change (s_start r) with w. destruct (Nat.eqb_spec (s_start prev) w) as [E|_]; [lia|]. rewrite C1.
        rewrite (climb_up n (S (length d)) d a q (s_end r)); [reflexivity|lia| |cbn; lia].
        rewrite <- (app_nil_r d). apply up_keeps with w; [cbn; lia|exact C3]. }
    cbn [app]. rewrite Step. rewrite <- app_assoc.
    assert (Pr : parent_of d1 r = Some q). { apply parent_new. intros m I E. apply (Hid m I). rewrite E. cbn. lia. }
    destruct (IHk (length d1) w i r r d1 (map fst (downward (w + width k) (i + count k + 1) (Some q) f) ++ rest) (Nat.le_refl _) Gk) as (prev' & E1 & H1).
    + cbn. lia.
    + intros m I. unfold d1 in I. rewrite map_app in I. apply in_app_or in I as [I|[<-|[]]]; [specialize (Hid m I); lia|cbn; lia].
    + left. split; [reflexivity|]. split; [reflexivity|exact Gc].
    + rewrite E1. set (d2 := d1 ++ downward w i (Some r) k) in *.
      assert (Ld : length d1 = S (length d)) by (unfold d1; rewrite app_length; cbn [length]; lia).
      assert (Ld2 : length d1 <= length d2) by (unfold d2; rewrite app_length; lia).
      assert (R : Ready b prev' d2 q (w + width k)).
      { destruct H1 as [[-> Z]|(H1 & n & a & H2 & H3 & H4)].
        - split; [cbn; lia|]. exists 0, q. split; [apply parent_keeps; exact Pr|]. split; [lia|reflexivity].
        - split; [exact H1|]. exists (S n), a. split; [exact H2|].
          assert (Up : up (S n) d2 a q (w + width k)) by (apply (up_snoc n d2 a r q); [exact H4|cbn; lia|apply parent_keeps; exact Pr]).
          split; [lia|exact Up]. }
      destruct (IH b (w + width k) (i + count k + 1) q prev' d2 rest ltac:(lia) Gf ltac:(lia)) as (prev2 & E2 & H2).
      * intros m I. unfold d2, d1 in I. rewrite !map_app in I. apply in_app_or in I as [I|I].
        -- apply in_app_or in I as [I|[<-|[]]]; [specialize (Hid m I); lia|cbn; lia].
        -- apply (Permutation_in _ (Permutation_sym (downward_perm k w i (Some r)))) in I. apply upward_in in I; [lia|now apply good_solid].
      * right. exact R.
      * exists prev2. replace (d ++ (r, Some q) :: downward w i (Some r) k ++ downward (w + width k) (i + count k + 1) (Some q) f)
          with (d2 ++ downward (w + width k) (i + count k + 1) (Some q) f) by (unfold d2, d1; rewrite <- !app_assoc; reflexivity).
        split; [exact E2|]. right. destruct H2 as [[-> Z]|H2].
        -- apply ready_later with (w + width k); [lia|exact R].
        -- replace (w + (width k + width f)) with (w + width k + width f) by lia. exact H2.
Qed.

(** The root has no parent, and every other node has the one it has in the tree. *)
Theorem C94_parents : forall kids, good (FTree kids FNil) ->
  connect (upward 0 0 (FTree kids FNil)) = Some (downward 0 0 None (FTree kids FNil)).
Proof.
  intros kids G. unfold connect. rewrite (order_upward _ 0 0 None) by now apply good_solid. destruct G as (Gw & Gc & Gk & _).
  cbn [downward]. cbv zeta. set (r := mkS (0 + count kids) 0 (0 + width kids - 1)). rewrite app_nil_r. cbn [map fst connect_loop app].
  destruct (connect_forest kids 0 0 0 r r [(r, None)] [] ltac:(lia) Gk) as (prev & E & _).
  - cbn. lia.
  - intros m [<-|[]]. cbn. lia.
  - left. repeat split. exact Gc.
  - rewrite app_nil_r in E. rewrite E. reflexivity.
Qed.
Print Assumptions C94_parents.

(** A node that begins with a word of its own is passed over: its first child becomes a child of the
    node above it, and under the root there is none. *)
Definition word_first : forest := FTree (FTree (FWord (FTree (FWord FNil) FNil)) FNil) FNil.
Theorem C94_parents_refuted : solid word_first /\ connect (upward 0 0 word_first) <> Some (downward 0 0 None word_first)
  /\ connect (upward 0 0 word_first) = Some [(mkS 2 0 1, None); (mkS 1 0 1, Some (mkS 2 0 1)); (mkS 0 1 1, Some (mkS 2 0 1))]
  /\ connect (upward 0 0 (FTree (FWord (FTree (FWord FNil) FNil)) FNil)) = None.
Proof. vm_compute. repeat split; try lia; discriminate. Qed.
Print Assumptions C94_parents_refuted.

(** The nodes that are read from a document without span attributes are those of a forest. *)
Definition spans (l : list snode) : list (nat * nat) := map (fun n => (s_start n, s_end n)) l.
Fixpoint add_words (n : nat) (f : forest) : forest := match n with O => f | S n => FWord (add_words n f) end.
Theorem C94_document : forall esc w toks w' ws ns, Doc esc w toks w' ws ns ->
  (forall t k name content, In t toks -> read_tag t = Some (k, name, content) -> attribute content (lit "span") = []) ->
  exists f, solid f /\ w' = w + width f /\ forall i, spans (upward w i f) = map (fun n => (n_start n, n_end n)) ns.
Proof.
  intros esc w toks w' ws ns D.
  induction D as [w|w t u r w' ws ns Ht Hm Hd IH|w o name content body w1 ws1 ns1 c any n r w2 ws2 ns2 To Ro Hb IHb Tc Rc Hn Hr IHr|w t name content n r w' ws ns Ht Rt Hn Hr IH];
    intros N.
  - exists FNil. repeat split. cbn. lia.
  - destruct IH as (f & F1 & F2 & F3); [intros; apply (N t0 k name content); [now right|assumption]|].
    exists (add_words (length (words blank u)) f). generalize dependent (length (words blank u)). intros m _ F2 F3.
    assert (A : forall m w, solid (add_words m f) /\ width (add_words m f) = m + width f /\ forall i, upward w i (add_words m f) = upward (w + m) i f).
    { clear - F1. induction m as [|m IHm]; intros w; cbn [add_words solid width upward].
      - repeat split; [exact F1|]. intros i. now rewrite Nat.add_0_r.
      - destruct (IHm (S w)) as (A1 & A2 & A3). repeat split; [exact A1|lia|]. intros i. rewrite A3. f_equal. lia. }
    destruct (A m w) as (A1 & A2 & A3). split; [exact A1|]. split; [lia|]. intros i. rewrite A3. apply F3.
  - assert (Sp : attribute content (lit "span") = []) by (apply (N o Opening name content); [now left|exact Ro]).
    destruct IHb as (k & K1 & K2 & K3); [intros; apply (N t k name0 content0); [right; apply in_or_app; now left|assumption]|].
    destruct IHr as (f & F1 & F2 & F3); [intros; apply (N t k0 name0 content0); [right; apply in_or_app; right; now right|assumption]|].
    destruct Hn as (_ & _ & [(_ & H1 & H2 & H3)|(H1 & _)]); [|now elim H1].
    exists (FTree k f). cbn [solid width]. split; [repeat split; [lia|exact K1|exact F1]|]. split; [lia|]. intros i. cbn [upward]. unfold spans in *.
    rewrite map_app. cbn [map]. rewrite K3, map_app. cbn [map]. f_equal. f_equal.
    + cbn. f_equal; lia.
    + rewrite <- F3 with (i := i + count k + 1). rewrite <- K2. reflexivity.
  - exfalso. assert (Sp : attribute content (lit "span") = []) by (apply (N t Unary name content); [now left|exact Rt]).
    destruct Hn as (_ & _ & [(_ & H1 & _)|(H1 & _)]); [lia|now elim H1].
Qed.
Print Assumptions C94_document.

(** S over NP over D and N, and VP, where NP and VP have a word of their own at the end. *)
Example C94_case : let t := FTree (FTree (FTree (FWord FNil) (FTree (FWord FNil) (FWord FNil))) (FTree (FWord FNil) (FWord FNil))) FNil in
  good t /\ connect (upward 0 0 t) = Some [(mkS 4 0 4, None); (mkS 2 0 2, Some (mkS 4 0 4)); (mkS 0 0 0, Some (mkS 2 0 2));
    (mkS 1 1 1, Some (mkS 2 0 2)); (mkS 3 3 3, Some (mkS 4 0 4))].
Proof. vm_compute. repeat split; lia. Qed.

(** C67: the rules of an index whose source side is in an automaton are found with their numbers, each once; all of
    them are found if no two ways of different lengths come together. *)
From Coq Require Import List ZArith NArith Bool Sorted Permutation Lia PeanoNat.
From Verif Require Import M_OrdSet M_Fsa L_Fsa M_BinFsa L_BinFsa L_Daciuk M_HashFsa L_HashFsa M_Minfsa L_Minfsa P_Minfsa
  M_Dag L_Dag L_DagSort L_DagFind P_Dag M_SimpleDag S_SimpleDag L_SimpleDag L_SimpleDet P_SimpleDag M_MultiHash L_MultiHash.
Import ListNotations.
Local Open Scope nat_scope.

Lemma sorted_seq {X} (R : X -> X -> Prop) (h : nat -> X) n : forall s,
  (forall j k, j < k -> k < n -> R (h (s + j)) (h (s + k))) -> StronglySorted R (map h (seq s n)).
Proof.
  induction n as [|n IH]; intros s H; cbn [seq map]; constructor.
  - apply IH. intros j k L1 L2. replace (S s + j) with (s + S j) by lia. replace (S s + k) with (s + S k) by lia. apply H; lia.
  - apply Forall_forall. intros x Hx. apply in_map_iff in Hx as (i & <- & Hi). apply in_seq in Hi.
    replace s with (s + 0) at 1 by lia. replace i with (s + (i - s)) by lia. apply H; lia.
Qed.

Section Index.
Context (ws : list (list Z)) (A : auto) (mf : nat -> nat) (g : dag) (X : index_facts ws A) (La : laid A mf g).
Context (d : sdag) (W : whole d) (D : deterministic d).
Notation n := (length A).
Definition ok (P : nat) : Prop := exists p, p < n /\ P = mf p.
Lemma arcs_row p : p < n -> rising (g_arcs_at g (mf p)) /\ forall x, In x (g_arcs_at g (mf p)) <->
  exists i a q, nth_error (a_arcs A p) i = Some (a, q) /\ x = Warc a (mf q) (Z.of_nat (total (aview A) (firstn i (a_arcs A p)))).
Proof.
  intros Hp. destruct La as (_ & _ & L). destruct (L p Hp) as (off & Er & _ & Harc). unfold g_arcs_at. rewrite Er.
  replace (off + length (a_arcs A p) - off) with (length (a_arcs A p)) by lia. split.
  - apply sorted_seq. intros j k Hjk Hk. destruct (nth_some A (x_some _ _ X) p j ltac:(lia)) as (b & r & E1). destruct (nth_some A (x_some _ _ X) p k Hk) as (b' & r' & E2).
    rewrite (Harc _ _ _ E1), (Harc _ _ _ E2). cbn [x_sym]. exact (inc_nth A (x_sorted _ _ X) (x_some _ _ X) p j k _ _ Hjk E1 E2).
  - intros x. rewrite in_map_iff. split.
    + intros (k & <- & Hk). apply in_seq in Hk. destruct (nth_some A (x_some _ _ X) p (k - off) ltac:(lia)) as (a & q & E). exists (k - off), a, q. split; [assumption|].
      replace k with (off + (k - off)) at 1 by lia. now apply Harc.
    + intros (i & a & q & E & ->). exists (off + i). split; [now apply Harc|]. apply in_seq. assert (i < length (a_arcs A p)) by (apply nth_error_Some; rewrite E; discriminate). lia.
Qed.
Lemma ok_start : ok 0.
Proof. exists 0. split; [apply (x_some _ _ X)|]. symmetry. apply (proj1 (proj2 La)). Qed.
Lemma ok_rows P : ok P -> rising (g_arcs_at g P) /\ forall x, In x (g_arcs_at g P) -> ok (x_dest x) /\ (0 <= x_sym x < 2 ^ 31)%Z.
Proof.
  intros (p & Hp & ->). destruct (arcs_row p Hp) as [R1 R2]. split; [assumption|]. intros x Hx. apply R2 in Hx as (i & a & q & E & ->). cbn [x_dest x_sym].
  apply nth_error_In in E. split; [|apply (x_symbols _ _ X p (a, q) E)]. exists q. split; [|reflexivity]. exact (x_closed _ _ X p (a, q) Hp E).
Qed.
Lemma walk_more w a p q : walk A 0 w = Some p -> In (a, q) (a_arcs A p) -> walk A 0 (w ++ [a]) = Some q.
Proof. intros H1 H2. apply (walk_snoc A 0 w p); [assumption|]. apply (look_some _ a q); [apply (rows_inc A (x_sorted _ _ X))|assumption]. Qed.
Lemma way_index w k i : way g d w k i -> exists p, p < n /\ fst k = mf p /\ walk A 0 w = Some p /\ leads d 0 w (snd k) /\
  forall v, g_hash_from g 0 0 (w ++ v) = g_hash_from g i (fst k) v.
Proof.
  induction 1 as [|w P q i x y H (p & Hp & EP & Hw & Hl & Hh) Hx Hy E].
  - exists 0. split; [apply (x_some _ _ X)|]. split; [symmetry; apply (proj1 (proj2 La))|]. split; [reflexivity|]. split; [constructor|reflexivity].
  - cbn [fst snd] in EP, Hl, Hh. subst P. destruct (arcs_row p Hp) as [_ R2]. pose proof Hx as Hx'. apply R2 in Hx' as (j & a & r & Ej & ->). pose proof (nth_error_In _ _ Ej) as Ia.
    cbn [x_sym x_dest x_wt fst snd grow] in *. rewrite (s32_sym a) by apply (x_symbols _ _ X p (a, r) Ia). exists r.
    split; [exact (x_closed _ _ X p (a, r) Hp Ia)|]. split; [reflexivity|]. split; [now apply (walk_more w a p)|]. split.
    + apply (leads_app _ _ _ q); [assumption|]. apply (leads_arc _ _ a (x_dest y) (x_wt y)); [|constructor]. rewrite E. now destruct y.
    + intros v. rewrite <- app_assoc. cbn [app]. rewrite Hh. cbn [g_hash_from].
      destruct (find_hit A mf g La (x_sorted _ _ X) (x_closed _ _ X) (x_some _ _ X) (x_symbols _ _ X) p j a r Hp Ej) as (k & -> & -> & _). reflexivity.
Qed.
Lemma way_exists w : forall p q, walk A 0 w = Some p -> leads d 0 w q -> exists i, way g d w (mf p, q) i.
Proof.
  induction w as [|a w IH] using rev_ind; intros p q Hw Hl.
  - cbn in Hw. injection Hw as <-. inversion Hl; subst. rewrite (proj1 (proj2 La)). exists 0%Z. constructor.
  - apply leads_split in Hl as (q' & Hl & Ha). inversion Ha as [|? ? q1 v w0 r Hy Hn]; subst. inversion Hn; subst.
    pose proof (walk_app A w 0 [a]) as K. rewrite Hw in K. destruct (walk A 0 w) as [p'|] eqn:E; [|discriminate]. cbn [walk] in K.
    destruct (look (a_arcs A p') a) as [p1|] eqn:El; [|discriminate]. injection K as ->. apply look_in in El.
    destruct (IH p' q' eq_refl Hl) as (i & Y).
    assert (Hp : p' < n). { apply (spelt_walk A (x_sorted _ _ X)) in E. apply (reach_bound (aview A) (x_closed _ _ X) 0 p'); [now exists w|apply (x_some _ _ X)]. }
    destruct (arcs_row p' Hp) as [_ R2]. pose proof El as El'. apply In_nth_error in El' as (j & Ej).
    set (x := Warc a (mf p1) (Z.of_nat (total (aview A) (firstn j (a_arcs A p'))))).
    assert (Hx : In x (g_arcs_at g (mf p'))) by (apply R2; now exists j, a, p1).
    pose proof (way_on g d w (mf p') q' i x (Warc a q v) Y Hx Hy eq_refl) as Y'. cbn [grow fst snd x_sym x_dest x] in Y'.
    rewrite (s32_sym a) in Y' by apply (x_symbols _ _ X p' (a, p1) El). eexists. exact Y'.
Qed.
Lemma size_bound keys : NoDup keys -> (forall k, In k keys -> exists w i, way g d w k i) -> length keys <= length (g_states g) * s_size d.
Proof.
  intros N H. rewrite (proj1 La). rewrite <- (seq_length n 0), <- (map_length mf (seq 0 n)), <- (seq_length (s_size d) 0) at 1. rewrite <- prod_length.
  apply NoDup_incl_length; [assumption|]. intros [P q] K. destruct (H _ K) as (w & i & Y). apply way_index in Y as (p & Hp & EP & _ & Hl & _). cbn [fst snd] in *.
  apply in_prod; [apply in_map_iff; exists p; split; [now symmetry|apply in_seq; lia]|]. apply in_seq. split; [lia|]. cbn [Nat.add].
  inversion Hl as [|? a q1 v w' r Hy Hl'] ; subst.
  - apply (proj1 (proj2 W)). now apply (proj1 D).
  - clear - W Hy Hl'. assert (B : q1 < s_size d) by (apply (proj1 W) in Hy; assumption). clear Hy. induction Hl' as [|? b q2 v2 w2 r Hy Hl' IH]; [assumption|]. apply IH. now apply (proj1 W) in Hy.
Qed.
Lemma word_acc w p x : walk A 0 w = Some p -> (In (w ++ x) ws <-> acc A p x = true).
Proof. intros E. rewrite <- (x_acc _ _ X). pose proof (acc_app A w 0 x) as K. rewrite E in K. unfold M_Fsa.symbol in *. now rewrite K. Qed.
End Index.

(** ** What is meant *)
(** Two beginnings that lead to one state of the automaton and can be continued to words of the index in the same ways
    have the same length. *)
Definition even (ws : list (list Z)) (d : sdag) : Prop := forall u v q, leads d 0 u q -> leads d 0 v q ->
  (exists x, In (u ++ x) ws) -> (forall x, In (u ++ x) ws <-> In (v ++ x) ws) -> length u = length v.

(** ** Theorems *)
Theorem C67_ends sort ws g d fuel : fit ws -> list_sort sort -> indexed sort ws g -> whole d -> deterministic d ->
  length (g_states g) * s_size d <= fuel -> exists L, multihash fuel g d = Some L.
Proof.
  intros Hf Hs Hg W D F. destruct (indexed_laid sort ws g Hf Hs Hg) as (A & mf & X & La).
  apply (multihash_ends g d (ok A mf) (ok_start ws A mf g X La) (ok_rows ws A mf g X La) (proj2 D) _ fuel (size_bound ws A mf g X La d W D) F).
Qed.
Print Assumptions C67_ends.

(** What is found is in the index and in the automaton, has its place in the index as its number, counting from one, and is found once. *)
Theorem C67_sound sort ws g d fuel L : fit ws -> list_sort sort -> indexed sort ws g -> whole d -> deterministic d ->
  multihash fuel g d = Some L ->
  (forall w i, In (w, i) L -> words d w /\ exists j, nth_error ws j = Some w /\ i = (Z.of_nat j + 1)%Z) /\ NoDup (map fst L).
Proof.
  intros Hf Hs Hg W D E. destruct (indexed_laid sort ws g Hf Hs Hg) as (A & mf & X & La).
  destruct (multihash_spec g d (ok A mf) (ok_start ws A mf g X La) (ok_rows ws A mf g X La) (proj2 D) fuel L E) as (S1 & S2 & _). split; [|assumption].
  intros w i K. apply S1 in K as ([P q] & Y & B). apply andb_true_iff in B as [B1 B2]. cbn [fst snd] in *.
  destruct (way_index ws A mf g X La d w (P, q) i Y) as (p & Hp & EP & Hw & Hl & Hh). cbn [fst snd] in *. subst P. split.
  - exists 0, q. split; [now apply (proj1 D)|]. split; [assumption|]. apply existsb_exists in B2 as (e & He & Ee). apply Nat.eqb_eq in Ee. now subst.
  - assert (Iw : In w ws).
    { pose proof (word_acc ws A X w p [] Hw) as K. rewrite app_nil_r in K. apply K. unfold acc. cbn [walk].
      rewrite (end_spec A mf g La p Hp) in B1. exact B1. }
    apply In_nth_error in Iw as (j & Ej). exists j. split; [assumption|]. pose proof (proj1 (C65_hash sort ws g w Hf Hs Hg) j Ej) as Eh.
    unfold g_hash in Eh. specialize (Hh []). rewrite app_nil_r in Hh. rewrite Hh in Eh. cbn [g_hash_from] in Eh. now rewrite B1 in Eh.
Qed.
Print Assumptions C67_sound.

Theorem C67_complete sort ws g d fuel L w : fit ws -> list_sort sort -> indexed sort ws g -> whole d -> deterministic d -> even ws d ->
  multihash fuel g d = Some L -> In w ws -> words d w -> In w (map fst L).
Proof.
  intros Hf Hs Hg W D Ev E Iw (p0 & q & S0 & Hl & Hq). destruct (indexed_laid sort ws g Hf Hs Hg) as (A & mf & X & La).
  destruct (multihash_spec g d (ok A mf) (ok_start ws A mf g X La) (ok_rows ws A mf g X La) (proj2 D) fuel L E) as (_ & _ & S3).
  apply (proj1 D) in S0 as ->.
  assert (Lev : levelled g d).
  { intros u v k i j Y1 Y2. destruct (way_index ws A mf g X La d _ _ _ Y1) as (p1 & H1 & E1 & W1 & L1 & _). destruct (way_index ws A mf g X La d _ _ _ Y2) as (p2 & H2 & E2 & W2 & L2 & _).
    assert (Sub : forall a b pa pb, pa < length A -> pb < length A -> mf pa = mf pb -> walk A 0 a = Some pa -> walk A 0 b = Some pb -> forall x, In (a ++ x) ws -> In (b ++ x) ws).
    { intros a b pa pb Ha Hb Em Wa Wb x K. assert (F : Forall int x).
      { apply Forall_forall. intros z Hz. destruct Hf as (_ & _ & _ & _ & Sy). specialize (Sy (a ++ x) z K ltac:(apply in_app_iff; now right)). unfold int. lia. }
      apply (word_acc ws A X a pa x Wa) in K. apply (word_acc ws A X b pb x Wb).
      rewrite <- (in_spec A mf g La (x_sorted _ _ X) (x_closed _ _ X) (x_some _ _ X) (x_symbols _ _ X) x pa Ha F) in K.
      rewrite <- (in_spec A mf g La (x_sorted _ _ X) (x_closed _ _ X) (x_some _ _ X) (x_symbols _ _ X) x pb Hb F). now rewrite <- Em. }
    apply (Ev u v (snd k)); [assumption..| |].
    - pose proof (x_live _ _ X p1 H1) as K. unfold cnt in K. destruct (words_of (aview A) p1) as [|x l] eqn:Ex; [cbn in K; lia|]. exists x.
      apply (word_acc ws A X u p1 x W1). assert (Hv : in_lang (aview A) p1 x) by (apply (L_HashFsa.in_words _ (x_closed _ _ X) (x_acyclic _ _ X) p1 H1); rewrite Ex; now left).
      destruct Hv as (r & R1 & R2). unfold acc. apply (spelt_walk A (x_sorted _ _ X)) in R1. now rewrite R1.
    - intros x. split; [apply (Sub u v p1 p2)|apply (Sub v u p2 p1)]; congruence. }
  pose proof Iw as Aw. apply (x_acc _ _ X) in Aw. unfold acc in Aw. destruct (walk A 0 w) as [p|] eqn:Ew; [|discriminate].
  assert (Hp : p < length A). { apply (spelt_walk A (x_sorted _ _ X)) in Ew. apply (reach_bound (aview A) (x_closed _ _ X) 0 p); [now exists w|apply (x_some _ _ X)]. }
  destruct (way_exists ws A mf g X La d w p q Ew Hl) as (i & Y). apply in_map_iff. exists (w, i). split; [reflexivity|]. apply (S3 Lev w _ _ Y).
  unfold both_end. cbn [fst snd]. rewrite (end_spec A mf g La p Hp). apply andb_true_iff. split; [exact Aw|]. apply existsb_exists. exists q. split; [assumption|apply Nat.eqb_refl].
Qed.
Print Assumptions C67_complete.

(** ** A case in which all is found *)
Definition some_dag : sdag := Sdag [[Warc 1 1 0; Warc 3 1 0; Warc 7 1 0]; [Warc 3 2 0]; [Warc 2 3 0; Warc 9 3 0]; []]%Z 1%N [3].
Lemma row_cases rows s e p x : In x (s_row (Sdag rows s e) p) -> exists r, In (p, r) (combine (seq 0 (length rows)) rows) /\ In x r.
Proof.
  unfold s_row. cbn [s_rows]. intros H. destruct (Nat.lt_ge_cases p (length rows)) as [L|L]; [|rewrite nth_overflow in H by assumption; destruct H].
  exists (nth p rows []). split; [|assumption]. replace (p, nth p rows []) with (nth p (combine (seq 0 (length rows)) rows) (0, [])).
  - apply nth_In. rewrite combine_length, seq_length. lia.
  - rewrite combine_nth by apply seq_length. now rewrite seq_nth.
Qed.
Lemma sorted_b l : forallb (fun i => x_sym (nth i l (Warc 0 0 0)) <? x_sym (nth (S i) l (Warc 0 0 0)))%Z (seq 0 (length l - 1)) = true ->
  StronglySorted (fun x y => (x_sym x < x_sym y)%Z) l.
Proof.
  intros H. apply Sorted_StronglySorted; [intros x y z; apply Z.lt_trans|]. induction l as [|x [|y l] IH]; [constructor|repeat constructor|].
  rewrite forallb_forall in H. constructor.
  - apply IH. apply forallb_forall. intros i Hi. apply (H (S i)). apply in_seq in Hi. apply in_seq. cbn [length] in *. lia.
  - constructor. specialize (H 0 ltac:(apply in_seq; cbn [length]; lia)). now apply Z.ltb_lt in H.
Qed.
Lemma deterministic_dec d : s_starts d = 1%N -> forallb (fun l => forallb (fun i => x_sym (nth i l (Warc 0 0 0)) <? x_sym (nth (S i) l (Warc 0 0 0)))%Z (seq 0 (length l - 1))) (s_rows d) = true -> deterministic d.
Proof.
  intros E H. split.
  - intros p. unfold start_of. rewrite E. destruct p as [|p]; [easy|]. split; [|discriminate]. cbn. discriminate.
  - intros p. destruct (Nat.lt_ge_cases p (length (s_rows d))) as [L|L]; [|unfold s_row; rewrite nth_overflow by assumption; constructor].
    apply sorted_b. rewrite forallb_forall in H. apply H. now apply nth_In.
Qed.
Example C67_some : even some_words some_dag /\ whole some_dag /\ deterministic some_dag /\
  multihash 100 some_index some_dag = Some [([1; 3; 2], 2); ([3; 3; 2], 8)]%Z /\ length (g_states some_index) * s_size some_dag <= 100.
Proof.
  split; [|split; [apply whole_dec; vm_compute; reflexivity|split; [now apply deterministic_dec|split; [vm_compute; reflexivity|vm_compute; lia]]]].
  assert (Up : forall p u q, leads some_dag p u q -> q = p + length u).
  { induction 1 as [|p a q v w r H K IH]; cbn [length]; [lia|]. subst r. apply row_cases in H as (l & H1 & H2). cbn in H1.
    repeat destruct H1 as [[= <- <-]|H1]; try contradiction; cbn in H2; repeat destruct H2 as [[= <- <- <-]|H2]; try contradiction; lia. }
  intros u v q H1 H2 _ _. apply Up in H1, H2. lia.
Qed.

(** ** A case in which a rule is lost: 5 1 4 and 5 2 3 4 end in the same way *)
Definition lost_words : list (list Z) := [[5; 1; 4]; [5; 2; 3; 4]]%Z.
Definition lost_lines : list line := [Arc 0 1 5; Arc 1 2 1; Arc 1 4 2; Arc 2 3 4; End 3; Arc 4 2 3]%Z.
Definition lost_dag : sdag := Sdag [[Warc 5 1 0]; [Warc 1 2 0; Warc 2 4 0]; [Warc 4 3 0]; []; [Warc 3 2 0]]%Z 1%N [3].
Lemma lost_fit : fit lost_words.
Proof.
  split. { repeat constructor. exists [5]%Z. right. exists 1%Z, [4]%Z, 2%Z, [3; 4]%Z. repeat split. } split; [intros [|[|[]]]; discriminate|]. split; [discriminate|]. split; [vm_compute; reflexivity|].
  intros w a Hw Ha. assert (B : forallb (fun w => forallb (fun a => (0 <=? a) && (a <? 2 ^ 31))%Z w) lost_words = true) by (vm_compute; reflexivity).
  rewrite forallb_forall in B. specialize (B w Hw). rewrite forallb_forall in B. specialize (B a Ha). apply andb_true_iff in B as [B1 B2]. apply Z.leb_le in B1. apply Z.ltb_lt in B2. now split.
Qed.
Lemma lost_indexed g : compile sort_list lost_lines = Some g -> indexed sort_list lost_words g.
Proof.
  intros E. eexists. exists lost_lines. split; [vm_compute; reflexivity|]. split; [|split; [|exact E]].
  - unfold lost_lines. assert (Q : forall (x : line) l1 l2 k, Permutation (l1 ++ l2) k -> Permutation (l1 ++ x :: l2) (x :: k)).
    { intros x l1 l2 k H. rewrite <- H. symmetry. apply Permutation_middle. }
    apply (Q _ [_; _]). cbn [app]. apply (Q _ [_; _]). cbn [app]. apply (Q _ [_; _]). cbn [app]. apply Permutation_refl.
  - unfold lost_lines. repeat (constructor; [|constructor; unfold line_le; cbn; lia]). repeat constructor.
Qed.
Theorem C67_all_refuted : exists sort ws g d fuel L w, fit ws /\ list_sort sort /\ indexed sort ws g /\ whole d /\ deterministic d /\
  multihash fuel g d = Some L /\ In w ws /\ words d w /\ ~ In w (map fst L).
Proof.
  exists sort_list, lost_words. destruct (compile sort_list lost_lines) as [g|] eqn:E; [|vm_compute in E; discriminate].
  exists g, lost_dag, 100, [([5; 1; 4], 1)]%Z, [5; 2; 3; 4]%Z.
  split; [apply lost_fit|]. split; [apply sort_list_sort|]. split; [now apply lost_indexed|].
  split; [apply whole_dec; vm_compute; reflexivity|]. split; [now apply deterministic_dec|].
  vm_compute in E. injection E as <-. split; [vm_compute; reflexivity|]. split; [right; now left|]. split; [|intros [H|[]]; discriminate].
  exists 0, 3. split; [reflexivity|]. split; [|now left].
  apply (leads_arc _ _ 5%Z 1 0%Z); [now left|]. apply (leads_arc _ _ 2%Z 4 0%Z); [right; now left|]. apply (leads_arc _ _ 3%Z 2 0%Z); [now left|].
  apply (leads_arc _ _ 4%Z 3 0%Z); [now left|constructor].
Qed.
Print Assumptions C67_all_refuted.

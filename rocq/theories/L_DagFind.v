(** Lemmas on looking up in the automaton as it is saved. *)
From Coq Require Import List ZArith Bool Sorted Permutation Lia PeanoNat.
From Verif Require Import M_OrdSet L_OrdSet M_Fsa M_BinFsa L_BinFsa L_Daciuk M_HashFsa L_HashFsa M_Minfsa L_Minfsa M_Dag L_Dag L_DagSort.
Import ListNotations.
Local Open Scope nat_scope.

(** ** Searching *)
Section Search.
Context (g : dag) (off n : nat).
Section Sym.
Context (value : Z) (Inc : forall j k, j < k -> k < n -> (x_sym (g_arc g (off + j)) < x_sym (g_arc g (off + k)))%Z).
Lemma linsearch_hit i : i < n -> x_sym (g_arc g (off + i)) = value -> forall m j, j <= i -> i < j + m -> j + m <= n -> linsearch g m (off + j) value = Some (off + i).
Proof.
  intros Hi Ei. induction m as [|m IH]; intros j H1 H2 H3; [lia|]. cbn [linsearch].
  destruct (Z.eqb_spec (x_sym (g_arc g (off + j))) value) as [E|E].
  - destruct (Nat.eq_dec j i) as [->|N]; [reflexivity|]. pose proof (Inc j i ltac:(lia) Hi). lia.
  - replace (S (off + j)) with (off + S j) by lia. apply IH; [|lia|lia]. destruct (Nat.eq_dec j i) as [->|N]; [contradiction|lia].
Qed.
Lemma linsearch_miss : (forall i, i < n -> x_sym (g_arc g (off + i)) <> value) -> forall m j, j + m <= n -> linsearch g m (off + j) value = None.
Proof.
  intros H. induction m as [|m IH]; intros j L; [reflexivity|]. cbn [linsearch].
  destruct (Z.eqb_spec (x_sym (g_arc g (off + j))) value) as [E|E]; [exfalso; apply (H j); [lia|assumption]|].
  replace (S (off + j)) with (off + S j) by lia. apply IH. lia.
Qed.
Lemma middle l r : (l <= r -> l <= l + (r - l) / 2 <= r)%Z.
Proof.
  intros H. pose proof (Z.div_pos (r - l) 2 ltac:(lia) ltac:(lia)). pose proof (Z.div_le_upper_bound (r - l) 2 (r - l) ltac:(lia) ltac:(lia)). lia.
Qed.
Lemma binsearch_hit i : i < n -> x_sym (g_arc g (off + i)) = value -> forall fuel l r,
  (Z.of_nat off <= l)%Z -> (l <= Z.of_nat (off + i) <= r)%Z -> (r < Z.of_nat (off + n))%Z -> (r - l < Z.of_nat fuel)%Z ->
  binsearch fuel g value l r = Some (off + i).
Proof.
  intros Hi Ei. induction fuel as [|fuel IH]; intros l r H1 H2 H3 H4; [lia|]. cbn [binsearch].
  destruct (Z.leb_spec l r) as [L|L]; [|lia]. pose proof (middle l r L) as Hm. set (m := (l + (r - l) / 2)%Z) in *. clearbody m.
  assert (Em : m = Z.of_nat (off + (Z.to_nat m - off))) by lia. set (j := Z.to_nat m - off) in *. clearbody j. subst m. rewrite Nat2Z.id.
  destruct (Z.ltb_spec (x_sym (g_arc g (off + j))) value) as [La|La].
  - apply IH; [lia| |lia|lia]. split; [|lia]. destruct (Nat.lt_ge_cases j i) as [K|K]; [lia|]. exfalso.
    destruct (Nat.eq_dec i j) as [->|N]; [lia|]. pose proof (Inc i j ltac:(lia) ltac:(lia)). lia.
  - destruct (Z.ltb_spec value (x_sym (g_arc g (off + j)))) as [Lb|Lb].
    + apply IH; [lia| |lia|lia]. split; [lia|]. destruct (Nat.lt_ge_cases i j) as [K|K]; [lia|]. exfalso.
      destruct (Nat.eq_dec i j) as [->|N]; [lia|]. pose proof (Inc j i ltac:(lia) ltac:(lia)). lia.
    + f_equal. destruct (Nat.lt_trichotomy i j) as [K|[->|K]]; [|reflexivity|].
      * pose proof (Inc i j K ltac:(lia)). lia.
      * pose proof (Inc j i K Hi). lia.
Qed.
Lemma binsearch_miss : (forall i, i < n -> x_sym (g_arc g (off + i)) <> value) -> forall fuel l r,
  (Z.of_nat off <= l)%Z -> (r < Z.of_nat (off + n))%Z -> binsearch fuel g value l r = None.
Proof.
  intros H. induction fuel as [|fuel IH]; intros l r H1 H2; [reflexivity|]. cbn [binsearch].
  destruct (Z.leb_spec l r) as [L|L]; [|reflexivity]. pose proof (middle l r L) as Hm. set (m := (l + (r - l) / 2)%Z) in *. clearbody m.
  destruct (Z.ltb_spec (x_sym (g_arc g (Z.to_nat m))) value) as [La|La]; [apply IH; lia|].
  destruct (Z.ltb_spec value (x_sym (g_arc g (Z.to_nat m)))) as [Lb|Lb]; [apply IH; lia|]. exfalso.
  apply (H (Z.to_nat m - off)); [lia|]. replace (off + (Z.to_nat m - off)) with (Z.to_nat m) by lia. lia.
Qed.
End Sym.
Section Num.
Context (value : Z) (Mono : forall j k, j <= k -> k < n -> (x_wt (g_arc g (off + j)) <= x_wt (g_arc g (off + k)))%Z).
Context (i : nat) (Hi : i < n) (Hv : (x_wt (g_arc g (off + i)) < value)%Z) (Hn : S i = n \/ (S i < n /\ (value <= x_wt (g_arc g (off + S i)))%Z)).
Notation last := (Z.of_nat (off + n) - 1)%Z.
Lemma num_here_at j : j < n -> num_here g last value (Z.of_nat (off + j)) = (j =? i).
Proof.
  intros Hj. unfold num_here. replace (Z.to_nat (Z.of_nat (off + j) + 1)) with (off + S j) by lia. rewrite Nat2Z.id.
  destruct (Nat.eqb_spec j i) as [->|N].
  - destruct (Z.ltb_spec (x_wt (g_arc g (off + i))) value); [|lia]. cbn [andb]. destruct Hn as [E|[E K]].
    + destruct (Z.eqb_spec (Z.of_nat (off + i)) last); [reflexivity|lia].
    + apply orb_true_iff. right. now apply Z.leb_le.
  - destruct (Z.ltb_spec (x_wt (g_arc g (off + j))) value) as [L|L]; cbn [andb]; [|reflexivity]. apply orb_false_iff.
    destruct (Nat.lt_ge_cases j i) as [K|K].
    + split; [apply Z.eqb_neq; lia|]. apply Z.leb_gt. pose proof (Mono (S j) i K Hi). lia.
    + exfalso. destruct Hn as [E|[E Kn]]; [lia|]. pose proof (Mono (S i) j ltac:(lia) Hj). lia.
Qed.
Lemma linsearch_num_hit : forall m j, j <= i -> i < j + m -> j + m <= n -> linsearch_num g m last value (Z.of_nat (off + j)) = Some (off + i).
Proof.
  induction m as [|m IH]; intros j H1 H2 H3; [lia|]. cbn [linsearch_num]. rewrite num_here_at by lia. destruct (Nat.eqb_spec j i) as [->|N]; [now rewrite Nat2Z.id|].
  replace (Z.of_nat (off + j) + 1)%Z with (Z.of_nat (off + S j)) by lia. apply IH; lia.
Qed.
Lemma binsearch_num_hit : forall fuel l r, (Z.of_nat off <= l)%Z -> (l <= Z.of_nat (off + i) <= r)%Z -> (r <= last)%Z -> (r - l < Z.of_nat fuel)%Z ->
  binsearch_num fuel g last value l r = Some (off + i).
Proof.
  induction fuel as [|fuel IH]; intros l r H1 H2 H3 H4; [lia|]. cbn [binsearch_num].
  destruct (Z.leb_spec l r) as [L|L]; [|lia]. pose proof (middle l r L) as Hm. set (m := (l + (r - l) / 2)%Z) in *. clearbody m.
  assert (Em : m = Z.of_nat (off + (Z.to_nat m - off))) by lia. set (j := Z.to_nat m - off) in *. clearbody j. subst m. rewrite num_here_at by lia. rewrite !Nat2Z.id.
  destruct (Nat.eqb_spec j i) as [->|N]; [reflexivity|]. destruct (Z.ltb_spec (x_wt (g_arc g (off + j))) value) as [La|La].
  - apply IH; [lia| |lia|lia]. split; [|lia]. destruct (Nat.lt_ge_cases j i) as [K|K]; [lia|]. exfalso.
    destruct Hn as [E|[E Kn]]; [lia|]. pose proof (Mono (S i) j ltac:(lia) ltac:(lia)). lia.
  - apply IH; [lia| |lia|lia]. split; [lia|]. destruct (Nat.lt_ge_cases i j) as [K|K]; [lia|]. exfalso.
    pose proof (Mono j i K Hi). lia.
Qed.
End Num.
End Search.

(** ** Looking up *)
Section Find.
Context (A : auto) (mf : nat -> nat) (g : dag) (La : laid A mf g) (HI : sorted_view (aview A)) (HC : closed_view (aview A)) (HA : acyclic (aview A)) (H0 : 0 < length A).
Context (Sy : forall p x, In x (a_arcs A p) -> (0 <= fst x < 2 ^ 31)%Z) (Sm : small31 (cnt (aview A) 0)) (HR : forall p, p < length A -> reach (aview A) 0 p).
Notation f := (aview A). Notation n := (length A). Notation total := (total f). Notation cnt := (cnt f). Notation eb := (eb f).
Definition int (a : Z) : Prop := (- 2 ^ 31 <= a < 2 ^ 31)%Z.
Lemma int_u32 a p x : int a -> In x (a_arcs A p) -> u32 a = fst x -> a = fst x.
Proof.
  unfold int, u32. intros H Hx. specialize (Sy p x Hx). destruct (Z.lt_ge_cases a 0) as [L|L].
  - replace (a mod 2 ^ 32)%Z with (a + 2 ^ 32)%Z; [lia|]. rewrite <- (Z.mod_small (a + 2 ^ 32) (2 ^ 32)) by lia.
    replace (a + 2 ^ 32)%Z with (a + 1 * 2 ^ 32)%Z by lia. apply Z.mod_add. lia.
  - rewrite Z.mod_small by lia. lia.
Qed.
Lemma sym_u32 p x : In x (a_arcs A p) -> u32 (fst x) = fst x.
Proof. intros Hx. specialize (Sy p x Hx). unfold u32. apply Z.mod_small. lia. Qed.
Lemma inc_nth p j k x y : j < k -> nth_error (a_arcs A p) j = Some x -> nth_error (a_arcs A p) k = Some y -> (fst x < fst y)%Z.
Proof.
  pose proof (rows_inc A HI p) as H. unfold inc in H. revert j k. induction H as [|z l Hl IH Hz]; intros [|j] [|k] L E1 E2; try discriminate; try lia.
  - injection E1 as ->. rewrite Forall_forall in Hz. apply Hz. exact (nth_error_In l k E2).
  - apply (IH j k); [lia|assumption..].
Qed.
Lemma nth_some p i : i < length (a_arcs A p) -> exists a q, nth_error (a_arcs A p) i = Some (a, q).
Proof. intros H. destruct (nth_error (a_arcs A p) i) as [[a q]|] eqn:E; [now exists a, q|apply nth_error_None in E; lia]. Qed.
Lemma find_hit p i a q : p < n -> nth_error (a_arcs A p) i = Some (a, q) ->
  exists k, g_find g (mf p) (u32 a) = Some k /\ g_arc g k = Warc a (mf q) (Z.of_nat (total (firstn i (a_arcs A p)))) /\ g_is_end g (mf q) = a_end A q.
Proof.
  intros Hp Hi. destruct La as (_ & _ & L). destruct (L p Hp) as (off & Er & _ & Harc). exists (off + i).
  assert (Li : i < length (a_arcs A p)) by (apply nth_error_Some; rewrite Hi; discriminate).
  assert (Inc : forall j k, j < k -> k < length (a_arcs A p) -> (x_sym (g_arc g (off + j)) < x_sym (g_arc g (off + k)))%Z).
  { intros j k Hjk Hk. destruct (nth_some p j ltac:(lia)) as (b & r & E1). destruct (nth_some p k Hk) as (b' & r' & E2).
    rewrite (Harc _ _ _ E1), (Harc _ _ _ E2). cbn [x_sym]. exact (inc_nth p j k _ _ Hjk E1 E2). }
  assert (Ei : x_sym (g_arc g (off + i)) = u32 a) by (rewrite (Harc _ _ _ Hi); cbn [x_sym]; symmetry; apply (sym_u32 p (a, q)); now apply nth_error_In in Hi).
  split; [|split; [now apply Harc|]].
  - unfold g_find. rewrite Er. replace (off + length (a_arcs A p) - off) with (length (a_arcs A p)) by lia. destruct (10 <? length (a_arcs A p)).
    + apply (binsearch_hit g off (length (a_arcs A p)) (u32 a) Inc i Li Ei); lia.
    + pose proof (linsearch_hit g off (length (a_arcs A p)) (u32 a) Inc i Li Ei (length (a_arcs A p)) 0) as K. rewrite Nat.add_0_r in K. apply K; lia.
  - assert (Hq : q < n) by (apply (HC p (a, q) Hp); now apply nth_error_In in Hi). destruct (L q Hq) as (? & _ & E & _). exact E.
Qed.
Lemma find_miss p a : p < n -> int a -> (forall q, ~ In (a, q) (a_arcs A p)) -> g_find g (mf p) (u32 a) = None.
Proof.
  intros Hp Ha Hn. destruct La as (_ & _ & L). destruct (L p Hp) as (off & Er & _ & Harc).
  assert (Ne : forall i, i < length (a_arcs A p) -> x_sym (g_arc g (off + i)) <> u32 a).
  { intros i Li E. destruct (nth_some p i Li) as (b & r & E1). rewrite (Harc _ _ _ E1) in E. cbn [x_sym] in E. apply nth_error_In in E1.
    symmetry in E. apply (int_u32 a p (b, r) Ha E1) in E. cbn in E. subst b. now apply (Hn r). }
  unfold g_find. rewrite Er. replace (off + length (a_arcs A p) - off) with (length (a_arcs A p)) by lia. destruct (10 <? length (a_arcs A p)).
  - apply (binsearch_miss g off (length (a_arcs A p)) (u32 a) Ne); lia.
  - pose proof (linsearch_miss g off (length (a_arcs A p)) (u32 a) Ne (length (a_arcs A p)) 0) as K. rewrite Nat.add_0_r in K. apply K; lia.
Qed.
Lemma delta_spec p a : p < n -> int a -> g_delta g (mf p) a = match look (a_arcs A p) a with Some q => Some (mf q) | None => None end.
Proof.
  intros Hp Ha. unfold g_delta. destruct (look (a_arcs A p) a) as [q|] eqn:E.
  - apply look_in in E. apply In_nth_error in E as (i & E). destruct (find_hit p i a q Hp E) as (k & -> & -> & _). reflexivity.
  - rewrite find_miss; [reflexivity|assumption..|]. intros q K. rewrite (look_some _ a q (rows_inc A HI p) K) in E. discriminate.
Qed.
Lemma look_lt p a q : p < n -> look (a_arcs A p) a = Some q -> q < n.
Proof. intros Hp E. apply look_in in E. exact (HC p (a, q) Hp E). Qed.
Lemma in_spec : forall w p, p < n -> Forall int w -> g_in_from g (mf p) w = acc A p w.
Proof.
  induction w as [|a w IH]; intros p Hp F; unfold acc; cbn [g_in_from walk].
  - destruct La as (_ & _ & L). destruct (L p Hp) as (? & _ & E & _). exact E.
  - inversion F; subst. rewrite delta_spec by assumption. destruct (look (a_arcs A p) a) as [q|] eqn:E; [|reflexivity]. apply IH; [now apply (look_lt p a)|assumption].
Qed.
Lemma prefix_spec : forall w p, p < n -> Forall int w -> g_prefix_from g (mf p) w = match walk A p w with Some _ => true | None => false end.
Proof.
  induction w as [|a w IH]; intros p Hp F; cbn [g_prefix_from walk]; [reflexivity|].
  inversion F; subst. rewrite delta_spec by assumption. destruct (look (a_arcs A p) a) as [q|] eqn:E; [|reflexivity]. apply IH; [now apply (look_lt p a)|assumption].
Qed.
Lemma end_spec p : p < n -> g_is_end g (mf p) = v_is_end f p.
Proof. intros Hp. destruct La as (_ & _ & L). destruct (L p Hp) as (? & _ & E & _). exact E. Qed.
Lemma hash_spec : forall w p idx k, p < n -> nth_error (words_of f p) k = Some w -> (0 <= idx)%Z ->
  (idx + Z.of_nat (cnt p) - Z.of_nat (eb p) < 2 ^ 31)%Z ->
  g_hash_from g idx (mf p) w = (idx + Z.of_nat k + 1 - Z.of_nat (eb p))%Z.
Proof.
  induction w as [|a v IH]; intros p idx k Hp Hk Hi Hb; cbn [g_hash_from].
  - destruct (word_at f HC HA p k [] Hp Hk) as [(_ & -> & Hend)|(? & ? & ? & ? & ? & K & _)]; [|discriminate].
    rewrite end_spec, Hend by assumption. unfold L_HashFsa.eb. rewrite Hend. lia.
  - destruct (word_at f HC HA p k (a :: v) Hp Hk) as [(K & _)|(a' & v' & i & q & k' & E & Ei & Ek & Ekk)]; [discriminate|].
    injection E as <- <-. destruct (find_hit p i a q Hp Ei) as (j & -> & -> & _). cbn [x_wt x_dest].
    assert (Hqs : q < n) by (apply (HC p (a, q) Hp); now apply nth_error_In in Ei). rewrite end_spec by assumption. change (v_arcs f p) with (a_arcs A p) in *.
    pose proof (split_total f H0 _ _ _ Ei) as St. cbn [snd] in St.
    pose proof (firstn_total f H0 (a_arcs A p) (S i) (length (a_arcs A p))) as Lt. rewrite firstn_all in Lt.
    assert (Li : i < length (a_arcs A p)) by (apply nth_error_Some; rewrite Ei; discriminate). specialize (Lt Li).
    pose proof (cnt_eq f HC HA p Hp) as Ecp. change (v_arcs f p) with (a_arcs A p) in Ecp. pose proof (cnt_eq f HC HA q Hqs) as Ecq.
    assert (Lk : k' < cnt q) by (unfold L_HashFsa.cnt; apply nth_error_Some; rewrite Ek; discriminate).
    rewrite (small_s32 (idx + Z.of_nat (total (firstn i (a_arcs A p))))) by lia.
    assert (Eb : (if v_is_end f q then s32 (idx + Z.of_nat (total (firstn i (a_arcs A p))) + 1) else idx + Z.of_nat (total (firstn i (a_arcs A p))))%Z
      = (idx + Z.of_nat (total (firstn i (a_arcs A p))) + Z.of_nat (eb q))%Z).
    { unfold L_HashFsa.eb in *. destruct (v_is_end f q); [rewrite small_s32 by lia; reflexivity|lia]. }
    rewrite Eb, (IH q _ k' Hqs Ek); lia.
Qed.
Lemma hash_foreign : forall w p idx, p < n -> Forall int w -> acc A p w = false -> g_hash_from g idx (mf p) w = (-1)%Z.
Proof.
  induction w as [|a w IH]; intros p idx Hp F H; unfold acc in H; cbn [walk] in H; cbn [g_hash_from].
  - rewrite end_spec by assumption. cbn [aview v_is_end]. now rewrite H.
  - inversion F; subst. destruct (look (a_arcs A p) a) as [q|] eqn:E.
    + pose proof (look_lt p a q Hp E) as Hq. apply look_in, In_nth_error in E as (i & E). destruct (find_hit p i a q Hp E) as (k & -> & -> & _). cbn [x_dest]. now apply IH.
    + rewrite find_miss; [reflexivity|assumption..|]. intros q K. rewrite (look_some _ a q (rows_inc A HI p) K) in E. discriminate.
Qed.
(** The arc with a number. *)
Lemma find_num_hit p i a q v : p < n -> nth_error (a_arcs A p) i = Some (a, q) -> (Z.of_nat (total (firstn i (a_arcs A p))) < v < 2 ^ 31)%Z ->
  (S i = length (a_arcs A p) \/ v <= Z.of_nat (total (firstn (S i) (a_arcs A p))))%Z ->
  exists k, g_find_num g (mf p) v = Some k /\ g_arc g k = Warc a (mf q) (Z.of_nat (total (firstn i (a_arcs A p)))).
Proof.
  intros Hp Hi Hv Hn. destruct La as (_ & _ & L). destruct (L p Hp) as (off & Er & _ & Harc). exists (off + i). split; [|now apply Harc].
  assert (Li : i < length (a_arcs A p)) by (apply nth_error_Some; rewrite Hi; discriminate).
  assert (W : forall j, j < length (a_arcs A p) -> x_wt (g_arc g (off + j)) = Z.of_nat (total (firstn j (a_arcs A p)))).
  { intros j Hj. destruct (nth_some p j Hj) as (b & r & E). now rewrite (Harc _ _ _ E). }
  assert (Mono : forall j k, j <= k -> k < length (a_arcs A p) -> (x_wt (g_arc g (off + j)) <= x_wt (g_arc g (off + k)))%Z).
  { intros j k Hjk Hk. rewrite !W by lia. pose proof (firstn_total f H0 (a_arcs A p) j k Hjk). lia. }
  assert (H1 : (x_wt (g_arc g (off + i)) < v)%Z) by (rewrite W by assumption; lia).
  assert (H2 : S i = length (a_arcs A p) \/ (S i < length (a_arcs A p) /\ (v <= x_wt (g_arc g (off + S i)))%Z)).
  { destruct (Nat.eq_dec (S i) (length (a_arcs A p))) as [E|E]; [now left|right]. split; [lia|]. rewrite W by lia. destruct Hn as [Hn|Hn]; [contradiction|assumption]. }
  unfold g_find_num. rewrite Er. replace (off + length (a_arcs A p) - off) with (length (a_arcs A p)) by lia. rewrite u32_small by lia.
  destruct (10 <? length (a_arcs A p)).
  - apply (binsearch_num_hit g off (length (a_arcs A p)) v Mono i Li H1 H2); lia.
  - pose proof (linsearch_num_hit g off (length (a_arcs A p)) v Mono i Li H1 H2 (length (a_arcs A p)) 0) as K. rewrite Nat.add_0_r in K. apply K; lia.
Qed.
Lemma cnt_small p : p < n -> small31 (cnt p).
Proof. intros Hp. unfold small31 in *. pose proof (reach_cnt f HC HA 0 p (HR p Hp) H0). lia. Qed.
Lemma unhash_spec : forall m w p k u, p < n -> nth_error (words_of f p) k = Some w -> ~ goes f m p ->
  g_unhash_from m g (Z.of_nat k + 1 - Z.of_nat (eb p)) (mf p) u = Some (u ++ w).
Proof.
  induction m as [|m IH]; intros w p k u Hp Hk Hg; [exfalso; now apply Hg|]. pose proof (cnt_small p Hp) as Sp.
  destruct (word_at f HC HA p k w Hp Hk) as [(-> & -> & Hend)|(a & v & i & q & k' & -> & Ei & Ek & Ekk)].
  - unfold L_HashFsa.eb. rewrite Hend. cbn. now rewrite app_nil_r.
  - assert (Hqs : q < n) by (apply (HC p (a, q) Hp); now apply nth_error_In in Ei). change (v_arcs f p) with (a_arcs A p) in *.
    assert (Li : i < length (a_arcs A p)) by (apply nth_error_Some; rewrite Ei; discriminate).
    pose proof (split_total f H0 _ _ _ Ei) as St. cbn [snd] in St.
    pose proof (firstn_total f H0 (a_arcs A p) (S i) (length (a_arcs A p)) Li) as Lt. rewrite firstn_all in Lt.
    pose proof (cnt_eq f HC HA p Hp) as Ecp. change (v_arcs f p) with (a_arcs A p) in Ecp. pose proof (cnt_eq f HC HA q Hqs) as Ecq.
    assert (Lk : k' < cnt q) by (unfold L_HashFsa.cnt; apply nth_error_Some; rewrite Ek; discriminate).
    set (T := total (firstn i (a_arcs A p))) in *. unfold small31 in Sp.
    assert (Ev : (Z.of_nat k + 1 - Z.of_nat (eb p))%Z = Z.of_nat (T + k' + 1)) by lia. rewrite Ev. cbn [g_unhash_from].
    destruct (Z.leb_spec (Z.of_nat (T + k' + 1)) 0); [lia|].
    destruct (find_num_hit p i a q (Z.of_nat (T + k' + 1)) Hp Ei) as (j & -> & ->); [fold T; lia|right; lia|]. cbn [x_dest x_wt x_sym]. fold T. rewrite end_spec by assumption.
    rewrite (small_s32 (Z.of_nat (T + k' + 1) - Z.of_nat T)) by lia.
    assert (Eb : (if v_is_end f q then s32 (Z.of_nat (T + k' + 1) - Z.of_nat T - 1) else Z.of_nat (T + k' + 1) - Z.of_nat T)%Z = (Z.of_nat k' + 1 - Z.of_nat (eb q))%Z).
    { unfold L_HashFsa.eb. destruct (v_is_end f q); [rewrite small_s32 by lia; lia|lia]. }
    rewrite Eb, (IH v q k' _ Hqs Ek); [now rewrite <- app_assoc|]. apply (goes_step f m p (a, q) Hg). cbn. now apply nth_error_In in Ei.
Qed.
Lemma unhash_beyond : forall m p v u, p < n -> ~ goes f m p -> (Z.of_nat (cnt p) - Z.of_nat (eb p) < v < 2 ^ 31)%Z -> g_unhash_from m g v (mf p) u = Some [].
Proof.
  induction m as [|m IH]; intros p v u Hp Hg Hv; [exfalso; now apply Hg|]. pose proof (cnt_eq f HC HA p Hp) as Ecp. change (v_arcs f p) with (a_arcs A p) in Ecp.
  cbn [g_unhash_from]. destruct (Z.leb_spec v 0); [lia|].
  destruct (Nat.eq_dec (length (a_arcs A p)) 0) as [E|E].
  - destruct La as (_ & _ & L). destruct (L p Hp) as (off & Er & _ & _). unfold g_find_num. rewrite Er, E, Nat.add_0_r, Nat.sub_diag. reflexivity.
  - destruct (nth_some p (length (a_arcs A p) - 1) ltac:(lia)) as (a & q & Ei).
    assert (Hqs : q < n) by (apply (HC p (a, q) Hp); now apply nth_error_In in Ei).
    pose proof (split_total f H0 _ _ _ Ei) as St. cbn [snd] in St. replace (S (length (a_arcs A p) - 1)) with (length (a_arcs A p)) in St by lia. rewrite firstn_all in St.
    set (T := total (firstn (length (a_arcs A p) - 1) (a_arcs A p))) in *. pose proof (cnt_eq f HC HA q Hqs) as Ecq.
    destruct (find_num_hit p (length (a_arcs A p) - 1) a q v Hp Ei) as (j & -> & ->); [fold T; lia|left; lia|]. cbn [x_dest x_wt x_sym]. fold T. rewrite end_spec by assumption.
    rewrite (small_s32 (v - Z.of_nat T)) by lia. apply IH; [assumption|apply (goes_step f m p (a, q) Hg); cbn; now apply nth_error_In in Ei|].
    unfold L_HashFsa.eb in *. destruct (v_is_end f q); [rewrite small_s32 by lia|]; lia.
Qed.
End Find.

(** C22, C23, C45: the compressed integer vector, the string vector and the
    key-value store refine plain lists and maps. *)
From Coq Require Import List NArith Arith Bool Lia Permutation.
From Verif Require Import M_Lexica L_Lexica.
Import ListNotations.

(** ** C22 *)
(** The vector after push_back of the values [xs] in order. *)
Definition mv_of (W M : N) (s : nat) (xs : list N) : mvec :=
  fold_left (mv_push_back W M s) xs mv_empty.

Theorem C22_monotonic_vector : forall (W M : N) (s : nat) (xs : list N),
  (M < W)%N -> 1 <= s -> (forall x, In x xs -> (x < W)%N) ->
  mv_size (mv_of W M s xs) = length xs /\
  forall i, i < length xs -> nth_error xs i = Some (mv_at W M s (mv_of W M s xs) i).
Proof.
  intros W M s xs HM Hs Hx.
  assert (H : rep W M s (mv_of W M s xs) xs).
  { change xs with ([] ++ xs) at 2. apply rep_pushes; auto using rep_empty.
    rewrite Forall_forall. assumption. }
  split; [eapply rep_size; eassumption|].
  intros i Hi. rewrite (rep_at W M s HM Hs _ _ i H Hi).
  apply nth_error_nth'. assumption.
Qed.
Print Assumptions C22_monotonic_vector.

(** The instance used by StringVector, with differences that do and do not fit in
    the 16-bit field, and a decreasing step. *)
Example C22_witness :
  let xs := [5; 5; 70545; 136081; 7; 4294967295; 0; 65535; 131070; 1; 2; 3; 4; 5; 6; 7; 8; 9; 10; 11; 12; 99999; 500000]%N in
  let v := mv_of W32 USHRT_MAX 20 xs in
  map (mv_at W32 USHRT_MAX 20 v) (seq 0 23) = xs /\ length (mv_rests v) = 7 /\ length (mv_anchors v) = 2.
Proof. vm_compute. repeat split. Qed.

(** The differences of a non-decreasing vector whose steps fit in LenT take one
    short entry each: no entry of m_rests is made. *)
Theorem C22_small_steps_need_no_rests : forall (W M : N) (s : nat) (xs : list N),
  (M < W)%N -> 1 <= s -> (forall x, In x xs -> (x < W)%N) ->
  (forall i, S i < length xs -> (nth i xs 0 <= nth (S i) xs 0 <= nth i xs 0 + M)%N) ->
  mv_rests (mv_of W M s xs) = [].
Proof.
  intros W M s xs HM Hs. induction xs as [|x xs IH] using rev_ind; intros Hx Hst; [reflexivity|].
  assert (H : rep W M s (mv_of W M s xs) xs).
  { change xs with ([] ++ xs) at 2. apply rep_pushes; auto using rep_empty.
    rewrite Forall_forall. intros; apply Hx; apply in_or_app; auto. }
  assert (IH' : mv_rests (mv_of W M s xs) = []).
  { apply IH; [intros; apply Hx; apply in_or_app; auto|].
    intros i Hi. specialize (Hst i). rewrite !app_nth1, app_length in Hst by lia. apply Hst. lia. }
  unfold mv_of in *. rewrite fold_left_app. cbn [fold_left]. unfold mv_push_back at 1.
  rewrite (rep_size _ _ _ _ _ H).
  destruct (Nat.eqb_spec (length xs mod s) 0); [assumption|].
  assert (length xs <> 0) by (intro E; rewrite E, Nat.mod_0_l in *; lia).
  unfold mv_back. rewrite (rep_size _ _ _ _ _ H), (rep_at W M s HM Hs _ _ _ H) by lia.
  specialize (Hst (length xs - 1)). rewrite app_length in Hst. cbn [length] in Hst.
  replace (S (length xs - 1)) with (length xs) in Hst by lia.
  rewrite app_nth1, app_nth2, Nat.sub_diag in Hst by lia. cbn [nth] in Hst.
  specialize (Hst ltac:(lia)).
  assert (x < W)%N by (apply Hx; apply in_or_app; right; left; reflexivity).
  set (l := nth (length xs - 1) xs 0%N) in *.
  replace (x + W - l)%N with ((x - l) + 1 * W)%N by lia.
  rewrite N.mod_add, N.mod_small by lia.
  destruct (N.leb_spec (x - l) M); [assumption|lia].
Qed.
Print Assumptions C22_small_steps_need_no_rests.
Example C22_small_witness :
  mv_rests (mv_of W32 USHRT_MAX 20 [0; 0; 65535; 65536]%N) = [].
Proof. vm_compute. reflexivity. Qed.

(** ** C23 *)
Definition sv_of (ss : list (list N)) : svec := fold_left sv_push_back ss sv_empty.

(** Total length of the strings. *)
Definition total (ss : list (list N)) : N :=
  fold_right (fun x n => N.of_nat (length x) + n)%N 0%N ss.

Lemma total_fits : forall ss, (total ss < W32)%N -> fits ss.
Proof.
  intros ss H. unfold fits. replace (N.of_nat (length (concat ss))) with (total ss); [assumption|].
  clear H. induction ss as [|x ss IH]; cbn [total fold_right concat]; [reflexivity|]. rewrite app_length. unfold total in IH. rewrite IH. lia.
Qed.

Lemma sv_of_rep : forall ss, (total ss < W32)%N -> svrep (sv_of ss) ss.
Proof.
  intros ss H. change ss with ([] ++ ss) at 2. apply svrep_pushes; [apply svrep_empty|].
  apply total_fits. assumption.
Qed.

Theorem C23_at : forall ss, (total ss < 2 ^ 32)%N ->
  sv_size (sv_of ss) = length ss /\
  forall i, i < length ss -> nth_error ss i = Some (sv_at (sv_of ss) i).
Proof.
  intros ss H. pose proof (sv_of_rep ss H) as R.
  split; [apply svrep_size; assumption|]. intros i Hi.
  rewrite (svrep_at _ _ _ R (total_fits _ H) Hi). apply nth_error_nth'. assumption.
Qed.
Print Assumptions C23_at.

Example C23_at_witness :
  map (sv_at (sv_of [[97; 98]; []; [99]; [200; 7]; []])%N) (seq 0 5)
  = [[97; 98]; []; [99]; [200; 7]; []]%N.
Proof. vm_compute. reflexivity. Qed.

(** Byte-wise lexicographical order, as an independent relation. *)
Inductive bytes_lt : list N -> list N -> Prop :=
| bl_prefix : forall y b, bytes_lt [] (y :: b)
| bl_head : forall x y a b, (x < y)%N -> bytes_lt (x :: a) (y :: b)
| bl_tail : forall x a b, bytes_lt a b -> bytes_lt (x :: a) (x :: b).

Lemma lex_lt_bytes : forall a b, lex_lt a b = true <-> bytes_lt a b.
Proof.
  induction a as [|x a IH]; intros [|y b]; cbn; split; intro H; try discriminate; try (inversion H; fail); auto.
  - constructor.
  - destruct (N.ltb_spec x y); [constructor; assumption|].
    destruct (N.ltb_spec y x); [discriminate|].
    replace y with x by lia. apply bl_tail. apply IH. assumption.
  - inversion H; subst.
    + destruct (N.ltb_spec x y); [reflexivity|lia].
    + rewrite N.ltb_irrefl. apply IH. assumption.
Qed.

(** For strings pushed in strictly increasing order, find returns the index of a
    stored string; for an absent string it returns the insertion point, which is
    size() only if the string is above all the stored ones. *)
Theorem C23_find_sorted : forall ss str, (total ss < 2 ^ 32)%N ->
  (forall i, S i < length ss -> bytes_lt (nth i ss []) (nth (S i) ss [])) ->
  (forall i, i < length ss -> nth i ss [] = str -> sv_find (sv_of ss) str = i) /\
  (~ In str ss ->
     sv_find (sv_of ss) str = length (filter (fun x => lex_lt x str) ss) /\
     (forall i, i < sv_find (sv_of ss) str -> bytes_lt (nth i ss []) str) /\
     (sv_find (sv_of ss) str < length ss -> bytes_lt str (nth (sv_find (sv_of ss) str) ss []))).
Proof.
  intros ss str H Hinc. pose proof (sv_of_rep ss H) as R.
  assert (Hi : increasing ss).
  { clear H R. induction ss as [|x ss IH]; [exact I|]. split.
    - destruct ss as [|y ss]; [trivial|]. apply lex_lt_bytes. apply (Hinc 0). cbn. lia.
    - apply IH. intros i Hi'. apply (Hinc (S i)). cbn in *. lia. }
  unfold sv_find. rewrite (proj2 (svr_sorted _ _ R) Hi), (svrep_size _ _ R).
  set (p := fun i => negb (lex_lt (sv_at (sv_of ss) i) str)).
  destruct (first_index_spec p (length ss) 0) as (H1 & H2 & H3).
  set (f := first_index p 0 (length ss)) in *.
  assert (Hat : forall i, i < length ss -> sv_at (sv_of ss) i = nth i ss []).
  { intros. apply svrep_at; auto using total_fits. }
  assert (Hbelow : forall i, i < f -> lex_lt (nth i ss []) str = true).
  { intros i Hi'. specialize (H2 i ltac:(lia)). unfold p in H2. rewrite Hat in H2 by lia.
    destruct (lex_lt (nth i ss []) str); [reflexivity|discriminate]. }
  split.
  - intros i Hlt E.
    destruct (Nat.lt_trichotomy f i) as [L|[E'|L]]; [|assumption|].
    + specialize (H3 ltac:(lia)). unfold p in H3. rewrite Hat in H3 by lia.
      pose proof (increasing_lt ss f i Hi ltac:(lia)) as Hl. rewrite E in Hl. rewrite Hl in H3. discriminate.
    + specialize (Hbelow i L). rewrite E, lex_lt_irrefl in Hbelow. discriminate.
  - intros Hni.
    assert (Habove : forall i, f <= i < length ss -> lex_lt (nth i ss []) str = false /\ lex_lt str (nth i ss []) = true).
    { intros i Hr. specialize (H3 ltac:(lia)). unfold p in H3. rewrite Hat in H3 by lia.
      destruct (lex_lt (nth f ss []) str) eqn:E1; [discriminate|].
      assert (E2 : lex_lt str (nth f ss []) = true).
      { destruct (lex_lt str (nth f ss [])) eqn:E2; [reflexivity|].
        exfalso. apply Hni. rewrite <- (lex_total _ _ E1 E2). apply nth_In. lia. }
      assert (E3 : lex_lt str (nth i ss []) = true).
      { destruct (Nat.eq_dec i f) as [->|Hne]; [assumption|].
        eapply lex_lt_trans; [eassumption|]. apply increasing_lt; [assumption|lia]. }
      split; [|assumption].
      destruct (lex_lt (nth i ss []) str) eqn:E4; [|reflexivity].
      pose proof (lex_lt_trans _ _ _ E3 E4) as E5. rewrite lex_lt_irrefl in E5. discriminate. }
    split; [|split].
    + assert (Hsplit : filter (fun x => lex_lt x str) ss = firstn f ss).
      { assert (Hfl : f <= length ss) by lia. clear - Hbelow Habove Hfl.
        clearbody f. revert f Hfl Hbelow Habove. induction ss as [|x ss IH]; intros f Hfl Hb Ha; cbn.
        - destruct f; reflexivity.
        - destruct f as [|f].
          + destruct (Ha 0) as [E0 _]; [cbn; lia|]. cbn [nth] in E0. rewrite E0.
            rewrite IH with (f := 0); [reflexivity|lia|intros; lia|].
            intros i Hi. apply (Ha (S i)). cbn. lia.
          + pose proof (Hb 0 ltac:(lia)) as E0. cbn [nth] in E0. rewrite E0. cbn [firstn]. f_equal. apply IH; [cbn in Hfl; lia| |].
            * intros i Hi. apply (Hb (S i)). lia.
            * intros i Hi. apply (Ha (S i)). cbn. lia. }
      rewrite Hsplit, firstn_length. lia.
    + intros i Hi'. apply lex_lt_bytes. apply Hbelow. assumption.
    + intro Hl. apply lex_lt_bytes. apply Habove. lia.
Qed.
Print Assumptions C23_find_sorted.

Example C23_find_sorted_witness :
  let v := sv_of [[97]; [97; 200]; [98]]%N in
  sv_find v [97; 200]%N = 1 /\ sv_find v [97; 98]%N = 1 /\ sv_find v [99]%N = 3.
Proof. vm_compute. repeat split. Qed.

(** For strings pushed in another order, find returns the first index of an ASCII
    string, and size() for an absent one. *)
Theorem C23_find_unsorted : forall ss str, (total ss < 2 ^ 32)%N ->
  (exists i, S i < length ss /\ ~ bytes_lt (nth i ss []) (nth (S i) ss [])) ->
  (forall c, In c str -> (c < 128)%N) ->
  (In str ss -> nth_error ss (sv_find (sv_of ss) str) = Some str /\
                forall i, i < sv_find (sv_of ss) str -> nth_error ss i <> Some str) /\
  (~ In str ss -> sv_find (sv_of ss) str = length ss).
Proof.
  intros ss str H (i0 & Hi0 & Hnl) Hasc. pose proof (sv_of_rep ss H) as R.
  assert (Hns : sv_sorted (sv_of ss) = false).
  { destruct (sv_sorted (sv_of ss)) eqn:E; [|reflexivity]. exfalso. apply Hnl, lex_lt_bytes.
    apply increasing_lt; [apply (svr_sorted _ _ R); assumption|lia]. }
  assert (Heq : forall r, range_eq r str = true <-> r = str).
  { clear - Hasc. induction str as [|y str IH]; intros [|x r]; cbn; split; intro E; try discriminate; auto.
    - apply andb_true_iff in E. destruct E as [E E2]. apply andb_true_iff in E. destruct E as [E _].
      apply N.eqb_eq in E. subst. f_equal. apply IH; [intros; apply Hasc; right; assumption|assumption].
    - inversion E; subst. rewrite N.eqb_refl. cbn.
      destruct (N.ltb_spec y 128) as [|Hge]; [|specialize (Hasc y (or_introl eq_refl)); lia]. cbn.
      apply IH; [intros; apply Hasc; right; assumption|reflexivity]. }
  unfold sv_find. rewrite Hns, (svrep_size _ _ R).
  set (p := fun i => range_eq (sv_at (sv_of ss) i) str).
  destruct (first_index_spec p (length ss) 0) as (H1 & H2 & H3).
  set (f := first_index p 0 (length ss)) in *.
  assert (Hat : forall i, i < length ss -> sv_at (sv_of ss) i = nth i ss []).
  { intros. apply svrep_at; auto using total_fits. }
  assert (Hbelow : forall i, i < f -> nth i ss [] <> str).
  { intros i Hi' E. specialize (H2 i ltac:(lia)). unfold p in H2. rewrite Hat in H2 by lia.
    apply Heq in E. congruence. }
  split.
  - intro Hin. apply (In_nth _ _ []) in Hin. destruct Hin as (k & Hk & E).
    assert (f <= k). { destruct (Nat.le_gt_cases f k); [assumption|]. exfalso. eapply Hbelow; eassumption. }
    split.
    + specialize (H3 ltac:(lia)). unfold p in H3. rewrite Hat in H3 by lia. apply Heq in H3.
      transitivity (Some (nth f ss [])); [apply nth_error_nth'; lia|f_equal; assumption].
    + intros i Hi E'. apply (Hbelow i Hi). erewrite nth_error_nth; [reflexivity|assumption].
  - intro Hni. destruct (Nat.eq_dec f (length ss)) as [E|Hne]; [assumption|].
    exfalso. apply Hni. specialize (H3 ltac:(lia)). unfold p in H3. rewrite Hat in H3 by lia. apply Heq in H3.
    rewrite <- H3. apply nth_In. lia.
Qed.
Print Assumptions C23_find_unsorted.

Example C23_find_unsorted_witness :
  let v := sv_of [[98]; [97]; [98]]%N in sv_find v [97]%N = 1 /\ sv_find v [98]%N = 0 /\ sv_find v [99]%N = 3.
Proof. vm_compute. repeat split. Qed.

(** In an unsorted vector a stored string with a byte above 127 is not found,
    because unsigned char elements are compared with signed char ones. *)
Theorem C23_find_unsorted_non_ascii_refuted :
  exists ss str, In str ss /\ (total ss < 2 ^ 32)%N /\ sv_find (sv_of ss) str = length ss.
Proof. exists [[197; 130]; [97]]%N, [197; 130]%N. vm_compute. repeat split; auto. Qed.
Print Assumptions C23_find_unsorted_non_ascii_refuted.

(** In a sorted vector find of an absent string can be a valid index. *)
Theorem C23_find_absent_refuted :
  exists ss str, ~ In str ss /\ (total ss < 2 ^ 32)%N /\ sv_find (sv_of ss) str < length ss.
Proof.
  exists [[98]]%N, [97]%N. split; [intros [E|[]]; discriminate|]. vm_compute. split; reflexivity.
Qed.
Print Assumptions C23_find_absent_refuted.

(** ** C45 *)
(** The keys as C strings. *)
Definition ckeys (pairs : list (list N * list N)) : list (list N) := map (fun p => cstr (fst p)) pairs.

Lemma cstr_no_zero : forall k, (forall c, In c k -> c <> 0%N) -> cstr k = k.
Proof.
  induction k as [|c k IH]; intro H; [reflexivity|]. cbn.
  destruct (N.eqb_spec c 0) as [->|]; [exfalso; apply (H 0%N); [left|]; reflexivity|].
  f_equal. apply IH. intros; apply H; right; assumption.
Qed.

Lemma fold_push_map : forall (f : nat -> list N) is v,
  fold_left (fun sv i => sv_push_back sv (f i)) is v = fold_left sv_push_back (map f is) v.
Proof. intros f is. induction is as [|i is IH]; intro v; cbn; [reflexivity|apply IH]. Qed.

(** [perfect_on search ks]: what is assumed of the external hash library for the
    key list it was given: values in range, no collisions. *)
Definition perfect_on (search : list N -> nat) (ks : list (list N)) : Prop :=
  (forall k, In k ks -> search k < length ks) /\
  (forall k k', In k ks -> In k' ks -> search k = search k' -> k = k').

(** Permuting strings does not change the total length. *)
Lemma total_app : forall a b, total (a ++ b) = (total a + total b)%N.
Proof. unfold total. induction a as [|x a IH]; intros; cbn; [reflexivity|]. rewrite IH. lia. Qed.

Lemma total_perm : forall a b, Permutation a b -> total a = total b.
Proof. unfold total. intros a b P. induction P; cbn; lia. Qed.

Lemma nth_map_seq : forall (A : Type) (f : nat -> A) n i d, i < n -> nth i (map f (seq 0 n)) d = f i.
Proof.
  intros A f n i d Hi. rewrite (nth_indep _ d (f 0)) by (rewrite map_length, seq_length; assumption).
  rewrite map_nth, seq_nth by assumption. reflexivity.
Qed.

Lemma kvs_build_facts : forall search fprint pairs,
  NoDup (ckeys pairs) -> perfect_on search (ckeys pairs) ->
  (total (map snd pairs) < 2 ^ 32)%N ->
  exists st, kvs_build search fprint pairs = Some st /\
    length (kvs_fprints st) = length pairs /\
    forall i, i < length pairs ->
      let k := nth i (ckeys pairs) [] in
      get_hash search fprint (kvs_fprints st) k = search k /\ search k < length pairs /\
      sv_at (kvs_values st) (search k) = nth i (map snd pairs) [].
Proof.
  intros search fprint pairs Hnd [Hb Hinj] Htot.
  set (keys := ckeys pairs) in *. set (vals := map snd pairs) in *.
  assert (Hlk : length keys = length pairs) by apply map_length.
  assert (Hlv : length vals = length pairs) by apply map_length.
  assert (Hp : perfect search keys).
  { intros i j Hi Hj. split; [apply Hb, nth_In; assumption|]. intro E.
    apply Hinj in E; try (apply nth_In; assumption).
    apply (NoDup_nth keys []); assumption. }
  pose proof (perfect_length search fprint keys Hp) as Hlen.
  unfold kvs_build. fold keys vals.
  change (map (fun p => cstr (fst p)) pairs) with keys.
  rewrite Hlen, Nat.ltb_irrefl.
  eexists. split; [reflexivity|]. cbn [kvs_fprints kvs_values]. rewrite Hlen, Hlk. split; [reflexivity|].
  set (n := length pairs) in *.
  set (f := fun i => get_hash search fprint (calc_fprints search fprint keys) (nth i keys [])).
  assert (Hf : forall i, i < n -> f i = search (nth i keys [])).
  { intros i Hi. unfold f. apply perfect_get_hash; [assumption|apply nth_In; lia]. }
  assert (Hfb : forall i, In i (seq 0 n) -> f i < n).
  { intros i Hin. apply in_seq in Hin. rewrite Hf by lia. rewrite <- Hlk. apply Hb, nth_In. lia. }
  assert (Hfn : NoDup (map f (seq 0 n))).
  { apply (NoDup_nth _ (f 0)). intros i j Hi Hj E. rewrite map_length, seq_length in *.
    rewrite !map_nth, !seq_nth in E by assumption. cbn in E. rewrite !Hf in E by assumption.
    apply Hp; (lia || assumption). }
  pose proof (table_facts f n (seq 0 n) (repeat 0 n) Hfb Hfn (repeat_length _ _)) as (T1 & T2 & _).
  set (table := fold_left (fun t i => set_nth (f i) i t) (seq 0 n) (repeat 0 n)) in *.
  change (fold_left _ (seq 0 n) (repeat 0 n)) with table.
  pose proof (sv_of_rep vals Htot) as Rv.
  rewrite (fold_push_map (fun i => sv_at (fold_left sv_push_back vals sv_empty) (nth i table 0))).
  set (out := map (fun i => sv_at (fold_left sv_push_back vals sv_empty) (nth i table 0)) (seq 0 n)).
  (* the table is a permutation of the indices *)
  assert (Hinv : forall m, m < n -> exists i, i < n /\ f i = m).
  { intros m Hm.
    assert (Hincl : incl (seq 0 n) (map f (seq 0 n))).
    { apply NoDup_length_incl; [assumption|rewrite map_length; lia|].
      intros x Hx. apply in_map_iff in Hx. destruct Hx as (i & <- & Hi). apply in_seq.
      specialize (Hfb i Hi). lia. }
    specialize (Hincl m ltac:(apply in_seq; lia)). apply in_map_iff in Hincl.
    destruct Hincl as (i & E & Hi). exists i. apply in_seq in Hi. split; [lia|assumption]. }
  assert (Hout : out = map (fun m => nth (nth m table 0) vals []) (seq 0 n)).
  { apply map_ext_in. intros m Hm. apply in_seq in Hm. destruct (Hinv m ltac:(lia)) as (i & Hi & <-).
    rewrite T2 by (apply in_seq; lia).
    apply (svrep_at (sv_of vals) vals); [assumption|apply total_fits; assumption|lia]. }
  assert (Hperm : Permutation (map f (seq 0 n)) (seq 0 n)).
  { apply NoDup_Permutation_bis; [assumption|rewrite map_length; lia|].
    intros x Hx. apply in_map_iff in Hx. destruct Hx as (i & <- & Hi). apply in_seq.
    specialize (Hfb i Hi). lia. }
  assert (Htotal : total out = total vals).
  { apply total_perm. rewrite Hout.
    transitivity (map (fun m => nth (nth m table 0) vals []) (map f (seq 0 n))).
    - apply Permutation_map. symmetry. assumption.
    - rewrite map_map.
      replace (map (fun x => nth (nth (f x) table 0) vals []) (seq 0 n)) with vals; [reflexivity|].
      rewrite <- Hlv. transitivity (map (fun i => nth i vals []) (seq 0 (length vals))).
      + clear. apply (nth_ext _ _ [] []); [rewrite map_length, seq_length; reflexivity|].
        intros i Hi. rewrite nth_map_seq by assumption. reflexivity.
      + apply map_ext_in. intros i Hi. rewrite Hlv in Hi. rewrite T2 by assumption. reflexivity. }
  assert (Hlo : length out = n) by (unfold out; rewrite map_length, seq_length; reflexivity).
  assert (Ro : svrep (sv_of out) out).
  { apply sv_of_rep. rewrite Htotal. assumption. }
  intros i Hi. cbn zeta. split; [|split].
  - apply Hf. assumption.
  - rewrite <- Hlk. apply Hb, nth_In. lia.
  - rewrite <- Hf by assumption.
    assert (Hfi : f i < n) by (apply Hfb; apply in_seq; lia).
    change (fold_left sv_push_back out sv_empty) with (sv_of out).
    rewrite (svrep_at _ _ _ Ro) by (try (apply total_fits; rewrite Htotal; assumption); lia).
    rewrite Hout, nth_map_seq by assumption.
    rewrite T2 by (apply in_seq; lia). reflexivity.
Qed.

Theorem C45_get_added : forall search fprint pairs,
  NoDup (ckeys pairs) -> perfect_on search (ckeys pairs) ->
  (total (map snd pairs) < 2 ^ 32)%N ->
  exists st, kvs_build search fprint pairs = Some st /\
    forall k v, In (k, v) pairs -> kvs_get search fprint st k = Some v.
Proof.
  intros search fprint pairs Hnd Hp Ht.
  destruct (kvs_build_facts search fprint pairs Hnd Hp Ht) as (st & Hst & Hl & H).
  exists st. split; [assumption|]. intros k v Hin.
  apply (In_nth _ _ ([], [])) in Hin. destruct Hin as (i & Hi & E).
  specialize (H i Hi). cbn zeta in H.
  assert (Ek : nth i (ckeys pairs) [] = cstr k).
  { unfold ckeys. rewrite (nth_indep _ [] (cstr (fst ([] : list N, [] : list N)))) by (rewrite map_length; assumption).
    rewrite (map_nth (fun p => cstr (fst p))), E. reflexivity. }
  assert (Ev : nth i (map snd pairs) [] = v).
  { change [] with (snd ([] : list N, [] : list N)) at 1. rewrite map_nth, E. reflexivity. }
  rewrite Ek, Ev in H. destruct H as (H1 & H2 & H3).
  unfold kvs_get. rewrite H1, Hl.
  destruct (Nat.eqb_spec (search (cstr k)) (length pairs)); [lia|]. congruence.
Qed.
Print Assumptions C45_get_added.

(** A key that was not added is not found unless its fingerprint collides with the
    stored fingerprint of the key with the same hash. *)
Theorem C45_get_absent : forall search fprint pairs st,
  NoDup (ckeys pairs) -> perfect_on search (ckeys pairs) ->
  (total (map snd pairs) < 2 ^ 32)%N ->
  kvs_build search fprint pairs = Some st ->
  forall k,
    (forall k' v', In (k', v') pairs -> search (cstr k') = search (cstr k) ->
                   fprint (cstr k') <> fprint (cstr k)) ->
    kvs_get search fprint st k = None.
Proof.
  intros search fprint pairs st Hnd Hp Ht Hst k Hno.
  assert (Hfp : kvs_fprints st = calc_fprints search fprint (ckeys pairs)).
  { unfold kvs_build in Hst. cbn zeta in Hst.
    match type of Hst with (if ?c then _ else _) = _ => destruct c; [discriminate|] end.
    inversion Hst. reflexivity. }
  destruct Hp as [Hb Hinj].
  assert (Hp' : perfect search (ckeys pairs)).
  { intros i j Hi Hj. split; [apply Hb, nth_In; assumption|]. intro E.
    apply Hinj in E; try (apply nth_In; assumption).
    apply (NoDup_nth (ckeys pairs) []); assumption. }
  pose proof (perfect_length search fprint _ Hp') as Hlen.
  pose proof (perfect_nodup search _ Hp') as Hnds.
  destruct (calc_facts search fprint (ckeys pairs) (length (ckeys pairs)) Hb Hnds) as [_ Hc].
  unfold kvs_get, get_hash. rewrite Hfp.
  destruct (Nat.ltb_spec (search (cstr k)) (length (calc_fprints search fprint (ckeys pairs)))) as [L|L];
    cbn [andb]; [|rewrite Nat.eqb_refl; reflexivity].
  assert (Hex : In (search (cstr k)) (map search (ckeys pairs))).
  { apply (NoDup_length_incl Hnds (l' := seq 0 (length (ckeys pairs)))).
    - rewrite map_length, seq_length. lia.
    - intros x Hx. apply in_map_iff in Hx. destruct Hx as (y & <- & Hy). apply in_seq. specialize (Hb y Hy). lia.
    - apply in_seq. lia. }
  apply in_map_iff in Hex. destruct Hex as (ck & E & Hin).
  destruct (Hc ck Hin) as [_ Hval]. rewrite E in Hval. rewrite Hval.
  unfold ckeys in Hin. apply in_map_iff in Hin. destruct Hin as ([k' v'] & <- & Hin). cbn [fst] in *.
  destruct (N.eqb_spec (fprint (cstr k)) (fprint (cstr k'))) as [Ef|_].
  - exfalso. eapply Hno; [eassumption|assumption|congruence].
  - rewrite Nat.eqb_refl. reflexivity.
Qed.
Print Assumptions C45_get_absent.

(** Three keys with a non-trivial perfect hash. *)
Definition ex_search (k : list N) : nat :=
  match k with c :: _ => N.to_nat ((c + 1) mod 3) | [] => 1 end.
Definition ex_fprint (k : list N) : N := fold_left (fun a c => (a * 31 + c) mod W32)%N k 7%N.
Definition ex_pairs : list (list N * list N) :=
  [([97], [1; 2]); ([98; 5], []); ([99], [255])]%N.
Example C45_witness :
  NoDup (ckeys ex_pairs) /\ perfect_on ex_search (ckeys ex_pairs) /\
  option_map (fun st => map (kvs_get ex_search ex_fprint st) [[97]; [98; 5]; [99]; [98; 6]]%N)
     (kvs_build ex_search ex_fprint ex_pairs)
  = Some [Some [1; 2]; Some []; Some [255]; None]%N.
Proof.
  split; [|split; [split|]].
  - repeat constructor; cbn; intuition discriminate.
  - intros k [<-|[<-|[<-|[]]]]; vm_compute; lia.
  - intros k k' [<-|[<-|[<-|[]]]] [<-|[<-|[<-|[]]]]; vm_compute; congruence.
  - vm_compute. reflexivity.
Qed.

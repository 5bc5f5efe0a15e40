From Coq Require Import List ZArith Bool PeanoNat Lia Sorted.
From Verif Require Import M_Lm S_Lm.
Import ListNotations.
Local Open Scope nat_scope.

Lemma sum_app a b : sum (a ++ b) = (sum a + sum b)%Z.
Proof. unfold sum. induction a as [|x a IH]; cbn [app fold_right]; [easy|]. rewrite IH. lia. Qed.

(** Sums over intervals. *)
Definition msum (f : nat -> Z) (p : nat -> bool) (l : list nat) : Z := sum (map f (filter p l)).
Lemma msum_split f p q r l :
  (forall j, In j l -> r j = p j || q j) -> (forall j, In j l -> p j && q j = false) ->
  msum f r l = (msum f p l + msum f q l)%Z.
Proof.
  unfold msum. induction l as [|j l IH]; intros A B; [easy|]. cbn [filter].
  rewrite (A j (or_introl eq_refl)). pose proof (B j (or_introl eq_refl)) as C.
  specialize (IH (fun i Hi => A i (or_intror Hi)) (fun i Hi => B i (or_intror Hi))).
  destruct (p j), (q j); cbn in *; try discriminate; fold sum in *; unfold sum in *; cbn; lia.
Qed.
Lemma msum_ext f f' p p' l : (forall j, In j l -> p j = p' j /\ (p j = true -> f j = f' j)) -> msum f p l = msum f' p' l.
Proof.
  unfold msum. induction l as [|j l IH]; intros A; [easy|]. cbn [filter].
  destruct (A j (or_introl eq_refl)) as [B C]. specialize (IH (fun i Hi => A i (or_intror Hi))).
  rewrite <- B. destruct (p j); cbn; [rewrite C by easy|]; unfold sum in IH; rewrite ?IH; easy.
Qed.
Lemma msum_none f p l : (forall j, In j l -> p j = false) -> msum f p l = 0%Z.
Proof.
  unfold msum. induction l as [|j l IH]; intros A; [easy|]. cbn [filter]. rewrite (A j (or_introl eq_refl)).
  apply IH. intros i Hi. apply A. now right.
Qed.
Lemma msum_app f p a b : msum f p (a ++ b) = (msum f p a + msum f p b)%Z.
Proof. unfold msum. now rewrite filter_app, map_app, sum_app. Qed.
Lemma msum_all f l : msum f (fun _ => true) l = sum (map f l).
Proof. unfold msum. f_equal. f_equal. induction l as [|x l IH]; cbn; congruence. Qed.
Lemma seq_map_add s k : seq s k = map (fun j => s + j) (seq 0 k).
Proof.
  revert s. induction k as [|k IH]; intros s; [easy|]. cbn [seq map]. rewrite (IH (S s)), (IH 1), map_map.
  f_equal; [lia|]. apply map_ext. intros; lia.
Qed.
Lemma msum_map f p h l : msum f p (map h l) = msum (fun j => f (h j)) (fun j => p (h j)) l.
Proof. unfold msum. induction l as [|x l IH]; [easy|]. cbn. destruct (p (h x)); cbn; unfold sum in IH; rewrite ?IH; easy. Qed.

Section L.
Context {W : Type}.
Implicit Types (g : model W) (ws : list W).

Lemma lastn_len n (l : list W) : length (lastn n l) = Nat.min n (length l).
Proof. unfold lastn. rewrite skipn_length. lia. Qed.
Lemma lastn_all n (l : list W) : length l <= n -> lastn n l = l.
Proof. intros H. unfold lastn. replace (length l - n) with 0 by lia. easy. Qed.
Lemma skipn_skipn' a b (l : list W) : skipn a (skipn b l) = skipn (b + a) l.
Proof. revert l. induction b as [|b IH]; intros l; [easy|]. destruct l; [now rewrite !skipn_nil|]. apply IH. Qed.
Lemma lastn_lastn a b (l : list W) : a <= b -> lastn a (lastn b l) = lastn a l.
Proof. intros H. unfold lastn. rewrite skipn_skipn', skipn_length. f_equal. lia. Qed.
Lemma lastn_snoc_S n (l : list W) w : lastn (S n) (l ++ [w]) = lastn n l ++ [w].
Proof.
  unfold lastn. rewrite app_length. cbn [length]. replace (length l + 1 - S n) with (length l - n) by lia.
  rewrite skipn_app. replace (length l - n - length l) with 0 by lia. easy.
Qed.
Lemma lastn_lastn_snoc n (l : list W) w : lastn n (lastn n l ++ [w]) = lastn n (l ++ [w]).
Proof.
  destruct n as [|n]; [unfold lastn; now rewrite !Nat.sub_0_r, !skipn_all|].
  rewrite !lastn_snoc_S. f_equal. rewrite lastn_lastn by lia. easy.
Qed.

Lemma window_cons n x ws j : window n (x :: ws) (S j) = window n ws j.
Proof. easy. Qed.
Lemma text_cost_short g ws : length ws < g_n g -> text_cost g ws = 0%Z.
Proof. intros H. unfold text_cost, places. replace (length ws + 1 - g_n g) with 0 by lia. easy. Qed.
Lemma text_cost_cons g x ws : 1 <= g_n g -> g_n g <= S (length ws) ->
  text_cost g (x :: ws) = (g_cost g (firstn (g_n g) (x :: ws)) + text_cost g ws)%Z.
Proof.
  intros N H. unfold text_cost, places. cbn [length]. replace (S (length ws) + 1 - g_n g) with (S (length ws + 1 - g_n g)) by lia.
  cbn [seq map sum fold_right]. f_equal. rewrite <- seq_shift, map_map. easy.
Qed.
Lemma read_cost_eq g : 1 <= g_n g -> forall ws ng, read_cost g ng ws = text_cost g (lastn (g_n g - 1) ng ++ ws).
Proof.
  intros N. induction ws as [|w ws IH]; intros ng; cbn [read_cost].
  - rewrite text_cost_short; [easy|]. rewrite app_nil_r, lastn_len. lia.
  - rewrite IH, lastn_len, app_length. cbn [length]. rewrite lastn_lastn by lia.
    destruct (g_n g) as [|n] eqn:E; [lia|]. cbn [Nat.sub]. rewrite Nat.sub_0_r.
    rewrite lastn_snoc_S.
    destruct (Nat.leb_spec (S n) (Nat.min (S n) (length ng + 1))) as [L|L].
    + rewrite <- lastn_lastn_snoc.
      assert (K : length (lastn n ng) = n) by (rewrite lastn_len; lia).
      remember (lastn n ng) as k eqn:Ek. clear Ek.
      replace (k ++ w :: ws) with ((k ++ [w]) ++ ws) by now rewrite <- app_assoc.
      unfold lastn. rewrite app_length, K. cbn [length]. replace (n + 1 - n) with 1 by lia.
      destruct (k ++ [w]) as [|x r] eqn:Er; [now destruct k|].
      assert (Kr : length r = n) by (apply (f_equal (@length _)) in Er; rewrite app_length, K in Er; cbn in Er; lia).
      cbn [skipn app]. rewrite text_cost_cons by (rewrite ?E, ?app_length; lia).
      f_equal. f_equal. rewrite E. cbn [firstn]. f_equal. rewrite firstn_app, Kr, Nat.sub_diag. cbn [firstn].
      now rewrite app_nil_r, <- Kr, firstn_all.
    + rewrite !lastn_all by (rewrite ?app_length; cbn [length]; lia). now rewrite <- app_assoc.
Qed.
Lemma get_cost_eq g ws : 1 <= g_n g -> get_cost g ws = text_cost g ws.
Proof. intros N. unfold get_cost. now rewrite read_cost_eq. Qed.

(** Windows of a part. *)
Lemma window_part n s k ws j : j + n <= k -> window n (firstn k (skipn s ws)) j = window n ws (s + j).
Proof.
  intros H. unfold window. rewrite skipn_firstn_comm, firstn_firstn, skipn_skipn'. f_equal. lia.
Qed.
Lemma text_cost_part g s k ws : s + k <= length ws ->
  text_cost g (firstn k (skipn s ws)) = sum (map (fun j => g_cost g (window (g_n g) ws j)) (seq s (k + 1 - g_n g))).
Proof.
  intros H. unfold text_cost, places. rewrite firstn_length, skipn_length. rewrite Nat.min_l by lia.
  rewrite (seq_map_add s), map_map. f_equal. apply map_ext_in. intros j Hj. apply in_seq in Hj.
  rewrite window_part by lia. easy.
Qed.
Lemma filter_none (p : nat -> bool) l : (forall j, In j l -> p j = false) -> filter p l = [].
Proof. induction l as [|j l IH]; intros H; [easy|]. cbn. rewrite (H j (or_introl eq_refl)). apply IH. intros i Hi. apply H. now right. Qed.
Lemma filter_all (p : nat -> bool) l : (forall j, In j l -> p j = true) -> filter p l = l.
Proof. induction l as [|j l IH]; intros H; [easy|]. cbn. rewrite (H j (or_introl eq_refl)). f_equal. apply IH. intros i Hi. apply H. now right. Qed.
Lemma filter_range (p : nat -> bool) s k a : s + k <= a -> (forall j, j < a -> p j = true <-> s <= j < s + k) -> filter p (seq 0 a) = seq s k.
Proof.
  intros H P. assert (Ea : a = s + (k + (a - s - k))) by lia. rewrite Ea at 1. rewrite !seq_app, !filter_app. cbn [Nat.add].
  rewrite (filter_none p (seq 0 s)), (filter_all p (seq s k)), (filter_none p (seq (s + k) _)); [now rewrite app_nil_r| | |];
    intros j Hj; apply in_seq in Hj; specialize (P j ltac:(lia)).
  - destruct (p j); [|easy]. destruct P as [P _]. specialize (P eq_refl). lia.
  - apply P. lia.
  - destruct (p j); [|easy]. destruct P as [P _]. specialize (P eq_refl). lia.
Qed.

Definition cost_at g ws j := g_cost g (window (g_n g) ws j).
Lemma across_msum g ws cs : across_cost g ws cs = msum (cost_at g ws) (fun j => existsb (fun c => across (g_n g) c j) cs) (places (g_n g) ws).
Proof. easy. Qed.
Lemma text_msum g ws : text_cost g ws = msum (cost_at g ws) (fun _ => true) (places (g_n g) ws).
Proof. symmetry. apply msum_all. Qed.

Lemma across_iff n c j : across n c j = true <-> j < c < j + n.
Proof. unfold across. rewrite andb_true_iff, Nat.ltb_lt, Nat.ltb_lt. easy. Qed.
Lemma places_in n ws j : In j (places n ws) <-> j + n <= length ws \/ (n = 0 /\ j <= length ws).
Proof. unfold places. rewrite in_seq. lia. Qed.

Definition late (L : Z) n j : bool := (L <? Z.of_nat j + Z.of_nat n - 1)%Z.
Lemma link_cost_eq g ws : 1 <= g_n g -> forall cs L,
  StronglySorted lt cs -> (-1 <= L - Z.of_nat (g_n g) + 1 \/ Z.of_nat (length ws) - 1 <= L)%Z ->
  (forall c, In c cs -> L <= Z.of_nat c + Z.of_nat (g_n g) - 2)%Z ->
  link_cost g ws L cs =
  msum (cost_at g ws) (fun j => late L (g_n g) j && existsb (fun c => across (g_n g) c j) cs) (places (g_n g) ws).
Proof.
  intros N. induction cs as [|c cs IH]; intros L S B A; cbn [link_cost].
  { symmetry. apply msum_none. intros j _. cbn. now rewrite andb_false_r. }
  apply StronglySorted_inv in S as [S H]. rewrite Forall_forall in H.
  set (n := Z.of_nat (g_n g)) in *.
  set (st := Z.max (L - n + 2) (Z.of_nat c - n + 1)). set (e := Z.min (Z.of_nat (length ws) - 1) (Z.of_nat c - 1 + n - 1)).
  pose proof (A c (or_introl eq_refl)) as Ac.
  assert (Dst : st = Z.max (L - n + 2) (Z.of_nat c - n + 1)) by easy. assert (De : e = Z.min (Z.of_nat (length ws) - 1) (Z.of_nat c - 1 + n - 1)) by easy.
  assert (Dn : n = Z.of_nat (g_n g)) by easy. clearbody n st e.
  rewrite IH; [|easy| |].
  2:{ lia. }
  2:{ intros c' Hc'. specialize (H c' Hc'). lia. }
  rewrite (msum_split _ (fun j => late L (g_n g) j && across (g_n g) c j) (fun j => late e (g_n g) j && existsb (fun c => across (g_n g) c j) cs)
    (fun j => late L (g_n g) j && existsb (fun c => across (g_n g) c j) (c :: cs))).
  - f_equal.
    destruct (Z.leb_spec n (e - st + 1)) as [K|K].
    + destruct B as [B|B]; [|lia].
      rewrite get_cost_eq, text_cost_part by (easy || lia). unfold msum. f_equal. unfold cost_at. f_equal.
      symmetry. unfold places. apply filter_range; [lia|]. intros j Hj. rewrite andb_true_iff, across_iff. unfold late.
      rewrite Z.ltb_lt. lia.
    + symmetry. apply msum_none. intros j Hj. apply places_in in Hj.
      apply not_true_iff_false. rewrite andb_true_iff, across_iff. unfold late. rewrite Z.ltb_lt. lia.
  - intros j Hj. apply places_in in Hj. cbn [existsb]. apply eq_true_iff_eq.
    rewrite orb_true_iff, !andb_true_iff, orb_true_iff, !across_iff. unfold late. rewrite !Z.ltb_lt. split.
    + intros [Q [R|R]]; [left; lia|].
      destruct (Nat.lt_ge_cases j c) as [T|T].
      * left. apply existsb_exists in R as (c' & Ic & R). apply across_iff in R. specialize (H c' Ic). lia.
      * right. split; [lia|easy].
    + intros [[Q R]|[Q R]]; [split; [easy|now left]|]. split; [lia|now right].
  - intros j Hj. apply places_in in Hj. apply not_true_iff_false. rewrite !andb_true_iff, across_iff. unfold late. rewrite !Z.ltb_lt.
    intros [[Q R] [T U]]. lia.
Qed.
Lemma get_link_cost_eq g ws cs : 1 <= g_n g -> StronglySorted lt cs -> get_link_cost g ws cs = across_cost g ws cs.
Proof.
  intros N S. unfold get_link_cost. rewrite link_cost_eq; [|easy|easy|left; lia|intros; lia].
  rewrite across_msum. apply msum_ext. intros j Hj. split; [|easy]. apply places_in in Hj. unfold late.
  replace (_ <? _)%Z with true; [easy|]. symmetry. apply Z.ltb_lt. lia.
Qed.

Lemma across_ext g ws cs cs' : (forall c, 0 < c < length ws -> In c cs <-> In c cs') -> across_cost g ws cs = across_cost g ws cs'.
Proof.
  intros H. rewrite !across_msum. apply msum_ext. intros j Hj. split; [|easy]. apply places_in in Hj.
  apply eq_true_iff_eq. rewrite !existsb_exists. split; intros (c & I & A); exists c; split; try easy; apply across_iff in A; apply H; (easy || lia).
Qed.

(** Texts put together. *)
Lemma window_left n (p s : list W) j : j + n <= length p -> window n (p ++ s) j = window n p j.
Proof.
  intros H. unfold window. rewrite skipn_app, firstn_app, skipn_length. replace (n - (length p - j)) with 0 by lia.
  now rewrite app_nil_r.
Qed.
Lemma window_right n (p s : list W) j : window n (p ++ s) (length p + j) = window n s j.
Proof.
  unfold window. rewrite skipn_app, skipn_all2 by lia. replace (length p + j - length p) with j by lia. easy.
Qed.
(* windows within p, those over the border and those within s *)
Lemma msum_three g (p s : list W) q : 1 <= g_n g ->
  msum (cost_at g (p ++ s)) q (places (g_n g) (p ++ s)) =
  (msum (cost_at g p) q (places (g_n g) p)
   + msum (cost_at g (p ++ s)) (fun j => q j && across (g_n g) (length p) j) (places (g_n g) (p ++ s))
   + msum (cost_at g s) (fun j => q (length p + j)%nat) (places (g_n g) s))%Z.
Proof.
  intros N. remember (g_n g) as n eqn:En in *.
  rewrite (msum_split _ (fun j => q j && negb (across n (length p) j)) (fun j => q j && across n (length p) j) q).
  2:{ intros j _. destruct (q j), (across n (length p) j); easy. }
  2:{ intros j _. destruct (q j), (across n (length p) j); easy. }
  rewrite (msum_split _ (fun j => q j && (j + n <=? length p)) (fun j => q j && (length p <=? j)) (fun j => q j && negb (across n (length p) j))).
  2:{ intros j _. unfold across. destruct (q j); [|easy]. rewrite !andb_true_l.
      destruct (Nat.ltb_spec j (length p)), (Nat.ltb_spec (length p) (j + n)), (Nat.leb_spec (j + n) (length p)), (Nat.leb_spec (length p) j); cbn; first [reflexivity|exfalso; lia]. }
  2:{ intros j _. destruct (q j); [|easy]. rewrite !andb_true_l. destruct (Nat.leb_spec (j + n) (length p)), (Nat.leb_spec (length p) j); cbn; first [reflexivity|exfalso; lia]. }
  assert (P1 : msum (cost_at g (p ++ s)) (fun j => q j && (j + n <=? length p)) (places n (p ++ s)) = msum (cost_at g p) q (places n p)).
  { unfold places. rewrite app_length. replace (length p + length s + 1 - n) with ((length p + 1 - n) + (length p + length s + 1 - n - (length p + 1 - n))) by lia.
    rewrite seq_app, msum_app. rewrite (msum_none _ _ (seq (0 + _) _)).
    - rewrite Z.add_0_r. apply msum_ext. intros j Hj. apply in_seq in Hj.
      replace (j + n <=? length p) with true by (symmetry; apply Nat.leb_le; lia). rewrite andb_true_r. split; [easy|].
      intros _. unfold cost_at. rewrite <- En. rewrite window_left by lia. easy.
    - intros j Hj. apply in_seq in Hj. replace (j + n <=? length p) with false by (symmetry; apply Nat.leb_gt; lia). apply andb_false_r. }
  assert (P2 : msum (cost_at g (p ++ s)) (fun j => q j && (length p <=? j)) (places n (p ++ s)) = msum (cost_at g s) (fun j => q (length p + j)) (places n s)).
  { destruct (Nat.lt_ge_cases (length s) n) as [Ls|Ls].
    - rewrite !msum_none; [easy| |].
      + intros j Hj. apply places_in in Hj. lia.
      + intros j Hj. apply places_in in Hj. rewrite app_length in Hj. replace (length p <=? j) with false by (symmetry; apply Nat.leb_gt; lia). apply andb_false_r.
    - unfold places. rewrite app_length. replace (length p + length s + 1 - n) with (length p + (length s + 1 - n)) by lia.
      rewrite seq_app, msum_app. rewrite (msum_none _ _ (seq 0 _)).
      + cbn [Nat.add]. rewrite (seq_map_add (length p)), msum_map. cbn [Z.add]. apply msum_ext. intros j Hj. split.
        * replace (length p <=? length p + j) with true by (symmetry; apply Nat.leb_le; lia). apply andb_true_r.
        * intros _. unfold cost_at. now rewrite window_right.
      + intros j Hj. apply in_seq in Hj. replace (length p <=? j) with false by (symmetry; apply Nat.leb_gt; lia). apply andb_false_r. }
  rewrite P1, P2. lia.
Qed.
Lemma text_cost_app g (p s : list W) : 1 <= g_n g -> text_cost g (p ++ s) = (text_cost g p + across_cost g (p ++ s) [length p] + text_cost g s)%Z.
Proof.
  intros N. rewrite !text_msum, msum_three, across_msum by easy. f_equal. f_equal. apply msum_ext. intros j _. cbn.
  now rewrite orb_false_r.
Qed.
Lemma across_cost_app g (p s : list W) cs : 1 <= g_n g -> (forall c, In c cs -> c <= length p) -> In (length p) cs ->
  across_cost g (p ++ s) cs = (across_cost g p cs + across_cost g (p ++ s) [length p])%Z.
Proof.
  intros N B I. rewrite !across_msum, msum_three by easy.
  rewrite (msum_none _ _ (places (g_n g) s)).
  - rewrite Z.add_0_r. f_equal. apply msum_ext. intros j Hj. split; [|easy]. cbn. rewrite orb_false_r.
    destruct (across (g_n g) (length p) j) eqn:E; [|apply andb_false_r]. rewrite andb_true_r. apply existsb_exists. now exists (length p).
  - intros j _. apply not_true_iff_false. rewrite existsb_exists. intros (c & Ic & A). apply across_iff in A. specialize (B c Ic). lia.
Qed.
Fixpoint cuts (pos : nat) (segs : list (list W)) : list nat :=
  match segs with [] => [] | s :: r => pos + length s :: cuts (pos + length s) r end.
Lemma cuts_snoc pos segs s : cuts pos (segs ++ [s]) = cuts pos segs ++ [pos + length (concat segs) + length s].
Proof.
  revert pos. induction segs as [|t segs IH]; intros pos; cbn; [f_equal; lia|]. rewrite IH, app_length. f_equal. f_equal. f_equal. lia.
Qed.
Lemma cuts_le pos segs c : In c (cuts pos segs) -> c <= pos + length (concat segs).
Proof.
  revert pos. induction segs as [|t segs IH]; intros pos; cbn; [easy|]. rewrite app_length. intros [<-|H]; [lia|]. apply IH in H. lia.
Qed.
Lemma cuts_last pos segs : segs <> [] -> In (pos + length (concat segs)) (cuts pos segs).
Proof.
  intros H. destruct (exists_last H) as (l & s & ->). rewrite cuts_snoc, concat_app, app_length. cbn. rewrite app_nil_r.
  apply in_or_app. right. left. lia.
Qed.
Lemma across_nil g ws : across_cost g ws [] = 0%Z.
Proof. rewrite across_msum. now apply msum_none. Qed.
Lemma text_cost_concat g segs : 1 <= g_n g ->
  text_cost g (concat segs) = (sum (map (text_cost g) segs) + across_cost g (concat segs) (cuts 0 segs))%Z.
Proof.
  intros N. induction segs as [|s segs IH] using rev_ind.
  - cbn [concat map cuts]. now rewrite text_cost_short, across_nil by (cbn [length]; lia).
  - rewrite concat_app, map_app, sum_app, cuts_snoc. cbn [concat map sum fold_right]. rewrite app_nil_r.
    rewrite text_cost_app, IH by easy.
    destruct segs as [|t segs].
    + cbn [concat cuts map app length Nat.add]. rewrite (across_ext g s [0] []), (across_ext g s [length s] []), !across_nil; [cbn; lia| |].
      * intros c Hc. cbn. lia.
      * intros c Hc. cbn. lia.
    + set (segs' := t :: segs) in *. set (p := concat segs') in *.
      rewrite (across_ext g (p ++ s) (cuts 0 segs' ++ _) (cuts 0 segs')).
      * rewrite (across_cost_app g p s (cuts 0 segs')); [lia|easy| |].
        -- intros c Hc. now apply cuts_le in Hc.
        -- apply (cuts_last 0 segs'). easy.
      * intros c Hc. rewrite in_app_iff. split; [|now left]. intros [H|[H|[]]]; [easy|]. rewrite app_length in Hc. fold p in H. lia.
Qed.

(** The loop. *)
Lemma add_link_in c x l : In x (add_link c l) <-> x = c \/ In x l.
Proof.
  induction l as [|d l IH]; cbn [add_link In]; [split; intros [A|A]; auto|]. destruct (Nat.eqb_spec c d) as [->|E]; [cbn [In]; split; [tauto|intros [->|A]; auto]|].
  destruct (c <? d); cbn [In]; [|rewrite IH]; split; intros [A|[A|A]]; auto.
Qed.
Lemma add_link_sorted c l : StronglySorted lt l -> StronglySorted lt (add_link c l).
Proof.
  induction l as [|d l IH]; intros S; cbn [add_link]; [repeat constructor|]. apply StronglySorted_inv in S as [S H].
  destruct (Nat.eqb_spec c d) as [->|E]; [now constructor|].
  destruct (Nat.ltb_spec c d) as [L|L].
  - constructor; [now constructor|]. constructor; [easy|]. eapply Forall_impl; [|exact H]. cbn. lia.
  - constructor; [now apply IH|]. rewrite Forall_forall in *. intros x Hx. apply add_link_in in Hx as [->|Hx]; [lia|now apply H].
Qed.
Fixpoint segs_of (run : list W) (xs : list (item W)) : list (list W) :=
  match xs with
  | [] => [run]
  | Word w :: xs => segs_of (run ++ [w]) xs
  | Child ws :: xs => run :: ws :: segs_of [] xs
  end.
Lemma segs_concat (xs : list (item W)) : forall run, concat (segs_of run xs) = run ++ text xs.
Proof.
  induction xs as [|[w|ws] xs IH]; intros run; cbn; [now rewrite app_nil_r| |].
  - rewrite IH, <- app_assoc. easy.
  - rewrite IH. easy.
Qed.
(* the costs of the words between nonterminals as the code counts them *)
Fixpoint run_costs (f : list W -> Z) (trans run : list W) (xs : list (item W)) : Z :=
  match xs with
  | [] => match run with [] => 0%Z | _ => f run end
  | Word w :: xs => run_costs f (trans ++ [w]) (run ++ [w]) xs
  | Child ws :: xs => ((match run with [] => 0 | _ => f trans end) + run_costs f (trans ++ ws) [] xs)%Z
  end.
Lemma turns_trans (lms : container W) xs : forall first o, o_trans (turns lms first o xs) = o_trans o ++ text xs.
Proof.
  induction xs as [|x xs IH]; intros first o; cbn [turns]; [now rewrite app_nil_r|].
  rewrite IH. destruct x; cbn [turn o_trans text flat_map]; rewrite <- app_assoc; easy.
Qed.
Lemma turns_cost (lms : container W) xs : forall first o,
  (let o' := turns lms first o xs in match o_ngram o' with [] => o_cost o' | ng => (o_cost o' + all_cost lms ng)%Z end)
  = (o_cost o + run_costs (all_cost lms) (o_trans o) (o_ngram o) xs)%Z.
Proof.
  induction xs as [|x xs IH]; intros first o; cbn [turns].
  - cbn. destruct (o_ngram o); lia.
  - cbn zeta in *. rewrite IH. destruct x; cbn [turn o_trans o_ngram o_cost run_costs]; [lia|]. destruct (o_ngram o); lia.
Qed.
Lemma turns_sorted (lms : container W) xs : forall first o, StronglySorted lt (o_links o) -> StronglySorted lt (o_links (turns lms first o xs)).
Proof.
  induction xs as [|x xs IH]; intros first o S; cbn [turns]; [easy|]. apply IH. destruct x; cbn [turn o_links]; [easy|].
  assert (S' : StronglySorted lt (if first then o_links o else add_link (length (o_trans o)) (o_links o))) by (destruct first; [easy|now apply add_link_sorted]).
  destruct xs; [easy|]. now apply add_link_sorted.
Qed.
(* links are the cuts, but for those at the ends *)
Lemma turns_links (lms : container W) xs : forall first o c p,
  o_trans o = p ++ o_ngram o -> (first = true -> o_trans o = []) ->
  0 < c < length (o_trans o ++ text xs) ->
  (In c (o_links (turns lms first o xs)) <-> In c (o_links o) \/ In c (cuts (length p) (segs_of (o_ngram o) xs))).
Proof.
  induction xs as [|x xs IH]; intros first o c p T F C.
  - cbn [turns segs_of cuts In]. cbn [text flat_map] in C. rewrite app_nil_r, T, app_length in C. split; [now left|intros [A|[A|[]]]; [easy|lia]].
  - cbn [turns]. destruct x as [w|ws].
    + cbn [turn]. rewrite (IH false _ c p).
      * cbn [o_links o_ngram segs_of]. easy.
      * cbn. now rewrite T, app_assoc.
      * easy.
      * cbn [o_trans]. cbn [text flat_map] in C. rewrite <- app_assoc. exact C.
    + cbn [turn segs_of cuts]. rewrite (IH false _ c (o_trans o ++ ws)).
      * cbn [o_links o_ngram]. rewrite app_length.
        assert (LT : length (o_trans o) = length p + length (o_ngram o)) by (now rewrite T, app_length). rewrite <- LT. cbn [In].
        assert (C' : 0 < c < length (o_trans o) + length ws + length (text xs)).
        { cbn [text flat_map] in C. rewrite !app_length in C. unfold text. lia. }
        assert (A : In c (if first then o_links o else add_link (length (o_trans o)) (o_links o)) <-> length (o_trans o) = c \/ In c (o_links o)).
        { destruct first; [|rewrite add_link_in; split; intros [K|K]; auto]. rewrite (F eq_refl). cbn [length]. split; [now right|intros [K|K]; [lia|easy]]. }
        destruct xs as [|y xs].
        -- cbn [segs_of cuts In length]. cbn in C'. rewrite A. intuition lia.
        -- rewrite add_link_in, A. intuition (auto; lia).
      * cbn. now rewrite app_nil_r.
      * easy.
      * cbn [o_trans]. rewrite <- app_assoc. exact C.
Qed.

Lemma fold_weighted (lms : container W) (f : model W -> Z) s :
  fold_left (fun s x => s + fst x * f (snd x))%Z lms s = (s + weighted lms f)%Z.
Proof. revert s. induction lms as [|x lms IH]; intros s; cbn; [lia|]. rewrite IH. unfold weighted, sum. cbn. lia. Qed.
Lemma weighted_ext lms f f' : Forall (fun x : Z * model W => f (snd x) = f' (snd x)) lms -> weighted lms f = weighted lms f'.
Proof. intros H. unfold weighted. f_equal. apply map_ext_in. intros x Hx. rewrite Forall_forall in H. now rewrite H. Qed.
Lemma weighted_add (lms : container W) f f' : weighted lms (fun g => f g + f' g)%Z = (weighted lms f + weighted lms f')%Z.
Proof. unfold weighted, sum. induction lms as [|x lms IH]; cbn in *; [easy|]. rewrite IH. lia. Qed.
Lemma weighted_sub (lms : container W) f f' : weighted lms (fun g => f g - f' g)%Z = (weighted lms f - weighted lms f')%Z.
Proof. unfold weighted, sum. induction lms as [|x lms IH]; cbn in *; [easy|]. rewrite IH. lia. Qed.
Lemma weighted_zero (lms : container W) : weighted lms (fun _ => 0)%Z = 0%Z.
Proof. unfold weighted, sum. induction lms as [|x lms IH]; cbn in *; [easy|]. rewrite IH. lia. Qed.

Definition proper (lms : container W) : Prop := Forall (fun x => 1 <= g_n (snd x)) lms.
Lemma all_cost_eq lms ws : proper lms -> all_cost lms ws = weighted lms (fun g => text_cost g ws).
Proof.
  intros P. unfold all_cost. rewrite (fold_weighted lms (fun g => get_cost g ws)). apply weighted_ext.
  eapply Forall_impl; [|exact P]. intros x Hx. now apply get_cost_eq.
Qed.
Lemma all_link_cost_eq lms ws cs : proper lms -> StronglySorted lt cs -> all_link_cost lms ws cs = weighted lms (fun g => across_cost g ws cs).
Proof.
  intros P S. unfold all_link_cost. rewrite (fold_weighted lms (fun g => get_link_cost g ws cs)). apply weighted_ext.
  eapply Forall_impl; [|exact P]. intros x Hx. now apply get_link_cost_eq.
Qed.
Lemma run_costs_weighted (lms : container W) xs : proper lms -> forall trans run,
  run_costs (all_cost lms) trans run xs = weighted lms (fun g => run_costs (text_cost g) trans run xs).
Proof.
  intros P. induction xs as [|[w|ws] xs IH]; intros trans run; cbn [run_costs].
  - destruct run; [now rewrite weighted_zero|now apply all_cost_eq].
  - apply IH.
  - rewrite weighted_add, IH. f_equal. destruct run; [now rewrite weighted_zero|now apply all_cost_eq].
Qed.
Lemma run_costs_eq g xs : 1 <= g_n g -> forall before run,
  run_costs (text_cost g) (before ++ run) run xs
  = (sum (map (text_cost g) (segs_of run xs)) - sum (map (text_cost g) (children xs)) + excess g before run xs)%Z.
Proof.
  intros N. induction xs as [|[w|ws] xs IH]; intros before run; cbn [run_costs segs_of excess children flat_map].
  - unfold sum. cbn [map fold_right]. destruct run; [rewrite text_cost_short by (cbn; lia)|]; lia.
  - rewrite <- app_assoc, IH. easy.
  - specialize (IH ((before ++ run) ++ ws) []). rewrite app_nil_r in IH. rewrite IH.
    rewrite map_app, sum_app. cbn [map sum fold_right]. fold (children xs). unfold sum. rewrite <- app_assoc.
    destruct run; [rewrite text_cost_short by (cbn; lia)|]; lia.
Qed.
End L.

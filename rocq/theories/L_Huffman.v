(** Lemmas about M_Huffman.v: the bit stream and the canonical codes. *)
From Coq Require Import List Arith ZArith Bool Lia Permutation.
From Verif Require Import M_Huffman.
Import ListNotations.

(** * Bits *)
Definition bit_at (d : list Z) (p : nat) : bool := Z.testbit (nth (p / 8) d 0%Z) (Z.of_nat (p mod 8)).
(** The wrapper will read the bit at its position next. *)
Definition good (w : wrapper) : Prop :=
  match bitPos w with
  | O => iterator w = 0
  | S q => iterator w = S (q / 8) /\ current w = Z.shiftr (nth (q / 8) (data w) 0%Z) (Z.of_nat (q mod 8))
  end.
Lemma land1 z : negb (Z.land z 1 =? 0)%Z = Z.testbit z 0.
Proof.
  change 1%Z with (Z.ones 1). rewrite Z.land_ones by lia. rewrite Z.bit0_odd. change (2 ^ 1)%Z with 2%Z.
  rewrite Zmod_odd. destruct (Z.odd z); reflexivity.
Qed.
Lemma step_div q : S q mod 8 <> 0 -> S q / 8 = q / 8 /\ S q mod 8 = S (q mod 8).
Proof.
  intros H. pose proof (Nat.div_mod q 8 ltac:(lia)) as E. pose proof (Nat.mod_upper_bound q 8 ltac:(lia)) as B.
  assert (C : q mod 8 <> 7).
  { intros C. apply H. rewrite E, C. replace (S (8 * (q / 8) + 7)) with ((q / 8 + 1) * 8) by lia. apply Nat.mod_mul. lia. }
  split; symmetry; [apply (Nat.div_unique (S q) 8 (q / 8) (S (q mod 8)))|apply (Nat.mod_unique (S q) 8 (q / 8) (S (q mod 8)))]; lia.
Qed.
Lemma step_div0 q : S q mod 8 = 0 -> S q / 8 = S (q / 8).
Proof.
  intros H. pose proof (Nat.div_mod (S q) 8 ltac:(lia)) as E. rewrite H in E.
  destruct (S q / 8) as [|k]; [lia|]. f_equal. apply (Nat.div_unique q 8 k 7); lia.
Qed.
Lemma read_bit_good w : good w -> bitPos w < length (data w) * 8 ->
  fst (read_bit w) = bit_at (data w) (bitPos w) /\ good (snd (read_bit w)) /\
  bitPos (snd (read_bit w)) = S (bitPos w) /\ data (snd (read_bit w)) = data w.
Proof.
  intros Hg Hp. unfold read_bit. cbn [fst snd]. rewrite land1.
  assert (Hq : bitPos w / 8 < length (data w)) by (apply Nat.div_lt_upper_bound; lia).
  destruct (Nat.eqb_spec (bitPos w mod 8) 0) as [E|E].
  - assert (Hi : iterator w = bitPos w / 8).
    { unfold good in Hg. destruct (bitPos w) as [|q] eqn:Eb; [now rewrite Hg|]. rewrite step_div0 by assumption. apply Hg. }
    destruct (Nat.ltb_spec (iterator w) (length (data w))) as [_|C]; [|lia]. cbn [bitPos current data].
    split; [unfold bit_at; rewrite E, Hi; reflexivity|]. split; [|split; reflexivity].
    unfold good. cbn [bitPos iterator current data]. rewrite E, Hi. split; reflexivity.
  - cbn [bitPos current data]. unfold good in Hg. destruct (bitPos w) as [|q] eqn:Eb; [now cbn in E|].
    destruct Hg as [Hi Hc]. destruct (step_div q E) as [Ed Em].
    assert (Hsh : Z.shiftr (current w) 1 = Z.shiftr (nth (S q / 8) (data w) 0%Z) (Z.of_nat (S q mod 8))).
    { rewrite Hc, Z.shiftr_shiftr, Ed, Em by lia. f_equal. lia. }
    split; [|split; [|split; reflexivity]].
    + rewrite Hsh. unfold bit_at. rewrite Z.shiftr_spec by lia. f_equal.
    + unfold good. cbn [bitPos iterator current data]. rewrite Hi, Hsh, Ed. split; reflexivity.
Qed.
Lemma reset_good w : good (reset w).
Proof. reflexivity. Qed.
Lemma seek_good w p w' : seek w p = Some w' -> good w' /\ bitPos w' = p /\ data w' = data w.
Proof.
  unfold seek. destruct p as [|q]; [discriminate|]. destruct (_ <? _); [|discriminate]. intros [= <-]. repeat split; reflexivity.
Qed.

(** Writing. *)
Lemma set_length {A} (l : list A) i v : length (set l i v) = length l.
Proof. revert i. induction l as [|x l IH]; intros [|i]; cbn; auto. Qed.
Lemma nth_set {A} (l : list A) i v j d : i < length l -> nth j (set l i v) d = if j =? i then v else nth j l d.
Proof. revert i j. induction l as [|x l IH]; intros [|i] [|j] H; cbn in *; try lia; try reflexivity. apply IH. lia. Qed.
Lemma char_bit y k : (0 <= k < 8)%Z -> Z.testbit (char y) k = Z.testbit y k.
Proof.
  intros Hk. rewrite <- (Z.mod_pow2_bits_low (char y) 8 k), <- (Z.mod_pow2_bits_low y 8 k) by lia. f_equal.
  unfold char. change (2 ^ 8)%Z with 256%Z.
  rewrite <- (Zminus_mod_idemp_l ((y + 128) mod 256)), Zmod_mod, Zminus_mod_idemp_l. f_equal. lia.
Qed.
Lemma bit_one j k : (0 <= j)%Z -> (0 <= k)%Z -> Z.testbit (Z.shiftl 1 k) j = (j =? k)%Z.
Proof.
  intros Hj Hk. rewrite Z.shiftl_spec by assumption. destruct (Z.eqb_spec j k) as [->|Hne].
  - rewrite Z.sub_diag. reflexivity.
  - destruct (Z.lt_ge_cases j k); [now rewrite Z.testbit_neg_r by lia|].
    change 1%Z with (2 ^ 0)%Z. apply Z.pow2_bits_false. lia.
Qed.
(** [w] holds the bits [bs] and nothing else. *)
Definition holds (w : wrapper) (bs : list bool) : Prop :=
  bitPos w = length bs /\ length (data w) = (length bs + 7) / 8 /\ (forall p, bit_at (data w) p = nth p bs false).
Lemma bit_out d p : length d * 8 <= p -> bit_at d p = false.
Proof.
  intros H. unfold bit_at. rewrite nth_overflow; [apply Z.testbit_0_l|]. apply Nat.div_le_lower_bound; lia.
Qed.
Lemma put_bit_holds w bs b : holds w bs -> holds (put_bit w b) (bs ++ [b]).
Proof.
  intros [Hp [Hl Hb]]. unfold put_bit. set (n := length bs) in *. rewrite Hp.
  set (d1 := if n mod 8 =? 0 then data w ++ [0%Z] else data w).
  assert (Hn : n = 8 * (n / 8) + n mod 8) by (apply Nat.div_mod; lia).
  assert (Hm : n mod 8 < 8) by (apply Nat.mod_upper_bound; lia).
  assert (Hl1 : length d1 = S (n / 8)).
  { unfold d1. destruct (Nat.eqb_spec (n mod 8) 0) as [E|E].
    - rewrite app_length, Hl. cbn [length]. replace ((n + 7) / 8) with (n / 8); [lia|]. apply (Nat.div_unique _ 8 _ 7); lia.
    - rewrite Hl. symmetry. apply (Nat.div_unique _ 8 _ (n mod 8 - 1)); lia. }
  assert (Hb1 : forall p, bit_at d1 p = nth p bs false).
  { intros p. unfold d1. destruct (Nat.eqb_spec (n mod 8) 0) as [E|E]; [|apply Hb]. rewrite <- Hb. unfold bit_at. f_equal.
    destruct (Nat.lt_ge_cases (p / 8) (length (data w))); [now rewrite app_nth1|].
    rewrite app_nth2, (nth_overflow (data w)) by assumption. destruct (p / 8 - length (data w)) as [|[|k]]; reflexivity. }
  assert (Hlen : (length (bs ++ [b]) + 7) / 8 = S (n / 8)).
  { rewrite app_length. fold n. cbn [length]. symmetry. apply (Nat.div_unique _ 8 _ (n mod 8)); lia. }
  split; [cbn; rewrite app_length; cbn; unfold n; lia|]. rewrite Hlen. cbn [data].
  assert (Hnth : forall p, nth p (bs ++ [b]) false = if p =? n then b else nth p bs false).
  { intros p. destruct (Nat.eqb_spec p n) as [->|Hne].
    - rewrite app_nth2 by (unfold n; lia). unfold n. now rewrite Nat.sub_diag.
    - destruct (Nat.lt_ge_cases p n); [now rewrite app_nth1|]. rewrite !nth_overflow; [reflexivity|assumption|].
      rewrite app_length. cbn. fold n. lia. }
  destruct b.
  - unfold or_last. rewrite set_length. split; [assumption|]. intros p. rewrite Hnth.
    replace (length d1 - 1) with (n / 8) by lia. unfold bit_at. rewrite nth_set by lia.
    assert (Hpm : p mod 8 < 8) by (apply Nat.mod_upper_bound; lia).
    assert (Hpd : p = 8 * (p / 8) + p mod 8) by (apply Nat.div_mod; lia).
    destruct (Nat.eqb_spec (p / 8) (n / 8)) as [E|E].
    + rewrite char_bit by lia. rewrite Z.lor_spec, bit_one by lia. rewrite <- E. change (Z.testbit (nth (p / 8) d1 0%Z) (Z.of_nat (p mod 8))) with (bit_at d1 p).
      rewrite Hb1. destruct (Nat.eqb_spec p n) as [->|Hne].
      * rewrite Z.eqb_refl. apply orb_true_r.
      * replace (Z.of_nat (p mod 8) =? Z.of_nat (n mod 8))%Z with false; [apply orb_false_r|]. symmetry. apply Z.eqb_neq. lia.
    + destruct (Nat.eqb_spec p n) as [->|Hne]; [congruence|]. apply Hb1.
  - split; [assumption|]. intros p. rewrite Hnth, Hb1. destruct (Nat.eqb_spec p n) as [->|]; [|reflexivity].
    apply nth_overflow. unfold n. lia.
Qed.
Lemma put_bits_holds bs : forall w pre, holds w pre -> holds (put_bits w bs) (pre ++ bs).
Proof.
  induction bs as [|b bs IH]; intros w pre H; cbn [put_bits fold_left]; [now rewrite app_nil_r|].
  replace (pre ++ b :: bs) with ((pre ++ [b]) ++ bs) by now rewrite <- app_assoc. apply IH. now apply put_bit_holds.
Qed.
Lemma holds_empty : holds (wrap []) [].
Proof. split; [reflexivity|]. split; [reflexivity|]. intros p. rewrite bit_out by (cbn; lia). now destruct p. Qed.

(** * Reading codes *)
Definition F (first : list nat) (l : nat) : nat := get first l.
Section Read.
Variable first : list nat.
Variable cnt : nat -> nat.
Hypothesis Hstep : forall l, 1 <= l -> F first (S l) + cnt (S l) <= 2 * F first l.

Lemma code_prefix l i k : i < cnt l -> 1 <= k -> k < l -> (F first l + i) / 2 ^ (l - k) < F first k.
Proof.
  intros Hi Hk Hkl. remember (l - k) as j eqn:Ej. revert k Hk Hkl Ej. induction j as [|j IH]; intros k Hk Hkl Ej; [lia|].
  destruct j as [|j].
  - change (2 ^ 1) with 2. pose proof (Hstep k Hk). replace (S k) with l in H by lia. apply Nat.div_lt_upper_bound; lia.
  - assert (IHk := IH (S k) ltac:(lia) ltac:(lia) ltac:(lia)). pose proof (Hstep k Hk).
    replace (2 ^ S (S j)) with (2 ^ S j * 2) by (cbn; lia). rewrite <- Nat.div_div by (try apply Nat.pow_nonzero; lia).
    apply Nat.div_lt_upper_bound; lia.
Qed.
End Read.
Lemma half_bit c j : c / 2 ^ j = 2 * (c / 2 ^ S j) + Nat.b2n (Nat.testbit c j).
Proof.
  rewrite Nat.testbit_spec'. replace (2 ^ S j) with (2 ^ j * 2) by (cbn; lia).
  rewrite <- Nat.div_div by (try apply Nat.pow_nonzero; lia). apply Nat.div_mod. lia.
Qed.
Section Read2.
Variable first : list nat.
Variable cnt : nat -> nat.
Hypothesis H1 : F first 1 + cnt 1 <= 2.
Hypothesis Hstep : forall l, 1 <= l -> F first (S l) + cnt (S l) <= 2 * F first l.
Lemma code_small l i : 1 <= l -> i < cnt l -> F first l + i < 2 ^ l.
Proof.
  intros Hl Hi. destruct (Nat.eq_dec l 1) as [->|Hne]; [cbn; lia|].
  pose proof (code_prefix first cnt Hstep l i 1 Hi ltac:(lia) ltac:(lia)) as H.
  assert (F first 1 <= 2) by lia.
  assert (E : 2 ^ l = 2 ^ (l - 1) * 2) by (replace l with (S (l - 1)) at 1 by lia; cbn [Nat.pow]; lia).
  pose proof (Nat.div_mod (F first l + i) (2 ^ (l - 1)) ltac:(apply Nat.pow_nonzero; lia)).
  pose proof (Nat.mod_upper_bound (F first l + i) (2 ^ (l - 1)) ltac:(apply Nat.pow_nonzero; lia)). nia.
Qed.
(** Reading the rest of a code. *)
Lemma read_code_spec l i d p0 : 1 <= l -> i < cnt l -> p0 + l <= length d * 8 ->
  (forall j, j < l -> bit_at d (p0 + j) = Nat.testbit (F first l + i) (l - 1 - j)) ->
  forall k len w fuel, len + k = l -> 1 <= len -> k <= fuel -> good w -> data w = d -> bitPos w = p0 + len ->
  exists w', read_code first fuel ((F first l + i) / 2 ^ k) len w = Some (F first l + i, l, w') /\
    good w' /\ data w' = d /\ bitPos w' = p0 + l.
Proof.
  intros Hl Hi Hd Hb. induction k as [|k IH]; intros len w fuel E Hlen Hf Hg Hdw Hp.
  - replace len with l in * by lia. change (2 ^ 0) with 1. rewrite Nat.div_1_r.
    assert (Hlt : (F first l + i <? get first l) = false) by (apply Nat.ltb_ge; unfold F; lia).
    exists w. split; [|tauto]. destruct fuel; cbn [read_code]; rewrite Hlt; reflexivity.
  - destruct fuel as [|f]; [lia|]. cbn [read_code].
    assert (Hlt : ((F first l + i) / 2 ^ S k <? get first len) = true).
    { apply Nat.ltb_lt. replace (S k) with (l - len) by lia. apply (code_prefix first cnt Hstep); lia. }
    rewrite Hlt. destruct (read_bit_good w Hg) as [Eb [Hg' [Hp' Hd']]]; [rewrite Hdw, Hp; lia|].
    destruct (read_bit w) as [b w1]. cbn [fst snd] in *. subst b. rewrite Hdw, Hp, (Hb len) by lia.
    replace (l - 1 - len) with k by lia. rewrite <- half_bit. apply IH; try lia; try congruence; assumption.
Qed.
End Read2.

(** * The vectors computed from the lengths *)
Definition cnt (ls : list nat) (l : nat) : nat := count_occ Nat.eq_dec ls l.
Lemma get_bump num l k : get (bump num l) k = get num k + (if k =? l then 1 else 0).
Proof.
  unfold get. revert num k. induction l as [|l IH]; intros [|x num] [|k]; cbn [bump nth Nat.eqb]; try lia.
  - now destruct k.
  - rewrite IH. now destruct k.
  - apply IH.
Qed.
Lemma bump_length num l : length (bump num l) = Nat.max (length num) (S l).
Proof. revert num. induction l as [|l IH]; intros [|x num]; cbn; rewrite ?IH; cbn; lia. Qed.
Lemma num_gen ls : forall num, (forall l, get (fold_left bump ls num) l = get num l + cnt ls l) /\
  length (fold_left bump ls num) = fold_left Nat.max (map S ls) (length num).
Proof.
  induction ls as [|x ls IH]; intros num; cbn [fold_left map].
  - split; [intros l; unfold cnt; cbn; lia|reflexivity].
  - destruct (IH (bump num x)) as [E1 E2]. split.
    + intros l. rewrite E1, get_bump. unfold cnt. cbn [count_occ]. destruct (Nat.eq_dec x l) as [->|Hne].
      * rewrite Nat.eqb_refl. lia.
      * replace (l =? x) with false by (symmetry; apply Nat.eqb_neq; congruence). lia.
    + now rewrite E2, bump_length.
Qed.
Lemma get_num ls l : get (num_length ls) l = cnt ls l.
Proof. unfold num_length. rewrite (proj1 (num_gen ls [])). unfold get. now destruct l. Qed.
Lemma fold_max_le l : forall a x, In x l \/ x <= a -> x <= fold_left Nat.max l a.
Proof.
  induction l as [|y l IH]; intros a x H; cbn; [destruct H as [[]|]; assumption|].
  apply IH. destruct H as [[->|H]|H]; [right; lia|now left|right; lia].
Qed.
Lemma fold_max_in l : forall a, fold_left Nat.max l a = a \/ In (fold_left Nat.max l a) l.
Proof.
  induction l as [|y l IH]; intros a; cbn; [now left|].
  destruct (IH (Nat.max a y)) as [E|E]; [|right; right; exact E]. rewrite E.
  destruct (Nat.max_spec a y) as [[_ ->]|[_ ->]]; [right; now left|now left].
Qed.
Lemma num_bound ls l : In l ls -> l < length (num_length ls).
Proof. intros H. unfold num_length. rewrite (proj2 (num_gen ls [])). apply fold_max_le. left. now apply in_map. Qed.
Lemma num_max ls : ls <> [] -> exists M, length (num_length ls) = S M /\ In M ls.
Proof.
  intros H. unfold num_length. rewrite (proj2 (num_gen ls [])). cbn [length]. destruct (fold_max_in (map S ls) 0) as [E|E].
  - destruct ls as [|x ls]; [congruence|]. pose proof (fold_max_le (map S (x :: ls)) 0 (S x)) as C. cbn in C, E. specialize (C (or_introl (or_introl eq_refl))).
    cbn in *. lia.
  - apply in_map_iff in E as [M [EM HM]]. exists M. split; [now symmetry|assumption].
Qed.
Lemma cnt_out ls l : length (num_length ls) <= l -> cnt ls l = 0.
Proof. intros H. rewrite <- get_num. unfold get. now apply nth_overflow. Qed.

Lemma sums_length num : forall acc, length (sums acc num) = length num.
Proof. induction num; intros; cbn; auto. Qed.
Lemma sums_step num : forall acc l, S l < length num -> get (sums acc num) (S l) = get (sums acc num) l + get num l.
Proof.
  unfold get. induction num as [|x num IH]; intros acc [|l] H; cbn [sums nth length] in *; try lia.
  - destruct num; cbn in *; [lia|reflexivity].
  - apply IH. lia.
Qed.
Lemma sums_last num : forall acc l, S l = length num -> get (sums acc num) l + get num l = acc + list_sum num.
Proof.
  unfold get. induction num as [|x num IH]; intros acc [|l] H; cbn [sums nth length list_sum fold_right] in *; try lia.
  - destruct num; cbn in *; lia.
  - fold (list_sum num). rewrite IH by lia. lia.
Qed.
Lemma sums_mono num acc l l' : l < l' -> l' < length num -> get (sums acc num) l + get num l <= get (sums acc num) l'.
Proof.
  intros H. induction H as [|l' H IH]; intros Hl.
  - rewrite sums_step; lia.
  - rewrite sums_step by lia. lia.
Qed.
Lemma group_unique num acc l l' j j' : l < length num -> l' < length num -> j < get num l -> j' < get num l' ->
  get (sums acc num) l + j = get (sums acc num) l' + j' -> l = l' /\ j = j'.
Proof.
  intros Hl Hl' Hj Hj' E. destruct (Nat.lt_trichotomy l l') as [C|[->|C]].
  - pose proof (sums_mono num acc l l' C Hl'). lia.
  - split; [reflexivity|lia].
  - pose proof (sums_mono num acc l' l C Hl). lia.
Qed.
Lemma group_bound num l j : l < length num -> j < get num l -> get (length_index num) l + j < list_sum num.
Proof.
  intros Hl Hj. unfold length_index. pose proof (sums_last num 0 (length num - 1) ltac:(lia)).
  destruct (Nat.eq_dec l (length num - 1)) as [->|]; [lia|].
  pose proof (sums_mono num 0 l (length num - 1) ltac:(lia) ltac:(lia)). lia.
Qed.
Lemma bump_sum num l : list_sum (bump num l) = S (list_sum num).
Proof.
  revert num. induction l as [|l IH]; intros [|x num]; cbn [bump]; try reflexivity.
  - change (list_sum (0 :: bump [] l)) with (list_sum (bump [] l)). now rewrite IH.
  - change (list_sum (x :: bump num l)) with (x + list_sum (bump num l)). rewrite IH. change (list_sum (x :: num)) with (x + list_sum num). lia.
Qed.
Lemma num_sum ls : list_sum (num_length ls) = length ls.
Proof.
  unfold num_length. enough (forall num, list_sum (fold_left bump ls num) = list_sum num + length ls) as H by (rewrite H; reflexivity).
  induction ls as [|x ls IH]; intros num; cbn [fold_left length]; [lia|]. rewrite IH, bump_sum. lia.
Qed.

Lemma codes_length num : length (codes_from num) = length num.
Proof. induction num as [|x num IH]; cbn; [reflexivity|]. destruct (codes_from num); cbn in *; lia. Qed.
Lemma codes_step num : forall l, S l < length num -> get (codes_from num) l = (get (codes_from num) (S l) + get num (S l)) / 2.
Proof.
  unfold get. induction num as [|x num IH]; intros l H; cbn [codes_from length] in *; [lia|].
  pose proof (codes_length num) as Hc. destruct (codes_from num) as [|c cs] eqn:E; [cbn in Hc; lia|].
  destruct l as [|l]; [reflexivity|]. cbn [nth]. apply IH. lia.
Qed.
Lemma codes_last num l : length num <= S l -> get (codes_from num) l = 0.
Proof.
  unfold get. revert l. induction num as [|x num IH]; intros l H; cbn [codes_from length] in *; [now destruct l|].
  pose proof (codes_length num) as Hc. destruct (codes_from num) as [|c cs] eqn:E; [destruct l as [|[|l]]; reflexivity|].
  destruct l as [|l]; [cbn in Hc; lia|]. cbn [nth]. apply IH. lia.
Qed.
Lemma first_step num l : 1 <= l -> S l < length num -> get (first_codes num) l = (get (first_codes num) (S l) + get num (S l)) / 2.
Proof. destruct num as [|x num]; cbn [length]; [lia|]. intros Hl H. destruct l as [|l]; [lia|]. apply (codes_step num). lia. Qed.
Lemma first_last num l : 1 <= l -> length num <= S l -> get (first_codes num) l = 0.
Proof. destruct num as [|x num]; cbn [length]; [intros; now destruct l|]. intros Hl H. destruct l as [|l]; [lia|]. apply (codes_last num). lia. Qed.
Lemma first_length num : length (first_codes num) = length num.
Proof. destruct num; cbn; [reflexivity|]. now rewrite codes_length. Qed.

(** * Lengths that fill the levels of a tree *)
Definition levels (ls : list nat) (I : nat -> nat) : Prop :=
  I 0 = 1 /\ (forall l, 2 * I l = I (S l) + cnt ls (S l)) /\ (forall l, length (num_length ls) <= S l -> I l = 0).
Lemma levels_first ls I : levels ls I -> forall l, 1 <= l -> get (first_codes (num_length ls)) l = I l.
Proof.
  intros [_ [Hs Hz]]. set (num := num_length ls) in *.
  enough (H : forall k l, 1 <= l -> length num <= S l + k -> get (first_codes num) l = I l).
  { intros l Hl. apply (H (length num) l Hl). lia. }
  induction k as [|k IH]; intros l Hl Hk.
  - rewrite first_last by lia. rewrite Hz by lia. reflexivity.
  - destruct (Nat.le_gt_cases (length num) (S l)) as [C|C]; [rewrite first_last, Hz; lia|].
    rewrite first_step, (IH (S l)), (get_num ls : forall l, get num l = cnt ls l) by lia.
    rewrite <- Hs. rewrite Nat.mul_comm. apply Nat.div_mul. lia.
Qed.

(** * Placing the symbols and the map *)
Section Coder.
Variable D : Type.
Variable eqb : D -> D -> bool.
Hypothesis eqb_spec : forall a b, eqb a b = true <-> a = b.
Variable nothing : D.

Section Place.
Variable num first : list nat.
Let lindex := length_index num.
Lemma place_spec : forall (ss : list D) (ls next : list nat) (c : nat -> nat) (t : list D),
  length ss = length ls -> length next = length num -> (forall l, l < length num -> get next l = get first l + c l) ->
  (forall l, c l + cnt ls l <= get num l) -> (forall l, In l ls -> l < length num) -> length t = list_sum num ->
  let t' := place ss ls first lindex next t in
  length t' = length t /\
  (forall l j, l < length num -> j < c l -> nth (get lindex l + j) t' nothing = nth (get lindex l + j) t nothing) /\
  (forall l j, l < length num -> c l <= j < c l + cnt ls l -> In (nth (get lindex l + j) t' nothing, l) (combine ss ls)) /\
  (forall s, In s ss -> exists l j, In l ls /\ j < get num l /\ nth (get lindex l + j) t' nothing = s).
Proof.
  induction ss as [|s ss IH]; intros ls next c t Hlen Hnl Hn Hc Hb Ht; destruct ls as [|l ls]; cbn [length] in Hlen; try lia.
  - cbn [place]. split; [reflexivity|]. split; [reflexivity|]. split; [cbn; lia|intros s []].
  - cbn [place]. assert (Hl : l < length num) by (apply Hb; now left). rewrite (Hn l Hl).
    replace (get first l + c l - get first l) with (c l) by lia.
    assert (Hcl : c l < get num l). { specialize (Hc l). unfold cnt in Hc. cbn [count_occ] in Hc. destruct (Nat.eq_dec l l); [lia|congruence]. }
    set (c' := fun k => if k =? l then S (c l) else c k).
    set (t1 := set t (get lindex l + c l) s).
    assert (Hpos : get lindex l + c l < length t) by (rewrite Ht; now apply group_bound).
    assert (Hcc : forall k, c' k + cnt ls k = c k + cnt (l :: ls) k).
    { intros k. unfold c', cnt. cbn [count_occ]. destruct (Nat.eqb_spec k l) as [->|Hne].
      - destruct (Nat.eq_dec l l); [lia|congruence].
      - destruct (Nat.eq_dec l k); [congruence|lia]. }
    specialize (IH ls (set next l (get first l + c l + 1)) c' t1).
    assert (Hset : forall k, get (set next l (get first l + c l + 1)) k = if k =? l then get first l + c l + 1 else get next k)
      by (intros k; unfold get; apply nth_set; lia).
    destruct IH as [L1 [L2 [L3 L4]]].
    + lia.
    + now rewrite set_length.
    + intros k Hk. rewrite Hset. unfold c'. destruct (Nat.eqb_spec k l) as [->|]; [lia|now apply Hn].
    + intros k. rewrite Hcc. apply Hc.
    + intros k Hk. apply Hb. now right.
    + unfold t1. now rewrite set_length.
    + assert (Hkeep : forall k j, k < length num -> j < get num k -> (k, j) <> (l, c l) -> nth (get lindex k + j) t1 nothing = nth (get lindex k + j) t nothing).
      { intros k j Hk Hj Hne. unfold t1. rewrite nth_set by assumption.
        destruct (Nat.eqb_spec (get lindex k + j) (get lindex l + c l)) as [E|]; [|reflexivity].
        destruct (group_unique num 0 k l j (c l) Hk Hl Hj Hcl E) as [-> ->]. congruence. }
      assert (Hat : nth (get lindex l + c l) t1 nothing = s) by (unfold t1; rewrite nth_set, Nat.eqb_refl by assumption; reflexivity).
      assert (Hnum : forall k, c k <= get num k) by (intros k; specialize (Hc k); lia).
      split; [rewrite L1; unfold t1; apply set_length|]. split; [|split].
      * intros k j Hk Hj. rewrite L2; [|assumption|unfold c'; destruct (Nat.eqb_spec k l) as [->|]; lia].
        apply Hkeep; [assumption|specialize (Hnum k); lia|]. intros [= -> ->]. lia.
      * intros k j Hk Hj. rewrite <- Hcc in Hj. destruct (Nat.lt_ge_cases j (c' k)) as [C|C].
        -- assert (Hkj : k = l /\ j = c l). { unfold c' in *. destruct (Nat.eqb_spec k l) as [->|]; lia. }
           destruct Hkj as [-> ->]. rewrite L2 by assumption. rewrite Hat. now left.
        -- right. apply L3; [assumption|]. split; [assumption|]. apply Hj.
      * intros x [<-|Hx].
        -- exists l, (c l). split; [now left|]. split; [assumption|]. rewrite L2; [assumption|assumption|].
           unfold c'. rewrite Nat.eqb_refl. lia.
        -- destruct (L4 x Hx) as [k [j [Hk Hj]]]. exists k, j. split; [now right|assumption].
Qed.
End Place.

Lemma code_map_spec ss lindex k : forall l d m i, In (d, (m, i)) (code_map nothing ss lindex l k) <->
  l <= m < l + k /\ i < (if m + 1 <? length lindex then get lindex (m + 1) else length ss) - get lindex m /\
  d = nth (get lindex m + i) ss nothing.
Proof.
  induction k as [|k IH]; intros l d m i; cbn [code_map]; [split; [intros []|lia]|].
  rewrite in_app_iff, IH, <- in_rev, in_map_iff. split.
  - intros [[H1 H2]|[j [E H]]]; [split; [lia|assumption]|]. injection E as <- <- <-. apply in_seq in H. split; [lia|]. split; [lia|reflexivity].
  - intros [H1 [H2 H3]]. destruct (Nat.eq_dec m l) as [->|]; [right|left; split; [lia|split; assumption]].
    exists i. split; [now rewrite H3|]. apply in_seq. lia.
Qed.

Section Built.
Variable ss : list D.
Variable ls : list nat.
Hypothesis Hlen : length ss = length ls.
Hypothesis Hne : ls <> [].
Hypothesis Hpos : forall l, In l ls -> 1 <= l.
Let h := build nothing ss ls.
Let num := num_length ls.

Lemma cnt_in l : 0 < cnt ls l -> In l ls.
Proof. intros H. apply (count_occ_In Nat.eq_dec). exact H. Qed.
Lemma placed : length (symbols h) = length ls /\
  (forall l j, j < cnt ls l -> In (nth (get (lengthIndex h) l + j) (symbols h) nothing, l) (combine ss ls)) /\
  (forall s, In s ss -> exists l j, In l ls /\ j < cnt ls l /\ nth (get (lengthIndex h) l + j) (symbols h) nothing = s).
Proof.
  pose proof (place_spec num (first_codes num) ss ls (first_codes num) (fun _ => 0) (repeat nothing (length ls))) as P.
  destruct P as [P1 [_ [P3 P4]]].
  - assumption.
  - apply first_length.
  - intros; lia.
  - intros l. unfold num. rewrite get_num. lia.
  - apply num_bound.
  - unfold num. now rewrite repeat_length, num_sum.
  - split; [|split].
    + cbn [symbols h build]. unfold h, build. cbn [symbols]. fold num. rewrite P1. apply repeat_length.
    + intros l j Hj. apply P3; [|lia]. apply num_bound, cnt_in. lia.
    + intros s Hs. destruct (P4 s Hs) as [l [j H]]. exists l, j. unfold num in H. now rewrite get_num in H.
Qed.
Lemma group_index l j : j < cnt ls l -> get (lengthIndex h) l + j < length (symbols h).
Proof.
  intros Hj. rewrite (proj1 placed), <- num_sum. apply group_bound; [apply num_bound, cnt_in; lia|now rewrite get_num].
Qed.
Lemma map_entry d l i : In (d, (l, i)) (encodeMap h) <-> i < cnt ls l /\ d = nth (get (lengthIndex h) l + i) (symbols h) nothing.
Proof.
  destruct (num_max ls Hne) as [M [HM HMin]].
  assert (Hli : length (lengthIndex h) = S M) by (unfold h, build; cbn [lengthIndex]; unfold length_index; now rewrite sums_length).
  assert (Hnum : forall m, m <= M -> (if m + 1 <? length (lengthIndex h) then get (lengthIndex h) (m + 1) else length (symbols h)) - get (lengthIndex h) m = cnt ls m).
  { intros m Hm. rewrite Hli. destruct (Nat.ltb_spec (m + 1) (S M)) as [C|C].
    - unfold h, build. cbn [lengthIndex]. rewrite Nat.add_1_r. unfold length_index. rewrite sums_step by lia. rewrite get_num. lia.
    - replace m with M by lia. rewrite (proj1 placed). unfold h, build. cbn [lengthIndex]. unfold length_index.
      pose proof (sums_last (num_length ls) 0 M ltac:(lia)) as E. rewrite num_sum in E. rewrite get_num in E. lia. }
  assert (E : encodeMap h = code_map nothing (symbols h) (lengthIndex h) 1 (length (lengthIndex h) - 1)) by reflexivity.
  rewrite E, code_map_spec. split.
  - intros [H1 [H2 H3]]. rewrite Hnum in H2 by lia. tauto.
  - intros [H1 H2]. assert (Hl : In l ls) by (apply cnt_in; lia). pose proof (Hpos l Hl). pose proof (num_bound ls l Hl).
    split; [lia|]. rewrite Hnum by lia. tauto.
Qed.
Lemma lookup_spec d : In d ss -> exists l i, lookup eqb h d = (l, i) /\ 1 <= l /\ i < cnt ls l /\
  nth_error (symbols h) (get (lengthIndex h) l + i) = Some d /\ In (d, l) (combine ss ls).
Proof.
  intros Hd. unfold lookup. destruct (find (fun e => eqb (fst e) d) (encodeMap h)) as [[d' [l i]]|] eqn:E.
  - apply find_some in E as [Hin E]. cbn [fst] in E. apply eqb_spec in E. subst d'. apply map_entry in Hin as [Hi Hd'].
    exists l, i. split; [reflexivity|]. split; [apply Hpos, cnt_in; lia|]. split; [assumption|].
    rewrite Hd'. split; [apply nth_error_nth'; now apply group_index|]. now apply (proj1 (proj2 placed)).
  - exfalso. destruct (proj2 (proj2 placed) d Hd) as [l [j [Hl [Hj Hn]]]].
    assert (Hin : In (d, (l, j)) (encodeMap h)) by (apply map_entry; split; [assumption|now symmetry]).
    apply (find_none _ _ E) in Hin. cbn [fst] in Hin. assert (eqb d d = true) by now apply eqb_spec. congruence.
Qed.

Lemma bits_length l c : length (bits_of l c) = l.
Proof. unfold bits_of. now rewrite map_length, rev_length, seq_length. Qed.
Lemma bits_nth l c j : j < l -> nth j (bits_of l c) false = Nat.testbit c (l - 1 - j).
Proof.
  intros H. unfold bits_of. erewrite nth_indep by (rewrite map_length, rev_length, seq_length; exact H).
  rewrite map_nth with (d := 0). f_equal. rewrite rev_nth, seq_length by (now rewrite seq_length). rewrite seq_nth by lia. lia.
Qed.

Hypothesis H1 : get (first_codes num) 1 + cnt ls 1 <= 2.
Hypothesis Hstep : forall l, 1 <= l -> get (first_codes num) (S l) + cnt ls (S l) <= 2 * get (first_codes num) l.

Lemma read_spec d w : In d ss -> good w -> bitPos w + length (put_code eqb h d) <= length (data w) * 8 ->
  (forall j, j < length (put_code eqb h d) -> bit_at (data w) (bitPos w + j) = nth j (put_code eqb h d) false) ->
  exists w', read h w = Some (Some d, w') /\ good w' /\ data w' = data w /\ bitPos w' = bitPos w + length (put_code eqb h d).
Proof.
  intros Hd Hg Hroom Hb. destruct (lookup_spec d Hd) as [l [i [El [Hl [Hi [Hn _]]]]]].
  unfold put_code in *. rewrite El in *. rewrite bits_length in *.
  assert (Ef : firstCodes h = first_codes num) by reflexivity. rewrite Ef in *.
  unfold read. destruct (Nat.eqb_spec (tell_from_end w) 0) as [C|_]; [unfold tell_from_end in C; lia|].
  destruct (read_bit_good w Hg ltac:(lia)) as [Eb [Hg1 [Hp1 Hd1]]]. destruct (read_bit w) as [b w1]. cbn [fst snd] in *.
  pose proof (Hb 0 ltac:(lia)) as Hb0. rewrite Nat.add_0_r in Hb0. rewrite bits_nth in Hb0 by lia. rewrite Nat.sub_0_r in Hb0.
  assert (Hcode : Nat.b2n b = (F (first_codes num) l + i) / 2 ^ (l - 1)).
  { rewrite (half_bit _ (l - 1)). replace (S (l - 1)) with l by lia.
    rewrite (Nat.div_small _ (2 ^ l)); [unfold F; cbn; congruence|]. apply (code_small (first_codes num) (cnt ls)); assumption. }
  rewrite Hcode.
  destruct (num_max ls Hne) as [M [HM _]].
  destruct (read_code_spec (first_codes num) (cnt ls) H1 Hstep l i (data w) (bitPos w) Hl Hi Hroom) with (k := l - 1) (len := 1) (w := w1) (fuel := length (first_codes num))
    as [w2 [E2 [Hg2 [Hd2 Hp2]]]].
  - intros j Hj. rewrite Hb, bits_nth by assumption. reflexivity.
  - lia.
  - lia.
  - rewrite first_length. pose proof (num_bound ls l (cnt_in l ltac:(lia))). fold num in H. lia.
  - assumption.
  - assumption.
  - lia.
  - rewrite Ef, E2. unfold F. replace (get (first_codes num) l + i - get (first_codes num) l) with i by lia. rewrite Hn.
    exists w2. repeat split; try assumption.
Qed.
Lemma read_many_spec msg : forall w, (forall d, In d msg -> In d ss) -> good w ->
  let bs := concat (map (put_code eqb h) msg) in
  bitPos w + length bs <= length (data w) * 8 -> (forall j, j < length bs -> bit_at (data w) (bitPos w + j) = nth j bs false) ->
  exists w', read_many h (length msg) w = Some (msg, w') /\ good w' /\ data w' = data w /\ bitPos w' = bitPos w + length bs.
Proof.
  induction msg as [|d msg IH]; intros w Hin Hg bs Hroom Hb; cbn [length read_many].
  - exists w. cbn. repeat split; auto.
  - unfold bs in *. cbn [map concat] in *. rewrite app_length in *.
    destruct (read_spec d w) as [w1 [E1 [Hg1 [Hd1 Hp1]]]]; [apply Hin; now left|assumption|lia| |].
    + intros j Hj. rewrite Hb by lia. now apply app_nth1.
    + rewrite E1. destruct (IH w1) as [w2 [E2 [Hg2 [Hd2 Hp2]]]].
      * intros x Hx. apply Hin. now right.
      * assumption.
      * rewrite Hd1, Hp1. lia.
      * intros j Hj. rewrite Hd1, Hp1. rewrite <- Nat.add_assoc, Hb by lia. rewrite app_nth2 by lia. f_equal. lia.
      * rewrite E2. exists w2. repeat split; try assumption; [congruence|lia].
Qed.
End Built.
End Coder.

(** Canonical Huffman coding (C26). *)
From Coq Require Import List Arith NArith ZArith Bool Lia Permutation Sorted.
From Verif Require Import M_Huffman L_Huffman L_HuffmanTree L_HuffmanOpt.
Import ListNotations.

(** * Facts about the lengths *)
Section Lengths.
Variable is_heap : (nat -> nat) -> list nat -> Prop.
Variables make pop push : (nat -> nat) -> list nat -> list nat.
Hypothesis ops : heap_ops is_heap make pop push.
Variable plus : nat -> nat -> nat.

Lemma u16_small d : d <= 64 -> u16 d = d.
Proof.
  intros H. unfold u16. apply Nat.mod_small. apply (Nat.lt_le_trans _ (2 ^ 7)); [change (2 ^ 7) with 128; lia|].
  apply Nat.pow_le_mono_r; lia.
Qed.
Lemma map_u16 l : (forall d, In d l -> d <= 64) -> map u16 l = l.
Proof. intros H. rewrite <- (map_id l) at 2. apply map_ext_in. intros d Hd. now apply u16_small, H. Qed.
Lemma dleaves_pos t d i e : In (i, e) (dleaves d t) -> d <= e.
Proof. revert d. induction t as [j|a IHa b IHb]; intros d H; cbn in H; [destruct H as [[= _ <-]|[]]; lia|]. apply in_app_or in H as [H|H]; [apply IHa in H|apply IHb in H]; lia. Qed.
Lemma lengths_tree ws : 2 <= length ws -> (forall d, In d (calc_depths plus make pop push ws) -> d <= 64) ->
  exists T, huff ws plus (map Leaf (seq 0 (length ws))) T /\ Permutation (leaves T) (seq 0 (length ws)) /\
    let ls := calc_lengths plus make pop push ws in
    length ls = length ws /\ Permutation ls (map snd (dleaves 0 T)) /\ levels ls (inner T) /\
    (forall i d, In (i, d) (dleaves 0 T) -> nth i ls 0 = d) /\ (forall l, In l ls -> 1 <= l <= 64).
Proof.
  intros Hn H64. destruct (calc_depths_spec is_heap make pop push ops plus ws Hn) as [T [Hh [Hl [Hlen Hd]]]].
  exists T. split; [assumption|]. split; [assumption|]. unfold calc_lengths.
  destruct (Nat.eqb_spec (length ws) 1); [lia|]. rewrite (map_u16 _ H64). cbn zeta.
  assert (P : Permutation (calc_depths plus make pop push ws) (map snd (dleaves 0 T))) by (apply assigned; [now rewrite Hlen|assumption]).
  split; [assumption|]. split; [assumption|].
  assert (HT : 2 <= length (leaves T)) by (rewrite (Permutation_length Hl), seq_length; lia).
  split; [now apply tree_levels|]. split; [assumption|]. intros l Hin. split; [|now apply H64].
  apply (Permutation_in _ P) in Hin. apply in_map_iff in Hin as [[i e] [E Hin]]. cbn in E. subst e.
  destruct T as [j|a b]; [cbn in HT; lia|]. cbn [dleaves] in Hin. apply in_app_or in Hin as [Hin|Hin]; now apply dleaves_pos in Hin.
Qed.
Lemma lengths_ok ws : ws <> [] -> (2 <= length ws -> forall d, In d (calc_depths plus make pop push ws) -> d <= 64) ->
  let ls := calc_lengths plus make pop push ws in
  length ls = length ws /\ ls <> [] /\ (forall l, In l ls -> 1 <= l) /\
  get (first_codes (num_length ls)) 1 + cnt ls 1 <= 2 /\
  (forall l, 1 <= l -> get (first_codes (num_length ls)) (S l) + cnt ls (S l) <= 2 * get (first_codes (num_length ls)) l).
Proof.
  intros Hne H64. destruct ws as [|w [|w' ws]]; [congruence| |].
  - cbn. repeat split; try lia; [discriminate|]. intros l Hl. destruct l as [|[|[|l]]]; cbn; lia.
  - set (v := w :: w' :: ws) in *. destruct (lengths_tree v) as [T [_ [_ H]]]; [cbn; lia|apply H64; cbn; lia|].
    cbn zeta in *. set (ls := calc_lengths plus make pop push v) in *. destruct H as [Hl [_ [HL [_ Hp]]]].
    split; [assumption|]. split; [intros C; rewrite C in Hl; discriminate|]. split; [intros l Hin; now apply Hp|].
    pose proof HL as [H0 [Hs _]]. split.
    + rewrite (levels_first ls _ HL 1) by lia. specialize (Hs 0). lia.
    + intros l Hl1. rewrite !(levels_first ls _ HL) by lia. specialize (Hs l). lia.
Qed.
End Lengths.

Section Statements.
Variable D : Type.
Variable eqb : D -> D -> bool.
Variable nothing : D.
Variable is_heap : (nat -> nat) -> list nat -> Prop.
Variables make pop push : (nat -> nat) -> list nat -> list nat.
Variable plus : nat -> nat -> nat.
(** The coder for a table of frequencies. *)
Definition coder (fs : list (D * nat)) : huffman D := build nothing (map fst fs) (calc_lengths plus make pop push (map snd fs)).
Definition code (fs : list (D * nat)) (d : D) : list bool := put_code eqb (coder fs) d.
(** No code is longer than 64 bits. *)
Definition shallow (fs : list (D * nat)) : Prop := 2 <= length fs -> forall d, In d (calc_depths plus make pop push (map snd fs)) -> d <= 64.
End Statements.
Arguments coder {D}. Arguments code {D}. Arguments shallow {D}.

Lemma data_room w bs : holds w bs -> length bs <= length (data w) * 8.
Proof.
  intros [_ [Hl _]]. rewrite Hl. pose proof (Nat.div_mod (length bs + 7) 8 ltac:(lia)). pose proof (Nat.mod_upper_bound (length bs + 7) 8 ltac:(lia)). lia.
Qed.

(** What was written is read back. *)
Theorem C26_lossless D eqb (nothing : D) is_heap make pop push plus fs msg :
  (forall a b, eqb a b = true <-> a = b) -> heap_ops is_heap make pop push ->
  fs <> [] -> shallow make pop push plus fs -> (forall d, In d msg -> In d (map fst fs)) ->
  let h := coder nothing make pop push plus fs in
  exists w, read_many h (length msg) (reset (put_bits (wrap []) (concat (map (put_code eqb h) msg)))) = Some (msg, w).
Proof.
  intros Heq ops Hne Hsh Hmsg h. set (ws := map snd fs).
  assert (Hws : ws <> []) by (unfold ws; destruct fs; [congruence|discriminate]).
  assert (Hsh' : 2 <= length ws -> forall d, In d (calc_depths plus make pop push ws) -> d <= 64) by (unfold ws; now rewrite map_length).
  destruct (lengths_ok is_heap make pop push ops plus ws Hws Hsh') as [Hl [Hlne [Hp [H1 Hst]]]].
  set (ls := calc_lengths plus make pop push ws) in *.
  set (bs := concat (map (put_code eqb h) msg)).
  pose proof (put_bits_holds bs _ _ holds_empty) as Hh. cbn [app] in Hh. set (w0 := put_bits (wrap []) bs) in *.
  destruct (read_many_spec D eqb Heq nothing (map fst fs) ls) with (msg := msg) (w := reset w0) as [w [E _]].
  - rewrite Hl. unfold ws. now rewrite !map_length.
  - assumption.
  - assumption.
  - assumption.
  - assumption.
  - assumption.
  - apply reset_good.
  - cbn [bitPos reset data]. apply data_room in Hh. exact Hh.
  - intros j Hj. cbn [bitPos reset data Nat.add]. apply Hh.
  - exists w. exact E.
Qed.

(** Nothing is lost wherever the reading starts: after seeking, too. *)
Theorem C26_seek D eqb (nothing : D) is_heap make pop push plus fs pre msg :
  (forall a b, eqb a b = true <-> a = b) -> heap_ops is_heap make pop push ->
  fs <> [] -> shallow make pop push plus fs -> (forall d, In d msg -> In d (map fst fs)) -> pre <> [] ->
  let h := coder nothing make pop push plus fs in
  let w0 := put_bits (wrap []) (pre ++ concat (map (put_code eqb h) msg)) in
  exists w1 w, seek w0 (length pre) = Some w1 /\ read_many h (length msg) w1 = Some (msg, w).
Proof.
  intros Heq ops Hne Hsh Hmsg Hpre h. set (ws := map snd fs).
  assert (Hws : ws <> []) by (unfold ws; destruct fs; [congruence|discriminate]).
  assert (Hsh' : 2 <= length ws -> forall d, In d (calc_depths plus make pop push ws) -> d <= 64) by (unfold ws; now rewrite map_length).
  destruct (lengths_ok is_heap make pop push ops plus ws Hws Hsh') as [Hl [Hlne [Hp [H1 Hst]]]].
  set (ls := calc_lengths plus make pop push ws) in *.
  set (bs := concat (map (put_code eqb h) msg)).
  pose proof (put_bits_holds (pre ++ bs) _ _ holds_empty) as Hh. cbn [app] in Hh. set (w0 := put_bits (wrap []) (pre ++ bs)) in *.
  cbn zeta. pose proof (data_room _ _ Hh) as Hroom. rewrite app_length in Hroom.
  assert (Hs : exists w1, seek w0 (length pre) = Some w1).
  { destruct pre as [|b pre]; [congruence|]. cbn [length seek]. destruct (Nat.ltb_spec (length pre / 8) (length (data w0))) as [_|C]; [eauto|].
    exfalso. cbn [length] in Hroom. pose proof (Nat.div_mod (length pre) 8 ltac:(lia)). lia. }
  destruct Hs as [w1 Es]. destruct (seek_good _ _ _ Es) as [G1 [B1 D1]].
  destruct (read_many_spec D eqb Heq nothing (map fst fs) ls) with (msg := msg) (w := w1) as [w [E _]].
  - rewrite Hl. unfold ws. now rewrite !map_length.
  - assumption.
  - assumption.
  - assumption.
  - assumption.
  - assumption.
  - assumption.
  - rewrite B1, D1. exact Hroom.
  - intros j Hj. rewrite B1, D1. rewrite (proj2 (proj2 Hh)). rewrite app_nth2 by lia. f_equal. lia.
  - exists w1, w. split; [assumption|exact E].
Qed.

(** Codes of different symbols: neither begins with the other. *)
Theorem C26_prefix_free D eqb (nothing : D) is_heap make pop push plus fs d d' x :
  (forall a b, eqb a b = true <-> a = b) -> heap_ops is_heap make pop push ->
  shallow make pop push plus fs -> In d (map fst fs) -> In d' (map fst fs) ->
  code eqb nothing make pop push plus fs d' = code eqb nothing make pop push plus fs d ++ x -> d = d'.
Proof.
  intros Heq ops Hsh Hd Hd' E. unfold code in E. set (h := coder nothing make pop push plus fs) in *. set (ws := map snd fs).
  assert (Hws : ws <> []) by (unfold ws; destruct fs; [destruct Hd|discriminate]).
  assert (Hsh' : 2 <= length ws -> forall d, In d (calc_depths plus make pop push ws) -> d <= 64) by (unfold ws; now rewrite map_length).
  destruct (lengths_ok is_heap make pop push ops plus ws Hws Hsh') as [Hl [Hlne [Hp [H1 Hst]]]].
  set (ls := calc_lengths plus make pop push ws) in *.
  set (bs := put_code eqb h d').
  pose proof (put_bits_holds bs _ _ holds_empty) as Hh. cbn [app] in Hh. set (w0 := put_bits (wrap []) bs) in *.
  pose proof (data_room _ _ Hh) as Hroom.
  assert (Hlen : length (map fst fs) = length ls) by (rewrite Hl; unfold ws; now rewrite !map_length).
  destruct (read_spec D eqb Heq nothing (map fst fs) ls Hlen Hlne Hp H1 Hst d (reset w0)) as [w1 [E1 _]].
  - assumption.
  - apply reset_good.
  - cbn [bitPos reset data Nat.add]. change (build nothing (map fst fs) ls) with h. unfold bs in Hroom. rewrite E, app_length in Hroom. lia.
  - intros j Hj. cbn [bitPos reset data Nat.add]. change (build nothing (map fst fs) ls) with h in *. rewrite (proj2 (proj2 Hh)). unfold bs. rewrite E. now apply app_nth1.
  - destruct (read_spec D eqb Heq nothing (map fst fs) ls Hlen Hlne Hp H1 Hst d' (reset w0)) as [w2 [E2 _]].
    + assumption.
    + apply reset_good.
    + cbn [bitPos reset data Nat.add]. exact Hroom.
    + intros j Hj. cbn [bitPos reset data Nat.add]. apply (proj2 (proj2 Hh)).
    + congruence.
Qed.

(** * Completeness *)
Definition value (bs : list bool) : nat := fold_left (fun a b => 2 * a + Nat.b2n b) bs 0.
Lemma bits_snoc l v b : bits_of (S l) (2 * v + Nat.b2n b) = bits_of l v ++ [b].
Proof.
  unfold bits_of. cbn [seq rev]. rewrite map_app. cbn [map]. f_equal.
  - rewrite <- seq_shift, <- map_rev, map_map. apply map_ext. intros j. apply Nat.testbit_succ_r.
  - now rewrite Nat.testbit_0_r.
Qed.
Lemma bits_value bs : bits_of (length bs) (value bs) = bs.
Proof.
  induction bs as [|b bs IH] using rev_ind; [reflexivity|]. rewrite app_length. cbn [length]. rewrite Nat.add_1_r.
  unfold value. rewrite fold_left_app. cbn [fold_left]. fold (value bs). now rewrite bits_snoc, IH.
Qed.
Lemma firstn_snoc {A} (l : list A) k d : k < length l -> firstn (S k) l = firstn k l ++ [nth k l d].
Proof. revert l. induction k as [|k IH]; intros [|x l] H; cbn in *; try lia; [reflexivity|]. f_equal. apply IH. lia. Qed.

Lemma map_assigned {D} (g : D -> nat) ss : NoDup ss -> forall ls, length ss = length ls ->
  (forall d, In d ss -> In (d, g d) (combine ss ls)) -> map g ss = ls.
Proof.
  induction 1 as [|d ds Hd Hnds IH]; intros [|l ls] Hlen H; cbn in Hlen; try lia; [reflexivity|].
  cbn [map]. f_equal.
  - destruct (H d (or_introl eq_refl)) as [E|C]; [congruence|]. exfalso. apply Hd. now apply in_combine_l in C.
  - apply IH; [lia|]. intros e He. destruct (H e (or_intror He)) as [E|C]; [injection E as <- _; contradiction|assumption].
Qed.
Section Unique.
Variable D : Type.
Variable eqb : D -> D -> bool.
Hypothesis Heq : forall a b, eqb a b = true <-> a = b.
Variable nothing : D.
Variable ss : list D.
Variable ls : list nat.
Hypothesis Hlen : length ss = length ls.
Hypothesis Hne : ls <> [].
Hypothesis Hpos : forall l, In l ls -> 1 <= l.
Hypothesis Hnd : NoDup ss.
Let h := build nothing ss ls.
Lemma symbols_nodup : NoDup (symbols h).
Proof.
  destruct (placed D nothing ss ls Hlen) as [H1 [_ H3]]. apply (NoDup_incl_NoDup (l := ss)); [assumption| |].
  - fold h in H1. lia.
  - intros s Hs. destruct (H3 s Hs) as [l [j [Hl [Hj <-]]]]. apply nth_In. now apply (group_index D nothing ss ls Hlen).
Qed.
Lemma code_at l i : i < cnt ls l -> exists d, In d ss /\ put_code eqb h d = bits_of l (get (firstCodes h) l + i) /\ In (d, l) (combine ss ls).
Proof.
  intros Hi. destruct (placed D nothing ss ls Hlen) as [H1 [H2 H3]]. fold h in H1, H2, H3.
  set (d := nth (get (lengthIndex h) l + i) (symbols h) nothing).
  pose proof (H2 l i Hi) as Hdl. fold d in Hdl. assert (Hd : In d ss) by (now apply in_combine_l in Hdl).
  destruct (lookup_spec D eqb Heq nothing ss ls Hlen Hne Hpos d Hd) as [l' [i' [El [_ [Hi' [Hn Hdl']]]]]]. fold h in El, Hn.
  exists d. split; [assumption|]. split; [|assumption]. unfold put_code. rewrite El.
  assert (Epos : get (lengthIndex h) l + i = get (lengthIndex h) l' + i').
  { apply (NoDup_nth_error (symbols h)); [apply symbols_nodup|now apply (group_index D nothing ss ls Hlen)|].
    rewrite Hn. apply nth_error_nth'. now apply (group_index D nothing ss ls Hlen). }
  destruct (group_unique (num_length ls) 0 l l' i i') as [-> ->]; try reflexivity.
  - apply num_bound, cnt_in. lia.
  - apply num_bound, cnt_in. lia.
  - now rewrite get_num.
  - now rewrite get_num.
  - exact Epos.
Qed.
Lemma code_lengths : map (fun d => length (put_code eqb h d)) ss = ls.
Proof.
  assert (H : forall d, In d ss -> In (d, length (put_code eqb h d)) (combine ss ls)).
  { intros d Hd. destruct (lookup_spec D eqb Heq nothing ss ls Hlen Hne Hpos d Hd) as [l [i [El [_ [_ [_ Hdl]]]]]].
    unfold put_code. fold h in El. rewrite El, bits_length. exact Hdl. }
  exact (map_assigned (fun d => length (put_code eqb h d)) ss Hnd ls Hlen H).
Qed.
End Unique.

(** Every long enough sequence of bits begins with a code. *)
Theorem C26_complete D eqb (nothing : D) is_heap make pop push plus fs bs :
  (forall a b, eqb a b = true <-> a = b) -> heap_ops is_heap make pop push ->
  2 <= length fs -> NoDup (map fst fs) -> shallow make pop push plus fs -> 64 <= length bs ->
  exists d x, In d (map fst fs) /\ bs = code eqb nothing make pop push plus fs d ++ x.
Proof.
  intros Heq ops Hn Hnd Hsh Hbs. set (ws := map snd fs).
  assert (Hnw : 2 <= length ws) by (unfold ws; now rewrite map_length).
  destruct (lengths_tree is_heap make pop push ops plus ws Hnw (Hsh Hn)) as [T [_ [_ H]]].
  cbn zeta in H. unfold code, coder. fold ws. set (ls := calc_lengths plus make pop push ws) in *.
  destruct H as [Hl [_ [HL [_ Hp]]]].
  assert (Hlen : length (map fst fs) = length ls) by (rewrite Hl; unfold ws; now rewrite !map_length).
  assert (Hlne : ls <> []) by (intros C; rewrite C in Hl; cbn in Hl; lia).
  assert (Hpos : forall l, In l ls -> 1 <= l) by (intros l Hin; now apply Hp).
  pose proof HL as [H0 [Hs Hz]].
  assert (Hwalk : forall k, k <= 64 -> (exists l i, i < cnt ls l /\ l <= k /\ firstn l bs = bits_of l (get (first_codes (num_length ls)) l + i)) \/ value (firstn k bs) < inner T k).
  { induction k as [|k IH]; intros Hk; [right; cbn; lia|]. destruct (IH ltac:(lia)) as [[l [i [H1 [H2 H3]]]]|Hv].
    - left. exists l, i. split; [assumption|]. split; [lia|assumption].
    - rewrite (firstn_snoc bs k false) by lia. set (b := nth k bs false).
      assert (Ev : value (firstn k bs ++ [b]) = 2 * value (firstn k bs) + Nat.b2n b) by (unfold value; rewrite fold_left_app; reflexivity).
      assert (Hb : Nat.b2n b <= 1) by (destruct b; cbn; lia). specialize (Hs k).
      destruct (Nat.lt_ge_cases (value (firstn k bs ++ [b])) (inner T (S k))) as [C|C]; [now right|left].
      exists (S k), (value (firstn k bs ++ [b]) - inner T (S k)). split; [lia|]. split; [lia|].
      rewrite (levels_first ls _ HL) by lia. replace (inner T (S k) + (value (firstn k bs ++ [b]) - inner T (S k))) with (value (firstn k bs ++ [b])) by lia.
      rewrite (firstn_snoc bs k false) by lia. fold b.
      assert (El : length (firstn k bs ++ [b]) = S k) by (rewrite app_length, firstn_length; cbn; lia).
      rewrite <- El at 1. now rewrite bits_value. }
  destruct (Hwalk 64 (le_n 64)) as [[l [i [Hi [_ Hf]]]]|C].
  - destruct (code_at D eqb Heq nothing (map fst fs) ls Hlen Hlne Hpos Hnd l i Hi) as [d [Hd [Ed _]]].
    exists d, (skipn l bs). split; [assumption|]. rewrite Ed. cbn [firstCodes build]. rewrite <- Hf. symmetry. apply firstn_skipn.
  - exfalso. rewrite Hz in C; [lia|]. destruct (num_max ls Hlne) as [M [-> HM]]. apply Hp in HM. lia.
Qed.

Lemma forall2_len {A B} (R : A -> B -> Prop) l m : Forall2 R l m -> length l = length m.
Proof. induction 1; cbn; congruence. Qed.
Lemma combine_nth ws : forall ls : list nat, length ls = length ws ->
  combine ws ls = map (fun i => (nth i ws 0, nth i ls 0)) (seq 0 (length ws)).
Proof.
  induction ws as [|w ws IH]; intros [|l ls] Hl; cbn in Hl; try lia; [reflexivity|].
  cbn [length seq map combine nth]. f_equal. rewrite <- seq_shift, map_map. apply IH. lia.
Qed.
(** No prefix-free code is shorter: the sum of frequency times length is least. *)
Theorem C26_optimal D eqb (nothing : D) is_heap make pop push fs (cs : list (list bool)) :
  (forall a b, eqb a b = true <-> a = b) -> heap_ops is_heap make pop push ->
  2 <= length fs -> NoDup (map fst fs) -> shallow make pop push Nat.add fs ->
  length cs = length fs -> prefix_free cs ->
  weighted (map snd fs) (map (fun d => length (code eqb nothing make pop push Nat.add fs d)) (map fst fs)) <=
  weighted (map snd fs) (map (@length bool) cs).
Proof.
  intros Heq ops Hn Hnd Hsh Hcs Hpf. set (ws := map snd fs).
  assert (Hnw : 2 <= length ws) by (unfold ws; now rewrite map_length).
  destruct (lengths_tree is_heap make pop push ops Nat.add ws Hnw (Hsh Hn)) as [T [Hh [Hlv H]]].
  cbn zeta in H. unfold code, coder. fold ws. set (ls := calc_lengths Nat.add make pop push ws) in *.
  destruct H as [Hl [Pl [_ [Hd Hp]]]].
  assert (Hlen : length (map fst fs) = length ls) by (rewrite Hl; unfold ws; now rewrite !map_length).
  assert (Hlne : ls <> []) by (intros C; rewrite C in Hl; cbn in Hl; lia).
  rewrite (code_lengths D eqb Heq nothing (map fst fs) ls Hlen Hlne); [|intros l Hin; now apply Hp|assumption].
  rewrite weighted_total.
  assert (Hmapn : forall (l : list nat), map (fun i => nth i l 0) (seq 0 (length l)) = l).
  { clear. intros l. induction l as [|x l IH]; [reflexivity|]. cbn [length seq map nth]. f_equal. rewrite <- seq_shift, map_map. exact IH. }
  assert (Ec : Permutation (combine ws ls) (map (fun e => (nth (fst e) ws 0, snd e)) (dleaves 0 T))).
  { assert (E : map (fun e => (nth (fst e) ws 0, snd e)) (dleaves 0 T) = map (fun i => (nth i ws 0, nth i ls 0)) (leaves T)).
    { rewrite <- (dleaves_fst T 0), map_map. apply map_ext_in. intros [i d] Hin. cbn. now rewrite (Hd i d Hin). }
    rewrite E, (combine_nth ws ls Hl). apply Permutation_map. now symmetry. }
  rewrite (total_perm _ _ Ec), tc_total, Nat.mul_0_l, Nat.add_0_r.
  destruct (huff_hcost ws _ _ Hh) as [c [Hc Ht]]. rewrite Ht.
  assert (Hz : list_sum (map (tc ws) (map Leaf (seq 0 (length ws)))) = 0).
  { rewrite map_map. cbn [tc]. clear. generalize (seq 0 (length ws)). intros l. induction l as [|x l IHl]; [reflexivity|exact IHl]. }
  rewrite Hz. cbn [Nat.add]. rewrite map_map in Hc. cbn [tw] in Hc. rewrite Hmapn in Hc.
  assert (Hcne : cs <> []) by (intros ->; cbn in Hcs; lia).
  destruct (prefix_shape (list_sum (map (@length bool) cs)) cs (le_n _) Hcne (prefix_free_pairs cs Hpf)) as [ds [Hfit Hs]].
  assert (Hds : length ws = length ds) by (rewrite (forall2_len _ _ _ Hfit), Hcs; unfold ws; apply map_length).
  transitivity (weighted ws ds); [|now apply weighted_mono]. rewrite weighted_total.
  destruct (combine_map ws ds Hds) as [E1 E2].
  apply (huffman_optimal ws c Hc); [now rewrite E2|now rewrite E1].
Qed.

(** Codes of more than 64 bits need more than 4 * 10^13 symbols. *)
Theorem C26_shallow D is_heap make pop push (fs : list (D * nat)) :
  heap_ops is_heap make pop push -> (forall w, In w (map snd fs) -> 1 <= w) ->
  (N.of_nat (list_sum (map snd fs)) < 44945570212853)%N -> shallow make pop push Nat.add fs.
Proof.
  intros ops Hw Hsum Hn d Hin. set (ws := map snd fs) in *.
  assert (Hnw : 2 <= length ws) by (unfold ws; now rewrite map_length).
  destruct (calc_depths_spec is_heap make pop push ops Nat.add ws Hnw) as [T [Hh [Hl [Hlen Hd]]]].
  apply (In_nth _ _ 0) in Hin as [i [Hi E]].
  assert (Hti : In i (map fst (dleaves 0 T))).
  { rewrite dleaves_fst. apply (Permutation_in _ (Permutation_sym Hl)). apply in_seq. lia. }
  apply in_map_iff in Hti as [[i' e] [Ei He]]. cbn in Ei. subst i'. rewrite (Hd i e He) in E. subst e.
  apply depth_height in He. cbn [Nat.add] in He.
  assert (Hf : fib (height T) <= tw ws Nat.add T).
  { apply (huff_heavy ws _ _ Hh 1 (le_n 1)). intros t Ht. apply in_map_iff in Ht as [j [<- Hj]]. apply in_seq in Hj.
    assert (1 <= nth j ws 0) by (apply Hw, nth_In; lia). unfold heavy. cbn [height tw]. cbn. lia. }
  assert (Es : tw ws Nat.add T = list_sum ws).
  { rewrite tw_sum, (list_sum_perm _ _ (Permutation_map _ Hl)). f_equal. clear.
    induction ws as [|x l IH]; [reflexivity|]. cbn [length seq map nth]. f_equal. rewrite <- seq_shift, map_map. exact IH. }
  destruct (Nat.le_gt_cases d 64) as [C|C]; [assumption|]. exfalso.
  assert (H65 : (44945570212853 <= fst (fibN 65))%N) by (vm_compute; discriminate). apply fib_large in H65.
  pose proof (fib_mono 65 (height T) ltac:(lia)) as Hm. revert H65 Hm. generalize (fib 65) as f. intros f H65 Hm. lia.
Qed.

(** * A heap *)
Definition sorted (w : nat -> nat) (l : list nat) : Prop := StronglySorted (fun x y => w x <= w y) l.
Fixpoint insert (w : nat -> nat) (x : nat) (l : list nat) : list nat :=
  match l with [] => [x] | y :: l' => if w x <=? w y then x :: l else y :: insert w x l' end.
Definition sort (w : nat -> nat) (l : list nat) : list nat := fold_right (insert w) [] l.
Definition pop_front (w : nat -> nat) (l : list nat) : list nat := match l with [] => [] | x :: l' => l' ++ [x] end.
Lemma insert_perm w x l : Permutation (insert w x l) (x :: l).
Proof.
  induction l as [|y l IH]; cbn; [reflexivity|]. destruct (w x <=? w y); [reflexivity|]. rewrite IH. apply perm_swap.
Qed.
Lemma insert_sorted w x l : sorted w l -> sorted w (insert w x l).
Proof.
  intros H. induction H as [|y l H IH Hf]; cbn; [constructor; constructor|]. destruct (Nat.leb_spec (w x) (w y)) as [C|C].
  - constructor; [now constructor|]. constructor; [assumption|]. eapply Forall_impl; [|exact Hf]. cbn. intros; lia.
  - constructor; [assumption|]. eapply Permutation_Forall; [symmetry; apply insert_perm|]. constructor; [lia|assumption].
Qed.
Lemma sort_spec w l : Permutation (sort w l) l /\ sorted w (sort w l).
Proof.
  induction l as [|x l [IH1 IH2]]; cbn; [split; constructor|]. split; [rewrite insert_perm; now constructor|now apply insert_sorted].
Qed.
Lemma sort_ops : heap_ops sorted sort pop_front sort.
Proof.
  constructor.
  - intros w w' l E H. induction H as [|x l H IH Hf]; constructor; [apply IH; intros y Hy; apply E; now right|].
    rewrite Forall_forall in *. intros y Hy. rewrite <- (E x (or_introl eq_refl)), <- (E y (or_intror Hy)). now apply Hf.
  - intros w x l H y Hy. inversion H as [|? ? _ Hf]; subst. rewrite Forall_forall in Hf. now apply Hf.
  - apply sort_spec.
  - intros w x l H. exists l. split; [reflexivity|]. split; [reflexivity|]. now inversion H.
  - intros w l x _. apply sort_spec.
Qed.

(** * Witnesses *)
Definition ex_table : list (nat * nat) := [(1, 5); (2, 2); (3, 1); (4, 1); (5, 9)].
Example ex_shallow : shallow sort pop_front sort Nat.add ex_table /\ NoDup (map fst ex_table).
Proof.
  split; [apply (C26_shallow _ _ _ _ _ _ sort_ops)|].
  - cbn. intros w H. lia.
  - vm_compute. reflexivity.
  - cbn. repeat constructor; cbn; lia.
Qed.
Example ex_codes : map (code Nat.eqb 0 sort pop_front sort Nat.add ex_table) [1; 2; 3; 4; 5] =
  [[false; true]; [false; false; true]; [false; false; false; false]; [false; false; false; true]; [true]].
Proof. vm_compute. reflexivity. Qed.
Example ex_read : let h := coder 0 sort pop_front sort Nat.add ex_table in
  option_map fst (read_many h 4 (reset (put_bits (wrap []) (concat (map (put_code Nat.eqb h) [5; 3; 1; 4]))))) = Some [5; 3; 1; 4].
Proof. vm_compute. reflexivity. Qed.
(** The padding of the last byte is read as further symbols. *)
Theorem C26_end_refuted : exists (fs : list (nat * nat)) msg, (forall d, In d msg -> In d (map fst fs)) /\
  let h := coder 0 sort pop_front sort Nat.add fs in
  option_map fst (read_many h (S (length msg)) (reset (put_bits (wrap []) (concat (map (put_code Nat.eqb h) msg))))) = Some (msg ++ [3]).
Proof. exists ex_table, [5]. split; [intros d [<-|[]]; cbn; lia|]. vm_compute. reflexivity. Qed.

Print Assumptions C26_lossless.
Print Assumptions C26_seek.
Print Assumptions C26_prefix_free.
Print Assumptions C26_complete.
Print Assumptions C26_optimal.
Print Assumptions C26_shallow.
Print Assumptions C26_end_refuted.

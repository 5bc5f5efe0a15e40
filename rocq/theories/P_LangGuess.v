(** C88: the language guesser. *)
From Coq Require Import String.
From Coq Require Import List ZArith QArith Bool Lia Lqa Znumtheory FinFun.
From Verif Require Import M_LangGuess.
Import ListNotations.
Local Open Scope Z_scope.

(** * Counting *)

(** The sum of the squares over a table, and frequencies between 0 and 1. *)
Definition bounded (f : Z -> Q) : Prop := forall i, (0 <= f i /\ f i <= 1)%Q.
(** The pair of neighbours at a place, as it is counted. *)
Definition small (c : Z) : Z := if (65 <=? c) && (c <=? 90) then c + 32 else c.
Definition cell (s : text) (j : nat) : Z := (509 * small (nth j s 0) + 259081 * small (nth (S j) s 0)) mod 512.
Definition times (s : text) (n : nat) (i : Z) : Z :=
  Z.of_nat (length (filter (fun j => cell s j =? i) (seq 0 n))).

Lemma lower_small c : lower c = small c.
Proof.
  unfold lower, small. destruct (Z.ltb_spec 90 c), (Z.ltb_spec c 65), (Z.leb_spec 65 c), (Z.leb_spec c 90); cbn; try reflexivity; lia.
Qed.
Lemma index_cell a b : index a b = (509 * a + 259081 * b) mod 512.
Proof.
  unfold index, FACTOR, TABLE_SIZE. change (509 * 509) with 259081. rewrite <- (Zmod_div_mod 512 (2 ^ 32)); [f_equal; lia|lia|lia|]. exists (2 ^ 23). reflexivity.
Qed.
Lemma times_S s n i : times s (S n) i = times s n i + (if cell s n =? i then 1 else 0).
Proof.
  unfold times. rewrite seq_S, filter_app, app_length. cbn. destruct (cell s n =? i); cbn [length]; lia.
Qed.
Lemma count_loop_spec s : forall rest k t, (forall i, t i = times s k i) -> (S (S k) + length rest = length s)%nat -> skipn (S (S k)) s = rest ->
  forall i, count_loop (small (nth k s 0)) (small (nth (S k) s 0)) rest t i = times s (k + length rest) i.
Proof.
  induction rest as [|c rest IH]; intros k t Ht L E i; cbn [count_loop length].
  - rewrite Nat.add_0_r. apply Ht.
  - assert (Ec : c = nth (S (S k)) s 0) by (rewrite <- (firstn_skipn (S (S k)) s), E, app_nth2; rewrite firstn_length; [|cbn [length] in L; lia];
      replace (S (S k) - Nat.min (S (S k)) (length s))%nat with 0%nat by (cbn [length] in L; lia); reflexivity).
    rewrite lower_small, Ec. rewrite <- Nat.add_succ_comm. apply IH.
    + intros j. unfold add_one. rewrite times_S, Ht, index_cell. fold (cell s k). rewrite (Z.eqb_sym j). destruct (cell s k =? j); lia.
    + cbn [length] in L. lia.
    + change (S (S (S k))) with (1 + S (S k))%nat. assert (G : forall (l : list Z) n, skipn (1 + n) l = skipn 1 (skipn n l)).
      { intros l n. revert l. induction n as [|n IHn]; intros [|x l]; try reflexivity. cbn [Nat.add skipn]. destruct n; [reflexivity|]. apply (IHn l). }
      rewrite G, E. reflexivity.
Qed.
Lemma width_pos c : 1 <= width c.
Proof. unfold width. destruct (c <? 128), (c <? 2048), (c <? 65536); lia. Qed.
Lemma byte_nonneg s : 0 <= byte_length s /\ Z.of_nat (length s) <= byte_length s.
Proof. induction s as [|c s IH]; cbn [byte_length fold_right length]; [lia|]. pose proof (width_pos c). unfold byte_length in IH. lia. Qed.
(** The table counts every pair of neighbours but the last one, at the place that a
    formula of the two letters gives, capitals of ASCII as small letters.  For a text of
    one character that is not ASCII an exception is thrown. *)
Theorem C88_counted : forall s,
  (count_bigrams s = Throw <-> exists c, s = [c] /\ 128 <= c) /\
  forall t, count_bigrams s = Done t -> forall i, t i = times s (length s - 2) i.
Proof.
  intros s. unfold count_bigrams. destruct (Z.ltb_spec (byte_length s) 2) as [L|L].
  - pose proof (byte_nonneg s) as B. split.
    + split; [discriminate|]. intros (c & -> & K). cbn in L. unfold width in L. destruct (Z.ltb_spec c 128); [lia|]. destruct (c <? 2048), (c <? 65536); lia.
    + intros t H i. injection H as <-. replace (length s - 2)%nat with 0%nat by lia. reflexivity.
  - destruct s as [|a [|b rest]]; [cbn in L; lia| |].
    + split; [|discriminate]. split; [intros _; exists a; split; [reflexivity|]|reflexivity]. cbn in L. unfold width in L. destruct (Z.ltb_spec a 128); lia.
    + split; [split; [discriminate|intros (c & K & _); discriminate]|]. intros t H i. injection H as <-. rewrite !lower_small.
      change (small a) with (small (nth 0 (a :: b :: rest) 0)). change (small b) with (small (nth 1 (a :: b :: rest) 0)).
      cbn [length]. replace (S (S (length rest)) - 2)%nat with (0 + length rest)%nat by lia. apply count_loop_spec; [intros j; reflexivity|reflexivity|reflexivity].
Qed.
Print Assumptions C88_counted.

Lemma sum_ext (f g : Z -> Z) l : (forall i, f i = g i) -> fold_right (fun i n => f i + n) 0 l = fold_right (fun i n => g i + n) 0 l.
Proof. intros H. induction l as [|x l IH]; cbn; [reflexivity|]. now rewrite H, IH. Qed.
Lemma sum_plus (f g : Z -> Z) l : fold_right (fun i n => (f i + g i) + n) 0 l = fold_right (fun i n => f i + n) 0 l + fold_right (fun i n => g i + n) 0 l.
Proof. induction l as [|x l IH]; cbn; [reflexivity|]. rewrite IH. lia. Qed.
Lemma sum_one c l : NoDup l -> fold_right (fun i n => (if c =? i then 1 else 0) + n) 0 l = if existsb (Z.eqb c) l then 1 else 0.
Proof.
  induction 1 as [|x l N _ IH]; cbn; [reflexivity|]. rewrite IH. destruct (Z.eqb_spec c x) as [->|]; [|reflexivity]. cbn.
  destruct (existsb (Z.eqb x) l) eqn:E; [|reflexivity]. apply existsb_exists in E as (y & K & E). apply Z.eqb_eq in E. now subst.
Qed.
Lemma places_in i : In i places <-> 0 <= i < 512.
Proof.
  unfold places, TABLE_SIZE. rewrite in_map_iff. split.
  - intros (n & <- & K). apply in_seq in K. lia.
  - intros H. exists (Z.to_nat i). split; [lia|]. apply in_seq. lia.
Qed.
Lemma places_nodup : NoDup places.
Proof. unfold places. apply Injective_map_NoDup; [|apply seq_NoDup]. intros x y. apply Nat2Z.inj. Qed.
Lemma cell_in s j : existsb (Z.eqb (cell s j)) places = true.
Proof. apply existsb_exists. exists (cell s j). split; [|apply Z.eqb_refl]. apply places_in. unfold cell. apply Z.mod_pos_bound. lia. Qed.
Lemma sum_times s n : fold_right (fun i k => times s n i + k) 0 places = Z.of_nat n.
Proof.
  induction n as [|n IH].
  - rewrite (sum_ext _ (fun _ => 0)) by reflexivity. generalize places. intros l. induction l as [|x l IHl]; cbn in *; lia.
  - rewrite (sum_ext _ (fun i => times s n i + (if cell s n =? i then 1 else 0))) by (intros i; apply times_S). rewrite sum_plus, IH.
    rewrite sum_one by apply places_nodup. rewrite cell_in. lia.
Qed.
Lemma times_bound s n i : 0 <= times s n i <= Z.of_nat n.
Proof. induction n as [|n IH]; [unfold times; cbn; lia|]. rewrite times_S. destruct (cell s n =? i); lia. Qed.
Definition total (f : Z -> Q) : Q := fold_right (fun i x => (f i + x)%Q) 0%Q places.
Lemma total_div (t : Z -> Z) m l : ~ (inject_Z m == 0)%Q ->
  (fold_right (fun i x => inject_Z (t i) / inject_Z m + x)%Q 0%Q l == inject_Z (fold_right (fun i n => (t i + n)%Z) 0%Z l) / inject_Z m)%Q.
Proof.
  intros N. induction l as [|x l IH]; cbn [fold_right]; [now field|]. rewrite IH, inject_Z_plus. now field.
Qed.
(** The frequencies are between 0 and 1; they sum up to 1 if the text has three
    characters or more, and are 0 otherwise. *)
Theorem C88_frequencies : forall s t, count_bigrams s = Done t ->
  bounded (frequencies t) /\
  ((2 < length s)%nat -> (total (frequencies t) == 1)%Q /\ forall i, (frequencies t i == inject_Z (times s (length s - 2) i) / inject_Z (Z.of_nat (length s - 2)))%Q) /\
  ((length s <= 2)%nat -> forall i, frequencies t i = 0%Q).
Proof.
  intros s t H. pose proof (proj2 (C88_counted s) t H) as Ht. unfold frequencies.
  assert (Es : sum_counts t = Z.of_nat (length s - 2)) by (unfold sum_counts; rewrite (sum_ext t (times s (length s - 2)) places Ht); apply sum_times).
  rewrite Es. destruct (Z.eqb_spec (Z.of_nat (length s - 2)) 0) as [E|E].
  - split; [intros i; split; discriminate|]. split; [lia|reflexivity].
  - assert (N : ~ (inject_Z (Z.of_nat (length s - 2)) == 0)%Q) by (unfold Qeq, inject_Z; cbn [Qnum Qden]; lia).
    assert (P : (0 < inject_Z (Z.of_nat (length s - 2)))%Q) by (unfold Qlt, inject_Z; cbn [Qnum Qden]; lia). split; [|split; [|lia]].
    + intros i. rewrite Ht. pose proof (times_bound s (length s - 2) i) as [B1 B2]. split.
      * apply Qle_shift_div_l; [exact P|]. rewrite Qmult_0_l. unfold Qle, inject_Z. cbn [Qnum Qden]. lia.
      * apply Qle_shift_div_r; [exact P|]. rewrite Qmult_1_l. unfold Qle, inject_Z. cbn [Qnum Qden]. lia.
    + intros _. split; [|intros i; rewrite Ht; reflexivity]. unfold total. rewrite total_div by exact N. fold (sum_counts t). rewrite Es. now field.
Qed.
Print Assumptions C88_frequencies.

(** * The nearest language *)

(** A language nearest to the frequencies, the first of several, if it is nearer than a
    bound. *)
Definition nearest (f : Z -> Q) (bound : Q) (ls : list language) (r : option string) : Prop :=
  match r with
  | None => forall l, In l ls -> (bound <= distance f (table l))%Q
  | Some n => exists l1 l l2, ls = l1 ++ l :: l2 /\ n = name l /\ (distance f (table l) < bound)%Q /\
      (forall l', In l' l1 -> (distance f (table l) < distance f (table l'))%Q) /\
      forall l', In l' l2 -> (distance f (table l) <= distance f (table l'))%Q
  end.
Lemma Qltb_spec x y : Qltb x y = true <-> (x < y)%Q.
Proof.
  unfold Qltb. rewrite negb_true_iff. split.
  - intros H. apply Qnot_le_lt. intros K. apply Qle_bool_iff in K. congruence.
  - intros H. destruct (Qle_bool y x) eqn:E; [|reflexivity]. apply Qle_bool_iff in E. apply Qle_not_lt in E. contradiction.
Qed.
Lemma best_spec f : forall ls best m, (nearest f m ls None /\ best_loop f ls best m = best) \/ exists n, best_loop f ls best m = Some n /\ nearest f m ls (Some n).
Proof.
  induction ls as [|l ls IH]; intros best m; cbn [best_loop].
  - left. split; [intros l []|reflexivity].
  - destruct (Qltb (distance f (table l)) m) eqn:E.
    + apply Qltb_spec in E. right. destruct (IH (Some (name l)) (distance f (table l))) as [[H1 H2]|(n & H1 & l1 & l' & l2 & -> & -> & K1 & K2 & K3)].
      * exists (name l). split; [exact H2|]. exists [], l, ls. split; [reflexivity|split; [reflexivity|split; [exact E|split; [intros l' []|]]]]. exact H1.
      * exists (name l'). split; [exact H1|]. exists (l :: l1), l', l2. split; [reflexivity|split; [reflexivity|split; [now apply (Qlt_trans _ _ _ K1)|split; [|exact K3]]]].
        intros x [<-|K]; [exact K1|now apply K2].
    + assert (N : (m <= distance f (table l))%Q) by (apply Qnot_lt_le; intros K; apply Qltb_spec in K; congruence).
      destruct (IH best m) as [[H1 H2]|(n & H1 & l1 & l' & l2 & -> & -> & K1 & K2 & K3)].
      * left. split; [|exact H2]. intros x [<-|K]; [exact N|now apply H1].
      * right. exists (name l'). split; [exact H1|]. exists (l :: l1), l', l2. split; [reflexivity|split; [reflexivity|split; [exact K1|split; [|exact K3]]]].
        intros x [<-|K]; [now apply (Qlt_le_trans _ _ _ K1)|now apply K2].
Qed.
Lemma square_bound x y : (0 <= x /\ x <= 1)%Q -> (0 <= y /\ y <= 1)%Q -> (0 <= (x - y) * (x - y) /\ (x - y) * (x - y) <= 1)%Q.
Proof.
  intros [H1 H2] [H3 H4]. set (d := (x - y)%Q). assert (D : (- (1) <= d /\ d <= 1)%Q) by (unfold d; lra). destruct D as [D1 D2]. clearbody d. split.
  - destruct (Qlt_le_dec d 0) as [K|K]; [|now apply Qmult_le_0_compat]. setoid_replace (d * d)%Q with ((- d) * (- d))%Q by ring. apply Qmult_le_0_compat; lra.
  - assert (P : (0 <= (1 - d) * (1 + d))%Q) by (apply Qmult_le_0_compat; lra). assert (E : ((1 - d) * (1 + d) == 1 - d * d)%Q) by ring. rewrite E in P. lra.
Qed.
Lemma distance_bound f g : bounded f -> bounded g -> (0 <= distance f g /\ distance f g <= 512)%Q.
Proof.
  intros Hf Hg. unfold distance. assert (G : forall l a, (0 <= a)%Q -> (0 <= fold_left (fun d i => d + (f i - g i) * (f i - g i)) l a /\
    fold_left (fun d i => d + (f i - g i) * (f i - g i)) l a <= a + inject_Z (Z.of_nat (length l)))%Q).
  { induction l as [|i l IH]; intros a Ha; cbn [fold_left length]; [split; [exact Ha|]; change (inject_Z (Z.of_nat 0)) with 0%Q; lra|].
    pose proof (square_bound (f i) (g i) (Hf i) (Hg i)) as [S1 S2]. destruct (IH (a + (f i - g i) * (f i - g i))%Q) as [I1 I2]; [lra|]. split; [exact I1|].
    eapply Qle_trans; [exact I2|]. rewrite Nat2Z.inj_succ, <- Z.add_1_r, inject_Z_plus. change (inject_Z 1) with 1%Q. lra. }
  destruct (G places 0%Q) as [G1 G2]; [lra|]. split; [exact G1|]. eapply Qle_trans; [exact G2|]. vm_compute. discriminate.
Qed.
(** The guess by bigrams is the nearest language, the first of several; it throws for a
    text of one character that is not ASCII, and the empty text is unknown.  With tables
    of frequencies and a language there is always an answer for other texts. *)
Theorem C88_bigrams : forall ls s,
  (by_bigrams ls s = Throw <-> exists c, s = [c] /\ 128 <= c) /\
  (s = [] -> by_bigrams ls s = Done None) /\
  (forall r, by_bigrams ls s = Done r -> s <> [] ->
     exists t, count_bigrams s = Done t /\ nearest (frequencies t) (inject_Z 100000000000) ls r /\
       (ls <> [] -> (forall l, In l ls -> bounded (table l)) -> r <> None)).
Proof.
  intros ls s. pose proof (proj1 (C88_counted s)) as Ct. unfold by_bigrams. destruct s as [|c s].
  - split; [split; [discriminate|intros (c & K & _); discriminate]|]. split; [reflexivity|]. intros r _ K. congruence.
  - destruct (count_bigrams (c :: s)) as [t|] eqn:E.
    + split; [split; [discriminate|intros K; apply Ct in K; discriminate]|]. split; [discriminate|]. intros r H _. injection H as H. exists t. split; [reflexivity|].
      pose proof (best_spec (frequencies t) ls None MAX_DIST) as B. rewrite H in B.
      assert (Nr : nearest (frequencies t) MAX_DIST ls r) by (destruct B as [[B1 ->]|(n & -> & B)]; assumption). split; [exact Nr|].
      intros Nl Hb ->. destruct ls as [|l ls]; [congruence|]. specialize (Nr l (or_introl eq_refl)).
      pose proof (distance_bound _ _ (proj1 (C88_frequencies _ _ E)) (Hb l (or_introl eq_refl))) as [_ D]. unfold MAX_DIST in Nr. pose proof (Qle_trans _ _ _ Nr D) as K. vm_compute in K. now apply K.
    + split; [split; [intros _; now apply Ct|reflexivity]|]. split; [discriminate|]. intros r H. discriminate H.
Qed.
Print Assumptions C88_bigrams.

(** * Letters *)

(** The pieces of a text between spaces; the words are those that are not empty. *)
Fixpoint pieces (s : text) : list text :=
  match s with
  | [] => [[]]
  | c :: s' => if c =? 32 then [] :: pieces s'
               else match pieces s' with w :: ws => (c :: w) :: ws | [] => [[c]] end
  end.
Definition word_of (s w : text) : Prop := In w (pieces s) /\ w <> [].
Definition has (ls w : text) : Prop := exists c, In c w /\ In c ls.

Definition hasb (ls w : text) : bool := existsb (specific ls) w.
Lemma specific_in ls c : specific ls c = true <-> In c ls.
Proof.
  unfold specific. rewrite existsb_exists. split; [intros (x & K & E); apply Z.eqb_eq in E; now subst|]. intros K. exists c. split; [exact K|apply Z.eqb_refl].
Qed.
Lemma hasb_has ls w : hasb ls w = true <-> has ls w.
Proof. unfold hasb, has. rewrite existsb_exists. split; intros (c & K1 & K2); exists c; (split; [exact K1|now apply specific_in]). Qed.
Definition emptyb (w : text) : bool := match w with [] => true | _ => false end.
Definition fin (f : flags) : bool := (if is_word f && negb (in_word f) then false else found f) && all_words f.
Lemma letters_fold ls : ~ In 32 ls -> forall s fd al iw isw, (iw = true -> isw = true) -> exists w ws, pieces s = w :: ws /\
  fin (fold_left (letter_step ls) s (Flags fd al iw isw)) =
    al && ((negb isw && emptyb w) || iw || hasb ls w) && forallb (fun v => emptyb v || hasb ls v) ws && (fd || hasb ls s).
Proof.
  intros Hsp. induction s as [|c s IH]; intros fd al iw isw Hi.
  - exists [], []. split; [reflexivity|]. cbn. unfold fin. cbn. destruct isw, iw, fd, al; reflexivity.
  - cbn [pieces fold_left]. unfold letter_step at 2. destruct (Z.eqb_spec c 32) as [->|N].
    + assert (Es : specific ls 32 = false) by (destruct (specific ls 32) eqn:E; [apply specific_in in E; contradiction|reflexivity]). rewrite Es. cbn [found all_words in_word is_word].
      change (32 =? SPACE) with true. cbv iota. exists [], (pieces s). split; [reflexivity|].
      change (hasb ls (32 :: s)) with (specific ls 32 || hasb ls s). rewrite Es. change (hasb ls []) with false. cbn [orb emptyb]. rewrite andb_true_r, orb_false_r.
      destruct (isw && negb iw) eqn:B; cbn [found all_words in_word is_word].
      * destruct (IH false false false false) as (w & ws & Ew & Ef); [discriminate|]. rewrite Ef. apply andb_true_iff in B as [-> B]. apply negb_true_iff in B. subst iw. cbn.
        now rewrite andb_false_r.
      * destruct (IH fd al false false) as (w & ws & Ew & Ef); [discriminate|]. rewrite Ef, Ew. cbn [forallb negb andb]. rewrite orb_false_r.
        assert (Eo : negb isw || iw = true) by (destruct isw, iw; cbn in B |- *; congruence). rewrite Eo, andb_true_r. now rewrite !andb_assoc.
    + change (hasb ls (c :: s)) with (specific ls c || hasb ls s).
      assert (Ec : (c =? SPACE) = false) by (now apply Z.eqb_neq). destruct (specific ls c) eqn:Es; cbn [found all_words in_word is_word]; rewrite Ec; cbn [found all_words in_word is_word].
      * destruct (IH true al true true) as (w & ws & Ew & Ef); [reflexivity|]. rewrite Ew, Ef. exists (c :: w), ws. split; [reflexivity|].
        change (hasb ls (c :: w)) with (specific ls c || hasb ls w). rewrite Es. cbn. now rewrite !orb_true_r.
      * destruct (IH fd al iw true) as (w & ws & Ew & Ef); [reflexivity|]. rewrite Ew, Ef. exists (c :: w), ws. split; [reflexivity|].
        change (hasb ls (c :: w)) with (specific ls c || hasb ls w). rewrite Es. cbn [negb andb orb emptyb]. now rewrite andb_false_r.
Qed.
Lemma pieces_has ls s : ~ In 32 ls -> hasb ls s = existsb (hasb ls) (pieces s).
Proof.
  intros Hs. induction s as [|c s IH]; [reflexivity|]. cbn [pieces]. change (hasb ls (c :: s)) with (specific ls c || hasb ls s). destruct (Z.eqb_spec c 32) as [->|N].
  - destruct (specific ls 32) eqn:E; [apply specific_in in E; contradiction|]. cbn. exact IH.
  - rewrite IH. destruct (pieces s) as [|w ws]; cbn; [now rewrite !orb_false_r|]. now rewrite orb_assoc.
Qed.
(** A text is taken to be of a language by its letters exactly if it has a word and all
    its words have one of the letters of the language. *)
Theorem C88_letters : forall ls s, ~ In 32 ls ->
  speaks ls s = true <-> (exists w, word_of s w) /\ forall w, word_of s w -> has ls w.
Proof.
  intros ls s Hs. destruct ls as [|l0 ls0].
  { split; [discriminate|]. intros [(w & K) H]. destruct (H w K) as (c & _ & []). }
  set (ls := l0 :: ls0) in *. destruct (letters_fold ls Hs s false true false false) as (w & ws & Ew & Ef); [discriminate|].
  change (speaks ls s) with (fin (fold_left (letter_step ls) s (Flags false true false false))). rewrite Ef. rewrite (pieces_has ls s Hs), Ew.
  cbn [negb andb orb]. rewrite orb_false_r.
  assert (Ea : (emptyb w || hasb ls w) && forallb (fun v => emptyb v || hasb ls v) ws = forallb (fun v => emptyb v || hasb ls v) (w :: ws)) by reflexivity.
  rewrite Ea. unfold word_of. rewrite Ew. rewrite andb_true_iff, forallb_forall, existsb_exists. split.
  - intros [H1 (v & K1 & K2)]. split; [exists v; split; [exact K1|intros ->; discriminate]|]. intros u [K3 K4]. apply H1 in K3. apply orb_true_iff in K3 as [K3|K3]; [destruct u; [congruence|discriminate]|].
    now apply hasb_has.
  - intros [(v & K1 & K2) H]. split; [|exists v; split; [exact K1|apply hasb_has, H; now split]]. intros u K. apply orb_true_iff. destruct u as [|c u]; [now left|]. right. apply hasb_has, H.
    split; [exact K|discriminate].
Qed.
Print Assumptions C88_letters.
(** The first language in whose letters the text is. *)
Theorem C88_by_letters : forall ls s,
  match by_letters ls s with
  | Some n => exists l1 l l2, ls = l1 ++ l :: l2 /\ n = name l /\ speaks (letters l) s = true /\ forall l', In l' l1 -> speaks (letters l') s = false
  | None => forall l, In l ls -> speaks (letters l) s = false
  end.
Proof.
  induction ls as [|l ls IH]; intros s; cbn [by_letters]; [intros l []|]. destruct (speaks (letters l) s) eqn:E.
  - exists [], l, ls. split; [reflexivity|split; [reflexivity|split; [exact E|intros l' []]]].
  - specialize (IH s). destruct (by_letters ls s) as [n|].
    + destruct IH as (l1 & l' & l2 & -> & -> & K1 & K2). exists (l :: l1), l', l2. split; [reflexivity|split; [reflexivity|split; [exact K1|]]]. intros x [<-|K]; [exact E|now apply K2].
    + intros x [<-|K]; [exact E|now apply IH].
Qed.
Print Assumptions C88_by_letters.

(** * The guess *)

(** With tables of frequencies and a language: the forced language; for a text below 24
    bytes the language of its letters, and if there is none the default language, unless
    forced to guess: then the only language, or the nearest one (the first for the empty
    text), or an exception for one character that is not ASCII; for other texts the nearest
    language. *)
Theorem C88_guess : forall S ls s, ls <> [] -> (forall l, In l ls -> bounded (table l)) ->
  match forced S with
  | Some f => guess S ls s = Done (Some f)
  | None =>
      (24 <= byte_length s -> exists n t, guess S ls s = Done (Some n) /\ count_bigrams s = Done t /\ nearest (frequencies t) (inject_Z 100000000000) ls (Some n)) /\
      (byte_length s < 24 ->
         match by_letters ls s with
         | Some n => guess S ls s = Done (Some n)
         | None =>
             if force S then
               (forall l, ls = [l] -> guess S ls s = Done (Some (name l))) /\
               (forall l l' ls', ls = l :: l' :: ls' ->
                  (s = [] -> guess S ls s = Done (Some (name l))) /\
                  ((exists c, s = [c] /\ 128 <= c) -> guess S ls s = Throw) /\
                  (s <> [] -> ~ (exists c, s = [c] /\ 128 <= c) ->
                     exists n t, guess S ls s = Done (Some n) /\ count_bigrams s = Done t /\ nearest (frequencies t) (inject_Z 100000000000) ls (Some n)))
             else guess S ls s = Done (default S)
         end)
  end.
Proof.
  intros S ls s Nl Hb. unfold guess. destruct (forced S) as [f|]; [reflexivity|]. pose proof (C88_bigrams ls s) as (B1 & B2 & B3).
  assert (Bn : s <> [] -> ~ (exists c, s = [c] /\ 128 <= c) -> exists n t, by_bigrams ls s = Done (Some n) /\ count_bigrams s = Done t /\ nearest (frequencies t) (inject_Z 100000000000) ls (Some n)).
  { intros K1 K2. destruct (by_bigrams ls s) as [r|] eqn:E; [|exfalso; apply K2; now apply B1]. destruct (B3 r eq_refl K1) as (t & T1 & T2 & T3).
    destruct r as [n|]; [|exfalso; now apply (T3 Nl Hb)]. now exists n, t. }
  split.
  - intros L. assert (Ns : s <> []) by (intros ->; cbn in L; lia).
    assert (Nc : ~ exists c, s = [c] /\ 128 <= c) by (intros (c & -> & _); cbn in L; unfold width in L; destruct (c <? 128), (c <? 2048), (c <? 65536); lia).
    destruct (Bn Ns Nc) as (n & t & E1 & E2 & E3). exists n, t. split; [|now split]. unfold MIN_LENGTH. destruct (Z.ltb_spec (byte_length s) 24) as [K|_]; [lia|]. rewrite E1. reflexivity.
  - intros L. unfold force_guess, MIN_LENGTH. destruct (Z.ltb_spec (byte_length s) 24) as [_|K]; [|lia]. destruct (by_letters ls s) as [n|]; [reflexivity|].
    destruct (force S); [|reflexivity]. split.
    + intros l ->. reflexivity.
    + intros l l' ls' E. split; [|split].
      * intros Es. specialize (B2 Es). rewrite E in *. rewrite B2. reflexivity.
      * intros K. apply B1 in K. rewrite E in *. rewrite K. reflexivity.
      * intros K1 K2. destruct (Bn K1 K2) as (n & t & E1 & E2 & E3). exists n, t. split; [|now split]. rewrite E in E1 |- *. rewrite E1. reflexivity.
Qed.
Print Assumptions C88_guess.
(** Forced to guess, one letter of another alphabet makes an exception. *)
Theorem C88_throw_refuted : exists S ls s, (forall l, In l ls -> bounded (table l)) /\ ls <> [] /\ force S = true /\ guess S ls s = Throw.
Proof.
  exists (Settings None true None), [Language "en" [] (fun _ => 0%Q); Language "pl" [261] (fun _ => 1%Q)]%string, [8364].
  split; [intros l [<-|[<-|[]]] i; cbn; lra|]. split; [discriminate|]. split; reflexivity.
Qed.
Print Assumptions C88_throw_refuted.

(** * Examples *)

Definition pl : language := Language "pl" [261; 263; 281; 322] (fun i => if i =? 0 then 1 else 0)%Q.
Definition de : language := Language "de" [228; 246; 252; 223] (fun i => if i =? 7 then 1 else 0)%Q.
Example C88_letters_example : speaks [261; 322] [32; 261; 98; 32; 97; 322; 32] = true /\ speaks [261; 322] [32; 261; 98; 32; 97; 98; 32] = false.
Proof. split; reflexivity. Qed.
Example C88_counted_example : exists t, count_bigrams [65; 98; 97; 66; 97] = Done t /\ t ((509 * 97 + 259081 * 98) mod 512) = 2 /\ t ((509 * 98 + 259081 * 97) mod 512) = 1.
Proof. eexists. split; [reflexivity|]. split; vm_compute; reflexivity. Qed.
Example C88_guess_example : guess (Settings None false (Some "xx"%string)) [pl; de] [102; 252; 114] = Done (Some "de"%string) /\
  guess (Settings None false (Some "xx"%string)) [pl; de] [102; 114] = Done (Some "xx"%string) /\
  guess (Settings None true None) [pl; de] [102; 114; 117] = Done (Some "pl"%string) /\ bounded (table pl) /\ bounded (table de).
Proof.
  split; [reflexivity|split; [reflexivity|split; [vm_compute; reflexivity|]]]. split; intros i; cbn; [destruct (i =? 0)|destruct (i =? 7)]; lra.
Qed.

(** Facts about the hash tables of M_ZHash. *)
From Coq Require Import List ZArith Znumtheory Zpow_facts Bool Arith Permutation Lia.
From Verif Require Import M_ZHash.
Import ListNotations.
Local Open Scope nat_scope.

Section Facts.
Context {K V : Type} (F : functions K V).
(** Values found by a key have the hash of the key. *)
Context (Hkv : forall k v, key_val F k v = true -> key_hash F k = val_hash F v).

Definition pow2 (sz : Z) : Prop := exists k, (1 <= k <= 32)%Z /\ sz = (2 ^ k)%Z.
Definition pos (sz h : Z) (j : nat) : nat := Z.to_nat ((h + Z.of_nat j * h2 h) mod sz).

Lemma pow2_pos sz : pow2 sz -> (2 <= sz)%Z.
Proof. intros [k [Hk ->]]. change 2%Z with (2 ^ 1)%Z at 1. apply Z.pow_le_mono_r; lia. Qed.
Lemma pow2_divide sz : pow2 sz -> (sz | 2 ^ 32)%Z.
Proof.
  intros [k [Hk ->]]. exists (2 ^ (32 - k))%Z. rewrite <- Z.pow_add_r by lia. f_equal. lia.
Qed.
Lemma uint_mod sz x : pow2 sz -> (uint x mod sz = x mod sz)%Z.
Proof.
  intros H. unfold uint. symmetry. apply Zmod_div_mod; [pose proof (pow2_pos _ H); lia|lia|now apply pow2_divide].
Qed.
Lemma pos_lt sz h j : pow2 sz -> pos sz h j < Z.to_nat sz.
Proof.
  intros H. apply pow2_pos in H. unfold pos.
  pose proof (Z.mod_pos_bound (h + Z.of_nat j * h2 h) sz ltac:(lia)). lia.
Qed.
Lemma pos_Z sz h j : pow2 sz -> Z.of_nat (pos sz h j) = ((h + Z.of_nat j * h2 h) mod sz)%Z.
Proof.
  intros H. apply pow2_pos in H. unfold pos. rewrite Z2Nat.id; [reflexivity|].
  apply Z.mod_pos_bound. lia.
Qed.
Lemma advance_pos sz h j : pow2 sz -> advance sz h (Z.of_nat (pos sz h j)) = Z.of_nat (pos sz h (S j)).
Proof.
  intros H. unfold advance. rewrite uint_mod by assumption. rewrite !pos_Z by assumption.
  rewrite Zplus_mod_idemp_l. f_equal. lia.
Qed.
Lemma start_pos sz h i : pow2 sz -> (uint (h + Z.of_nat i * h2 h) mod sz)%Z = Z.of_nat (pos sz h i).
Proof. intros H. now rewrite uint_mod, pos_Z. Qed.
Lemma start_pos0 sz h : pow2 sz -> (h mod sz)%Z = Z.of_nat (pos sz h 0).
Proof. intros H. rewrite pos_Z by assumption. f_equal. lia. Qed.

Lemma h2_odd h : exists q, h2 h = (2 * q + 1)%Z.
Proof.
  unfold h2. assert (Z.odd (Z.lor h 1) = true) as Ho.
  { rewrite <- Z.bit0_odd, Z.lor_spec. apply orb_true_r. }
  apply Z.odd_spec in Ho. destruct Ho as [q Hq]. now exists q.
Qed.
Lemma pos_inj sz h i j : pow2 sz -> i < Z.to_nat sz -> j < Z.to_nat sz -> pos sz h i = pos sz h j -> i = j.
Proof.
  intros Hp Hi Hj E. pose proof (pow2_pos _ Hp) as H2.
  apply (f_equal Z.of_nat) in E. rewrite !pos_Z in E by assumption.
  assert (Hd : (sz | (Z.of_nat i - Z.of_nat j) * h2 h)%Z).
  { apply Z.mod_divide; [lia|].
    replace ((Z.of_nat i - Z.of_nat j) * h2 h)%Z with ((h + Z.of_nat i * h2 h) - (h + Z.of_nat j * h2 h))%Z by lia.
    rewrite Zminus_mod, E, Z.sub_diag. reflexivity. }
  assert (Hrel : rel_prime sz (h2 h)).
  { destruct Hp as [k [Hk ->]]. apply rel_prime_sym, Zpow_facts.rel_prime_Zpower_r; [lia|].
    destruct (h2_odd h) as [q ->]. apply bezout_rel_prime. apply Bezout_intro with (u := 1%Z) (v := (- q)%Z). lia. }
  assert (Hd2 : (sz | Z.of_nat i - Z.of_nat j)%Z).
  { rewrite Z.mul_comm in Hd. eapply Gauss; eassumption. }
  destruct Hd2 as [q Hq]. assert (q = 0)%Z by nia. subst q. lia.
Qed.

(** ** The slots in the order in which they are probed *)
Definition view (b : list (slot V)) (sz h : Z) : list (slot V) :=
  map (fun j => nth (pos sz h j) b Null) (seq 0 (Z.to_nat sz)).
Lemma positions_perm sz h : pow2 sz -> Permutation (map (pos sz h) (seq 0 (Z.to_nat sz))) (seq 0 (Z.to_nat sz)).
Proof.
  intros Hp. apply NoDup_Permutation_bis.
  - assert (H : forall l, NoDup l -> (forall x, In x l -> x < Z.to_nat sz) -> NoDup (map (pos sz h) l)).
    { induction 1 as [|x l Hx Hn IH]; intros Hl; cbn [map]; constructor.
      - intros Hin. apply in_map_iff in Hin as [y [E Hy]]. apply Hx.
        replace x with y; [assumption|]. apply (pos_inj sz h); [assumption| | |assumption]; apply Hl; [now right|now left].
      - apply IH. intros y Hy. apply Hl. now right. }
    apply H; [apply seq_NoDup|]. intros x Hx. apply in_seq in Hx. lia.
  - rewrite map_length. lia.
  - intros x Hx. apply in_map_iff in Hx as [j [<- Hj]]. apply in_seq. split; [lia|]. cbn. now apply pos_lt.
Qed.
Lemma map_nth_seq (b : list (slot V)) : map (fun n => nth n b Null) (seq 0 (length b)) = b.
Proof.
  induction b as [|x b IH]; [reflexivity|]. cbn [length seq map nth]. f_equal. rewrite <- seq_shift, map_map. exact IH.
Qed.
Lemma view_perm b sz h : pow2 sz -> length b = Z.to_nat sz -> Permutation (view b sz h) b.
Proof.
  intros Hp Hl. unfold view. rewrite <- (map_map (pos sz h) (fun n => nth n b Null)).
  pose proof (map_nth_seq b) as E. rewrite Hl in E.
  pose proof (Permutation_map (fun n => nth n b Null) (positions_perm sz h Hp)) as H. rewrite E in H. exact H.
Qed.
Lemma view_length b sz h : length (view b sz h) = Z.to_nat sz.
Proof. unfold view. now rewrite map_length, seq_length. Qed.
Lemma view_nth b sz h j : j < Z.to_nat sz -> nth_error (view b sz h) j = Some (nth (pos sz h j) b Null).
Proof.
  intros Hj. unfold view. rewrite nth_error_map, (nth_error_nth' _ 0) by now rewrite seq_length.
  rewrite seq_nth by assumption. reflexivity.
Qed.

(** The values in the table. *)
Definition value (s : slot V) : list V := match s with Val v => [v] | _ => [] end.
Definition values (b : list (slot V)) : list V := flat_map value b.
Lemma values_perm b b' : Permutation b b' -> Permutation (values b) (values b').
Proof. intros H. unfold values. now apply Permutation_flat_map. Qed.
Lemma in_values b v : In v (values b) <-> In (Val v) b.
Proof.
  unfold values. rewrite in_flat_map. split.
  - intros [[| |x] [Hx Hv]]; cbn in Hv; try contradiction. destruct Hv as [<-|[]]. assumption.
  - intros H. exists (Val v). split; [assumption|now left].
Qed.

(** The first place from which a scan does not go on. *)
Fixpoint scan (stop : slot V -> bool) (l : list (slot V)) : nat :=
  match l with [] => 0 | x :: l' => if stop x then 0 else S (scan stop l') end.
Lemma scan_spec stop l : Exists (fun x => stop x = true) l ->
  exists l1 x l2, l = l1 ++ x :: l2 /\ scan stop l = length l1 /\ stop x = true /\ Forall (fun y => stop y = false) l1.
Proof.
  induction 1 as [x l Hx|x l H IH]; cbn [scan].
  - exists [], x, l. rewrite Hx. repeat split. constructor.
  - destruct (stop x) eqn:E; [exists [], x, l; repeat split; [assumption|constructor]|].
    destruct IH as [l1 [y [l2 [-> [Es [Hy Hl1]]]]]]. exists (x :: l1), y, l2. rewrite Es. repeat split; [assumption|now constructor].
Qed.

Definition stops (key : K) (s : slot V) : bool :=
  match s with Null => true | Deleted => false | Val v => key_val F key v end.
Definition free (s : slot V) : bool := match s with Val _ => false | _ => true end.

Lemma skipn_nth_error {A} (l : list A) i x : nth_error l i = Some x -> skipn i l = x :: skipn (S i) l.
Proof.
  revert l. induction i as [|i IH]; intros [|y l]; cbn [nth_error skipn]; try discriminate; [now intros [= ->]|apply IH].
Qed.
Lemma at_nat b n : at_ b (Z.of_nat n) = nth n b Null (A := slot V).
Proof. unfold at_. now rewrite Nat2Z.id. Qed.
Lemma probe_scan b sz h key : pow2 sz -> forall m i, i + m = Z.to_nat sz ->
  Exists (fun x => stops key x = true) (skipn i (view b sz h)) -> forall f, m <= f ->
  probe F f b sz h key (Z.of_nat i) (Z.of_nat (pos sz h i)) =
    Some (Z.of_nat (pos sz h (i + scan (stops key) (skipn i (view b sz h)))), Z.of_nat (i + scan (stops key) (skipn i (view b sz h)))).
Proof.
  intros Hp. induction m as [|m IH]; intros i Hi Hex f Hf.
  - rewrite skipn_all2 in Hex by (rewrite view_length; lia). inversion Hex.
  - destruct f as [|f]; [lia|].
    assert (Hsk : skipn i (view b sz h) = nth (pos sz h i) b Null :: skipn (S i) (view b sz h)).
    { apply skipn_nth_error, view_nth. lia. }
    rewrite Hsk in *. cbn [scan probe]. rewrite at_nat.
    assert (Hrec : stops key (nth (pos sz h i) b Null) = false ->
      probe F f b sz h key (Z.of_nat i + 1) (advance sz h (Z.of_nat (pos sz h i))) =
      Some (Z.of_nat (pos sz h (i + S (scan (stops key) (skipn (S i) (view b sz h))))),
            Z.of_nat (i + S (scan (stops key) (skipn (S i) (view b sz h)))))).
    { intros Hs. rewrite advance_pos by assumption. replace (Z.of_nat i + 1)%Z with (Z.of_nat (S i)) by lia.
      rewrite IH; [|lia| |lia].
      - now rewrite !Nat.add_succ_r.
      - inversion Hex; subst; [congruence|assumption]. }
    destruct (nth (pos sz h i) b Null) as [| |v] eqn:E; cbn [stops] in *.
    + rewrite Nat.add_0_r. reflexivity.
    + now apply Hrec.
    + destruct (key_val F key v); [now rewrite Nat.add_0_r|now apply Hrec].
Qed.
Lemma find_free_scan b sz h : pow2 sz -> forall m i, i + m = Z.to_nat sz ->
  Exists (fun x => free x = true) (skipn i (view b sz h)) -> forall f, m <= f ->
  find_free f b sz h (Z.of_nat (pos sz h i)) = Some (Z.of_nat (pos sz h (i + scan free (skipn i (view b sz h))))).
Proof.
  intros Hp. induction m as [|m IH]; intros i Hi Hex f Hf.
  - rewrite skipn_all2 in Hex by (rewrite view_length; lia). inversion Hex.
  - destruct f as [|f]; [lia|].
    assert (Hsk : skipn i (view b sz h) = nth (pos sz h i) b Null :: skipn (S i) (view b sz h)).
    { apply skipn_nth_error, view_nth. lia. }
    rewrite Hsk in *. cbn [scan find_free]. rewrite at_nat.
    destruct (nth (pos sz h i) b Null) as [| |v] eqn:E; cbn [free] in *; try now rewrite Nat.add_0_r.
    rewrite advance_pos by assumption. rewrite IH; [|lia| |lia].
    + now rewrite !Nat.add_succ_r.
    + inversion Hex; subst; [discriminate|assumption].
Qed.

(** ** The invariant *)
Definition nulls (b : list (slot V)) : nat := length (filter (fun s => match s with Null => true | _ => false end) b).
Definition hv (v : V) : Z := uint (val_hash F v).
(** A value sits before the first empty slot on its own path. *)
Definition paths (b : list (slot V)) (sz : Z) : Prop :=
  forall j v, nth_error (view b sz (hv v)) j = Some (Val v) ->
  forall j', j' < j -> nth_error (view b sz (hv v)) j' <> Some Null.
Record inv (t : table V) : Prop := {
  inv_size : pow2 (size t);
  inv_small : (size t < 2 ^ 31)%Z;
  inv_length : length (block t) = Z.to_nat (size t);
  inv_paths : paths (block t) (size t);
  inv_occ : occupied t = Z.of_nat (length (values (block t)));
  inv_used : (Z.of_nat (length (block t) - nulls (block t)) <= occ_del t)%Z;
  inv_null : 0 < nulls (block t)
}.

Lemma nulls_le b : nulls b <= length b.
Proof. unfold nulls. induction b as [|x b IH]; cbn; [lia|]. destruct x; cbn; lia. Qed.
Lemma nulls_values b : nulls b + length (values b) <= length b.
Proof. unfold nulls, values. induction b as [|x b IH]; cbn; [lia|]. destruct x; cbn; lia. Qed.
Lemma nulls_in b : 0 < nulls b <-> In Null b.
Proof.
  unfold nulls. induction b as [|x b IH]; cbn; [split; [lia|intros []]|]. destruct x; cbn.
  - split; [now left|lia].
  - rewrite IH. split; [now right|]. intros [H|H]; [discriminate|assumption].
  - rewrite IH. split; [now right|]. intros [H|H]; [discriminate|assumption].
Qed.
Lemma set_at_length b n (s : slot V) : length (set_at b n s) = length b.
Proof. revert n. induction b as [|x b IH]; intros [|n]; cbn; auto. Qed.
Lemma nth_set_at b n (s : slot V) i d : n < length b -> nth i (set_at b n s) d = if i =? n then s else nth i b d.
Proof.
  revert n i. induction b as [|x b IH]; intros [|n] [|i] Hn; cbn in *; try lia; try reflexivity.
  apply IH. lia.
Qed.
Lemma set_at_split b n (s : slot V) : n < length b ->
  exists b1 x b2, b = b1 ++ x :: b2 /\ length b1 = n /\ x = nth n b Null /\ set_at b n s = b1 ++ s :: b2.
Proof.
  revert n. induction b as [|x b IH]; intros [|n] Hn; cbn in *; try lia.
  - exists [], x, b. auto.
  - destruct (IH n ltac:(lia)) as [b1 [y [b2 [E [El [Ey Es]]]]]]. exists (x :: b1), y, b2.
    rewrite E at 1. rewrite Es. cbn. auto.
Qed.

(** A key's own view. *)
Lemma null_view t h : inv t -> In Null (view (block t) (size t) h).
Proof.
  intros Hi. apply (Permutation_in _ (Permutation_sym (view_perm _ _ h (inv_size _ Hi) (inv_length _ Hi)))).
  apply nulls_in, (inv_null _ Hi).
Qed.

(** What get_ finds from counter 0. *)
Lemma get_0 t key : inv t -> exists l1 x l2,
  view (block t) (size t) (uint (key_hash F key)) = l1 ++ x :: l2 /\ stops key x = true /\
  Forall (fun y => stops key y = false) l1 /\
  let p := pos (size t) (uint (key_hash F key)) (length l1) in
  get_ F t key 0 = Some (Z.of_nat p, Z.of_nat (length l1)) /\ nth p (block t) Null = x /\ p < length (block t).
Proof.
  intros Hi. set (h := uint (key_hash F key)).
  assert (Hex : Exists (fun x => stops key x = true) (view (block t) (size t) h)).
  { apply Exists_exists. exists Null. split; [now apply null_view|reflexivity]. }
  destruct (scan_spec _ _ Hex) as [l1 [x [l2 [E [Es [Hx Hl]]]]]]. exists l1, x, l2.
  split; [exact E|]. split; [assumption|]. split; [assumption|]. cbn zeta.
  assert (Hlt : length l1 < Z.to_nat (size t)).
  { rewrite <- (view_length (block t) (size t) h), E, app_length. cbn. lia. }
  split; [|split].
  - unfold get_. fold h. change (h + 0 * h2 h)%Z with (h + Z.of_nat 0 * h2 h)%Z.
    rewrite start_pos by apply (inv_size _ Hi).
    change 0%Z with (Z.of_nat 0). rewrite (probe_scan _ _ _ _ (inv_size _ Hi) (Z.to_nat (size t))); cbn [skipn plus].
    + now rewrite Es.
    + reflexivity.
    + exact Hex.
    + now rewrite (inv_length _ Hi).
  - pose proof (view_nth (block t) (size t) h (length l1) Hlt) as Hn. rewrite E in Hn.
    rewrite nth_error_app2, Nat.sub_diag in Hn by lia. cbn in Hn. congruence.
  - rewrite (inv_length _ Hi). now apply pos_lt, (inv_size _ Hi).
Qed.

Lemma get_spec t key : inv t ->
  (exists v, get F t key = Some (Some v) /\ In v (values (block t)) /\ key_val F key v = true) \/
  (get F t key = Some None /\ forall v, In v (values (block t)) -> key_val F key v = false).
Proof.
  intros Hi. destruct (get_0 t key Hi) as [l1 [x [l2 [E [Hx [Hl [Eg [Ex Hp]]]]]]]].
  unfold get. rewrite Eg. unfold contents. rewrite at_nat, Ex.
  destruct x as [| |v]; cbn [stops] in Hx; [right|discriminate|left].
  - split; [reflexivity|]. intros v Hv. apply in_values in Hv.
    destruct (key_val F key v) eqn:Ek; [|reflexivity]. exfalso.
    assert (Hh : uint (key_hash F key) = hv v) by (unfold hv; now rewrite (Hkv _ _ Ek)).
    rewrite Hh in *.
    apply (Permutation_in _ (Permutation_sym (view_perm _ _ (hv v) (inv_size _ Hi) (inv_length _ Hi)))) in Hv.
    apply In_nth_error in Hv as [j Hj].
    assert (Hlt : length l1 < j).
    { destruct (Nat.lt_trichotomy j (length l1)) as [H|[H|H]]; [exfalso|exfalso|assumption].
      - rewrite E, nth_error_app1 in Hj by assumption. apply nth_error_In in Hj.
        rewrite Forall_forall in Hl. apply Hl in Hj. cbn in Hj. congruence.
      - subst j. rewrite E, nth_error_app2, Nat.sub_diag in Hj by lia. discriminate. }
    apply (inv_paths _ Hi _ _ Hj _ Hlt). rewrite E, nth_error_app2, Nat.sub_diag by lia. reflexivity.
  - exists v. split; [reflexivity|]. split; [|assumption]. apply in_values. rewrite <- Ex. now apply nth_In.
Qed.

(** No empty slot appears: the paths stay. *)
Lemma paths_set b sz n s : pow2 sz -> length b = Z.to_nat sz -> n < length b -> s <> Null ->
  (forall v, s = Val v -> forall j j', pos sz (hv v) j = n -> j < Z.to_nat sz -> j' < j ->
             nth_error (view b sz (hv v)) j' <> Some Null) ->
  paths b sz -> paths (set_at b n s) sz.
Proof.
  intros Hp Hl Hn Hs Hnew Hpaths j v Hj j' Hj'.
  assert (Hlt : j < Z.to_nat sz).
  { rewrite <- (view_length (set_at b n s) sz (hv v)). apply nth_error_Some. congruence. }
  rewrite view_nth in Hj by assumption. rewrite view_nth by lia.
  rewrite nth_set_at in * by assumption. intros C. injection C as C.
  destruct (Nat.eqb_spec (pos sz (hv v) j') n) as [|Hne']; [congruence|].
  destruct (Nat.eqb_spec (pos sz (hv v) j) n) as [He|Hne].
  - injection Hj as ->. apply (Hnew v eq_refl j j' He Hlt Hj'). rewrite view_nth by lia. now rewrite C.
  - assert (H : nth_error (view b sz (hv v)) j = Some (Val v)) by (rewrite view_nth by assumption; exact Hj).
    apply (Hpaths _ _ H _ Hj'). rewrite view_nth by lia. now rewrite C.
Qed.

(** Putting into a table with an empty slot (the counters may be anything). *)
Lemma put__spec t v : pow2 (size t) -> length (block t) = Z.to_nat (size t) -> paths (block t) (size t) ->
  0 < nulls (block t) -> exists t', put_ F t v = Some t' /\ size t' = size t /\ occupied t' = occupied t /\
    length (block t') = length (block t) /\ paths (block t') (size t) /\
    Permutation (values (block t')) (v :: values (block t)) /\
    nulls (block t) <= S (nulls (block t')) /\
    (Z.of_nat (nulls (block t)) - Z.of_nat (nulls (block t')) = occ_del t' - occ_del t)%Z.
Proof.
  intros Hp Hl Hpaths Hnull. unfold put_. fold (hv v). set (h := hv v).
  assert (Hex : Exists (fun x => free x = true) (view (block t) (size t) h)).
  { apply Exists_exists. exists Null. split; [|reflexivity].
    apply (Permutation_in _ (Permutation_sym (view_perm _ _ h Hp Hl))). now apply nulls_in. }
  rewrite start_pos0 by assumption.
  rewrite (find_free_scan _ _ _ Hp (Z.to_nat (size t)) 0 eq_refl Hex) by lia. cbn [skipn plus].
  destruct (scan_spec _ _ Hex) as [l1 [x [l2 [E [Es [Hx Hl1]]]]]]. rewrite Es.
  assert (Hlt : length l1 < Z.to_nat (size t)).
  { rewrite <- (view_length (block t) (size t) h), E, app_length. cbn. lia. }
  set (p := pos (size t) h (length l1)).
  assert (Hpl : p < length (block t)) by (rewrite Hl; now apply pos_lt).
  assert (Ex : nth p (block t) Null = x).
  { pose proof (view_nth (block t) (size t) h (length l1) Hlt) as Hn. rewrite E in Hn.
    rewrite nth_error_app2, Nat.sub_diag in Hn by lia. cbn in Hn. fold p in Hn. congruence. }
  rewrite at_nat, Nat2Z.id, Ex.
  eexists. split; [reflexivity|]. cbn [size occupied block occ_del]. split; [reflexivity|]. split; [reflexivity|].
  split; [apply set_at_length|]. split; [|].
  { apply paths_set; try assumption; [discriminate|]. intros v' [= <-] j j' Hj Hjlt Hj'.
    assert (j = length l1) by (eapply pos_inj; eassumption). subst j.
    fold h. rewrite E, nth_error_app1 by assumption. intros C. apply nth_error_In in C.
    rewrite Forall_forall in Hl1. apply Hl1 in C. discriminate. }
  destruct (set_at_split (block t) p (Val v) Hpl) as [b1 [y [b2 [Eb [Elb [Ey Es2]]]]]].
  rewrite Ex in Ey. subst y. rewrite Es2, Eb. unfold values, nulls.
  rewrite !flat_map_app, !filter_app, !app_length. cbn [flat_map value app filter length].
  split; [|split].
  - destruct x; [| |discriminate]; cbn [value app]; symmetry; apply Permutation_middle.
  - destruct x; [| |discriminate]; cbn [length]; lia.
  - destruct x; [| |discriminate]; cbn [length]; lia.
Qed.

Lemma fresh_facts sz : pow2 sz -> length (@fresh V sz) = Z.to_nat sz /\ values (fresh sz) = [] /\ nulls (fresh sz) = Z.to_nat sz /\
  paths (fresh sz) sz.
Proof.
  intros Hp. unfold fresh. split; [apply repeat_length|]. split; [|split].
  - induction (Z.to_nat sz); cbn; auto.
  - unfold nulls. induction (Z.to_nat sz); cbn; auto.
  - intros j v Hj. exfalso. apply nth_error_In in Hj. unfold view in Hj. apply in_map_iff in Hj as [i [Hi _]].
    rewrite nth_repeat in Hi. discriminate.
Qed.
Lemma put_all_spec old : forall t, pow2 (size t) -> length (block t) = Z.to_nat (size t) -> paths (block t) (size t) ->
  length (values old) < nulls (block t) -> exists t', put_all F t old = Some t' /\ size t' = size t /\ occupied t' = occupied t /\
    length (block t') = length (block t) /\ paths (block t') (size t) /\
    Permutation (values (block t')) (values (block t) ++ values old) /\
    nulls (block t) <= length (values old) + nulls (block t').
Proof.
  induction old as [|s old IH]; intros t Hp Hl Hpaths Hn; cbn [put_all].
  - exists t. split; [reflexivity|]. split; [reflexivity|]. split; [reflexivity|]. split; [reflexivity|]. split; [assumption|].
    cbn. rewrite app_nil_r. split; [apply Permutation_refl|lia].
  - destruct s as [| |v]; [now apply IH|now apply IH|].
    cbn [values flat_map value app length] in Hn |- *.
    destruct (put__spec t v Hp Hl Hpaths ltac:(lia)) as [t1 [E [E1 [E2 [E3 [E4 [E5 [E6 _]]]]]]]].
    rewrite E. rewrite <- E1 in E4.
    assert (Hn1 : length (values old) < nulls (block t1)) by (unfold values in *; lia).
    destruct (IH t1 ltac:(now rewrite E1) ltac:(now rewrite E3, E1) E4 Hn1) as [t' [H [H1 [H2 [H3 [H4 [H5 H6]]]]]]].
    exists t'. split; [exact H|]. rewrite H1, H2, H3. split; [assumption|]. split; [assumption|]. split; [assumption|].
    split; [now rewrite E1 in H4|]. split.
    + eapply Permutation_trans; [exact H5|]. eapply Permutation_trans; [apply Permutation_app_tail, E5|]. cbn.
      apply Permutation_middle.
    + unfold values in *. lia.
Qed.
Lemma resize_spec t sz : pow2 sz -> (sz < 2 ^ 31)%Z -> length (values (block t)) < Z.to_nat sz ->
  exists t', resize F t sz = Some t' /\ size t' = sz /\ occupied t' = occupied t /\ occ_del t' = occupied t /\
    length (block t') = Z.to_nat sz /\ paths (block t') sz /\ Permutation (values (block t')) (values (block t)) /\
    Z.to_nat sz <= length (values (block t)) + nulls (block t').
Proof.
  intros Hp Hsz Hn. unfold resize. destruct (Z.leb_spec (2 ^ 31) sz); [lia|].
  destruct (fresh_facts sz Hp) as [Hf1 [Hf2 [Hf3 Hf4]]].
  destruct (put_all_spec (block t) (Table sz (occupied t) (occ_del t) (fresh sz))) as [t' [E [E1 [E2 [E3 [E4 [E5 E6]]]]]]];
    cbn [size block] in *; try assumption; [lia|].
  rewrite E. eexists. split; [reflexivity|]. cbn [size occupied occ_del block] in *. rewrite Hf2 in E5. cbn [app] in E5.
  repeat split; try assumption; try lia.
Qed.

Lemma pow2_double sz : pow2 sz -> (2 * sz < 2 ^ 31)%Z -> pow2 (2 * sz).
Proof.
  intros [k [Hk ->]] H. exists (k + 1)%Z. split; [|rewrite Z.pow_add_r by lia; lia].
  split; [lia|]. destruct (Z.le_gt_cases (k + 1) 32); [assumption|]. exfalso.
  assert (2 ^ 32 <= 2 ^ k)%Z by (apply Z.pow_le_mono_r; lia). lia.
Qed.
Lemma size_half t : inv t -> (size t / 2 * 2 = size t)%Z.
Proof.
  intros Hi. destruct (inv_size _ Hi) as [k [Hk ->]].
  replace (2 ^ k)%Z with (2 ^ (k - 1) * 2)%Z; [now rewrite Z.div_mul by lia|].
  change 2%Z with (2 ^ 1)%Z at 2. rewrite <- Z.pow_add_r by lia. f_equal. lia.
Qed.
Lemma put_spec t v : inv t -> (size t < 2 ^ 30)%Z ->
  exists t', put F t v = Some t' /\ inv t' /\ Permutation (values (block t')) (v :: values (block t)) /\
    (size t' = size t \/ size t' = 2 * size t /\ size t / 2 <= occupied t)%Z.
Proof.
  intros Hi Hsz. pose proof (inv_size _ Hi) as Hp. pose proof (pow2_pos _ Hp) as H2. pose proof (size_half _ Hi) as Hhalf.
  pose proof (inv_occ _ Hi) as Hocc. pose proof (nulls_values (block t)) as Hnv. pose proof (inv_null _ Hi) as Hnull.
  pose proof (inv_length _ Hi) as Hlen. pose proof (inv_used _ Hi) as Hused. pose proof (nulls_le (block t)) as Hnl.
  unfold put. cbn zeta.
  assert (Hfin : forall t2, size t2 = size t \/ (size t2 = 2 * size t /\ size t / 2 <= occupied t)%Z ->
    (size t2 < 2 ^ 31)%Z -> pow2 (size t2) -> occupied t2 = (occupied t + 1)%Z -> length (block t2) = Z.to_nat (size t2) ->
    paths (block t2) (size t2) -> Permutation (values (block t2)) (values (block t)) -> 1 < nulls (block t2) ->
    (Z.of_nat (length (block t2) - nulls (block t2)) <= occ_del t2)%Z ->
    exists t', put_ F t2 v = Some t' /\ inv t' /\ Permutation (values (block t')) (v :: values (block t)) /\
    (size t' = size t \/ size t' = 2 * size t /\ size t / 2 <= occupied t)%Z).
  { intros t2 Hs Hs31 Hp2 Ho Hl2 Hpaths2 Hperm Hn2 Hu2.
    destruct (put__spec t2 v Hp2 Hl2 Hpaths2 ltac:(lia)) as [t' [E [E1 [E2 [E3 [E4 [E5 [E6 E7]]]]]]]].
    exists t'. split; [exact E|].
    assert (Hperm' : Permutation (values (block t')) (v :: values (block t))).
    { eapply Permutation_trans; [exact E5|]. now apply perm_skip. }
    split; [|split; [assumption|rewrite E1; exact Hs]].
    pose proof (nulls_le (block t2)). pose proof (nulls_le (block t')).
    constructor.
    - now rewrite E1.
    - now rewrite E1.
    - now rewrite E3, E1.
    - now rewrite E1.
    - rewrite E2, Ho, Hocc. apply Permutation_length in Hperm'. rewrite Hperm'. cbn [length]. lia.
    - rewrite E3. lia.
    - lia. }
  destruct (Z.leb_spec (size t / 2) (occupied t)) as [Hge|Hlt].
  - destruct (resize_spec (Table (size t) (occupied t + 1) (occ_del t) (block t)) (2 * size t)) as [t2 [E [E1 [E2 [E3 [E4 [E5 [E6 E7]]]]]]]];
      cbn [size occupied occ_del block] in *; [apply pow2_double; [assumption|lia]|lia|lia|].
    rewrite E. apply Hfin; rewrite ?E1; try assumption; try lia. apply pow2_double; [assumption|lia].
  - destruct (Z.leb_spec (size t - 1) (occ_del t)) as [Hd|Hd].
    + destruct (resize_spec (Table (size t) (occupied t + 1) (occ_del t) (block t)) (size t)) as [t2 [E [E1 [E2 [E3 [E4 [E5 [E6 E7]]]]]]]];
        cbn [size occupied occ_del block] in *; [assumption|lia|lia|].
      rewrite E. apply Hfin; rewrite ?E1; try assumption; try lia.
    + apply Hfin; cbn [size occupied occ_del block]; try assumption; try lia; try (now left); try apply (inv_paths _ Hi).
      apply Permutation_refl.
Qed.

Lemma new_inv sz : pow2 sz -> (sz < 2 ^ 31)%Z -> inv (new_table sz) /\ values (block (new_table sz)) = [].
Proof.
  intros Hp Hsz. destruct (fresh_facts sz Hp) as [H1 [H2 [H3 H4]]]. pose proof (pow2_pos _ Hp). split; [|exact H2].
  constructor; cbn [new_table size occupied occ_del block]; try assumption; try lia.
  - now rewrite H2.
Qed.

(** Deleting a value found by its key. *)
Lemma delete_spec t p v : inv t -> p < length (block t) -> nth p (block t) Null = Val v ->
  let t' := Table (size t) (occupied t - 1) (occ_del t) (set_at (block t) p Deleted) in
  inv t' /\ Permutation (values (block t)) (v :: values (block t')).
Proof.
  intros Hi Hp Ev t'. subst t'.
  destruct (set_at_split (block t) p Deleted Hp) as [b1 [y [b2 [Eb [Elb [Ey Es2]]]]]]. rewrite Ev in Ey. subst y.
  assert (Hval : Permutation (values (block t)) (v :: values (set_at (block t) p Deleted))).
  { rewrite Es2, Eb. unfold values. rewrite !flat_map_app. cbn [flat_map value app]. symmetry. apply Permutation_middle. }
  assert (Hnull : nulls (set_at (block t) p Deleted) = nulls (block t)).
  { rewrite Es2, Eb. unfold nulls. rewrite !filter_app, !app_length. reflexivity. }
  split; [|exact Hval].
  constructor; cbn [size occupied occ_del block]; rewrite ?set_at_length, ?Hnull; try apply Hi.
  - apply paths_set; try apply Hi; [assumption|discriminate|discriminate].
  - rewrite (inv_occ _ Hi). apply Permutation_length in Hval. rewrite Hval. cbn [length]. lia.
Qed.
Lemma remove_spec t key : inv t ->
  (exists v t', remove F t key = Some (t', Some v) /\ key_val F key v = true /\ inv t' /\ size t' = size t /\
     Permutation (values (block t)) (v :: values (block t'))) \/
  (remove F t key = Some (t, None) /\ forall v, In v (values (block t)) -> key_val F key v = false).
Proof.
  intros Hi. destruct (get_0 t key Hi) as [l1 [x [l2 [E [Hx [Hl [Eg [Ex Hp]]]]]]]].
  unfold remove. rewrite Eg, at_nat, Ex. destruct x as [| |v]; cbn [stops] in Hx; [right|discriminate|left].
  - split; [reflexivity|]. destruct (get_spec t key Hi) as [[v [Hg _]]|[_ H]]; [|assumption].
    exfalso. unfold get in Hg. rewrite Eg in Hg. unfold contents in Hg. rewrite at_nat, Ex in Hg. discriminate.
  - rewrite Nat2Z.id. destruct (delete_spec t _ v Hi Hp Ex) as [H1 H2].
    eexists _, _. split; [reflexivity|]. split; [assumption|]. split; [exact H1|]. split; [reflexivity|exact H2].
Qed.

(** ** Enumeration by a counter *)
Lemma get_from t key i : inv t ->
  (forall j, j < i -> nth_error (view (block t) (size t) (uint (key_hash F key))) j <> Some Null) ->
  i <= Z.to_nat (size t) ->
  exists l1 x l2, skipn i (view (block t) (size t) (uint (key_hash F key))) = l1 ++ x :: l2 /\ stops key x = true /\
    Forall (fun y => stops key y = false) l1 /\
    let p := pos (size t) (uint (key_hash F key)) (i + length l1) in
    get_ F t key (Z.of_nat i) = Some (Z.of_nat p, Z.of_nat (i + length l1)) /\ nth p (block t) Null = x /\ p < length (block t) /\
    i + length l1 < Z.to_nat (size t).
Proof.
  intros Hi Hno Hle. set (h := uint (key_hash F key)) in *.
  assert (Hex : Exists (fun x => stops key x = true) (skipn i (view (block t) (size t) h))).
  { apply Exists_exists. exists Null. split; [|reflexivity]. pose proof (null_view t h Hi) as Hn.
    rewrite <- (firstn_skipn i) in Hn. apply in_app_or in Hn as [Hn|Hn]; [|assumption]. exfalso.
    apply In_nth_error in Hn as [j Hj].
    assert (j < i).
    { enough (j < length (firstn i (view (block t) (size t) h))) by (rewrite firstn_length in *; lia). apply nth_error_Some. congruence. }
    apply (Hno j H). rewrite <- Hj. symmetry. clear - H. revert i H. generalize (view (block t) (size t) h) as l.
    induction j as [|j IH]; intros [|x l] [|i] H; cbn; try lia; try reflexivity. apply IH. lia. }
  destruct (scan_spec _ _ Hex) as [l1 [x [l2 [E [Es [Hx Hl]]]]]]. exists l1, x, l2.
  split; [exact E|]. split; [assumption|]. split; [assumption|]. cbn zeta.
  assert (Hlt : i + length l1 < Z.to_nat (size t)).
  { rewrite <- (view_length (block t) (size t) h). apply (f_equal (@length _)) in E. rewrite skipn_length, app_length in E.
    cbn in E. lia. }
  split; [|split; [|split]].
  - unfold get_. fold h. rewrite start_pos by apply (inv_size _ Hi).
    rewrite (probe_scan _ _ _ _ (inv_size _ Hi) (Z.to_nat (size t) - i)); [now rewrite Es|lia|exact Hex|].
    rewrite (inv_length _ Hi). lia.
  - pose proof (view_nth (block t) (size t) h (i + length l1) Hlt) as Hn.
    rewrite <- (firstn_skipn i (view (block t) (size t) h)), E in Hn.
    assert (Hf : length (firstn i (view (block t) (size t) h)) = i) by (rewrite firstn_length, view_length; lia).
    rewrite nth_error_app2 in Hn by lia. rewrite Hf in Hn. replace (i + length l1 - i) with (length l1) in Hn by lia.
    rewrite nth_error_app2, Nat.sub_diag in Hn by lia. cbn in Hn. congruence.
  - rewrite (inv_length _ Hi). now apply pos_lt, (inv_size _ Hi).
  - exact Hlt.
Qed.
End Facts.

(** Hash tables, environments and the symbol table (C50). *)
From Coq Require Import List ZArith Bool Arith Permutation Lia.
From Verif Require Import M_ZHash L_ZHash.
Import ListNotations.
Local Open Scope Z_scope.

(** * The table is a bag of values *)
(** One operation on a bag. *)
Inductive bag_step {K V} (F : functions K V) : list V -> op K V -> list V -> Prop :=
  | bag_put M v M' : Permutation M' (v :: M) -> bag_step F M (Put v) M'
  | bag_remove M k v M' : key_val F k v = true -> Permutation M (v :: M') -> bag_step F M (Remove k) M'
  | bag_nothing M k M' : (forall v, In v M -> key_val F k v = false) -> Permutation M M' -> bag_step F M (Remove k) M'.
Inductive bag_run {K V} (F : functions K V) : list V -> list (op K V) -> list V -> Prop :=
  | bag_nil M : bag_run F M [] M
  | bag_cons M o M1 ops M2 : bag_step F M o M1 -> bag_run F M1 ops M2 -> bag_run F M (o :: ops) M2.
(** The values in a table, in whatever order. *)
Definition bag {V} (t : table V) : list V := flat_map (fun s => match s with Val v => [v] | _ => [] end) (block t).
Definition consistent {K V} (F : functions K V) : Prop := forall k v, key_val F k v = true -> key_hash F k = val_hash F v.
Definition puts {K V} (ops : list (op K V)) : Z :=
  Z.of_nat (length (filter (fun o => match o with Put _ => true | _ => false end) ops)).
Definition power (sz : Z) : Prop := exists k, 1 <= k <= 30 /\ sz = 2 ^ k.

Lemma bag_values {V} (t : table V) : bag t = values (block t).
Proof. reflexivity. Qed.
Lemma power_pow2 sz : power sz -> pow2 sz /\ sz < 2 ^ 31.
Proof.
  intros [k [Hk ->]]. split; [exists k; split; [lia|reflexivity]|]. apply Z.pow_lt_mono_r; lia.
Qed.

(** The size stays below a bound on the number of puts ever made. *)
Lemma run_ok {K V} (F : functions K V) (HF : consistent F) (S0 n : Z) : S0 < 2 ^ 30 -> 4 * n < 2 ^ 30 ->
  forall ops t m, inv F t -> size t <= Z.max S0 (4 * m) -> occupied t <= m -> m + puts ops <= n ->
  exists t', run F t ops = Some t' /\ inv F t' /\ bag_run F (bag t) ops (bag t') /\ size t' <= Z.max S0 (4 * n).
Proof.
  intros HS Hn. induction ops as [|o ops IH]; intros t m Hi Hs Ho Hm.
  - exists t. split; [reflexivity|]. split; [assumption|]. split; [constructor|]. unfold puts in Hm. cbn in Hm. lia.
  - assert (Hnn : 0 <= puts ops) by (unfold puts; lia).
    destruct o as [v|k]; cbn [run].
    + assert (Hp : puts (Put v :: ops) = 1 + puts ops) by (unfold puts; cbn [filter length]; lia).
      assert (Hs1 : size t < 2 ^ 30) by lia.
      destruct (put_spec F t v Hi Hs1) as [t1 [E [Hi1 [Hperm Hsz]]]]. rewrite E.
      assert (Ho1 : occupied t1 = occupied t + 1).
      { rewrite (inv_occ _ _ Hi1), (inv_occ _ _ Hi), (Permutation_length Hperm). cbn [length]. lia. }
      assert (Hnew : size t1 <= Z.max S0 (4 * (m + 1))).
      { destruct Hsz as [->|[-> Hge]]; [lia|]. pose proof (size_half F t Hi). lia. }
      destruct (IH t1 (m + 1) Hi1 Hnew ltac:(lia) ltac:(lia)) as [t' [E' [Hi' [Hr Hs']]]].
      exists t'. split; [exact E'|]. split; [assumption|]. split; [|assumption].
      econstructor; [apply bag_put; exact Hperm|exact Hr].
    + assert (Hp : puts (Remove k :: ops) = puts ops) by reflexivity.
      destruct (remove_spec F HF t k Hi) as [[v [t1 [E [Hk [Hi1 [Hsz Hperm]]]]]]|[E Hno]]; rewrite E.
      * assert (Ho1 : occupied t1 = occupied t - 1).
        { rewrite (inv_occ _ _ Hi1), (inv_occ _ _ Hi), (Permutation_length Hperm). cbn [length]. lia. }
        destruct (IH t1 m Hi1 ltac:(lia) ltac:(lia) ltac:(lia)) as [t' [E' [Hi' [Hr Hs']]]].
        exists t'. split; [exact E'|]. split; [assumption|]. split; [|assumption].
        econstructor; [eapply bag_remove; [exact Hk|exact Hperm]|exact Hr].
      * destruct (IH t m Hi Hs Ho ltac:(lia)) as [t' [E' [Hi' [Hr Hs']]]].
        exists t'. split; [exact E'|]. split; [assumption|]. split; [|assumption].
        econstructor; [apply bag_nothing; [exact Hno|apply Permutation_refl]|exact Hr].
Qed.

(** Every history with fewer than 2^28 puts goes through, the table holds what a bag
    would hold, and a search finds a value for a key exactly when there is one. *)
Theorem C50_table {K V} (F : functions K V) sz (ops : list (op K V)) :
  consistent F -> power sz -> sz < 2 ^ 30 -> puts ops < 2 ^ 28 ->
  exists t, run F (new_table sz) ops = Some t /\ bag_run F [] ops (bag t) /\
  forall k, (exists v, get F t k = Some (Some v) /\ In v (bag t) /\ key_val F k v = true) \/
            (get F t k = Some None /\ forall v, In v (bag t) -> key_val F k v = false).
Proof.
  intros HF Hp Hsz Hn. destruct (power_pow2 _ Hp) as [Hp2 _].
  destruct (new_inv F sz Hp2 ltac:(lia)) as [Hi Hv].
  destruct (run_ok F HF sz (puts ops) Hsz ltac:(lia) ops (new_table sz) 0 Hi) as [t [E [Hi' [Hr _]]]]; cbn; try lia.
  exists t. split; [exact E|]. split.
  - rewrite (bag_values (new_table sz)), Hv in Hr. exact Hr.
  - intros k. apply (get_spec F HF t k Hi').
Qed.

(** * Enumeration: all values of a key, each once *)
Fixpoint enumerate {K V} (F : functions K V) (fuel : nat) (t : table V) (k : K) (i : Z) : option (list V) :=
  match fuel with
  | O => None
  | S f =>
      match get_next F t k i with
      | Some (Some v, i') => option_map (cons v) (enumerate F f t k (i' + 1))
      | Some (None, _) => Some []
      | None => None
      end
  end.
Definition match_of {K V} (F : functions K V) (k : K) (s : slot V) : list V :=
  match s with Val v => if key_val F k v then [v] else [] | _ => [] end.
Lemma match_of_values {K V} (F : functions K V) k b : flat_map (match_of F k) b = filter (key_val F k) (values b).
Proof.
  unfold values. induction b as [|[| |v] b IH]; cbn; [reflexivity|assumption|assumption|].
  destruct (key_val F k v); cbn; now rewrite IH.
Qed.
Lemma enumerate_S {K V} (F : functions K V) f t k i : enumerate F (S f) t k i =
  match get_next F t k i with
  | Some (Some v, i') => option_map (cons v) (enumerate F f t k (i' + 1))
  | Some (None, _) => Some []
  | None => None
  end.
Proof. reflexivity. Qed.
Lemma enumerate_from {K V} (F : functions K V) (HF : consistent F) t k : inv F t ->
  forall m i, (Z.to_nat (size t) - i <= m)%nat ->
  (forall j, (j < i)%nat -> nth_error (view (block t) (size t) (uint (key_hash F k))) j <> Some Null) ->
  (i <= Z.to_nat (size t))%nat ->
  enumerate F (S m) t k (Z.of_nat i) =
    Some (flat_map (match_of F k) (skipn i (view (block t) (size t) (uint (key_hash F k))))).
Proof.
  intros Hi. set (w := view (block t) (size t) (uint (key_hash F k))).
  assert (Hlen : length w = Z.to_nat (size t)) by apply view_length.
  induction m as [|m IH]; intros i Hm Hno Hle; rewrite enumerate_S.
  - destruct (get_from F t k i Hi Hno Hle) as [l1 [x [l2 [_ [_ [_ [_ [_ [_ Hlt]]]]]]]]]. lia.
  - destruct (get_from F t k i Hi Hno Hle) as [l1 [x [l2 [E [Hx [Hl [Eg [Ex [Hp Hlt]]]]]]]]]. fold w in E.
    unfold get_next. rewrite Eg. unfold contents. rewrite at_nat, Ex.
    assert (Hl1 : flat_map (match_of F k) l1 = []).
    { clear - Hl. induction Hl as [|y l Hy Hl IH]; [reflexivity|]. cbn. rewrite IH, app_nil_r.
      destruct y; cbn in *; try reflexivity. now rewrite Hy. }
    assert (Hw : w = firstn i w ++ l1 ++ x :: l2) by (rewrite <- E; symmetry; apply firstn_skipn).
    assert (Hfi : length (firstn i w) = i) by (rewrite firstn_length; lia).
    assert (Hfirst : forall y j, nth_error (firstn i w ++ l1) j = Some y -> nth_error w j = Some y).
    { intros y j Hj. rewrite Hw, app_assoc, nth_error_app1; [assumption|]. apply nth_error_Some. congruence. }
    rewrite E, flat_map_app, Hl1. cbn [app flat_map].
    destruct x as [| |v]; cbn [stops] in Hx; [|discriminate|].
    + (* the empty slot: nothing matching behind it *)
      cbn [match_of app]. f_equal. symmetry.
      assert (Hrest : forall y, In y l2 -> match_of F k y = []).
      { intros [| |v] Hy; cbn; try reflexivity. destruct (key_val F k v) eqn:Ek; [|reflexivity]. exfalso.
        apply In_nth_error in Hy as [q Hq].
        assert (Hh : uint (key_hash F k) = hv F v) by (unfold hv; now rewrite (HF _ _ Ek)).
        assert (Hj : nth_error w (i + length l1 + S q) = Some (Val v)).
        { rewrite Hw. rewrite app_assoc, nth_error_app2 by (rewrite app_length; lia).
          rewrite app_length, Hfi. replace (i + length l1 + S q - (i + length l1))%nat with (S q) by lia. exact Hq. }
        pose proof (inv_paths _ _ Hi (i + length l1 + S q)%nat v) as Hpath. rewrite <- Hh in Hpath. fold w in Hpath.
        apply (Hpath Hj (i + length l1)%nat ltac:(lia)).
        rewrite Hw, app_assoc, nth_error_app2 by (rewrite app_length; lia).
        rewrite app_length, Hfi, Nat.sub_diag. reflexivity. }
      clear - Hrest. induction l2 as [|y l2 IH]; [reflexivity|]. cbn. rewrite Hrest by now left. apply IH.
      intros z Hz. apply Hrest. now right.
    + cbn [match_of]. rewrite Hx. cbn [app].
      replace (Z.of_nat (i + length l1) + 1) with (Z.of_nat (S (i + length l1))) by lia.
      rewrite IH.
      * cbn [option_map]. do 3 f_equal.
        assert (Hs : skipn (S (i + length l1)) w = l2); [|now rewrite Hs].
        rewrite Hw. rewrite app_assoc. replace (S (i + length l1)) with (length (firstn i w ++ l1) + 1)%nat by (rewrite app_length; lia).
        clear. induction (firstn i w ++ l1) as [|y l IH]; [reflexivity|]. cbn. exact IH.
      * lia.
      * intros j Hj C.
        destruct (Nat.eq_dec j (i + length l1)) as [->|Hne].
        { rewrite Hw, app_assoc, nth_error_app2 in C by (rewrite app_length; lia).
          rewrite app_length, Hfi, Nat.sub_diag in C. discriminate. }
        destruct (Nat.lt_ge_cases j i) as [H|H]; [now apply (Hno j H)|].
        rewrite Hw, nth_error_app2 in C by lia. rewrite Hfi, nth_error_app1 in C by lia.
        apply nth_error_In in C. rewrite Forall_forall in Hl. apply Hl in C. discriminate.
      * lia.
Qed.
Theorem C50_enumerate {K V} (F : functions K V) sz (ops : list (op K V)) t k :
  consistent F -> power sz -> sz < 2 ^ 30 -> puts ops < 2 ^ 28 -> run F (new_table sz) ops = Some t ->
  exists l, enumerate F (S (length (block t))) t k 0 = Some l /\ Permutation l (filter (key_val F k) (bag t)).
Proof.
  intros HF Hp Hsz Hn E. destruct (power_pow2 _ Hp) as [Hp2 _].
  destruct (new_inv F sz Hp2 ltac:(lia)) as [Hi0 _].
  destruct (run_ok F HF sz (puts ops) Hsz ltac:(lia) ops (new_table sz) 0 Hi0) as [t' [E' [Hi _]]]; cbn; try lia.
  assert (t' = t) by congruence. subst t'.
  exists (flat_map (match_of F k) (view (block t) (size t) (uint (key_hash F k)))). split.
  - apply (enumerate_from F HF t k Hi (length (block t)) 0%nat); rewrite ?(inv_length _ _ Hi); intros; lia.
  - rewrite bag_values, <- match_of_values. apply Permutation_flat_map.
    apply view_perm; [apply (inv_size _ _ Hi)|apply (inv_length _ _ Hi)].
Qed.

(** * Environments: change and fetch are a map *)
Section Env.
Context {A D : Type} (hash : A -> Z) (eqA : A -> A -> bool) (eqD : D -> D -> bool).
Context (HeqA : forall a b, eqA a b = true <-> a = b).
Let F := env_functions (D := D) hash eqA.
Lemma env_consistent : consistent F.
Proof. intros k p H. cbn in *. apply HeqA in H. now subst. Qed.
Inductive env_op := Change (a : A) (d : D) | DeleteKey (a : A) | DeleteKeyValue (a : A) (d : D).
Fixpoint env_run (t : table (A * D)) (ops : list env_op) : option (table (A * D)) :=
  match ops with
  | [] => Some t
  | Change a d :: ops' => match change hash eqA t a d with Some t' => env_run t' ops' | None => None end
  | DeleteKey a :: ops' =>
      match delete_all_key hash eqA (S (length (block t))) t a 0 with Some t' => env_run t' ops' | None => None end
  | DeleteKeyValue a d :: ops' =>
      match delete_all_key_value hash eqA eqD (S (length (block t))) t a d 0 with Some t' => env_run t' ops' | None => None end
  end.
(** The map the history describes. *)
Definition env_map (m : A -> option D) (o : env_op) : A -> option D :=
  match o with
  | Change a d => fun x => if eqA a x then Some d else m x
  | DeleteKey a => fun x => if eqA a x then None else m x
  | DeleteKeyValue a d =>
      fun x => if eqA a x then match m x with Some e => if eqD e d then None else Some e | None => None end else m x
  end.

Lemma eqA_refl a : eqA a a = true. Proof. now apply HeqA. Qed.
(** A table with at most one pair for a key, seen as a map. *)
Record represents (t : table (A * D)) (m : A -> option D) : Prop := {
  rep_inv : inv F t;
  rep_nodup : NoDup (map fst (values (block t)));
  rep_map : forall a d, In (a, d) (values (block t)) <-> m a = Some d
}.
Lemma rep_fetch t m a : represents t m -> fetch hash eqA t a = Some (m a).
Proof.
  intros [Hi Hd Hm]. unfold fetch. fold F.
  destruct (get_spec F env_consistent t a Hi) as [[[a' d] [-> [Hin Hk]]]|[-> Hno]]; cbn in *.
  - apply HeqA in Hk. subst a'. apply Hm in Hin. now rewrite Hin.
  - destruct (m a) as [d|] eqn:E; [|reflexivity]. exfalso. apply Hm in E. apply Hno in E. cbn in E. now rewrite eqA_refl in E.
Qed.
Lemma set_val_paths b sz p (x y : A * D) : pow2 sz -> length b = Z.to_nat sz -> (p < length b)%nat ->
  nth p b Null = Val x -> fst x = fst y -> paths F b sz -> paths F (set_at b p (Val y)) sz.
Proof.
  intros Hp Hl Hlt Hx Hxy Hpaths. apply paths_set; try assumption; [discriminate|].
  intros v [= <-] j j' Hj Hjlt Hj'. assert (Hh : hv F y = hv F x) by (unfold hv; cbn; now rewrite Hxy).
  rewrite Hh in *. apply (Hpaths j); [|assumption]. rewrite view_nth by assumption. rewrite Hj. now f_equal.
Qed.
Lemma rep_change t m a d : represents t m -> size t < 2 ^ 30 ->
  exists t', change hash eqA t a d = Some t' /\ represents t' (env_map m (Change a d)) /\
    (size t' = size t \/ size t' = 2 * size t /\ size t / 2 <= occupied t) /\ occupied t' <= occupied t + 1.
Proof.
  intros Hr Hsz. pose proof Hr as [Hi Hd Hm]. unfold change. fold F.
  destruct (get_0 F t a Hi) as [l1 [x [l2 [E [Hx [Hl [Eg [Ex Hp]]]]]]]]. rewrite Eg, at_nat, Ex.
  assert (Hget : get F t a = Some (contents (block t) (Z.of_nat (pos (size t) (uint (key_hash F a)) (length l1)))))
    by (unfold get; now rewrite Eg).
  unfold contents in Hget. rewrite at_nat, Ex in Hget.
  destruct x as [| |[a' e]]; cbn [stops] in Hx; [|discriminate|].
  - destruct (get_spec F env_consistent t a Hi) as [[v [Hg _]]|[_ Hno]]; [congruence|].
    destruct (put_spec F t (a, d) Hi Hsz) as [t' [E' [Hi' [Hperm Hs]]]]. exists t'. split; [exact E'|].
    split; [|split; [exact Hs|]].
    + constructor; [assumption| |].
      * eapply Permutation_NoDup; [apply Permutation_map, Permutation_sym, Hperm|]. cbn. constructor; [|assumption].
        intros Hin. apply in_map_iff in Hin as [[a' e] [Ea Hin]]. cbn in Ea. subst a'. apply Hno in Hin. cbn in Hin.
        now rewrite eqA_refl in Hin.
      * intros b e. cbn [env_map]. split.
        -- intros Hin. apply (Permutation_in _ Hperm) in Hin as [[= <- <-]|Hin]; [now rewrite eqA_refl|].
           destruct (eqA a b) eqn:Eab; [|now apply Hm]. apply HeqA in Eab. subst b.
           apply Hno in Hin. cbn in Hin. now rewrite eqA_refl in Hin.
        -- intros H. apply (Permutation_in _ (Permutation_sym Hperm)). destruct (eqA a b) eqn:Eab.
           ++ apply HeqA in Eab. injection H as ->. subst b. now left.
           ++ right. now apply Hm.
    + rewrite (inv_occ _ _ Hi'), (inv_occ _ _ Hi), (Permutation_length Hperm). cbn [length]. lia.
  - cbn in Hx. apply HeqA in Hx. subst a'. rewrite Nat2Z.id. cbn [fst].
    set (p := pos (size t) (uint (key_hash F a)) (length l1)) in *.
    eexists. split; [reflexivity|].
    destruct (set_at_split (block t) p (Val (a, d)) Hp) as [b1 [y [b2 [Eb [Elb [Ey Es]]]]]]. rewrite Ex in Ey. subst y.
    split; [|split; [now left|cbn; lia]].
    assert (Hvals : values (block t) = values b1 ++ (a, e) :: values b2) by (rewrite Eb; unfold values; now rewrite flat_map_app).
    assert (Hvals' : values (set_at (block t) p (Val (a, d))) = values b1 ++ (a, d) :: values b2)
      by (rewrite Es; unfold values; now rewrite flat_map_app).
    assert (Hnull : nulls (set_at (block t) p (Val (a, d))) = nulls (block t)).
    { rewrite Es, Eb. unfold nulls. rewrite !filter_app, !app_length. reflexivity. }
    constructor; cbn [block size occupied occ_del].
    + constructor; cbn [block size occupied occ_del]; rewrite ?set_at_length, ?Hnull; try apply Hi.
      * apply (set_val_paths _ _ _ (a, e) (a, d)); try apply Hi; try assumption. reflexivity.
      * rewrite (inv_occ _ _ Hi), Hvals, Hvals', !app_length. reflexivity.
    + rewrite Hvals'. rewrite Hvals in Hd. rewrite map_app in *. exact Hd.
    + rewrite Hvals'. rewrite Hvals in Hd, Hm. intros b f. cbn [env_map].
      assert (Hother : In (b, f) (values b1 ++ (a, d) :: values b2) <->
                       (b, f) = (a, d) \/ (b <> a /\ In (b, f) (values b1 ++ (a, e) :: values b2))).
      { rewrite !in_app_iff. cbn [In]. rewrite map_app in Hd. cbn [map fst] in Hd.
        apply NoDup_remove_2 in Hd.
        assert (Hne : forall g, In g (values b1) \/ In g (values b2) -> fst g <> a).
        { intros g Hg Hga. apply Hd. rewrite <- Hga. apply in_or_app. destruct Hg; [left|right]; now apply in_map. }
        split.
        - intros [H|[H|H]]; [right|left; congruence|right]; (split; [exact (Hne (b, f) ltac:(tauto))|tauto]).
        - intros [H|[Hba [H|[H|H]]]]; [right; left; congruence|now left|congruence|right; now right]. }
      rewrite Hother, (Hm b f). destruct (eqA a b) eqn:Eab.
      * apply HeqA in Eab. subst b. split; [intros [H|[H _]]; congruence|]. intros [= ->]. now left.
      * assert (b <> a) by (intros ->; now rewrite eqA_refl in Eab). split; [intros [H'|[_ H']]; congruence|]. intros H'. now right.
Qed.

(** Removing some of the pairs of a key. *)
Lemma delete_loop (c : D -> bool) (loop : nat -> table (A * D) -> Z -> option (table (A * D))) a :
  (forall f t i, loop (S f) t i =
     match get_ F t a i with
     | None => None
     | Some (ix, i') =>
         match at_ (block t) ix with
         | Val p => loop f (if c (snd p) then Table (size t) (occupied t - 1) (occ_del t) (set_at (block t) (Z.to_nat ix) Deleted) else t) (i' + 1)
         | _ => Some t
         end
     end) ->
  forall m t i, inv F t -> (Z.to_nat (size t) - i <= m)%nat -> (i <= Z.to_nat (size t))%nat ->
  (forall j, (j < i)%nat -> nth_error (view (block t) (size t) (uint (key_hash F a))) j <> Some Null) ->
  (forall j b d, (j < i)%nat -> nth_error (view (block t) (size t) (uint (key_hash F a))) j = Some (Val (b, d)) -> b = a -> c d = false) ->
  exists t', loop (S m) t (Z.of_nat i) = Some t' /\ inv F t' /\ size t' = size t /\ occupied t' <= occupied t /\
    Permutation (values (block t')) (filter (fun p => negb (eqA a (fst p) && c (snd p))) (values (block t))).
Proof.
  intros Hloop. induction m as [|m IH]; intros t i Hi Hm Hle Hno Hdone.
  - destruct (get_from F t a i Hi Hno Hle) as [l1 [x [l2 [_ [_ [_ [_ [_ [_ Hlt]]]]]]]]]. lia.
  - rewrite Hloop.
    destruct (get_from F t a i Hi Hno Hle) as [l1 [x [l2 [E [Hx [Hl [Eg [Ex [Hp Hlt]]]]]]]]].
    set (h := uint (key_hash F a)) in *. set (w := view (block t) (size t) h) in *.
    set (p := pos (size t) h (i + length l1)) in *.
    rewrite Eg, at_nat, Ex, Nat2Z.id.
    assert (Hlen : length w = Z.to_nat (size t)) by apply view_length.
    assert (Hw : w = firstn i w ++ l1 ++ x :: l2) by (rewrite <- E; symmetry; apply firstn_skipn).
    assert (Hfi : length (firstn i w) = i) by (rewrite firstn_length; lia).
    assert (Hwx : nth_error w (i + length l1) = Some x).
    { rewrite Hw, app_assoc, nth_error_app2 by (rewrite app_length; lia).
      rewrite app_length, Hfi, Nat.sub_diag. reflexivity. }
    assert (Hmid : forall j, (i <= j < i + length l1)%nat -> exists y, nth_error w j = Some y /\ stops F a y = false).
    { intros j Hj. destruct (nth_error l1 (j - i)) as [y|] eqn:Ey; [|apply nth_error_None in Ey; lia].
      exists y. split.
      - rewrite Hw, nth_error_app2 by lia. rewrite Hfi, nth_error_app1 by lia. exact Ey.
      - rewrite Forall_forall in Hl. apply Hl. eapply nth_error_In; eassumption. }
    destruct x as [| |[b e]]; cbn [stops] in Hx; [|discriminate|].
    + exists t. split; [reflexivity|]. split; [assumption|]. split; [reflexivity|]. split; [lia|].
      assert (Hall : forall q, In q (values (block t)) -> negb (eqA a (fst q) && c (snd q)) = true).
      { intros [b d] Hq. cbn [fst snd]. destruct (eqA a b) eqn:Eab; [|reflexivity]. apply HeqA in Eab. subst b.
        cbn [andb]. apply negb_true_iff. apply in_values in Hq.
        apply (Permutation_in _ (Permutation_sym (view_perm _ _ h (inv_size _ _ Hi) (inv_length _ _ Hi)))) in Hq.
        fold w in Hq. apply In_nth_error in Hq as [j Hj].
        destruct (Nat.lt_ge_cases j i) as [H|H]; [now apply (Hdone j a d H Hj)|].
        destruct (Nat.lt_trichotomy j (i + length l1)) as [H'|[H'|H']].
        - destruct (Hmid j ltac:(lia)) as [y [Hy Hys]]. assert (y = Val (a, d)) by congruence. subst y. cbn in Hys.
          now rewrite eqA_refl in Hys.
        - subst j. congruence.
        - exfalso. apply (inv_paths _ _ Hi j (a, d) Hj (i + length l1)%nat H'). exact Hwx. }
      assert (Hf : filter (fun q => negb (eqA a (fst q) && c (snd q))) (values (block t)) = values (block t)).
      { clear - Hall. induction (values (block t)) as [|q l IH]; [reflexivity|]. cbn [filter]. rewrite Hall by now left.
        f_equal. apply IH. intros r Hr. apply Hall. now right. }
      rewrite Hf. apply Permutation_refl.
    + cbn in Hx. apply HeqA in Hx. subst b. cbn [snd].
      replace (Z.of_nat (i + length l1) + 1) with (Z.of_nat (S (i + length l1))) by lia.
      destruct (c e) eqn:Ec.
      * destruct (delete_spec F t p (a, e) Hi Hp Ex) as [Hi1 Hperm].
        set (t1 := Table (size t) (occupied t - 1) (occ_del t) (set_at (block t) p Deleted)) in *.
        assert (Hview : forall j, (j < Z.to_nat (size t))%nat ->
                  nth_error (view (block t1) (size t1) h) j = if (j =? i + length l1)%nat then Some Deleted else nth_error w j).
        { intros j Hj. cbn [t1 block size]. rewrite view_nth by assumption. rewrite nth_set_at by assumption.
          destruct (Nat.eqb_spec j (i + length l1)) as [->|Hne]; [now rewrite Nat.eqb_refl|].
          destruct (Nat.eqb_spec (pos (size t) h j) p) as [Heq|_].
          - exfalso. apply Hne. exact (pos_inj (size t) h j (i + length l1) (inv_size _ _ Hi) Hj Hlt Heq).
          - unfold w. now rewrite view_nth. }
        destruct (IH t1 (S (i + length l1)) Hi1) as [t' [E' [Hi' [Hs' [Ho' Hp']]]]].
        -- cbn [t1 size]. lia.
        -- cbn [t1 size]. lia.
        -- intros j Hj C. fold h in C. rewrite Hview in C by lia. destruct (Nat.eqb_spec j (i + length l1)); [discriminate|].
           destruct (Nat.lt_ge_cases j i) as [H|H]; [now apply (Hno j H)|].
           destruct (Hmid j ltac:(lia)) as [y [Hy Hys]]. assert (y = Null) by congruence. subst. discriminate.
        -- intros j b d Hj C Hb. subst b. fold h in C. rewrite Hview in C by lia. destruct (Nat.eqb_spec j (i + length l1)); [discriminate|].
           destruct (Nat.lt_ge_cases j i) as [H|H]; [now apply (Hdone j a d H)|].
           destruct (Hmid j ltac:(lia)) as [y [Hy Hys]]. assert (y = Val (a, d)) by congruence. subst y. cbn in Hys.
           now rewrite eqA_refl in Hys.
        -- exists t'. split; [exact E'|]. split; [assumption|]. cbn [t1 size occupied] in Hs', Ho'. split; [assumption|]. split; [lia|].
           eapply Permutation_trans; [exact Hp'|].
           assert (Hfp : forall (f : A * D -> bool) l l', Permutation l l' -> Permutation (filter f l) (filter f l')).
           { clear. intros f l l' H. induction H as [|x l l' H IH|x y l|l l1 l2 H IH H' IH']; cbn.
             - constructor.
             - destruct (f x); [now apply perm_skip|assumption].
             - destruct (f x), (f y); try apply Permutation_refl. apply perm_swap.
             - eapply Permutation_trans; eassumption. }
           eapply Permutation_trans; [|apply Hfp, Permutation_sym, Hperm]. cbn [filter fst snd]. rewrite eqA_refl, Ec. cbn [andb negb].
           apply Permutation_refl.
      * destruct (IH t (S (i + length l1)) Hi) as [t' [E' [Hi' [Hs' [Ho' Hp']]]]].
        -- lia.
        -- lia.
        -- intros j Hj C. fold h w in C.
           destruct (Nat.lt_ge_cases j i) as [H|H]; [now apply (Hno j H)|].
           destruct (Nat.eq_dec j (i + length l1)) as [->|]; [congruence|].
           destruct (Hmid j ltac:(lia)) as [y [Hy Hys]]. assert (y = Null) by congruence. subst. discriminate.
        -- intros j b d Hj C Hb. subst b. fold h w in C.
           destruct (Nat.lt_ge_cases j i) as [H|H]; [now apply (Hdone j a d H)|].
           destruct (Nat.eq_dec j (i + length l1)) as [->|]; [congruence|].
           destruct (Hmid j ltac:(lia)) as [y [Hy Hys]]. assert (y = Val (a, d)) by congruence. subst y. cbn in Hys.
           now rewrite eqA_refl in Hys.
        -- exists t'. split; [exact E'|]. split; [assumption|]. split; [assumption|]. split; assumption.
Qed.
Lemma rep_delete (c : D -> bool) t t' m a : represents t m -> inv F t' ->
  Permutation (values (block t')) (filter (fun p => negb (eqA a (fst p) && c (snd p))) (values (block t))) ->
  represents t' (fun x => if eqA a x then match m x with Some e => if c e then None else Some e | None => None end else m x).
Proof.
  intros [Hi Hd Hm] Hi' Hp. constructor; [assumption| |].
  - eapply Permutation_NoDup; [apply Permutation_map, Permutation_sym, Hp|]. clear - Hd.
    induction (values (block t)) as [|q l IH]; [constructor|]. cbn [filter map] in *. inversion Hd as [|? ? Hq Hl]; subst.
    destruct (negb _); [|auto]. cbn. constructor; [|auto]. intros Hin. apply Hq. apply in_map_iff in Hin as [r [Er Hr]].
    apply filter_In in Hr as [Hr _]. rewrite <- Er. now apply in_map.
  - intros b d. split.
    + intros Hin. apply (Permutation_in _ Hp) in Hin. apply filter_In in Hin as [Hin Hc]. cbn [fst snd] in Hc. apply Hm in Hin.
      rewrite Hin. destruct (eqA a b); [|reflexivity]. cbn [andb] in Hc. apply negb_true_iff in Hc. now rewrite Hc.
    + intros H. apply (Permutation_in _ (Permutation_sym Hp)). apply filter_In. cbn [fst snd]. destruct (eqA a b) eqn:Eab.
      * destruct (m b) as [e|] eqn:Em; [|discriminate]. destruct (c e) eqn:Ec; [discriminate|]. injection H as ->.
        split; [now apply Hm|]. now rewrite Ec.
      * split; [now apply Hm|reflexivity].
Qed.
Lemma rep_ext t m m' : represents t m -> (forall a, m a = m' a) -> represents t m'.
Proof. intros [H1 H2 H3] E. constructor; auto. intros a d. now rewrite <- E. Qed.

Lemma delete_key_spec t m a : represents t m ->
  exists t', delete_all_key hash eqA (S (length (block t))) t a 0 = Some t' /\ represents t' (env_map m (DeleteKey a)) /\
    size t' = size t /\ occupied t' <= occupied t.
Proof.
  intros Hr. pose proof (rep_inv _ _ Hr) as Hi.
  destruct (delete_loop (fun _ => true) (fun f t i => delete_all_key hash eqA f t a i) a) with (m := length (block t)) (t := t) (i := 0%nat)
    as [t' [E [Hi' [Hs [Ho Hp]]]]]; try assumption; try lia.
  - intros f t0 i. cbn [delete_all_key]. destruct (get_ _ t0 a i) as [[ix i']|]; [|reflexivity]. now destruct (at_ (block t0) ix).
  - rewrite (inv_length _ _ Hi). lia.
  - exists t'. split; [exact E|]. split; [|split; assumption]. eapply rep_ext; [exact (rep_delete (fun _ => true) t t' m a Hr Hi' Hp)|].
    intros x. cbn. destruct (eqA a x); [|reflexivity]. now destruct (m x).
Qed.
Lemma delete_key_value_spec t m a d : represents t m ->
  exists t', delete_all_key_value hash eqA eqD (S (length (block t))) t a d 0 = Some t' /\ represents t' (env_map m (DeleteKeyValue a d)) /\
    size t' = size t /\ occupied t' <= occupied t.
Proof.
  intros Hr. pose proof (rep_inv _ _ Hr) as Hi.
  destruct (delete_loop (fun e => eqD e d) (fun f t i => delete_all_key_value hash eqA eqD f t a d i) a) with (m := length (block t)) (t := t) (i := 0%nat)
    as [t' [E [Hi' [Hs [Ho Hp]]]]]; try assumption; try lia.
  - intros f t0 i. cbn [delete_all_key_value]. reflexivity.
  - rewrite (inv_length _ _ Hi). lia.
  - exists t'. split; [exact E|]. split; [|split; assumption]. eapply rep_ext; [exact (rep_delete (fun e => eqD e d) t t' m a Hr Hi' Hp)|]. reflexivity.
Qed.

Lemma env_run_ok (S0 n : Z) : S0 < 2 ^ 30 -> 4 * n < 2 ^ 30 ->
  forall ops t m q, represents t m -> size t <= Z.max S0 (4 * q) -> occupied t <= q -> q + Z.of_nat (length ops) <= n ->
  exists t', env_run t ops = Some t' /\ represents t' (fold_left env_map ops m).
Proof.
  intros HS Hn. induction ops as [|o ops IH]; intros t m q Hr Hs Ho Hq; cbn [env_run fold_left].
  - exists t. split; [reflexivity|assumption].
  - cbn [length] in Hq. destruct o as [a d|a|a d].
    + destruct (rep_change t m a d Hr ltac:(lia)) as [t1 [E [Hr1 [Hs1 Ho1]]]]. rewrite E.
      apply (IH t1 _ (q + 1) Hr1); try lia. pose proof (size_half F t (rep_inv _ _ Hr)).
      destruct Hs1 as [->|[-> Hge]]; lia.
    + destruct (delete_key_spec t m a Hr) as [t1 [E [Hr1 [Hs1 Ho1]]]]. rewrite E. apply (IH t1 _ q Hr1); lia.
    + destruct (delete_key_value_spec t m a d Hr) as [t1 [E [Hr1 [Hs1 Ho1]]]]. rewrite E. apply (IH t1 _ q Hr1); lia.
Qed.
End Env.

(** Every history of fewer than 2^28 changes and deletions: fetch answers as the map. *)
Theorem C50_environment {A D} (hash : A -> Z) (eqA : A -> A -> bool) (eqD : D -> D -> bool) sz (ops : list (@env_op A D)) :
  (forall a b, eqA a b = true <-> a = b) -> power sz -> sz < 2 ^ 30 -> Z.of_nat (length ops) < 2 ^ 28 ->
  exists t, env_run hash eqA eqD (new_table sz) ops = Some t /\
    forall a, fetch hash eqA t a = Some (fold_left (env_map eqA eqD) ops (fun _ => None) a).
Proof.
  intros HeqA Hp Hsz Hn. destruct (power_pow2 _ Hp) as [Hp2 _].
  destruct (new_inv (env_functions (D := D) hash eqA) sz Hp2 ltac:(lia)) as [Hi Hv].
  destruct (env_run_ok hash eqA eqD HeqA sz (Z.of_nat (length ops)) Hsz ltac:(lia) ops (new_table sz) (fun _ => None) 0) as [t [E Hr]];
    cbn [size occupied new_table]; try lia.
  - constructor; [assumption| |]; unfold values in *; rewrite Hv; [constructor|]. intros a d. split; [intros []|discriminate].
  - exists t. split; [exact E|]. intros a. now apply rep_fetch.
Qed.

(** * Symbols are interned *)
Fixpoint get_symbols (st : symtab) (ss : list str) : option (symtab * list symbol) :=
  match ss with
  | [] => Some (st, [])
  | s :: ss' =>
      match get_symbol st s with
      | None => None
      | Some (st1, y) => match get_symbols st1 ss' with None => None | Some (st2, ys) => Some (st2, y :: ys) end
      end
  end.
Lemma str_eqb_spec a b : str_eqb a b = true <-> a = b.
Proof. unfold str_eqb. destruct (list_eq_dec Z.eq_dec a b); split; congruence. Qed.
Lemma symbol_consistent : consistent symbol_functions.
Proof. intros k y H. cbn in *. apply str_eqb_spec in H. now subst. Qed.
(** What a table of symbols satisfies. *)
Record sym_ok (st : symtab) : Prop := {
  sy_inv : inv symbol_functions (fst st);
  sy_texts : forall y z, In y (values (block (fst st))) -> In z (values (block (fst st))) -> text y = text z -> y = z;
  sy_addr : forall y z, In y (values (block (fst st))) -> In z (values (block (fst st))) -> address y = address z -> y = z;
  sy_next : forall y, In y (values (block (fst st))) -> address y < snd st
}.
Lemma get_symbol_ok st s : sym_ok st -> size (fst st) < 2 ^ 30 ->
  exists st' y, get_symbol st s = Some (st', y) /\ text y = s /\ sym_ok st' /\ In y (values (block (fst st'))) /\
    (forall z, In z (values (block (fst st))) -> In z (values (block (fst st')))) /\
    (size (fst st') = size (fst st) \/ size (fst st') = 2 * size (fst st) /\ size (fst st) / 2 <= occupied (fst st)) /\
    occupied (fst st') <= occupied (fst st) + 1.
Proof.
  destruct st as [t next]. intros [Hi Ht Ha Hn] Hsz. cbn [fst snd] in *. unfold get_symbol.
  destruct (get_spec symbol_functions symbol_consistent t s Hi) as [[y [-> [Hin Hk]]]|[-> Hno]].
  - exists (t, next), y. cbn in Hk. apply str_eqb_spec in Hk. cbn [fst snd].
    split; [reflexivity|]. split; [now symmetry|]. split; [now constructor|]. split; [assumption|]. split; [auto|].
    split; [now left|lia].
  - destruct (put_spec symbol_functions t (Symbol next s) Hi Hsz) as [t' [E [Hi' [Hperm Hs]]]]. rewrite E.
    exists (t', next + 1), (Symbol next s). cbn [fst snd].
    assert (Hin : forall z, In z (values (block t')) <-> z = Symbol next s \/ In z (values (block t))).
    { intros z. split.
      - intros Hz. apply (Permutation_in _ Hperm) in Hz as [<-|Hz]; auto.
      - intros Hz. apply (Permutation_in _ (Permutation_sym Hperm)). destruct Hz as [->|Hz]; [now left|now right]. }
    assert (Hnew : forall z, In z (values (block t)) -> text z <> s).
    { intros z Hz E'. apply Hno in Hz. cbn in Hz. rewrite E' in Hz.
      assert (str_eqb s s = true) by now apply str_eqb_spec. congruence. }
    split; [reflexivity|]. split; [reflexivity|]. split; [|split; [|split; [|split]]].
    + constructor; cbn [fst snd]; [assumption| | |].
      * intros y z Hy Hz Hyz. apply Hin in Hy as [->|Hy]; apply Hin in Hz as [->|Hz]; cbn [text] in *; auto.
        -- exfalso. now apply (Hnew z).
        -- exfalso. now apply (Hnew y).
      * intros y z Hy Hz Hyz. apply Hin in Hy as [->|Hy]; apply Hin in Hz as [->|Hz]; cbn [address] in *; auto.
        -- apply Hn in Hz. lia.
        -- apply Hn in Hy. lia.
      * intros y Hy. apply Hin in Hy as [->|Hy]; [cbn; lia|]. apply Hn in Hy. lia.
    + apply Hin. now left.
    + intros z Hz. apply Hin. now right.
    + exact Hs.
    + rewrite (inv_occ _ _ Hi'), (inv_occ _ _ Hi), (Permutation_length Hperm). cbn [length]. lia.
Qed.
Lemma get_symbols_ok (n : Z) : 4 * n < 2 ^ 30 -> forall ss st m, sym_ok st -> size (fst st) <= Z.max 1024 (4 * m) ->
  occupied (fst st) <= m -> m + Z.of_nat (length ss) <= n ->
  exists st' ys, get_symbols st ss = Some (st', ys) /\ map text ys = ss /\ sym_ok st' /\
    (forall y, In y ys -> In y (values (block (fst st')))) /\
    (forall z, In z (values (block (fst st))) -> In z (values (block (fst st')))).
Proof.
  intros Hn. induction ss as [|s ss IH]; intros st m Hok Hs Ho Hm; cbn [get_symbols].
  - exists st, []. repeat split; auto; try apply Hok. intros y [].
  - cbn [length] in Hm.
    destruct (get_symbol_ok st s Hok ltac:(lia)) as [st1 [y [E [Ey [Hok1 [Hy [Hkeep [Hsz Ho1]]]]]]]]. rewrite E.
    assert (Hs1 : size (fst st1) <= Z.max 1024 (4 * (m + 1))).
    { pose proof (size_half _ _ (sy_inv _ Hok)). destruct Hsz as [->|[-> Hge]]; lia. }
    destruct (IH st1 (m + 1) Hok1 Hs1 ltac:(lia) ltac:(lia)) as [st' [ys [E' [Ets [Hok' [Hys Hkeep']]]]]]. rewrite E'.
    exists st', (y :: ys). split; [reflexivity|]. split; [cbn; now rewrite Ey, Ets|]. split; [assumption|]. split; [|auto].
    intros z [<-|Hz]; auto.
Qed.
(** Whatever symbols are asked for, in whatever order: every symbol has its text, and two
    of them are the same object exactly when the texts are the same. *)
Theorem C50_symbols ss : Z.of_nat (length ss) < 2 ^ 28 ->
  exists st ys, get_symbols new_symtab ss = Some (st, ys) /\ map text ys = ss /\
    forall i j y z, nth_error ys i = Some y -> nth_error ys j = Some z -> (address y = address z <-> nth_error ss i = nth_error ss j).
Proof.
  intros Hn. destruct (new_inv symbol_functions 1024) as [Hi Hv].
  { exists 10. split; [lia|reflexivity]. }
  { lia. }
  assert (Hok : sym_ok new_symtab).
  { assert (Hv' : values (block (fst new_symtab)) = []) by exact Hv.
    constructor; [exact Hi| | |]; rewrite Hv'; intros y; intros; contradiction. }
  destruct (get_symbols_ok (Z.of_nat (length ss)) ltac:(lia) ss new_symtab 0 Hok) as [st [ys [E [Et [Hok' [Hin _]]]]]];
    [change (size (fst new_symtab)) with 1024; lia|change (occupied (fst new_symtab)) with 0; lia|lia|].
  exists st, ys. split; [exact E|]. split; [exact Et|]. intros i j y z Hy Hz.
  assert (Hti : nth_error ss i = Some (text y)) by (rewrite <- Et, nth_error_map, Hy; reflexivity).
  assert (Htj : nth_error ss j = Some (text z)) by (rewrite <- Et, nth_error_map, Hz; reflexivity).
  rewrite Hti, Htj. pose proof (nth_error_In _ _ Hy) as Iy. pose proof (nth_error_In _ _ Hz) as Iz. split.
  - intros Ha. f_equal. f_equal. apply (sy_addr _ Hok'); auto.
  - intros [= Hyz]. now rewrite (sy_texts _ Hok' y z (Hin _ Iy) (Hin _ Iz) Hyz).
Qed.

(** * Witnesses *)
Definition small : functions Z Z := Functions (fun k => k) (fun v => v) Z.eqb.
Example ex_consistent : consistent small.
Proof. intros k v H. cbn in *. now apply Z.eqb_eq. Qed.
(** Size 2: collisions, deletions and two resizes. *)
Example ex_run : exists t, run small (new_table 2) [Put 4; Put 8; Remove 4; Put 12; Put 8; Put 16; Remove 8] = Some t /\
  size t = 8 /\ get small t 8 = Some (Some 8) /\ get small t 4 = Some None /\ get small t 16 = Some (Some 16) /\
  Permutation (bag t) [8; 12; 16].
Proof.
  eexists. split; [vm_compute; reflexivity|]. repeat (split; [vm_compute; reflexivity|]).
  vm_compute. apply NoDup_Permutation; [repeat constructor; cbn; intuition discriminate|repeat constructor; cbn; intuition discriminate|].
  cbn. intuition.
Qed.
Example ex_env : exists t, env_run (D := Z) (fun a => a) Z.eqb Z.eqb (new_table 16) [Change 3 1; Change 19 2; Change 3 5; DeleteKeyValue 19 7; DeleteKey 35; DeleteKey 19] = Some t /\
  fetch (fun a => a) Z.eqb t 3 = Some (Some 5) /\ fetch (fun a => a) Z.eqb t 19 = Some None.
Proof. eexists. split; [vm_compute; reflexivity|]. split; vm_compute; reflexivity. Qed.
Example ex_symbols : exists st a b c, get_symbols new_symtab [[97]; [98]; [97]] = Some (st, [a; b; c]) /\
  address a = address c /\ address a <> address b.
Proof. eexists _, _, _, _. split; [vm_compute; reflexivity|]. split; vm_compute; [reflexivity|discriminate]. Qed.

Print Assumptions C50_table.
Print Assumptions C50_enumerate.
Print Assumptions C50_environment.
Print Assumptions C50_symbols.

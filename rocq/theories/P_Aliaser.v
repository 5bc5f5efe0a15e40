(** Alias resolution (C40). *)
From Coq Require Import List ZArith Bool Sorted Lia Arith.
From Verif Require Import M_OrdSet L_OrdSet M_Aliaser.
Import ListNotations.
Open Scope nat_scope.

(** * What the definitions say *)
Definition points (os : list op) (x y : name) : Prop := In (Add x y) os.
Definition alias (os : list op) (x : name) : Prop := In (Void x) os \/ exists y, points os x y.
(** [steps os n x y]: [y] is [n] definitions away from [x]. *)
Inductive steps (os : list op) : nat -> name -> name -> Prop :=
| steps_refl x : steps os 0 x x
| steps_cons n x y z : points os x y -> steps os n y z -> steps os (S n) x z.

(** * The tables hold what was defined *)
Definition sorted (s : list name) : Prop := increasing str_ltb s.

Lemma name_eqb_spec a b : name_eqb a b = true <-> a = b.
Proof. unfold name_eqb. destruct (list_eq_dec Z.eq_dec a b); split; congruence. Qed.
Lemma name_eqb_refl a : name_eqb a a = true.
Proof. now apply name_eqb_spec. Qed.

Lemma lookup_ensure t k n : lookup (ensure t k) n =
  match lookup t n with Some v => Some v | None => if name_eqb k n then Some [] else None end.
Proof.
  unfold ensure. destruct (lookup t k) eqn:E.
  - destruct (lookup t n) eqn:E2; [reflexivity|].
    destruct (name_eqb k n) eqn:E3; [|reflexivity]. apply name_eqb_spec in E3. congruence.
  - cbn [lookup]. destruct (name_eqb k n) eqn:E3.
    + apply name_eqb_spec in E3. subst. now rewrite E.
    + now destruct (lookup t n).
Qed.
Lemma lookup_insert_at t k x n : lookup (insert_at t k x) n =
  match lookup t n with Some v => Some (if name_eqb k n then set_insert str_ltb x v else v) | None => None end.
Proof.
  induction t as [|[k' v] t IH]; [reflexivity|]. cbn [insert_at].
  destruct (name_eqb k' k) eqn:E1; cbn [lookup].
  - apply name_eqb_spec in E1. subst k'. destruct (name_eqb k n); [reflexivity|]. now destruct (lookup t n).
  - destruct (name_eqb k' n) eqn:E2; [|apply IH]. apply name_eqb_spec in E2. subst k'.
    destruct (name_eqb k n) eqn:E3; [|reflexivity]. apply name_eqb_spec in E3. subst. rewrite name_eqb_refl in E1. discriminate.
Qed.

Definition holds (t : table) (key : name -> Prop) (arrow : name -> name -> Prop) : Prop :=
  forall n, match lookup t n with
            | Some v => key n /\ sorted v /\ forall y, In y v <-> arrow n y
            | None => ~ key n
            end.

Lemma holds_add t key arrow k x : holds t key arrow -> (forall a b, arrow a b -> key a) ->
  holds (insert_at (ensure t k) k x) (fun n => key n \/ n = k) (fun a b => arrow a b \/ (a = k /\ b = x)).
Proof.
  intros H Hk n. rewrite lookup_insert_at, lookup_ensure. specialize (H n).
  destruct (lookup t n) as [v|].
  - destruct H as [H1 [H2 H3]]. destruct (name_eqb k n) eqn:E.
    + apply name_eqb_spec in E. subst n. split; [now left|]. split; [now apply (increasing_insert _ str_ltb_strict)|].
      intros y. rewrite (in_set_insert _ str_ltb_strict), H3. intuition.
    + split; [now left|]. split; [assumption|]. intros y. rewrite H3. split; [now left|].
      intros [|[-> _]]; [assumption|]. rewrite name_eqb_refl in E. discriminate.
  - destruct (name_eqb k n) eqn:E.
    + apply name_eqb_spec in E. subst n. split; [now right|].
      split; [cbn; repeat constructor|]. intros y. cbn. split; [intros [<-|[]]; now right|].
      intros [C|[_ ->]]; [|now left]. exfalso. apply H. now apply (Hk _ _ C).
    + intros [C|C]; [auto|]. subst. rewrite name_eqb_refl in E. discriminate.
Qed.
Lemma holds_ensure t key arrow k : holds t key arrow -> (forall a b, arrow a b -> key a) ->
  holds (ensure t k) (fun n => key n \/ n = k) arrow.
Proof.
  intros H Hk n. rewrite lookup_ensure. specialize (H n).
  destruct (lookup t n) as [v|].
  - destruct H as [H1 [H2 H3]]. split; [now left|]. auto.
  - destruct (name_eqb k n) eqn:E.
    + apply name_eqb_spec in E. subst n. split; [now right|]. split; [constructor|].
      intros y. split; [intros []|]. intros C. apply H. now apply (Hk _ _ C).
    + intros [C|C]; [auto|]. subst. rewrite name_eqb_refl in E. discriminate.
Qed.
Lemma holds_ext t k1 a1 k2 a2 : holds t k1 a1 -> (forall n, k1 n <-> k2 n) -> (forall n m, a1 n m <-> a2 n m) ->
  holds t k2 a2.
Proof.
  intros H Hk Ha n. specialize (H n). destruct (lookup t n) as [v|].
  - destruct H as [H1 [H2 H3]]. split; [now apply Hk|]. split; [assumption|]. intros y. now rewrite H3, Ha.
  - now rewrite <- Hk.
Qed.

Lemma run_snoc os o : run (os ++ [o]) = apply (run os) o.
Proof. unfold run. rewrite fold_left_app. reflexivity. Qed.

Lemma run_holds os :
  holds (destinations (run os)) (alias os) (points os) /\
  holds (aliases (run os)) (fun n => exists x, points os x n) (fun n x => points os x n).
Proof.
  induction os as [|o os [IH1 IH2]] using rev_ind.
  - split; intros n; cbn; [|now intros [x []]]. intros [[]|[y []]].
  - rewrite run_snoc. destruct o as [x y|x]; cbn [apply add_alias add_void_alias destinations aliases].
    + split.
      * apply (holds_ext _ _ _ _ _ (holds_add _ _ _ x y IH1 (fun a b Hab => or_intror (ex_intro _ b Hab)))).
        -- intros n. unfold alias, points. split.
           ++ intros [[Hv|[z Hz]]| ->]; [left|right; exists z|right; exists y]; apply in_or_app; auto. right. now left.
           ++ intros [Hv|[z Hz]]; [apply in_app_or in Hv|apply in_app_or in Hz].
              ** destruct Hv as [|[Hv|[]]]; [now left; left|discriminate].
              ** destruct Hz as [|[Hz|[]]]; [left; right; now exists z|injection Hz; auto].
        -- intros n m. unfold points. rewrite in_app_iff. split.
           ++ intros [|[-> ->]]; [now left|right; now left].
           ++ intros [|[E|[]]]; [now left|]. injection E as -> ->. now right.
      * apply (holds_ext _ _ _ _ _ (holds_add _ _ _ y x IH2 (fun a b Hab => ex_intro _ b Hab))).
        -- intros n. unfold points. split.
           ++ intros [[z Hz]| ->]; [exists z|exists x]; apply in_or_app; auto. right. now left.
           ++ intros [z Hz]. apply in_app_or in Hz as [|[Hz|[]]]; [left; now exists z|]. injection Hz; auto.
        -- intros n m. unfold points. rewrite in_app_iff. split.
           ++ intros [|[-> ->]]; [now left|right; now left].
           ++ intros [|[E|[]]]; [now left|]. injection E as -> ->. now right.
    + split.
      * apply (holds_ext _ _ _ _ _ (holds_ensure _ _ _ x IH1 (fun a b Hab => or_intror (ex_intro _ b Hab)))).
        -- intros n. unfold alias, points. split.
           ++ intros [[Hv|[z Hz]]| ->]; [left|right; exists z|left]; apply in_or_app; auto. right. now left.
           ++ intros [Hv|[z Hz]]; [apply in_app_or in Hv|apply in_app_or in Hz].
              ** destruct Hv as [|[Hv|[]]]; [now left; left|injection Hv; auto].
              ** destruct Hz as [|[Hz|[]]]; [left; right; now exists z|discriminate].
        -- intros n m. unfold points. rewrite in_app_iff. split; [now left|]. intros [|[E|[]]]; [assumption|discriminate].
      * apply (holds_ext _ _ _ _ _ IH2).
        -- intros n. unfold points. split; intros [z Hz]; exists z.
           ++ apply in_or_app. now left.
           ++ apply in_app_or in Hz as [|[Hz|[]]]; [assumption|discriminate].
        -- intros n m. unfold points. rewrite in_app_iff. split; [now left|]. intros [|[E|[]]]; [assumption|discriminate].
Qed.

(** * Destinations *)
Lemma fold_in {A} (f : list name -> A -> list name) (P : A -> name -> Prop) (l : list A) :
  (forall acc m x, In m l -> (In x (f acc m) <-> In x acc \/ P m x)) ->
  forall acc x, In x (fold_left f l acc) <-> In x acc \/ exists m, In m l /\ P m x.
Proof.
  induction l as [|m l IH]; intros Hf acc x; cbn [fold_left].
  - split; [now left|]. intros [|[m [[] _]]]; assumption.
  - rewrite IH by (intros; apply Hf; now right). rewrite (Hf acc m x (or_introl eq_refl)). split.
    + intros [[|]|[m' [H1 H2]]]; [now left|right; exists m; split; [now left|assumption]|right; exists m'; split; [now right|assumption]].
    + intros [|[m' [[->|H1] H2]]]; [now left; left|now left; right|right; eauto].
Qed.
Lemma fold_sorted {A} (f : list name -> A -> list name) (l : list A) :
  (forall acc m, sorted acc -> sorted (f acc m)) -> forall acc, sorted acc -> sorted (fold_left f l acc).
Proof. intros Hf. induction l as [|m l IH]; intros acc Ha; [assumption|]. cbn. auto. Qed.

Lemma find_destinations_in os d : forall n acc x,
  In x (find_destinations (run os) d n acc) <->
  In x acc \/ (~ alias os x /\ exists k, k <= d /\ steps os k n x).
Proof.
  destruct (run_holds os) as [Hd _].
  induction d as [|d IH]; intros n acc x; cbn [find_destinations]; specialize (Hd n);
    destruct (lookup (destinations (run os)) n) as [ds|] eqn:E.
  - destruct Hd as [Ha _]. split; [now left|]. intros [|[Hx [k [Hk Hs]]]]; [assumption|exfalso].
    inversion Hs; subst; [auto|lia].
  - rewrite (in_set_insert _ str_ltb_strict). split.
    + intros [->|]; [right|now left]. split; [assumption|]. exists 0. split; [lia|constructor].
    + intros [|[Hx [k [Hk Hs]]]]; [now right|]. inversion Hs; subst; [now left|lia].
  - destruct Hd as [Ha [_ Hin]].
    rewrite (fold_in _ (fun m x => ~ alias os x /\ exists k, k <= d /\ steps os k m x)) by (intros; apply IH).
    split.
    + intros [|[m [Hm [Hx [k [Hk Hs]]]]]]; [now left|right]. split; [assumption|]. exists (S k).
      split; [lia|]. econstructor; [apply Hin; exact Hm|exact Hs].
    + intros [|[Hx [k [Hk Hs]]]]; [now left|right]. inversion Hs as [|k' ? y ? Hp Hs']; subst; [contradiction|].
      exists y. split; [now apply Hin|]. split; [assumption|]. exists k'. split; [lia|assumption].
  - rewrite (in_set_insert _ str_ltb_strict). split.
    + intros [->|]; [right|now left]. split; [assumption|]. exists 0. split; [lia|constructor].
    + intros [|[Hx [k [Hk Hs]]]]; [now right|]. inversion Hs as [|k' ? y ? Hp Hs']; subst; [now left|].
      exfalso. apply Hd. right. now exists y.
Qed.
Lemma find_destinations_sorted a d : forall n acc, sorted acc -> sorted (find_destinations a d n acc).
Proof.
  induction d as [|d IH]; intros n acc Ha; cbn [find_destinations];
    destruct (lookup (destinations a) n); try assumption; try (now apply (increasing_insert _ str_ltb_strict)).
  apply fold_sorted; [|assumption]. intros. now apply IH.
Qed.

(** The destinations are the non-alias names at most five definitions away, once each
    and in order; the search ends for every set of definitions. *)
Theorem C40_destinations os n :
  (forall x, In x (all_destinations (run os) n) <-> ~ alias os x /\ exists k, k <= 5 /\ steps os k n x) /\
  StronglySorted (fun a b => str_ltb a b = true) (all_destinations (run os) n) /\
  NoDup (all_destinations (run os) n).
Proof.
  assert (Hs : sorted (all_destinations (run os) n)) by (apply find_destinations_sorted; constructor).
  split; [|split; [exact Hs|exact (increasing_nodup _ str_ltb_strict _ Hs)]].
  intros x. unfold all_destinations. rewrite find_destinations_in. cbn. intuition.
Qed.
Theorem C40_is_alias os n : is_alias (run os) n = true <-> alias os n.
Proof.
  destruct (run_holds os) as [Hd _]. specialize (Hd n). unfold is_alias.
  destruct (lookup (destinations (run os)) n); [intuition|]. split; [discriminate|contradiction].
Qed.

Lemma keys_in t : forall acc x, In x (fold_left (fun s (kv : name * list name) => set_insert str_ltb (fst kv) s) t acc) <->
  In x acc \/ lookup t x <> None.
Proof.
  induction t as [|[k v] t IH]; intros acc x; cbn [fold_left lookup fst].
  - split; [now left|]. now intros [|[]].
  - rewrite IH, (in_set_insert _ str_ltb_strict). destruct (name_eqb k x) eqn:E.
    + apply name_eqb_spec in E. subst. split; [right; discriminate|]. intros _. left. now left.
    + split; [intros [[->|]|]; [rewrite name_eqb_refl in E; discriminate|now left|now right]|intros [|]; [now left; right|now right]].
Qed.
Theorem C40_names os : (forall x, In x (alias_names (run os)) <-> alias os x) /\ NoDup (alias_names (run os)).
Proof.
  split.
  - intros x. unfold alias_names. rewrite keys_in. cbn. rewrite <- C40_is_alias. unfold is_alias.
    destruct (lookup (destinations (run os)) x) as [v|].
    + split; [reflexivity|]. intros _. right. discriminate.
    + split; [intros [[]|C]; congruence|discriminate].
  - apply (increasing_nodup _ str_ltb_strict). apply fold_sorted; [|constructor].
    intros. now apply (increasing_insert _ str_ltb_strict).
Qed.

(** * Aliases of a name *)
Lemma fold_none {A} (f : list name -> A -> option (list name)) l :
  fold_left (fun o m => match o with Some acc => f acc m | None => None end) l None = None.
Proof. induction l as [|m l IH]; [reflexivity|exact IH]. Qed.
Lemma fold_some {A} (f : list name -> A -> option (list name)) (P : A -> name -> Prop) l :
  (forall acc m, In m l -> sorted acc -> exists r, f acc m = Some r /\ sorted r /\ forall x, In x r <-> In x acc \/ P m x) ->
  forall acc, sorted acc ->
  exists r, fold_left (fun o m => match o with Some acc => f acc m | None => None end) l (Some acc) = Some r /\ sorted r /\
    forall x, In x r <-> In x acc \/ exists m, In m l /\ P m x.
Proof.
  induction l as [|m l IH]; intros Hf acc Ha; cbn [fold_left].
  - exists acc. split; [reflexivity|]. split; [assumption|]. intros x. split; [now left|]. intros [|[m [[] _]]]; assumption.
  - destruct (Hf acc m (or_introl eq_refl) Ha) as [r [Er [Hr Hrx]]]. rewrite Er.
    destruct (IH (fun acc m Hm => Hf acc m (or_intror Hm)) r Hr) as [r' [Er' [Hr' Hrx']]].
    exists r'. split; [exact Er'|]. split; [assumption|]. intros x. rewrite Hrx', Hrx. split.
    + intros [[|]|[m' [H1 H2]]]; [now left|right; exists m; split; [now left|assumption]|right; exists m'; split; [now right|assumption]].
    + intros [|[m' [[->|H1] H2]]]; [now left; left|now left; right|right; eauto].
Qed.

(** Without loops, all the aliases that lead to a name, however far, are found. *)
Theorem C40_aliases os (rank : name -> nat) n :
  (forall x y, points os x y -> rank x < rank y) ->
  exists r, find_aliases (run os) (S (rank n)) n [] = Some r /\
    (forall x, In x r <-> alias os x /\ exists k, steps os k x n) /\
    StronglySorted (fun a b => str_ltb a b = true) r /\ NoDup r.
Proof.
  intros Hrank. destruct (run_holds os) as [_ Ha].
  assert (Hback : forall k x y z, steps os k x y -> points os y z -> steps os (S k) x z).
  { induction 1; intros; econstructor; eauto; constructor. }
  assert (Hlast : forall k x z, steps os (S k) x z -> exists y, steps os k x y /\ points os y z).
  { induction k as [|k IH]; intros x z Hs; inversion Hs as [|? ? y ? Hp Hs']; subst.
    - inversion Hs'; subst. exists x. split; [constructor|assumption].
    - apply IH in Hs' as [w [H1 H2]]. exists w. split; [econstructor; eassumption|assumption]. }
  assert (H : forall f n acc, rank n < f -> sorted acc ->
    exists r, find_aliases (run os) f n acc = Some r /\ sorted r /\
      forall x, In x r <-> In x acc \/ (alias os x /\ exists k, steps os k x n)).
  { clear n. induction f as [|f IH]; intros n acc Hf Hacc; [lia|]. cbn [find_aliases].
    set (acc1 := if is_alias (run os) n then set_insert str_ltb n acc else acc).
    assert (Hs1 : sorted acc1).
    { unfold acc1. destruct (is_alias (run os) n); [now apply (increasing_insert _ str_ltb_strict)|assumption]. }
    assert (Hin1 : forall x, In x acc1 <-> In x acc \/ (alias os x /\ x = n)).
    { intros x. unfold acc1. pose proof (C40_is_alias os n) as Hal.
      destruct (is_alias (run os) n).
      - rewrite (in_set_insert _ str_ltb_strict). split; [intros [->|]; [right; intuition|now left]|].
        intros [|[_ ->]]; [now right|now left].
      - split; [now left|]. intros [|[Hx ->]]; [assumption|]. apply Hal in Hx. discriminate. }
    specialize (Ha n). destruct (lookup (aliases (run os)) n) as [ns|].
    - destruct Ha as [_ [_ Hns]].
      destruct (fold_some (fun acc m => find_aliases (run os) f m acc)
                  (fun m x => alias os x /\ exists k, steps os k x m) ns) with (acc := acc1) as [r [Er [Hr Hrx]]].
      + intros acc' m Hm Hacc'. apply IH; [|assumption]. apply Hns, Hrank in Hm. lia.
      + assumption.
      + exists r. split; [exact Er|]. split; [assumption|]. intros x. rewrite Hrx, Hin1. split.
        * intros [[|[Hx ->]]|[m [Hm [Hx [k Hk]]]]]; [now left|right; split; [assumption|exists 0; constructor]|].
          right. split; [assumption|]. exists (S k). apply (Hback _ _ _ _ Hk). now apply Hns.
        * intros [|[Hx [[|k] Hk]]]; [now left; left| |].
          -- inversion Hk; subst. left. now right.
          -- apply Hlast in Hk as [y [H1 H2]]. right. exists y. split; [now apply Hns|]. eauto.
    - exists acc1. split; [reflexivity|]. split; [assumption|]. intros x. rewrite Hin1. split.
      + intros [|[Hx ->]]; [now left|right]. split; [assumption|exists 0; constructor].
      + intros [|[Hx [[|k] Hk]]]; [now left| |].
        * inversion Hk; subst. now right.
        * apply Hlast in Hk as [y [H1 H2]]. exfalso. apply Ha. now exists y. }
  destruct (H (S (rank n)) n [] (Nat.lt_succ_diag_r _) ltac:(constructor)) as [r [Er [Hr Hrx]]].
  exists r. split; [exact Er|]. split.
  - intros x. rewrite Hrx. cbn. intuition.
  - split; [exact Hr|]. exact (increasing_nodup _ str_ltb_strict _ Hr).
Qed.

(** With a loop the search for aliases never ends, whatever the limit says. *)
Theorem C40_aliases_loop_refuted os n : (forall d, exists x, steps os d x n) ->
  forall fuel, find_aliases (run os) fuel n [] = None.
Proof.
  destruct (run_holds os) as [_ Ha].
  assert (Hlast : forall k x z, steps os (S k) x z -> exists y, steps os k x y /\ points os y z).
  { induction k as [|k IH]; intros x z Hs; inversion Hs as [|? ? y ? Hp Hs']; subst.
    - inversion Hs'; subst. exists x. split; [constructor|assumption].
    - apply IH in Hs' as [w [H1 H2]]. exists w. split; [econstructor; eassumption|assumption]. }
  assert (H : forall fuel n x, steps os fuel x n -> forall acc, find_aliases (run os) fuel n acc = None).
  { clear n. induction fuel as [|f IH]; intros n x Hx acc; [reflexivity|]. cbn [find_aliases].
    apply Hlast in Hx as [y [Hy Hp]]. specialize (Ha n). destruct (lookup (aliases (run os)) n) as [ns|].
    - destruct Ha as [_ [_ Hns]]. apply Hns in Hp. generalize (if is_alias (run os) n then set_insert str_ltb n acc else acc).
      clear acc. revert Hp. clear Hns. induction ns as [|m ns IHns]; intros Hin acc; [destruct Hin|]. cbn [fold_left].
      destruct Hin as [->|Hin].
      + rewrite (IH _ _ Hy). apply fold_none.
      + destruct (find_aliases (run os) f m acc); [now apply IHns|apply fold_none].
    - exfalso. apply Ha. now exists y. }
  intros Hd fuel. destruct (Hd fuel) as [x Hx]. exact (H fuel n x Hx []).
Qed.

(** * Witnesses *)
Definition nm (c : Z) : name := [c].
Definition ops1 : list op :=
  [Add (nm 1) (nm 9); Add (nm 1) (nm 2); Add (nm 2) (nm 1); Add (nm 2) (nm 8); Void (nm 3); Add (nm 2) (nm 3); Add (nm 1) (nm 9)].
Example ex_loop : all_destinations (run ops1) (nm 1) = [nm 8; nm 9] /\ all_destinations (run ops1) (nm 7) = [nm 7].
Proof. split; vm_compute; reflexivity. Qed.
Example ex_loop_aliases fuel : find_aliases (run ops1) fuel (nm 8) [] = None.
Proof.
  apply C40_aliases_loop_refuted. intros d.
  assert (H : forall d, (exists x, steps ops1 d x (nm 1)) /\ (exists x, steps ops1 d x (nm 2))).
  { clear d. induction d as [|d [[x Hx] [y Hy]]]; [split; eexists; constructor|].
    assert (Hsnoc : forall k x y z, steps ops1 k x y -> points ops1 y z -> steps ops1 (S k) x z).
    { induction 1; intros; econstructor; eauto; constructor. }
    split; [exists y|exists x]; eapply Hsnoc; try eassumption; unfold points; cbn; tauto. }
  destruct d as [|d]; [exists (nm 8); constructor|]. destruct (H d) as [_ [y Hy]]. exists y.
  assert (Hsnoc : forall k x y z, steps ops1 k x y -> points ops1 y z -> steps ops1 (S k) x z).
  { induction 1; intros; econstructor; eauto; constructor. }
  eapply Hsnoc; [exact Hy|]. unfold points. cbn. tauto.
Qed.
(** A chain of seven names: the destination is not found, though it is reachable. *)
Definition chain : list op := map (fun i => Add (nm i) (nm (i + 1))) [1; 2; 3; 4; 5; 6]%Z.
Theorem C40_long_chain_refuted : exists os n x, ~ alias os x /\ (exists k, steps os k n x) /\
  all_destinations (run os) n = [].
Proof.
  exists chain, (nm 1), (nm 7). split; [|split; [|vm_compute; reflexivity]].
  - intros H. apply C40_is_alias in H. vm_compute in H. discriminate.
  - exists 6. repeat (econstructor; [unfold points; cbn; eauto 10|]). constructor.
Qed.
Example ex_chain : find_aliases (run chain) 8 (nm 7) [] = Some (map nm [1; 2; 3; 4; 5; 6]%Z).
Proof. vm_compute. reflexivity. Qed.

Print Assumptions C40_destinations.
Print Assumptions C40_is_alias.
Print Assumptions C40_names.
Print Assumptions C40_aliases.
Print Assumptions C40_aliases_loop_refuted.
Print Assumptions C40_long_chain_refuted.

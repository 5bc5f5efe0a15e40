(** C95: the groups that processPhrasePairs makes. *)
From Coq Require Import String Ascii.
From Coq Require Import List Arith Bool Lia Permutation Sorted.
From Verif Require Import M_Score P_Score.
Import ListNotations.
Local Open Scope nat_scope.

(** * Lexicographic order *)
Record good_order {A} (cmp : A -> A -> comparison) : Prop := {
  g_eq : forall a b, cmp a b = Eq <-> a = b;
  g_anti : forall a b, cmp b a = CompOpp (cmp a b);
  g_trans : forall a b c, cmp a b = Lt -> cmp b c = Lt -> cmp a c = Lt }.
Definition lexc {A} (cmp : A -> A -> comparison) : list A -> list A -> comparison :=
  fix go l1 l2 := match l1, l2 with
                  | [], [] => Eq
                  | [], _ :: _ => Lt
                  | _ :: _, [] => Gt
                  | a :: l1', b :: l2' => match cmp a b with Eq => go l1' l2' | c => c end
                  end.
Lemma nat_good : good_order Nat.compare.
Proof.
  split; intros.
  - apply Nat.compare_eq_iff.
  - apply Nat.compare_antisym.
  - apply Nat.compare_lt_iff in H, H0. apply Nat.compare_lt_iff. lia.
Qed.
Lemma lex_good {A} (cmp : A -> A -> comparison) : good_order cmp -> good_order (lexc cmp).
Proof.
  intros G. assert (Refl : forall a, cmp a a = Eq) by (intros a; now apply (g_eq _ G)). split.
  - induction a as [|x a IH]; intros [|y b]; cbn; try easy. split.
    + destruct (cmp x y) eqn:E; try discriminate. intros H. apply (g_eq _ G) in E. apply IH in H. now subst.
    + intros H. injection H as -> ->. rewrite Refl. now apply IH.
  - induction a as [|x a IH]; intros [|y b]; cbn; try easy. rewrite (g_anti _ G x y). destruct (cmp x y); cbn; [apply IH|reflexivity|reflexivity].
  - induction a as [|x a IH]; intros [|y b] [|z c]; cbn; try easy. destruct (cmp x y) eqn:E1; try discriminate.
    + apply (g_eq _ G) in E1 as ->. intros H1. destruct (cmp y z) eqn:E2; try discriminate; [|reflexivity]. now apply IH.
    + intros _. destruct (cmp y z) eqn:E2; try discriminate; intros _.
      * apply (g_eq _ G) in E2 as <-. now rewrite E1.
      * now rewrite (g_trans _ G _ _ _ E1 E2).
Qed.
Definition ncmp := lexc Nat.compare.
Definition ngood : good_order ncmp := lex_good _ nat_good.
Definition kcmp := lexc ncmp.
Definition kgood : good_order kcmp := lex_good _ ngood.
Lemma lex_ltb_ok l1 : forall l2, lex_ltb l1 l2 = match ncmp l1 l2 with Lt => true | _ => false end.
Proof.
  unfold ncmp in *. induction l1 as [|a l1 IH]; intros [|b l2]; try reflexivity. cbn [lex_ltb lexc]. rewrite IH. destruct (Nat.compare_spec a b) as [E|E|E].
  - subst b. now rewrite Nat.ltb_irrefl.
  - now rewrite (proj2 (Nat.ltb_lt _ _) E).
  - rewrite (proj2 (Nat.ltb_ge _ _)) by lia. now rewrite (proj2 (Nat.ltb_lt _ _) E).
Qed.

Lemma NoDup_app_comm_single {A} (l : list A) a : NoDup l -> ~ In a l -> NoDup (l ++ [a]).
Proof. intros H N. apply (Permutation_NoDup (l := a :: l)); [apply Permutation_cons_append|now constructor]. Qed.

Section Groups.
  Context {num : Type} (words : nat -> list ascii) (hierarchical : bool).
  Notation pair := (pair_t num).
  Notation places := (places num words).
  Notation less := (less num words hierarchical).

  (** Every non-terminal of the target, but the last word, has one place in the source. *)
  Definition tidy (a : pair) : Prop := hierarchical = true -> forall i, i < length (p_tgt _ a) - 1 -> non_terminal (words (nth i (p_tgt _ a) 0)) = true ->
    exists x, nth i (p_toT _ a) [] = [x].
  (** The same phrases, and the same places for the non-terminals. *)
  Definition alike (a b : pair) : Prop := p_src _ a = p_src _ b /\ p_tgt _ a = p_tgt _ b
    /\ (hierarchical = true -> forall i, i < length (p_tgt _ a) - 1 -> non_terminal (words (nth i (p_tgt _ a) 0)) = true ->
        nth i (p_toT _ a) [] = nth i (p_toT _ b) []).

  Definition aligns (a : pair) : list nat := if hierarchical then map (fun i => hd 0 (at_ (p_toT _ a) i)) (places a) else [].
  Definition key (a : pair) : list (list nat) := [p_tgt _ a; p_src _ a; aligns a].

  Lemma tidy_place a i : hierarchical = true -> tidy a -> In i (places a) -> exists x, at_ (p_toT _ a) i = [x].
  Proof. intros Hh T I. apply filter_In in I as [I1 I2]. apply in_seq in I1. apply T; [exact Hh|lia|exact I2]. Qed.
  Lemma places_eq a b : p_tgt _ a = p_tgt _ b -> places a = places b.
  Proof. unfold M_Score.places. now intros ->. Qed.

  Lemma key_alike a b : tidy a -> tidy b -> key a = key b <-> alike a b.
  Proof.
    intros Ta Tb. unfold key, alike, aligns. split.
    - intros H. injection H as H1 H2 H3. split; [exact H2|]. split; [exact H1|]. intros Hh i Hi Hw. rewrite Hh in H3.
      assert (Ia : In i (places a)) by (apply filter_In; split; [apply in_seq; lia|exact Hw]).
      assert (Ib : In i (places b)) by (now rewrite <- (places_eq a b H1)).
      destruct (tidy_place a i Hh Ta Ia) as (x & Ex), (tidy_place b i Hh Tb Ib) as (y & Ey). unfold at_ in Ex, Ey. rewrite Ex, Ey.
      rewrite (places_eq a b H1) in H3. assert (M : forall l, map (fun i => hd 0 (at_ (p_toT num a) i)) l = map (fun i => hd 0 (at_ (p_toT num b) i)) l -> In i l -> hd 0 (at_ (p_toT num a) i) = hd 0 (at_ (p_toT num b) i)).
      { induction l as [|j l IH]; [intros _ []|]. cbn [map]. intros Q. injection Q as Q1 Q2. intros [->|I]; [exact Q1|now apply IH]. }
      specialize (M _ H3 Ib). unfold at_ in M. rewrite Ex, Ey in M. cbn in M. now subst.
    - intros (H1 & H2 & H3). rewrite H1, H2. do 3 f_equal. destruct hierarchical eqn:Hh; [|reflexivity]. rewrite (places_eq a b H2). apply map_ext_in. intros i I.
      rewrite <- (places_eq a b H2) in I. apply filter_In in I as [I1 I2]. apply in_seq in I1. unfold at_. rewrite H3; [reflexivity|reflexivity|lia|exact I2].
  Qed.
  Lemma list_eqb_cmp l1 l2 : list_eqb Nat.eqb l1 l2 = match ncmp l1 l2 with Eq => true | _ => false end.
  Proof.
    destruct (ncmp l1 l2) eqn:E.
    - apply nats_ok. now apply (g_eq _ ngood).
    - apply not_true_is_false. intros Q. apply nats_ok in Q. apply (g_eq _ ngood) in Q. congruence.
    - apply not_true_is_false. intros Q. apply nats_ok in Q. apply (g_eq _ ngood) in Q. congruence.
  Qed.
  Lemma compare_key a b : tidy a -> tidy b -> compare num words hierarchical a b = kcmp (key a) (key b).
  Proof.
    intros Ta Tb. unfold compare, key. rewrite !list_eqb_cmp, !lex_ltb_ok. unfold kcmp. cbn [lexc]. destruct (ncmp (p_tgt num a) (p_tgt num b)) eqn:E1; cbn [negb]; [|reflexivity|reflexivity].
    destruct (ncmp (p_src num a) (p_src num b)) eqn:E2; cbn [negb]; [|reflexivity|reflexivity].
    apply (g_eq _ ngood) in E1. unfold aligns. destruct hierarchical eqn:Hh; cbn [negb]; [|reflexivity]. rewrite <- (places_eq a b E1).
    assert (Pa : forall i, In i (places a) -> exists x, at_ (p_toT _ a) i = [x]) by (intros i I; now apply tidy_place).
    assert (Pb : forall i, In i (places a) -> exists x, at_ (p_toT _ b) i = [x]) by (intros i I; apply tidy_place; [exact Hh|exact Tb|now rewrite <- (places_eq a b E1)]).
    revert Pa Pb. generalize (places a). induction l as [|i l IH]; intros Pa Pb; [reflexivity|]. cbn [compare_places map ncmp lexc].
    destruct (Pa i (or_introl eq_refl)) as (x & Ex), (Pb i (or_introl eq_refl)) as (y & Ey). rewrite Ex, Ey. cbn [length hd Nat.eqb negb orb].
    unfold ncmp in *. cbn [lexc]. destruct (Nat.compare_spec x y) as [E|E|E].
    - subst y. rewrite Nat.eqb_refl. cbn [negb]. rewrite IH; [|intros j I; apply Pa; now right|intros j I; apply Pb; now right]. reflexivity.
    - rewrite (proj2 (Nat.eqb_neq _ _)) by lia. now rewrite (proj2 (Nat.ltb_lt _ _) E).
    - rewrite (proj2 (Nat.eqb_neq _ _)) by lia. cbn [negb]. now rewrite (proj2 (Nat.ltb_ge _ _)) by lia.
  Qed.
  Lemma less_key a b : tidy a -> tidy b -> less a b = match kcmp (key a) (key b) with Lt => true | _ => false end.
  Proof. intros Ta Tb. unfold M_Score.less. now rewrite compare_key. Qed.

  (** match is this relation, and Compare gives 0 for these pairs only. *)
  Theorem C95_match : forall a b : pair, tidy a -> tidy b ->
    (matches num words hierarchical a b = true <-> alike a b) /\ (compare num words hierarchical a b = Eq <-> alike a b)
    /\ compare num words hierarchical b a = CompOpp (compare num words hierarchical a b)
    /\ forall c, tidy c -> less a b = true -> less b c = true -> less a c = true.
  Proof.
    intros a b Ta Tb. split; [|split; [|split]].
    - unfold matches, alike. destruct (list_eqb Nat.eqb (p_tgt num b) (p_tgt num a)) eqn:E1; cbn [negb];
        [apply nats_ok in E1|split; [discriminate|]; intros (_ & Q & _); symmetry in Q; apply nats_ok in Q; congruence].
      destruct (list_eqb Nat.eqb (p_src num b) (p_src num a)) eqn:E2; cbn [negb];
        [apply nats_ok in E2|split; [discriminate|]; intros (Q & _); symmetry in Q; apply nats_ok in Q; congruence].
      destruct hierarchical eqn:Hh; cbn [negb]; [|split; [intros _; split; [now symmetry|split; [now symmetry|discriminate]]|reflexivity]].
      rewrite forallb_forall. split.
      + intros H. split; [now symmetry|]. split; [now symmetry|]. intros _ i Hi Hw. assert (Ia : In i (places a)) by (apply filter_In; split; [apply in_seq; lia|exact Hw]).
        assert (Ib : In i (places b)) by (now rewrite (places_eq b a E1)).
        specialize (H i Ia). destruct (tidy_place a i Hh Ta Ia) as (x & Ex), (tidy_place b i Hh Tb Ib) as (y & Ey). rewrite Ex, Ey in H. cbn in H.
        unfold at_ in Ex, Ey. rewrite Ex, Ey. rewrite negb_involutive in H. apply Nat.eqb_eq in H. now subst.
      + intros (_ & _ & H) i I. destruct (tidy_place a i Hh Ta I) as (x & Ex). assert (I' := I). apply filter_In in I as [I1 I2]. apply in_seq in I1.
        specialize (H eq_refl i ltac:(lia) I2). unfold at_ in *. rewrite <- H, Ex. cbn. now rewrite Nat.eqb_refl.
    - rewrite compare_key by assumption. rewrite (g_eq _ kgood). now apply key_alike.
    - rewrite !compare_key by assumption. apply (g_anti _ kgood).
    - intros c Tc. rewrite !less_key by assumption. destruct (kcmp (key a) (key b)) eqn:E1; try discriminate. destruct (kcmp (key b) (key c)) eqn:E2; try discriminate.
      now rewrite (g_trans _ kgood _ _ _ E1 E2).
  Qed.

  (** ** The set *)
  Notation coll := (coll num).
  Notation insert := (insert num words hierarchical).
  Definition full (c : coll) : Prop := snd c <> [] /\ Forall tidy (snd c).
  Definition ckey (c : coll) : list (list nat) := match snd c with q :: _ => key q | [] => [] end.
  Definition klt (c d : coll) : Prop := kcmp (ckey c) (ckey d) = Lt.
  Definition kdec : forall x y : list (list nat), {x = y} + {x <> y} := list_eq_dec (list_eq_dec Nat.eq_dec).
  Definition upd (p : pair) (c : coll) : coll := if kdec (ckey c) (key p) then (fst c, snd c ++ [p]) else c.

  Lemma klt_irrefl x : kcmp x x <> Lt. Proof. rewrite (proj2 (g_eq _ kgood x x) eq_refl). discriminate. Qed.
  Lemma kgt x y : kcmp x y = Gt <-> kcmp y x = Lt.
  Proof. rewrite (g_anti _ kgood x y). destruct (kcmp x y); cbn; split; congruence. Qed.

  Lemma upd_other p l : Forall (fun c => ckey c <> key p) l -> map (upd p) l = l.
  Proof. induction 1 as [|c l Hc Hl IH]; [reflexivity|]. cbn [map]. rewrite IH. unfold upd. now destruct (kdec (ckey c) (key p)). Qed.
  Lemma insert_ok n p s : tidy p -> Forall full s -> StronglySorted klt s ->
    StronglySorted klt (insert n p s) /\ Forall full (insert n p s)
    /\ ((exists c, In c s /\ ckey c = key p) /\ insert n p s = map (upd p) s
        \/ Forall (fun c => ckey c <> key p) s /\ Permutation (insert n p s) ((n, [p]) :: s)).
  Proof.
    intros Tp F So. induction So as [|c s So IH Hc]; cbn [M_Score.insert].
    { split; [repeat constructor|]. split; [repeat constructor; [discriminate|exact Tp]|]. right. split; [constructor|reflexivity]. }
    inversion F as [|? ? [Fn Ft] Fs]; subst. destruct c as [m [|q qs]]; [now elim Fn|]. cbn [snd] in Ft. inversion Ft as [|? ? Tq Tqs]; subst.
    unfold first_less, less_first. cbn [snd fst]. rewrite !less_key by assumption.
    assert (Kc : ckey (m, q :: qs) = key q) by reflexivity.
    destruct (kcmp (key q) (key p)) eqn:E.
    - assert (Ek : key q = key p) by (now apply (g_eq _ kgood)). rewrite Ek. rewrite (proj2 (g_eq _ kgood (key p) (key p)) eq_refl).
      assert (Others : Forall (fun d => ckey d <> key p) s). { eapply Forall_impl; [|exact Hc]. intros d Hd Q. unfold klt in Hd. rewrite Kc, Ek, Q in Hd. now apply klt_irrefl in Hd. }
      split; [constructor; [exact So|]|]. { eapply Forall_impl; [|exact Hc]. intros d Hd. exact Hd. }
      split; [constructor; [split; [discriminate|]|exact Fs]; cbn; constructor; [exact Tq|]; apply Forall_app; split; [exact Tqs|now constructor]|].
      left. split; [exists (m, q :: qs); split; [now left|now rewrite Kc]|]. cbn [map]. rewrite (upd_other p s Others). unfold upd. rewrite Kc. destruct (kdec (key q) (key p)); [reflexivity|congruence].
    - destruct (IH Fs) as (I1 & I2 & I3). assert (Nc : ckey (m, q :: qs) <> key p). { rewrite Kc. intros Q. rewrite Q in E. now apply klt_irrefl in E. }
      split; [constructor; [exact I1|]|split; [now constructor|]].
      + destruct I3 as [[_ ->]|[_ P]].
        * apply Forall_forall. intros d Id. apply in_map_iff in Id as (d' & <- & Id). assert (K : ckey (upd p d') = ckey d').
          { rewrite Forall_forall in Fs. destruct (Fs d' Id) as [N _]. unfold upd, ckey. destruct d' as [k [|z zs]]; [now elim N|]. now destruct (kdec _ _). }
          unfold klt. rewrite K. rewrite Forall_forall in Hc. now apply Hc.
        * eapply Permutation_Forall; [symmetry; exact P|]. constructor; [exact E|exact Hc].
      + destruct I3 as [[(d & Id & Kd) ->]|[No P]].
        * left. split; [exists d; split; [now right|exact Kd]|]. cbn [map]. f_equal. unfold upd. now destruct (kdec (ckey (m, q :: qs)) (key p)).
        * right. split; [now constructor|]. rewrite P. apply perm_swap.
    - apply kgt in E. rewrite E. assert (Nc : ckey (m, q :: qs) <> key p). { rewrite Kc. intros Q. rewrite Q in E. now apply klt_irrefl in E. }
      assert (Hn : Forall (klt (n, [p])) ((m, q :: qs) :: s)). { constructor; [exact E|]. eapply Forall_impl; [|exact Hc]. intros d Hd. exact (g_trans _ kgood _ _ _ E Hd). }
      split; [constructor; [now constructor|exact Hn]|]. split; [constructor; [split; [discriminate|now constructor]|exact F]|].
      right. split; [|reflexivity]. eapply Forall_impl; [|exact Hn]. intros d Hd Q. unfold klt in Hd. rewrite Q in Hd. now apply klt_irrefl in Hd.
  Qed.

  (** ** What the groups are: those pairs that have no like before them lead, in their order. *)
  Definition same (a b : pair) : bool := matches num words hierarchical a b.
  Fixpoint leaders (before after : list pair) : list pair :=
    match after with
    | [] => []
    | p :: after' => (if existsb (fun q => same q p) before then [] else [p]) ++ leaders (before ++ [p]) after'
    end.
  Definition classes (before L : list pair) : list coll := combine (seq 0 (length L)) (map (fun h => filter (same h) before) L).

  Lemma same_key a b : tidy a -> tidy b -> same a b = true <-> key a = key b.
  Proof. intros Ta Tb. unfold same. destruct (C95_match a b Ta Tb) as (H & _). rewrite H. symmetry. now apply key_alike. Qed.
  Lemma combine_snoc {A B} (l1 : list A) (l2 : list B) a b : length l1 = length l2 -> combine (l1 ++ [a]) (l2 ++ [b]) = combine l1 l2 ++ [(a, b)].
  Proof. revert l2. induction l1 as [|x l1 IH]; intros [|y l2] H; cbn in *; try lia; [reflexivity|]. rewrite IH by lia. reflexivity. Qed.
  Lemma classes_in before L c : In c (classes before L) -> exists h, In h L /\ snd c = filter (same h) before.
  Proof. intros I. destruct c as [n g]. apply in_combine_r in I. apply in_map_iff in I as (h & <- & I). now exists h. Qed.
  Lemma class_key before L c : Forall tidy before -> incl L before -> In c (classes before L) ->
    exists h, In h L /\ snd c = filter (same h) before /\ ckey c = key h.
  Proof.
    intros T In_ I. destruct (classes_in _ _ _ I) as (h & Ih & E). exists h. split; [exact Ih|]. split; [exact E|].
    unfold ckey. rewrite E. rewrite Forall_forall in T. destruct (filter (same h) before) as [|q g] eqn:F.
    - exfalso. assert (I' : In h (filter (same h) before)) by (apply filter_In; split; [now apply In_|]; apply same_key; [apply T; now apply In_|apply T; now apply In_|reflexivity]).
      rewrite F in I'. destruct I'.
    - assert (I' : In q (filter (same h) before)) by (rewrite F; now left). apply filter_In in I' as [I1 I2]. symmetry. apply same_key in I2; [exact I2|apply T; now apply In_|now apply T].
  Qed.

  Lemma group_ok : forall after before L s, Forall tidy before -> Forall tidy after -> incl L before ->
    (forall q, In q before -> exists h, In h L /\ key h = key q) -> NoDup (map key L) ->
    Forall full s -> StronglySorted klt s -> Permutation s (classes before L) ->
    exists L', L' = L ++ leaders before after
      /\ Permutation (fold_left (fun s p => insert (length s) p s) after s) (classes (before ++ after) L')
      /\ incl L' (before ++ after) /\ NoDup (map key L').
  Proof.
    induction after as [|p after IH]; intros before L s Tb Ta In_ Cov Nd F So P.
    { exists L. rewrite !app_nil_r. cbn. auto. }
    inversion Ta as [|? ? Tp Ta']; subst. cbn [fold_left leaders]. destruct (insert_ok (length s) p s Tp F So) as (I1 & I2 & I3).
    assert (Tb' : Forall tidy (before ++ [p])) by (apply Forall_app; split; [exact Tb|now constructor]).
    assert (Len : length s = length L). { rewrite (Permutation_length P). etransitivity; [exact (combine_length _ _)|]. rewrite map_length, seq_length. lia. }
    assert (Tin : forall q, In q before -> tidy q) by (now apply Forall_forall).
    replace (before ++ p :: after) with ((before ++ [p]) ++ after) by (now rewrite <- app_assoc).
    destruct I3 as [[(c & Ic & Kc) E]|[No Pn]].
    - assert (Ic' : In c (classes before L)) by (eapply Permutation_in; [exact P|exact Ic]).
      destruct (class_key before L c Tb In_ Ic') as (h & Ih & _ & Kh).
      assert (Ex : existsb (fun q => same q p) before = true).
      { apply existsb_exists. exists h. split; [now apply In_|]. apply same_key; [apply Tin; now apply In_|exact Tp|]. congruence. }
      rewrite Ex. cbn [app]. apply (IH (before ++ [p]) L); try assumption.
      + intros q Iq. apply in_or_app. left. now apply In_.
      + intros q Iq. apply in_app_or in Iq as [Iq|[<-|[]]]; [now apply Cov|]. exists h. split; [exact Ih|congruence].
      + rewrite E, P. replace (map (upd p) (classes before L)) with (classes (before ++ [p]) L); [reflexivity|].
        assert (G : forall k M, incl M L -> combine (seq k (length M)) (map (fun h => filter (same h) (before ++ [p])) M) = map (upd p) (combine (seq k (length M)) (map (fun h => filter (same h) before) M))).
        { intros k M. revert k. induction M as [|x M IHM]; intros k Im; [reflexivity|]. cbn [length seq map combine]. rewrite IHM by (intros y Iy; apply Im; now right). f_equal.
          assert (Ix : In x L) by (apply Im; now left). rewrite filter_app. cbn [filter].
          assert (Kx : ckey (k, filter (same x) before) = key x).
          { destruct (class_key before [x] (0, filter (same x) before) Tb) as (h' & [<-|[]] & _ & K); [intros y [<-|[]]; now apply In_|now left|exact K]. }
          unfold upd. rewrite Kx. destruct (kdec (key x) (key p)) as [Q|Q].
          - apply same_key in Q; [|apply Tin; now apply In_|exact Tp]. now rewrite Q.
          - destruct (same x p) eqn:Sx; [|now rewrite app_nil_r]. apply same_key in Sx; [now elim Q|apply Tin; now apply In_|exact Tp]. }
        apply G. apply incl_refl.
    - assert (Non : forall q, In q before -> key q <> key p).
      { intros q Iq Q. destruct (Cov q Iq) as (h & Ih & Kh). rewrite Forall_forall in No.
        apply In_nth with (d := h) in Ih as (i & Hi & Eh). 
        assert (Ic : In (i, filter (same h) before) (classes before L)).
        { unfold classes. rewrite <- Eh. clear -Hi. assert (G : forall M k j, j < length M -> In (k + j, filter (same (nth j M h)) before) (combine (seq k (length M)) (map (fun h => filter (same h) before) M))).
          { induction M as [|x M IHM]; intros k j Hj; [cbn in Hj; lia|]. destruct j as [|j]; cbn [length seq map combine nth]; [left; now rewrite Nat.add_0_r|]. right. replace (k + S j) with (S k + j) by lia. apply IHM. cbn in Hj. lia. }
          exact (G L 0 i Hi). }
        destruct (class_key before [h] (0, filter (same h) before) Tb) as (h' & [<-|[]] & _ & K); [intros y [<-|[]]; apply In_; rewrite <- Eh; now apply nth_In|now left|].
        apply (No (i, filter (same h) before)); [eapply Permutation_in; [symmetry; exact P|exact Ic]|]. unfold ckey in *. cbn [snd] in *. congruence. }
      assert (Ex : existsb (fun q => same q p) before = false).
      { apply not_true_is_false. intros Q. apply existsb_exists in Q as (q & Iq & Sq). apply same_key in Sq; [now apply (Non q)|now apply Tin|exact Tp]. }
      rewrite Ex. destruct (IH (before ++ [p]) (L ++ [p]) (insert (length s) p s)) as (L' & E' & R); try assumption.
      + intros q Iq. apply in_app_or in Iq as [Iq|Iq]; apply in_or_app; [left; now apply In_|now right].
      + intros q Iq. apply in_app_or in Iq as [Iq|[<-|[]]]; [|exists p; split; [apply in_or_app; right; now left|reflexivity]].
        destruct (Cov q Iq) as (h & Ih & Kh). exists h. split; [apply in_or_app; now left|exact Kh].
      + rewrite map_app. cbn [map]. apply NoDup_app_comm_single; [exact Nd|]. intros Q. apply in_map_iff in Q as (h & Kh & Ih). now apply (Non h); [apply In_|].
      + rewrite Pn, Len, P. unfold classes. rewrite app_length, map_app. cbn [length map]. rewrite seq_app. cbn [seq Nat.add].
        rewrite combine_snoc by (now rewrite map_length, seq_length). rewrite filter_app. cbn [filter].
        rewrite (proj2 (same_key p p Tp Tp) eq_refl).
        assert (Fp : filter (same p) before = []).
        { clear -Non Tin Tp. induction before as [|q before IHb]; [reflexivity|]. cbn [filter]. destruct (same p q) eqn:Sq.
          - apply same_key in Sq; [|exact Tp|apply Tin; now left]. elim (Non q); [now left|now symmetry].
          - apply IHb; intros; [apply Tin|apply Non]; now right. }
        rewrite Fp. cbn [app]. rewrite <- Permutation_cons_append. apply perm_skip.
        replace (map (fun h => filter (same h) (before ++ [p])) L) with (map (fun h => filter (same h) before) L); [reflexivity|].
        apply map_ext_in. intros h Ih. rewrite filter_app. cbn [filter]. destruct (same h p) eqn:Sh; [|now rewrite app_nil_r].
        apply same_key in Sh; [elim (Non h); [now apply In_|exact Sh]|apply Tin; now apply In_|exact Tp].
      + exists L'. split; [rewrite E', <- app_assoc; reflexivity|exact R].
  Qed.

  Lemma numbered : forall (gs : list (list pair)) k (s : list coll), Permutation s (combine (seq k (length gs)) gs) ->
    flat_map (fun n => map snd (filter (fun c : coll => fst c =? n) s)) (seq k (length gs)) = gs.
  Proof.
    intros gs k s P. assert (One : forall n, In n (seq k (length gs)) -> map snd (filter (fun c : coll => fst c =? n) s) = [nth (n - k) gs []]).
    { intros n I. apply in_seq in I. assert (Pf : Permutation (filter (fun c : coll => fst c =? n) s) [(n, nth (n - k) gs [])]).
      { transitivity (filter (fun c : coll => fst c =? n) (combine (seq k (length gs)) gs)).
        - clear -P. induction P; cbn [filter]; [constructor| | |etransitivity; eassumption].
          + destruct (fst x =? n); [now constructor|assumption].
          + destruct (fst x =? n), (fst y =? n); try constructor; reflexivity.
        - clear P s. revert k I. induction gs as [|g gs IH]; intros k I; [cbn in I; lia|]. cbn [length seq combine filter fst]. destruct (Nat.eqb_spec k n) as [->|N].
          + rewrite Nat.sub_diag. cbn [nth]. replace (filter _ _) with (@nil coll); [reflexivity|]. symmetry.
            assert (G : forall (hs : list (list pair)) j, n < j -> filter (fun c : coll => fst c =? n) (combine (seq j (length hs)) hs) = []).
            { induction hs as [|h hs IHh]; intros j Hj; [reflexivity|]. cbn [length seq combine filter fst]. rewrite (proj2 (Nat.eqb_neq _ _)) by lia. apply IHh. lia. }
            apply G. lia.
          + replace (n - k) with (S (n - S k)) by lia. cbn [nth]. apply IH. cbn in I. lia. }
      apply Permutation_sym, Permutation_length_1_inv in Pf. rewrite Pf. reflexivity. }
    clear P. transitivity (flat_map (fun n => [nth (n - k) gs []]) (seq k (length gs))).
    - revert One. generalize (seq k (length gs)). induction l as [|n l IH]; intros One; [reflexivity|]. cbn [flat_map]. rewrite One by (now left). rewrite IH; [reflexivity|]. intros m I. apply One. now right.
    - clear One. revert k. induction gs as [|g gs IH]; intros k; [reflexivity|]. cbn [length seq flat_map]. rewrite Nat.sub_diag. cbn [nth app]. f_equal.
      rewrite <- (IH (S k)) at 2. assert (G : forall l, (forall n, In n l -> S k <= n) -> flat_map (fun n => [nth (n - k) (g :: gs) []]) l = flat_map (fun n => [nth (n - S k) gs []]) l).
      { induction l as [|n l IHl]; intros H; [reflexivity|]. cbn [flat_map]. rewrite IHl by (intros m I; apply H; now right). f_equal. specialize (H n (or_introl eq_refl)).
        replace (n - k) with (S (n - S k)) by lia. reflexivity. }
      apply G. intros n I. apply in_seq in I. lia.
  Qed.

  (** The groups are the classes of pairs that match, each in the order of the pairs, and in the order of their
      first pairs; no two of the first pairs match. *)
  Theorem C95_groups : forall pairs, Forall tidy pairs ->
    sorted_groups num words hierarchical pairs = map (fun h => filter (same h) pairs) (leaders [] pairs)
    /\ (forall p, In p pairs -> exists h, In h (leaders [] pairs) /\ alike h p)
    /\ (forall x h y k z, leaders [] pairs = x ++ h :: y ++ k :: z -> ~ alike h k).
  Proof.
    intros pairs T. destruct (group_ok pairs [] [] [] (Forall_nil _) T (incl_nil_l _) ltac:(intros q []) (NoDup_nil _) (Forall_nil _) (SSorted_nil _) (perm_nil _)) as (L & E & P & In_ & Nd).
    - cbn [app] in *. subst L. split; [|split].
      + unfold sorted_groups. cbv zeta. unfold group. set (s := fold_left _ _ _) in *.
        assert (Len : length s = length (map (fun h => filter (same h) pairs) (leaders [] pairs))).
        { rewrite (Permutation_length P). etransitivity; [exact (combine_length _ _)|]. rewrite !map_length, seq_length. lia. }
        rewrite Len. apply numbered. rewrite map_length. exact P.
      + intros p Ip. rewrite Forall_forall in T.
        assert (G : forall after before, Forall tidy (before ++ after) ->
          forall q, In q after -> (exists h, In h before /\ same h q = true) \/ exists h, In h (leaders before after) /\ same h q = true).
        { induction after as [|a after IH]; intros before Tb q Iq; [destruct Iq|]. cbn [leaders].
          assert (Ta : tidy a). { rewrite Forall_forall in Tb. apply Tb. apply in_or_app. right. now left. }
          assert (Ca : (exists h, In h before /\ same h a = true) \/ exists h, In h ((if existsb (fun q0 => same q0 a) before then [] else [a]) ++ leaders (before ++ [a]) after) /\ same h a = true).
          { destruct (existsb (fun q0 => same q0 a) before) eqn:Ex; [left; apply existsb_exists in Ex; exact Ex|]. right. exists a. split; [now left|]. now apply same_key. }
          destruct Iq as [->|Iq]; [exact Ca|].
          assert (Tb' : Forall tidy ((before ++ [a]) ++ after)) by (now rewrite <- app_assoc).
          destruct (IH (before ++ [a]) Tb' q Iq) as [(h & Ih & Sh)|(h & Ih & Sh)].
          - apply in_app_or in Ih as [Ih|[<-|[]]]; [left; now exists h|]. assert (Tq : tidy q). { rewrite Forall_forall in Tb. apply Tb. apply in_or_app. right. now right. }
            destruct Ca as [(h & Ih & Sa)|(h & Ih & Sa)].
            + left. exists h. split; [exact Ih|]. assert (Th : tidy h) by (rewrite Forall_forall in Tb; apply Tb, in_or_app; now left).
              apply same_key in Sa; [|assumption|assumption]. apply same_key in Sh; [|assumption|assumption]. apply same_key; [assumption|assumption|congruence].
            + right. exists h. split; [exact Ih|]. assert (Th : tidy h).
              { rewrite Forall_forall in Tb. apply Tb, in_or_app. right. apply in_app_or in Ih as [Ih|Ih]; [destruct (existsb _ before); [destruct Ih|destruct Ih as [->|[]]; now left]|].
                right. clear -Ih. revert Ih. generalize (before ++ [a]). induction after as [|b after IHa]; intros bf Ih; [destruct Ih|]. cbn [leaders] in Ih.
                apply in_app_or in Ih as [Ih|Ih]; [destruct (existsb _ bf); [destruct Ih|destruct Ih as [->|[]]; now left]|]. right. now apply IHa with (bf ++ [b]). }
              apply same_key in Sa; [|assumption|assumption]. apply same_key in Sh; [|assumption|assumption]. apply same_key; [assumption|assumption|congruence].
          - right. exists h. split; [apply in_or_app; now right|exact Sh]. }
        destruct (G pairs [] ltac:(now apply Forall_forall) p Ip) as [(h & [] & _)|(h & Ih & Sh)]. exists h. split; [exact Ih|].
        apply (proj1 (C95_match h p (T h (In_ h Ih)) (T p Ip))). exact Sh.
      + intros x h y k z Q A. rewrite Q in *. rewrite Forall_forall in T.
        assert (Ih : In h (x ++ h :: y ++ k :: z)) by (apply in_or_app; right; now left).
        assert (Ik : In k (x ++ h :: y ++ k :: z)) by (apply in_or_app; right; right; apply in_or_app; right; now left).
        apply key_alike in A; [|apply T; now apply In_|apply T; now apply In_].
        rewrite map_app in Nd. assert (Nd' : NoDup (map key (h :: y ++ k :: z))). { clear -Nd. induction (map key x) as [|w l IHl]; [exact Nd|]. inversion Nd; subst. now apply IHl. }
        clear Nd. rename Nd' into Nd. cbn [map] in Nd. inversion Nd as [|? ? N _]; subst. apply N. rewrite A, map_app. apply in_or_app. right. now left.
  Qed.
End Groups.
Print Assumptions C95_match.
Print Assumptions C95_groups.

Definition case_words (n : nat) : list ascii := list_ascii_of_string (match n with 1 => "[X][X]" | 2 => "a" | _ => "[X]" end)%string.
Definition rule (toT : list (list nat)) : pair_t nat := mkPair nat [1; 1; 3] [1; 1; 3] toT [] 0 1.
(** A non-terminal with two places makes one group of two rules that do not match. *)
Theorem C95_groups_refuted : let a := rule [[0]; [1]] in let b := rule [[0; 1]; [1]] in let c := rule [[0]; [2]] in
  sorted_groups nat case_words true [b; a; c] = [[b; a; c]] /\ sorted_groups nat case_words true [a; c; b] = [[a; b]; [c]]
  /\ matches nat case_words true a c = false.
Proof. repeat split. Qed.
Print Assumptions C95_groups_refuted.

Example C95_groups_case : let a := rule [[0]; [1]] in let b := rule [[1]; [0]] in
  Forall (tidy case_words true) [b; a; b] /\ sorted_groups nat case_words true [b; a; b] = [[b; b]; [a]].
Proof.
  cbv zeta. split; [|reflexivity]. repeat constructor; intros _ i Hi _; cbn in Hi; destruct i as [|[|i]]; try lia; eexists; reflexivity.
Qed.

(** Lemmas on copying states under new numbers, and on the union. *)
From Coq Require Import List ZArith NArith Bool Sorted Permutation Lia PeanoNat.
From Verif Require Import M_Fsa L_Fsa M_Minfsa M_Dag M_SimpleDag S_SimpleDag L_SimpleDag.
Import ListNotations.
Local Open Scope nat_scope.

Section Copy.
Context (asort : list warc -> list warc) (Hsort : sorts asort).
Context {K : Type} (eqb : K -> K -> bool) (eqb_spec : forall k k', eqb k k' = true <-> k = k').
Notation lookup := (lookup eqb).
Definition target (m : list (K * nat)) (k : K) : nat := match lookup k m with Some t => t | None => 0 end.
Definition moved (m : list (K * nat)) (x : Z * K * Z) : warc := let '(a, k, w) := x in Warc a (target m k) w.
Definition known (m : list (K * nat)) (k : K) : Prop := lookup k m <> None.
Definition own (m : list (K * nat)) (s : nat) (e : entry (K := K)) : list warc :=
  match lookup (e_key e) m with Some s' => if s =? s' then map (moved m) (e_arcs e) else [] | None => [] end.
Lemma lookup_cons k k' s m : lookup k ((k', s) :: m) = if eqb k k' then Some s else lookup k m.
Proof. reflexivity. Qed.
Lemma eqb_self k : eqb k k = true.
Proof. now apply eqb_spec. Qed.
(** What there is after copying the entries [es] into [B], with the numbers [m0] given before. *)
Record copied (B : sdag) (m0 : list (K * nat)) (es : list entry) (d : sdag) (m : list (K * nat)) : Prop := Copied {
  cp_old : forall k s, lookup k m0 = Some s -> lookup k m = Some s;
  cp_inj : forall k k' s, lookup k m = Some s -> lookup k' m = Some s -> k = k';
  cp_new : forall k s, lookup k m = Some s -> s < s_size d /\ (lookup k m0 = Some s \/ s_size B <= s);
  cp_onto : forall s, s < s_size d -> s < s_size B \/ exists k, lookup k m = Some s;
  cp_size : s_size B <= s_size d;
  cp_keys : forall e, In e es -> known m (e_key e) /\ forall x, In x (e_arcs e) -> known m (snd (fst x));
  cp_rows : forall s, Permutation (s_row d s) (s_row B s ++ flat_map (own m s) es);
  cp_ends : forall s, In s (s_ends d) <-> In s (s_ends B) \/ exists e, In e es /\ lookup (e_key e) m = Some s /\ e_end e = true;
  cp_starts : forall s, start_of d s <-> start_of B s \/ exists e, In e es /\ lookup (e_key e) m = Some s /\ e_start e = true;
  cp_ordered : ordered B -> ordered d }.

Lemma copied_nil B m0 : (forall k k' s, lookup k m0 = Some s -> lookup k' m0 = Some s -> k = k') ->
  (forall k s, lookup k m0 = Some s -> s < s_size B) -> copied B m0 [] B m0.
Proof.
  intros I L. constructor; try assumption.
  - easy.
  - intros k s H. split; [now apply (L k)|now left].
  - intros s H. now left.
  - reflexivity.
  - intros e [].
  - intros s. cbn. now rewrite app_nil_r.
  - intros s. split; [now left|]. intros [H|(e & [] & _)]. assumption.
  - intros s. split; [now left|]. intros [H|(e & [] & _)]. assumption.
  - easy.
Qed.
Lemma known_extend k s m k' : known m k' -> known ((k, s) :: m) k'.
Proof. unfold known. rewrite lookup_cons. now destruct (eqb k' k). Qed.
Lemma moved_extend k s m x : lookup k m = None -> known m (snd (fst x)) -> moved ((k, s) :: m) x = moved m x.
Proof.
  intros N Kn. destruct x as [[a k'] w]. cbn [fst snd] in Kn. unfold moved, target. rewrite lookup_cons.
  destruct (eqb k' k) eqn:E; [|reflexivity]. apply eqb_spec in E. subst. now elim Kn.
Qed.
Lemma own_extend k s m s' e : lookup k m = None -> known m (e_key e) -> (forall x, In x (e_arcs e) -> known m (snd (fst x))) ->
  own ((k, s) :: m) s' e = own m s' e.
Proof.
  intros N Kk Ka. unfold own. rewrite lookup_cons. destruct (eqb (e_key e) k) eqn:E.
  - apply eqb_spec in E. subst. now elim Kk.
  - destruct (lookup (e_key e) m) as [s1|]; [|reflexivity]. destruct (s' =? s1); [|reflexivity].
    apply map_ext_in. intros x Hx. apply moved_extend; [assumption|now apply Ka].
Qed.
Lemma flat_map_in_ext {A B} (f g : A -> list B) l : (forall x, In x l -> f x = g x) -> flat_map f l = flat_map g l.
Proof. intros H. induction l as [|x l IH]; cbn; [reflexivity|]. rewrite H by now left. f_equal. apply IH. intros y Hy. apply H. now right. Qed.

Lemma flat_map_none {A B} (f : A -> list B) l : (forall x, In x l -> f x = []) -> flat_map f l = [].
Proof. intros H. induction l as [|x l IH]; cbn; [reflexivity|]. rewrite H by now left. apply IH. intros y Hy. apply H. now right. Qed.
(** Giving a number to one more key. *)
Lemma number_copied B m0 es d m k : copied B m0 es d m -> forall s d' m', number eqb false k (d, m) = (s, (d', m')) ->
  lookup k m' = Some s /\ s < s_size d' /\ (forall k', known m k' -> known m' k') /\
  (forall k' s', lookup k' m = Some s' -> lookup k' m' = Some s') /\
  (forall k', known m' k' -> known m k' \/ k' = k) /\ copied B m0 es d' m'.
Proof.
  intros C s d' m' E. unfold number in E. cbn [fst snd] in E. destruct (lookup k m) as [s0|] eqn:L; apply pair_equal_spec in E as [<- E]; apply pair_equal_spec in E as [<- <-].
  - split; [assumption|]. split; [now apply (cp_new _ _ _ _ _ C) in L as [L _]|]. repeat (split; [now auto|]). assumption.
  - assert (Ext : forall k' s', lookup k' m = Some s' -> lookup k' ((k, s_size d) :: m) = Some s').
    { intros k' s' H. rewrite lookup_cons. destruct (eqb k' k) eqn:E; [|assumption]. apply eqb_spec in E. congruence. }
    split; [rewrite lookup_cons; now rewrite eqb_self|]. split; [rewrite new_state_size; lia|].
    split; [intros k'; apply known_extend|]. split; [assumption|]. split.
    { intros k'. unfold known. rewrite lookup_cons. destruct (eqb k' k) eqn:E; [right; now apply eqb_spec|now left]. }
    destruct C as [C1 C2 C3 C4 C5 C6 C7 C8 C9 C10].
    assert (Lk : forall e, In e es -> lookup (e_key e) ((k, s_size d) :: m) = lookup (e_key e) m).
    { intros e He. destruct (lookup (e_key e) m) as [s'|] eqn:F; [now apply Ext|]. apply C6 in He as [He _]. now elim He. }
    constructor.
    + intros k' s' H. apply Ext. now apply C1.
    + intros k1 k2 s'. rewrite !lookup_cons. destruct (eqb k1 k) eqn:E1, (eqb k2 k) eqn:E2; intros H1 H2.
      * apply eqb_spec in E1, E2. congruence.
      * inversion H1; subst. apply C3 in H2 as [H2 _]. lia.
      * inversion H2; subst. apply C3 in H1 as [H1 _]. lia.
      * now apply (C2 k1 k2 s').
    + intros k' s'. rewrite lookup_cons, new_state_size. destruct (eqb k' k); intros H.
      * inversion H; subst. split; [lia|now right].
      * apply C3 in H as [H1 H2]. split; [lia|assumption].
    + intros s' H. rewrite new_state_size in H. destruct (Nat.eq_dec s' (s_size d)) as [->|D].
      * right. exists k. rewrite lookup_cons. now rewrite eqb_self.
      * destruct (C4 s') as [H'|(k' & H')]; [lia|now left|]. right. exists k'. now apply Ext.
    + rewrite new_state_size. lia.
    + intros e He. destruct (C6 e He) as [H1 H2]. split; [now apply known_extend|]. intros x Hx. apply known_extend. now apply H2.
    + intros s'. rewrite new_state_row. rewrite (flat_map_in_ext _ (own m s')); [apply C7|].
      intros e He. destruct (C6 e He) as [H1 H2]. now apply own_extend.
    + intros s'. rewrite new_state_ends, C8. split; (intros [H|(e & H1 & H2 & H3)]; [now left|right; exists e]); rewrite Lk in * by assumption; auto.
    + intros s'. change (start_of (new_state false d) s') with (start_of d s'). rewrite C9.
      split; (intros [H|(e & H1 & H2 & H3)]; [now left|right; exists e]); rewrite Lk in * by assumption; auto.
    + intros O. apply new_state_ordered. now apply C10.
Qed.
(** Copying an entry without its arcs. *)
Definition mark (s : nat) (e : entry (K := K)) (d : sdag) : sdag :=
  let d := if e_end e then s_set_end s d else d in if e_start e then s_set_start s d else d.
Lemma mark_size s e d : s_size (mark s e d) = s_size d.
Proof. unfold mark. now destruct (e_end e), (e_start e). Qed.
Lemma mark_row s e d r : s_row (mark s e d) r = s_row d r.
Proof. unfold mark. now destruct (e_end e), (e_start e). Qed.
Lemma start_of_bit d s s' : start_of (s_set_start s d) s' <-> s = s' \/ start_of d s'.
Proof.
  change (has (with_bit (s_starts d) s) s' = true <-> s = s' \/ has (s_starts d) s' = true).
  now rewrite has_with_bit, orb_true_iff, Nat.eqb_eq.
Qed.
Lemma mark_copied B m0 es d m s k b f : copied B m0 es d m -> lookup k m = Some s ->
  copied B m0 (es ++ [Entry k b f []]) (mark s (Entry k b f []) d) m.
Proof.
  intros [C1 C2 C3 C4 C5 C6 C7 C8 C9 C10] L. constructor; rewrite ?mark_size; try assumption.
  - intros e He. apply in_app_iff in He as [He|[<-|[]]]; [now apply C6|]. cbn. split; [unfold known; congruence|easy].
  - intros s'. rewrite mark_row, flat_map_app. cbn [flat_map]. unfold own at 2. cbn [e_key e_arcs map]. rewrite L.
    destruct (s' =? s); cbn [app]; rewrite app_nil_r; apply C7.
  - intros s'. transitivity (In s' (s_ends d) \/ (s = s' /\ f = true)).
    + unfold mark. cbn [e_end e_start]. destruct f, b; cbn [s_ends s_set_end s_set_start]; cbn [In]; intuition congruence.
    + rewrite C8. split.
      * intros [[H|(e & H1 & H2)]|[<- Hf]]; [now left|right; exists e; split; [apply in_app_iff; now left|assumption]|].
        right. exists (Entry k b f []). split; [apply in_app_iff; right; now left|]. now split.
      * intros [H|(e & H1 & H2 & H3)]; [left; now left|]. apply in_app_iff in H1 as [H1|[<-|[]]]; [left; right; now exists e|].
        right. cbn in *. split; congruence.
  - intros s'. transitivity (start_of d s' \/ (s = s' /\ b = true)).
    + unfold mark. cbn [e_end e_start]. destruct b.
      * rewrite start_of_bit. destruct f; change (start_of (s_set_end s d) s') with (start_of d s'); intuition congruence.
      * destruct f; change (start_of (s_set_end s d) s') with (start_of d s'); intuition congruence.
    + rewrite C9. split.
      * intros [[H|(e & H1 & H2)]|[<- Hf]]; [now left|right; exists e; split; [apply in_app_iff; now left|assumption]|].
        right. exists (Entry k b f []). split; [apply in_app_iff; right; now left|]. now split.
      * intros [H|(e & H1 & H2 & H3)]; [left; now left|]. apply in_app_iff in H1 as [H1|[<-|[]]]; [left; right; now exists e|].
        right. cbn in *. split; congruence.
  - intros O p. rewrite mark_row. now apply C10.
Qed.
(** Copying one more arc. *)
Lemma copy_arc_copied B m0 es k b f l x d m s : copied B m0 (es ++ [Entry k b f l]) d m -> lookup k m = Some s ->
  forall d' m', copy_arc asort eqb s (d, m) x = (d', m') ->
  lookup k m' = Some s /\ copied B m0 (es ++ [Entry k b f (l ++ [x])]) d' m' /\
  (forall k', known m' k' -> known m k' \/ k' = snd (fst x)).
Proof.
  intros C L d' m' E. destruct x as [[a k'] w]. unfold copy_arc in E.
  destruct (number eqb false k' (d, m)) as [t [d1 m1]] eqn:N.
  destruct (number_copied _ _ _ _ _ k' C _ _ _ N) as (N1 & N2 & N3 & N4 & N5 & C').
  apply pair_equal_spec in E as [<- <-]. split; [now apply N4|]. split; [|assumption]. apply N4 in L.
  destruct C' as [C1 C2 C3 C4 C5 C6 C7 C8 C9 C10]. pose proof (proj1 (C3 _ _ L)) as Ls.
  assert (Same : forall P : entry -> Prop, P (Entry k b f l) <-> P (Entry k b f (l ++ [(a, k', w)])) ->
    ((exists e, In e (es ++ [Entry k b f l]) /\ P e) <-> exists e, In e (es ++ [Entry k b f (l ++ [(a, k', w)])]) /\ P e)).
  { intros P HP. split; intros (e & H & Pe); apply in_app_iff in H as [H|[<-|[]]];
      [exists e; split; [apply in_app_iff; now left|assumption]| |exists e; split; [apply in_app_iff; now left|assumption]|];
      eexists; (split; [apply in_app_iff; right; now left|]); now apply HP. }
  constructor; rewrite ?new_arc_size; try assumption.
  - intros e He. apply in_app_iff in He as [He|[<-|[]]]; [apply C6; apply in_app_iff; now left|]. cbn [e_key e_arcs].
    split; [unfold known; congruence|]. intros x Hx. apply in_app_iff in Hx as [Hx|[<-|[]]].
    + now apply (proj2 (C6 (Entry k b f l) (ltac:(apply in_app_iff; right; now left)))).
    + cbn. unfold known. congruence.
  - intros s'. eapply Permutation_trans; [now apply new_arc_row|]. eapply Permutation_trans; [apply Permutation_app_tail, C7|].
    rewrite !flat_map_app. cbn [flat_map]. rewrite !app_nil_r, <- !app_assoc. do 2 apply Permutation_app_head.
    unfold own. cbn [e_key e_arcs]. rewrite L. destruct (s' =? s); [|reflexivity].
    rewrite map_app. apply Permutation_app_head. cbn [map moved]. unfold target. now rewrite N1.
  - intros s'. change (s_ends (new_arc asort s t a w d1)) with (s_ends d1). rewrite C8. apply or_iff_compat_l. now apply Same.
  - intros s'. change (start_of (new_arc asort s t a w d1) s') with (start_of d1 s'). rewrite C9. apply or_iff_compat_l. now apply Same.
  - intros O. apply new_arc_ordered; auto.
Qed.
Lemma copy_arcs_copied B m0 es k b f s : forall r l d m, copied B m0 (es ++ [Entry k b f l]) d m -> lookup k m = Some s ->
  forall d' m', fold_left (copy_arc asort eqb s) r (d, m) = (d', m') ->
  copied B m0 (es ++ [Entry k b f (l ++ r)]) d' m' /\
  (forall k', known m' k' -> known m k' \/ exists x, In x r /\ k' = snd (fst x)).
Proof.
  induction r as [|x r IH]; intros l d m C L d' m' E; cbn [fold_left] in E.
  - inversion E; subst. rewrite app_nil_r. split; [assumption|now left].
  - destruct (copy_arc asort eqb s (d, m) x) as [d1 m1] eqn:E1.
    destruct (copy_arc_copied _ _ _ _ _ _ _ _ _ _ _ C L _ _ E1) as (L1 & C1 & K1).
    destruct (IH _ _ _ C1 L1 _ _ E) as (C2 & K2). rewrite <- app_assoc in C2. split; [assumption|].
    intros k' Hk. apply K2 in Hk as [Hk|(y & Hy & ->)]; [|right; exists y; split; [now right|reflexivity]].
    apply K1 in Hk as [Hk| ->]; [now left|]. right. exists x. split; [now left|reflexivity].
Qed.
Lemma copy_copied B m0 es d m e : copied B m0 es d m -> forall d' m', copy asort eqb (d, m) e = (d', m') ->
  copied B m0 (es ++ [e]) d' m' /\
  (forall k', known m' k' -> known m k' \/ k' = e_key e \/ exists x, In x (e_arcs e) /\ k' = snd (fst x)).
Proof.
  intros C d' m' E. destruct e as [k b f l].
  assert (E' : let '(s, (d1, m1)) := number eqb false k (d, m) in fold_left (copy_arc asort eqb s) l (mark s (Entry k b f []) d1, m1) = (d', m')).
  { rewrite <- E. unfold copy, number, mark. cbn [e_key e_start e_end e_arcs fst snd]. destruct (lookup k m) as [s|].
    - now destruct f, b.
    - destruct b; [|now destruct f]. rewrite new_state_start. set (n := new_state false d).
      assert (T : s_set_start (s_size d) (s_set_start (s_size d) n) = s_set_start (s_size d) n).
      { unfold s_set_start at 1 3. cbn [s_rows s_ends s_starts s_set_start]. now rewrite with_bit_twice. }
      destruct f.
      + change (s_set_start (s_size d) (s_set_end (s_size d) (s_set_start (s_size d) n))) with (s_set_end (s_size d) (s_set_start (s_size d) (s_set_start (s_size d) n))).
        rewrite T. reflexivity.
      + rewrite T. reflexivity. }
  destruct (number eqb false k (d, m)) as [s [d1 m1]] eqn:N.
  destruct (number_copied _ _ _ _ _ k C _ _ _ N) as (N1 & N2 & N3 & N4 & N5 & C').
  pose proof (mark_copied _ _ _ _ _ s k b f C' N1) as C''.
  destruct (copy_arcs_copied _ _ _ _ _ _ _ _ _ _ _ C'' N1 _ _ E') as (C3 & K3). split; [assumption|].
  intros k' Hk. apply K3 in Hk as [Hk|Hk]; [|now right; right]. apply N5 in Hk as [Hk| ->]; [now left|right; now left].
Qed.
Lemma copy_all B m0 : forall r es d m, copied B m0 es d m -> forall d' m', fold_left (copy asort eqb) r (d, m) = (d', m') ->
  copied B m0 (es ++ r) d' m' /\
  (forall k', known m' k' -> known m k' \/ exists e, In e r /\ (k' = e_key e \/ exists x, In x (e_arcs e) /\ k' = snd (fst x))).
Proof.
  induction r as [|e r IH]; intros es d m C d' m' E; cbn [fold_left] in E.
  - inversion E; subst. rewrite app_nil_r. split; [assumption|now left].
  - destruct (copy asort eqb (d, m) e) as [d1 m1] eqn:E1. destruct (copy_copied _ _ _ _ _ _ C _ _ E1) as (C1 & K1).
    destruct (IH _ _ _ C1 _ _ E) as (C2 & K2). rewrite <- app_assoc in C2. split; [assumption|].
    intros k' Hk. apply K2 in Hk as [Hk|(y & Hy & H)]; [|right; exists y; split; [now right|assumption]].
    apply K1 in Hk as [Hk|H]; [now left|]. right. exists e. split; [now left|assumption].
Qed.
(** Arcs after the copying. *)
Lemma copied_arc B m0 es d m k s : copied B m0 es d m -> lookup k m = Some s -> s_row B s = [] ->
  forall a q w, In (Warc a q w) (s_row d s) <-> exists e k', In e es /\ e_key e = k /\ In (a, k', w) (e_arcs e) /\ lookup k' m = Some q.
Proof.
  intros C L R a q w. rewrite (Permutation_in' eq_refl (cp_rows _ _ _ _ _ C s)), R. cbn [app]. rewrite in_flat_map.
  split.
  - intros (e & He & H). unfold own in H. destruct (lookup (e_key e) m) as [s'|] eqn:L'; [|destruct H].
    destruct (Nat.eqb_spec s s') as [<-|]; [|destruct H]. apply in_map_iff in H as ([[a' k'] w'] & E & Hx). unfold moved in E. inversion E; subst.
    exists e, k'. split; [assumption|]. split; [now apply (cp_inj _ _ _ _ _ C _ _ s)|]. split; [assumption|].
    destruct (cp_keys _ _ _ _ _ C e He) as [_ Kn]. specialize (Kn _ Hx). cbn in Kn. unfold target. unfold known in Kn. now destruct (lookup k' m).
  - intros (e & k' & He & <- & Hx & Lt). exists e. split; [assumption|]. unfold own. rewrite L, Nat.eqb_refl.
    apply in_map_iff. exists (a, k', w). split; [|assumption]. unfold moved, target. now rewrite Lt.
Qed.
End Copy.

(** ** The union *)
Section Union.
Context (asort : list warc -> list warc) (Hsort : sorts asort) (d sdu : sdag) (Wd : whole d) (Ws : whole sdu).
Lemma nat_spec k k' : (k =? k') = true <-> k = k'.
Proof. apply Nat.eqb_eq. Qed.
Lemma union_spec : exists m : list (nat * nat), let u := nd_union asort d sdu in
  (forall k, k < s_size sdu <-> exists s, lookup Nat.eqb k m = Some s) /\
  (forall k s, lookup Nat.eqb k m = Some s -> s_size d <= s < s_size u) /\
  (forall k k' s, lookup Nat.eqb k m = Some s -> lookup Nat.eqb k' m = Some s -> k = k') /\
  (ordered d -> ordered u) /\ s_size d <= s_size u /\
  (forall s, s < s_size d -> Permutation (s_row u s) (s_row d s)) /\
  (forall k s, lookup Nat.eqb k m = Some s -> forall a q w, In (Warc a q w) (s_row u s) <-> exists k', In (Warc a k' w) (s_row sdu k) /\ lookup Nat.eqb k' m = Some q) /\
  (forall s, s < s_size u -> s < s_size d \/ exists k, lookup Nat.eqb k m = Some s) /\
  (forall s, In s (s_ends u) <-> In s (s_ends d) \/ exists k, In k (s_ends sdu) /\ lookup Nat.eqb k m = Some s) /\
  (forall s, start_of u s <-> start_of d s \/ exists k, start_of sdu k /\ lookup Nat.eqb k m = Some s).
Proof.
  set (es := map (state_entry sdu) (seq 0 (s_size sdu))).
  assert (Hes : forall e, In e es <-> exists k, k < s_size sdu /\ e = state_entry sdu k).
  { intros e. unfold es. rewrite in_map_iff. split; intros (k & H1 & H2); exists k; [apply in_seq in H2|rewrite in_seq]; split; auto; lia. }
  destruct (fold_left (copy asort Nat.eqb) es (d, [])) as [u m] eqn:E.
  destruct (copy_all asort Hsort Nat.eqb nat_spec d [] es [] d []) with (d' := u) (m' := m) as (C & Kn); [now apply copied_nil|assumption|].
  cbn [app] in C. exists m. unfold nd_union. fold es. rewrite E. cbn [fst]. set (L := lookup Nat.eqb) in *.
  destruct Ws as (W1 & W2 & W3). pose proof C as [C1 C2 C3 C4 C5 C6 C7 C8 C9 C10].
  assert (Keys : forall k, k < s_size sdu <-> exists s, L k m = Some s).
  { intros k. split.
    - intros H. destruct (C6 (state_entry sdu k)) as [H' _]; [apply Hes; now exists k|]. unfold known in H'. cbn [e_key state_entry] in H'.
      unfold L. destruct (lookup Nat.eqb k m) as [s|]; [now exists s|now elim H'].
    - intros (s & H). destruct (Kn k) as [H'|(e & He & H')]; [unfold known, L in *; congruence|now elim H'|].
      apply Hes in He as (i & Hi & ->). destruct H' as [->|([[a k'] w] & Hx & ->)]; [assumption|]. cbn [e_arcs state_entry] in Hx.
      apply in_map_iff in Hx as ([a' q' w'] & Ex & Hx). inversion Ex; subst. cbn. eapply W1. eassumption. }
  assert (Above : forall k s, L k m = Some s -> s_size d <= s < s_size u).
  { intros k s H. destruct (C3 k s H) as [H1 [H2|H2]]; [discriminate|]. lia. }
  split; [exact Keys|]. split; [exact Above|]. split; [exact C2|]. split; [exact C10|]. split; [exact C5|]. split.
  { intros s Hs. eapply Permutation_trans; [apply C7|].
    replace (flat_map (own Nat.eqb m s) es) with (@nil warc); [now rewrite app_nil_r|]. symmetry. apply flat_map_none. intros e _. unfold own.
    destruct (lookup Nat.eqb (e_key e) m) as [s'|] eqn:H; [|reflexivity]. apply Above in H. destruct (Nat.eqb_spec s s'); [lia|reflexivity]. }
  split.
  { intros k s H a q w. rewrite (copied_arc Nat.eqb d [] es u m k s C H); [|apply row_beyond; apply Above in H; lia]. split.
    - intros (e & k' & He & Hk & Hx & Hq). apply Hes in He as (i & Hi & ->). cbn [e_key state_entry e_arcs] in *. subst i.
      apply in_map_iff in Hx as ([a' q' w'] & Ex & Hx). inversion Ex; subst. exists k'. now split.
    - intros (k' & Hx & Hq). exists (state_entry sdu k), k'. split; [apply Hes; exists k; split; [apply Keys; now exists s|reflexivity]|].
      split; [reflexivity|]. split; [|assumption]. cbn [e_arcs state_entry]. apply in_map_iff. exists (Warc a k' w). now split. }
  split; [exact C4|]. split.
  - intros s. rewrite C8. apply or_iff_compat_l. split.
    + intros (e & He & Hs & Hf). apply Hes in He as (i & Hi & ->). cbn in *. exists i. split; [now apply is_end_in|assumption].
    + intros (k & Hk & Hs). exists (state_entry sdu k). split; [apply Hes; exists k; split; [now apply W3|reflexivity]|].
      split; [assumption|]. cbn. now apply is_end_in.
  - intros s. rewrite C9. apply or_iff_compat_l. split.
    + intros (e & He & Hs & Hf). apply Hes in He as (i & Hi & ->). cbn in *. exists i. now split.
    + intros (k & Hk & Hs). exists (state_entry sdu k). split; [apply Hes; exists k; split; [now apply W2|reflexivity]|].
      split; [assumption|]. exact Hk.
Qed.
Lemma union_whole : whole (nd_union asort d sdu) /\ (ordered d -> ordered (nd_union asort d sdu)).
Proof.
  destruct union_spec as (m & K1 & K2 & K3 & K4 & K5 & K6 & K7 & K8 & K9 & K10). destruct Wd as (W1 & W2 & W3). split; [|assumption]. split; [|split].
  - intros p a q v H. pose proof (row_inside _ _ _ H) as Hp. destruct (K8 p Hp) as [L|(k & L)].
    + apply (Permutation_in _ (K6 p L)) in H. apply W1 in H. lia.
    + apply (K7 k p L) in H as (k' & _ & H). now apply K2 in H.
  - intros p H. apply K10 in H as [H|(k & _ & H)]; [apply W2 in H; lia|now apply K2 in H].
  - intros p H. apply K9 in H as [H|(k & _ & H)]; [apply W3 in H; lia|now apply K2 in H].
Qed.
Lemma union_words w : words (nd_union asort d sdu) w <-> words d w \/ words sdu w.
Proof.
  destruct union_spec as (m & K1 & K2 & K3 & K4 & K5 & K6 & K7 & K8 & K9 & K10). set (u := nd_union asort d sdu) in *. destruct Wd as (W1 & W2 & W3).
  assert (L1 : forall p v q, p < s_size d -> leads u p v q -> q < s_size d /\ leads d p v q).
  { intros p v q Lp H. induction H as [p|p a q v v' r Hx _ IH]; [split; [assumption|constructor]|].
    apply (Permutation_in _ (K6 p Lp)) in Hx. destruct (IH (W1 _ _ _ _ Hx)) as [H1 H2]. split; [assumption|]. econstructor; eassumption. }
  assert (L2 : forall p v q, leads d p v q -> leads u p v q).
  { intros p v q H. induction H as [p|p a q v v' r Hx _ IH]; [constructor|]. pose proof (row_inside _ _ _ Hx) as Hp.
    apply (Permutation_in _ (Permutation_sym (K6 p Hp))) in Hx. econstructor; eassumption. }
  assert (L3 : forall s v t, leads u s v t -> forall k, lookup Nat.eqb k m = Some s -> exists k', lookup Nat.eqb k' m = Some t /\ leads sdu k v k').
  { intros s v t H. induction H as [s|s a q v v' r Hx _ IH]; intros k Hk; [exists k; split; [assumption|constructor]|].
    apply (K7 k s Hk) in Hx as (k' & Hx & Hq). destruct (IH _ Hq) as (k2 & H1 & H2). exists k2. split; [assumption|]. econstructor; eassumption. }
  assert (L4 : forall k v k', leads sdu k v k' -> forall s t, lookup Nat.eqb k m = Some s -> lookup Nat.eqb k' m = Some t -> leads u s v t).
  { intros k v k' H. induction H as [k|k a q v v' r Hx _ IH]; intros s t Hs Ht; [replace t with s by congruence; constructor|].
    assert (exists z, lookup Nat.eqb q m = Some z) as (z & Hz) by (apply K1; destruct Ws as (V1 & _); eapply V1; eassumption).
    econstructor; [apply (K7 k s Hs); exists q; split; eassumption|]. now apply IH. }
  split.
  - intros (p & q & H1 & H2 & H3). apply K10 in H1 as [H1|(k & H1 & Hk)].
    + left. destruct (L1 p w q (W2 p H1) H2) as [Lq H2']. exists p, q. split; [assumption|]. split; [assumption|].
      apply K9 in H3 as [H3|(k & _ & H3)]; [assumption|]. apply K2 in H3. lia.
    + right. destruct (L3 p w q H2 k Hk) as (k' & Hk' & H2'). exists k, k'. split; [assumption|]. split; [assumption|].
      apply K9 in H3 as [H3|(k2 & H3 & H4)]; [apply W3 in H3; apply K2 in Hk'; lia|]. now rewrite (K3 _ _ _ Hk' H4).
  - intros [(p & q & H1 & H2 & H3)|(k & k' & H1 & H2 & H3)].
    + exists p, q. split; [apply K10; now left|]. split; [now apply L2|]. apply K9. now left.
    + destruct Ws as (V1 & V2 & V3).
      assert (exists s, lookup Nat.eqb k m = Some s) as (s & Hs) by (apply K1; now apply V2).
      assert (exists s, lookup Nat.eqb k' m = Some s) as (t & Ht) by (apply K1; now apply V3).
      exists s, t. split; [apply K10; right; exists k; now split|]. split; [now apply (L4 k w k')|]. apply K9. right. exists k'. now split.
Qed.
End Union.

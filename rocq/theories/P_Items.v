(** Annotation items (C11). *)
From Coq Require Import List ZArith NArith Bool Arith Lia.
From Verif Require Import M_Items.
Import ListNotations.
Local Open Scope nat_scope.

(** * Items as records with finite maps *)
Record record := Record { r_category : str; r_text : str; r_map : str -> option zvalue }.
Definition str_dec := list_eq_dec Z.eq_dec.
Definition update (f : str -> option zvalue) (a : str) (v : zvalue) : str -> option zvalue :=
  fun x => if str_dec a x then Some v else f x.
Definition set_r (r : record) (a : str) (v : zvalue) : record := Record (r_category r) (r_text r) (update (r_map r) a v).
(** What is stored for a string. *)
Definition value_of (s : str) : zvalue :=
  match whole_int s with Some i => integer_to_zvalue i | None => from_string s end.
Fixpoint replace {A} (l : list A) (n : nat) (f : A -> A) : list A :=
  match l, n with [], _ => [] | x :: l', O => f x :: l' | x :: l', S n' => x :: replace l' n' f end.
(** One operation on a list of records: only the named record changes. *)
Definition r_step (rs : list record) (o : op) : list record :=
  match o with
  | New c t => rs ++ [Record c t (fun _ => None)]
  | Copy i => match nth_error rs i with Some r => rs ++ [r] | None => rs end
  | Set_ i a v => replace rs i (fun r => set_r r a v)
  | SetInt i a v => replace rs i (fun r => set_r r a (integer_to_zvalue v))
  | SetValue i a s => replace rs i (fun r => set_r r a (value_of s))
  | SetString i a s => replace rs i (fun r => set_r r a (ZSym (c_str s)))
  | SetCategory i c => replace rs i (fun r => Record c (r_text r) (r_map r))
  | AddValues i j =>
      match nth_error rs j with
      | Some src => replace rs i (fun r => Record (r_category r) (r_text r)
                                     (fun x => match r_map src x with Some v => Some v | None => r_map r x end))
      | None => rs
      end
  end.

(** * The representation *)
Record ok (m : manager) (it : item) : Prop := {
  ok_bits : forall i, N.testbit (attributes_ it) (N.of_nat i) = true -> i < length (values_ it);
  ok_unset : forall i, N.testbit (attributes_ it) (N.of_nat i) = false -> nth i (values_ it) ZNull = ZNull;
  ok_names : length (values_ it) <= length m;
  ok_last : forall n, length (values_ it) = S n -> N.testbit (attributes_ it) (N.of_nat n) = true
}.
Definition attr (m : manager) (it : item) (a : str) : option zvalue :=
  match index m a with
  | Some i => if N.testbit (attributes_ it) (N.of_nat i) then Some (nth i (values_ it) ZNull) else None
  | None => None
  end.
Record rep (m : manager) (it : item) (r : record) : Prop := {
  rep_ok : ok m it;
  rep_category : category it = r_category r;
  rep_text : text it = r_text r;
  rep_map : forall a, attr m it a = r_map r a
}.

Lemma str_eqb_spec a b : str_eqb a b = true <-> a = b.
Proof. unfold str_eqb. destruct (list_eq_dec Z.eq_dec a b); split; congruence. Qed.
Lemma index_some m n i : index m n = Some i -> nth_error m i = Some n.
Proof.
  revert i. induction m as [|x m IH]; intros i; cbn [index]; [discriminate|].
  destruct (str_eqb x n) eqn:E.
  - intros [= <-]. apply str_eqb_spec in E. now subst.
  - destruct (index m n) as [j|]; [|discriminate]. intros [= <-]. cbn. now apply IH.
Qed.
Lemma index_app m l n i : index m n = Some i -> index (m ++ l) n = Some i.
Proof.
  revert i. induction m as [|x m IH]; intros i; cbn [index app]; [discriminate|].
  destruct (str_eqb x n); [auto|]. destruct (index m n) as [j|]; [|discriminate]. intros [= <-]. now rewrite (IH j eq_refl).
Qed.
Lemma index_new m l n i : index m n = None -> index (m ++ l) n = Some i -> length m <= i.
Proof.
  revert i. induction m as [|x m IH]; intros i; cbn [index app length]; [lia|].
  destruct (str_eqb x n); [discriminate|]. destruct (index m n) as [j|]; [discriminate|]. intros _.
  destruct (index (m ++ l) n) as [j|]; [|discriminate]. intros [= <-]. specialize (IH j eq_refl eq_refl). lia.
Qed.
Lemma register_app m n : exists l, register m n = m ++ l.
Proof. unfold register. destruct (index m n); [exists []; now rewrite app_nil_r|now exists [n]]. Qed.
Lemma index_register m n : exists i, index (register m n) n = Some i /\ i < length (register m n) /\ i <= length m.
Proof.
  unfold register. destruct (index m n) as [i|] eqn:E.
  - exists i. split; [assumption|]. apply index_some in E. assert (i < length m) by (apply nth_error_Some; congruence). lia.
  - exists (length m). rewrite app_length. cbn. split; [|lia].
    clear -E. induction m as [|x m IH]; cbn [index app length] in *.
    + assert (str_eqb n n = true) as -> by now apply str_eqb_spec. reflexivity.
    + destruct (str_eqb x n); [discriminate|]. destruct (index m n); [discriminate|]. now rewrite IH.
Qed.
(** Registering more names changes no item. *)
Lemma ok_more m l it : ok m it -> ok (m ++ l) it.
Proof. intros [H1 H2 H3 H4]. constructor; auto. rewrite app_length. lia. Qed.
Lemma attr_more m l it a : ok m it -> attr (m ++ l) it a = attr m it a.
Proof.
  intros H. unfold attr. destruct (index m a) as [i|] eqn:E; [now rewrite (index_app _ _ _ _ E)|].
  destruct (index (m ++ l) a) as [i|] eqn:E2; [|reflexivity].
  apply index_new in E2; [|assumption]. destruct (N.testbit (attributes_ it) (N.of_nat i)) eqn:Eb; [|reflexivity].
  apply (ok_bits _ _ H) in Eb. pose proof (ok_names _ _ H). lia.
Qed.
Lemma rep_more m l it r : rep m it r -> rep (m ++ l) it r.
Proof.
  intros [H1 H2 H3 H4]. constructor; [now apply ok_more|assumption|assumption|]. intros a. now rewrite attr_more.
Qed.

Lemma set_nth_length vs n v : length (set_nth vs n v) = length vs.
Proof. revert n. induction vs as [|x vs IH]; intros [|n]; cbn; auto. Qed.
Lemma nth_set_nth vs n v i d : n < length vs -> nth i (set_nth vs n v) d = if i =? n then v else nth i vs d.
Proof.
  revert n i. induction vs as [|x vs IH]; intros [|n] [|i] Hn; cbn in *; try lia; try reflexivity. apply IH. lia.
Qed.
Lemma nth_resize vs n i : nth i (resize vs n) ZNull = nth i vs ZNull.
Proof.
  unfold resize. destruct (Nat.lt_ge_cases i (length vs)).
  - now rewrite app_nth1.
  - rewrite app_nth2 by assumption. rewrite nth_repeat. now rewrite nth_overflow.
Qed.
Lemma setbit_nat c i j : N.testbit (N.setbit c (N.of_nat i)) (N.of_nat j) = (i =? j) || N.testbit c (N.of_nat j).
Proof.
  rewrite N.setbit_eqb. f_equal. destruct (Nat.eqb_spec i j); [subst; apply N.eqb_refl|]. apply N.eqb_neq. lia.
Qed.

Lemma set_zvalue_rep m it a v m' it' r : rep m it r -> set_zvalue m it a v = Some (m', it') ->
  (exists l, m' = m ++ l) /\ rep m' it' (set_r r a v).
Proof.
  intros Hr. unfold set_zvalue. destruct (register_app m a) as [l El].
  destruct (index_register m a) as [ix [Hix [Hlt Hle]]]. rewrite Hix. intros H.
  assert (Hm' : m' = register m a) by (destruct (_ <? _); [|destruct (_ <? _)]; congruence). split; [exists l; congruence|].
  subst m'. pose proof Hr as [[H1 H2 H3 H4] Hc Ht Hm].
  assert (Hit : it' = Item (category it) (text it) (set_nth (resize (values_ it) (ix + 1)) ix v) (N.setbit (attributes_ it) (N.of_nat ix))).
  { destruct (Nat.ltb_spec ix (length (values_ it))) as [Hl|Hl].
    - injection H as <-. unfold resize. replace (ix + 1 - length (values_ it)) with 0 by lia. cbn [repeat]. now rewrite app_nil_r.
    - destruct (ATTRIBUTES <? ix + 1); congruence. }
  clear H. subst it'.
  assert (Hlen : length (resize (values_ it) (ix + 1)) = Nat.max (length (values_ it)) (ix + 1))
    by (unfold resize; rewrite app_length, repeat_length; lia).
  assert (Hok : ok (register m a) (Item (category it) (text it) (set_nth (resize (values_ it) (ix + 1)) ix v)
                    (N.setbit (attributes_ it) (N.of_nat ix)))).
  { constructor; cbn [values_ attributes_].
    - intros i Hi. rewrite set_nth_length, Hlen. rewrite setbit_nat in Hi. apply orb_true_iff in Hi as [Hi|Hi].
      + apply Nat.eqb_eq in Hi. lia.
      + apply H1 in Hi. lia.
    - intros i Hi. rewrite setbit_nat in Hi. apply orb_false_iff in Hi as [Hne Hi].
      rewrite nth_set_nth by lia. rewrite Nat.eqb_sym, Hne, nth_resize. now apply H2.
    - rewrite set_nth_length, Hlen. rewrite El in *. rewrite app_length in *. lia.
    - intros n Hn. rewrite set_nth_length, Hlen in Hn. rewrite setbit_nat. destruct (Nat.eqb_spec ix n); [reflexivity|]. cbn [orb].
      apply H4. lia. }
  constructor; cbn [category text r_category r_text r_map set_r]; try assumption.
  intros b. unfold update. destruct (str_dec a b) as [<-|Hne].
  - unfold attr. rewrite Hix. cbn [attributes_ values_]. rewrite setbit_nat, Nat.eqb_refl. cbn [orb].
    rewrite nth_set_nth by lia. now rewrite Nat.eqb_refl.
  - rewrite <- Hm. rewrite <- (attr_more m l it b) by apply Hr. rewrite <- El. unfold attr.
    destruct (index (register m a) b) as [j|] eqn:Ej; [|reflexivity]. cbn [attributes_ values_]. rewrite setbit_nat.
    assert (Hij : ix <> j).
    { intros ->. apply index_some in Hix. apply index_some in Ej. congruence. }
    apply Nat.eqb_neq in Hij. rewrite Hij. cbn [orb]. destruct (N.testbit (attributes_ it) (N.of_nat j)); [|reflexivity].
    rewrite nth_set_nth by lia. rewrite Nat.eqb_sym, Hij, nth_resize. reflexivity.
Qed.

(** The attributes of an item, in the order of registration. *)
Lemma collect_spec m it : forall i a v, In (a, v) (collect m i it) <->
  exists j, nth_error m j = Some a /\ N.testbit (attributes_ it) (N.of_nat (i + j)) = true /\ nth (i + j) (values_ it) ZNull = v.
Proof.
  induction m as [|n m IH]; intros i a v; cbn [collect].
  - split; [intros []|]. intros [[|j] [H _]]; discriminate.
  - assert (Hrest : In (a, v) (collect m (S i) it) <->
      exists j, nth_error (n :: m) (S j) = Some a /\ N.testbit (attributes_ it) (N.of_nat (i + S j)) = true /\ nth (i + S j) (values_ it) ZNull = v).
    { rewrite IH. split; intros [j [Hj H]]; exists j; (split; [exact Hj|]); now rewrite Nat.add_succ_r in *. }
    destruct (N.testbit (attributes_ it) (N.of_nat i)) eqn:Eb; cbn [In]; rewrite Hrest; split.
    + intros [[= <- <-]|[j H]]; [exists 0; rewrite Nat.add_0_r; auto|now exists (S j)].
    + intros [[|j] H]; [left|right; now exists j]. rewrite Nat.add_0_r in H. destruct H as [[= ->] [_ <-]]. reflexivity.
    + intros [j H]. now exists (S j).
    + intros [[|j] H]; [|now exists j]. rewrite Nat.add_0_r in H. destruct H as [_ [C _]]. congruence.
Qed.
Lemma collect_keys m it : forall i a, In a (map fst (collect m i it)) -> In a m.
Proof.
  induction m as [|n m IH]; intros i a; cbn [collect]; [intros []|].
  destruct (N.testbit _ _); cbn; [intros [<-|H]; [now left|right; eauto]|right; eauto].
Qed.
Lemma collect_nodup m it : NoDup m -> forall i, NoDup (map fst (collect m i it)).
Proof.
  induction 1 as [|n m Hn Hd IH]; intros i; cbn [collect]; [constructor|].
  destruct (N.testbit _ _); cbn [map fst]; [|apply IH]. constructor; [|apply IH]. intros H. apply Hn. now apply collect_keys in H.
Qed.
Lemma index_nth m a j : NoDup m -> nth_error m j = Some a -> index m a = Some j.
Proof.
  revert j. induction m as [|x m IH]; intros [|j] Hd H; cbn in *; try discriminate.
  - injection H as ->. assert (str_eqb a a = true) as -> by now apply str_eqb_spec. reflexivity.
  - inversion Hd as [|? ? Hx Hm]; subst. destruct (str_eqb x a) eqn:E.
    + apply str_eqb_spec in E. subst. exfalso. apply Hx. eapply nth_error_In; eassumption.
    + now rewrite (IH j Hm H).
Qed.
Lemma get_zvalues_spec m it a v : NoDup m -> In (a, v) (get_zvalues m it) <-> attr m it a = Some v.
Proof.
  intros Hd. unfold get_zvalues. rewrite collect_spec. cbn [plus]. unfold attr. split.
  - intros [j [Hj [Hb Hv]]]. now rewrite (index_nth _ _ _ Hd Hj), Hb, Hv.
  - destruct (index m a) as [j|] eqn:E; [|discriminate]. destruct (N.testbit _ _) eqn:Eb; [|discriminate]. intros [= Hv].
    exists j. split; [now apply index_some|]. split; assumption.
Qed.

Lemma set_all_rep avs : forall m it m' it' r, NoDup (map fst avs) -> rep m it r -> set_all m it avs = Some (m', it') ->
  (exists l, m' = m ++ l) /\ category it' = r_category r /\ text it' = r_text r /\ ok m' it' /\
  forall a, (forall v, In (a, v) avs -> attr m' it' a = Some v) /\ (~ In a (map fst avs) -> attr m' it' a = r_map r a).
Proof.
  induction avs as [|[a v] avs IH]; intros m it m' it' r Hd Hr; cbn [set_all].
  - intros [= <- <-]. split; [exists []; now rewrite app_nil_r|]. split; [apply Hr|]. split; [apply Hr|]. split; [apply Hr|].
    intros a. split; [intros v []|]. intros _. apply Hr.
  - destruct (set_zvalue m it a v) as [[m1 it1]|] eqn:E; [|discriminate]. intros H.
    destruct (set_zvalue_rep _ _ _ _ _ _ _ Hr E) as [[l El] Hr1]. inversion Hd as [|? ? Ha Hd']; subst.
    destruct (IH _ _ _ _ _ Hd' Hr1 H) as [[l' El'] [Hc [Ht [Hok Hmap]]]].
    split; [exists (l ++ l'); now rewrite app_assoc|]. split; [assumption|]. split; [assumption|]. split; [assumption|].
    intros b. destruct (Hmap b) as [Hin Hout]. cbn [map fst In] in *. split.
    + intros w [[= <- <-]|Hw]; [|auto]. rewrite Hout by assumption. unfold set_r, update. cbn [r_map].
      destruct (str_dec a a); congruence.
    + intros Hn. rewrite Hout by tauto. unfold set_r, update. cbn [r_map]. destruct (str_dec a b); [|reflexivity].
      exfalso. apply Hn. now left.
Qed.
Lemma add_values_rep m it src m' it' r rs : NoDup m -> rep m it r -> rep m src rs -> add_values m it src = Some (m', it') ->
  (exists l, m' = m ++ l) /\
  rep m' it' (Record (r_category r) (r_text r) (fun x => match r_map rs x with Some v => Some v | None => r_map r x end)).
Proof.
  intros Hd Hr Hs H. unfold add_values in H.
  destruct (set_all_rep _ _ _ _ _ _ (collect_nodup m src Hd 0) Hr H) as [Hl [Hc [Ht [Hok Hmap]]]].
  split; [assumption|]. constructor; cbn [r_category r_text r_map]; try assumption. intros a. destruct (Hmap a) as [Hin Hout].
  rewrite <- (rep_map _ _ _ Hs). destruct (attr m src a) as [v|] eqn:E.
  - apply Hin. now apply get_zvalues_spec.
  - apply Hout. intros C. apply in_map_iff in C as [[b v] [Eb Hv]]. cbn in Eb. subst b.
    apply get_zvalues_spec in Hv; [congruence|assumption].
Qed.

(** * Histories *)
Definition sim (s : state) (rs : list record) : Prop := NoDup (names s) /\ Forall2 (rep (names s)) (items s) rs.
Lemma register_nodup m n : NoDup m -> NoDup (register m n).
Proof.
  intros H. unfold register. destruct (index m n) as [i|] eqn:E; [assumption|].
  assert (Hn : ~ In n m).
  { intros Hin. apply In_nth_error in Hin as [j Hj]. rewrite (index_nth _ _ _ H Hj) in E. discriminate. }
  clear E. induction H as [|x m Hx Hd IH]; cbn; [constructor; [intros []|constructor]|].
  constructor; [|apply IH; intros C; apply Hn; now right]. intros C. apply in_app_or in C as [C|[<-|[]]]; [contradiction|].
  apply Hn. now left.
Qed.
Lemma set_zvalue_names m it a v m' it' : set_zvalue m it a v = Some (m', it') -> m' = register m a.
Proof.
  unfold set_zvalue. destruct (index (register m a) a); [|discriminate].
  destruct (_ <? _); [congruence|]. destruct (_ <? _); congruence.
Qed.
Lemma set_all_nodup avs : forall m it m' it', NoDup m -> set_all m it avs = Some (m', it') -> NoDup m'.
Proof.
  induction avs as [|[a v] avs IH]; intros m it m' it' Hd; cbn [set_all]; [congruence|].
  destruct (set_zvalue m it a v) as [[m1 it1]|] eqn:E; [|discriminate]. apply IH.
  rewrite (set_zvalue_names _ _ _ _ _ _ E). now apply register_nodup.
Qed.
Lemma forall2_nth {A B} (R : A -> B -> Prop) l l' i x : Forall2 R l l' -> nth_error l i = Some x ->
  exists y, nth_error l' i = Some y /\ R x y.
Proof.
  intros H. revert i. induction H as [|a b l l' Hab H IH]; intros [|i]; cbn; try discriminate.
  - intros [= <-]. eauto.
  - apply IH.
Qed.
Lemma forall2_put m m' items rs i it r it' (f : record -> record) :
  (forall x y, rep m x y -> rep m' x y) -> Forall2 (rep m) items rs ->
  nth_error items i = Some it -> nth_error rs i = Some r -> rep m' it' (f r) ->
  Forall2 (rep m') (put_item items i it') (replace rs i f).
Proof.
  intros Hmore H. revert i. induction H as [|x y l l' Hxy H IH]; intros [|i] Hi Hr Hnew; cbn in *; try discriminate.
  - injection Hi as ->. injection Hr as ->. constructor; [assumption|]. clear - H Hmore. induction H; constructor; auto.
  - constructor; [now apply Hmore|]. now apply IH.
Qed.
Lemma step_sim s o s' rs : sim s rs -> step s o = Some s' -> sim s' (r_step rs o).
Proof.
  intros [Hd H]. destruct s as [m l]. cbn [names items] in *.
  assert (Hset : forall i a v s1, on_item (State m l) i (fun it => set_zvalue m it a v) = Some s1 ->
            sim s1 (replace rs i (fun r => set_r r a v))).
  { intros i a v s1. unfold on_item, changed. cbn [names items]. destruct (nth_error l i) as [it|] eqn:Ei; [|discriminate].
    destruct (set_zvalue m it a v) as [[m1 it1]|] eqn:E; [|discriminate]. intros [= <-].
    destruct (forall2_nth _ _ _ _ _ H Ei) as [r [Er Hr]].
    destruct (set_zvalue_rep _ _ _ _ _ _ _ Hr E) as [[l' ->] Hr1].
    split; cbn [names items].
    - rewrite (set_zvalue_names _ _ _ _ _ _ E). now apply register_nodup.
    - eapply forall2_put; try eassumption. intros x y. apply rep_more. }
  destruct o as [c t|i|i a v|i a v|i a v|i a v|i c|i j]; cbn [step r_step names items].
  - intros [= <-]. split; cbn [names items]; [assumption|]. apply Forall2_app; [assumption|]. constructor; [|constructor].
    constructor; try reflexivity.
    + constructor; cbn.
      * intros i Hi. discriminate.
      * intros i _. now destruct i.
      * lia.
      * discriminate.
    + intros a. unfold attr. cbn. destruct (index m a); [|reflexivity]. reflexivity.
  - destruct (nth_error l i) as [it|] eqn:Ei; [|discriminate]. intros [= <-].
    destruct (forall2_nth _ _ _ _ _ H Ei) as [r [Er Hr]]. rewrite Er. split; cbn [names items]; [assumption|].
    apply Forall2_app; [assumption|]. constructor; [assumption|constructor].
  - apply Hset.
  - unfold set_int. apply Hset.
  - unfold set_value, value_of. destruct (whole_int v); [unfold set_int|]; apply Hset.
  - unfold set_string_value. apply Hset.
  - unfold on_item, changed. cbn [names items]. destruct (nth_error l i) as [it|] eqn:Ei; [|discriminate]. intros [= <-].
    destruct (forall2_nth _ _ _ _ _ H Ei) as [r [Er Hr]]. split; cbn [names items]; [assumption|].
    eapply forall2_put; try eassumption; [auto|]. destruct Hr as [[K1 K2 K3 K4] Hc Ht Hm]. constructor; cbn; auto. now constructor.
  - destruct (nth_error l j) as [src|] eqn:Ej; [|discriminate]. unfold on_item, changed. cbn [names items].
    destruct (nth_error l i) as [it|] eqn:Ei; [|discriminate].
    destruct (add_values m it src) as [[m1 it1]|] eqn:E; [|discriminate]. intros [= <-].
    destruct (forall2_nth _ _ _ _ _ H Ei) as [r [Er Hr]]. destruct (forall2_nth _ _ _ _ _ H Ej) as [rj [Erj Hrj]]. rewrite Erj.
    destruct (add_values_rep _ _ _ _ _ _ _ Hd Hr Hrj E) as [[l' El'] Hr1].
    split; cbn [names items].
    + eapply set_all_nodup; [|exact E]. assumption.
    + subst m1. eapply forall2_put; try eassumption. intros x y. apply rep_more.
Qed.
Lemma run_sim os : forall s s' rs, sim s rs -> run s os = Some s' -> sim s' (fold_left r_step os rs).
Proof.
  induction os as [|o os IH]; intros s s' rs Hs; cbn [run fold_left]; [now intros [= <-]|].
  destruct (step s o) as [s1|] eqn:E; [|discriminate]. intros H. eapply IH; [|exact H]. eapply step_sim; eassumption.
Qed.
Definition start : state := State [] [].

(** Reading: the items are independent records. *)
Theorem C11_history os s i it : run start os = Some s -> nth_error (items s) i = Some it ->
  exists r, nth_error (fold_left r_step os []) i = Some r /\ category it = r_category r /\ text it = r_text r /\
    (forall a, get_value (names s) it a = match r_map r a with Some v => v | None => ZNull end) /\
    (forall a x, In (a, x) (get_values (names s) it) <-> exists v, r_map r a = Some v /\ x = to_string v) /\
    NoDup (map fst (get_values (names s) it)).
Proof.
  intros H Hi. assert (Hsim : sim s (fold_left r_step os [])).
  { eapply run_sim; [|exact H]. split; constructor. }
  destruct Hsim as [Hd Hall]. destruct (forall2_nth _ _ _ _ _ Hall Hi) as [r [Er Hr]]. exists r.
  split; [assumption|]. split; [apply Hr|]. split; [apply Hr|]. split; [|split].
  - intros a. rewrite <- (rep_map _ _ _ Hr). unfold get_value, attr. destruct (index (names s) a); [|reflexivity].
    destruct (N.testbit _ _); reflexivity.
  - intros a x. unfold get_values. rewrite in_map_iff. split.
    + intros [[b v] [E Hv]]. cbn in E. injection E as -> <-. exists v. split; [|reflexivity].
      rewrite <- (rep_map _ _ _ Hr). now apply get_zvalues_spec.
    + intros [v [Hv ->]]. exists (a, v). split; [reflexivity|]. apply get_zvalues_spec; [assumption|].
      now rewrite (rep_map _ _ _ Hr).
  - unfold get_values. rewrite map_map. cbn. apply collect_nodup. assumption.
Qed.
(** A set never fails while at most 128 attributes have been used. *)
Theorem C11_capacity os s i it a v : run start os = Some s -> nth_error (items s) i = Some it ->
  length (register (names s) a) <= 128 -> exists s', step s (Set_ i a v) = Some s'.
Proof.
  intros H Hi Hl. cbn [step]. unfold on_item, changed. rewrite Hi. unfold set_zvalue.
  destruct (index_register (names s) a) as [ix [-> [Hlt _]]].
  destruct (_ <? _); [eauto|]. assert (E : (ATTRIBUTES <? ix + 1) = false) by (apply Nat.ltb_ge; unfold ATTRIBUTES; lia).
  rewrite E. eauto.
Qed.

(** * Equality *)
Lemma digits_nonempty f i : (0 < i)%Z -> f <> 0 -> digits f i <> [].
Proof.
  destruct f as [|f]; [congruence|]. intros Hi _. cbn. destruct (Z.eqb_spec i 0); [lia|]. intros C. apply app_eq_nil in C as [_ C]. discriminate.
Qed.
Lemma prints_empty z : zvalue_to_string z = [] <-> z = ZSym [].
Proof.
  destruct z as [| |i|s]; cbn; try (split; discriminate).
  - split; [|discriminate]. unfold itoa. intros H. apply app_eq_nil in H as [_ H].
    destruct (Z.eqb_spec (Z.abs i) 0) as [|Hne]; [discriminate|]. exfalso. now apply (digits_nonempty 16 (Z.abs i)) in H; [|lia|].
  - split; [now intros ->|now intros [= ->]].
Qed.
Lemma zvalue_eqb_spec a b : zvalue_eqb a b = true <-> a = b.
Proof.
  destruct a, b; cbn; try (split; congruence); try (split; discriminate).
  - rewrite Z.eqb_eq. split; [now intros ->|now intros [= ->]].
  - rewrite str_eqb_spec. split; [now intros ->|now intros [= ->]].
Qed.
Lemma all_empty l : forallb (fun z => str_eqb (zvalue_to_string z) []) l = true <-> forall i, nth i l (ZSym []) = ZSym [].
Proof.
  rewrite forallb_forall. split.
  - intros H i. destruct (Nat.lt_ge_cases i (length l)); [|now rewrite nth_overflow].
    apply prints_empty, str_eqb_spec, H, nth_In. assumption.
  - intros H z Hz. apply str_eqb_spec, prints_empty. apply In_nth with (d := ZSym []) in Hz as [i [_ <-]]. apply H.
Qed.
Lemma same_values_spec a : forall b, same_values a b = true <-> forall i, nth i a (ZSym []) = nth i b (ZSym []).
Proof.
  induction a as [|x a IH]; intros b.
  - cbn [same_values]. rewrite all_empty. split; intros H i; specialize (H i); now destruct i.
  - destruct b as [|y b].
    + cbn [same_values]. rewrite all_empty. split; intros H i; specialize (H i); now destruct i.
    + cbn [same_values]. rewrite andb_true_iff, zvalue_eqb_spec, IH. split.
      * intros [-> H] [|i]; cbn; auto.
      * intros H. split; [exact (H 0)|]. intros i. exact (H (S i)).
Qed.
Lemma item_eqb_spec a b : item_eqb a b = true <-> category a = category b /\ text a = text b /\
  forall i, nth i (values_ a) (ZSym []) = nth i (values_ b) (ZSym []).
Proof. unfold item_eqb. rewrite !andb_true_iff, !str_eqb_spec, same_values_spec. tauto. Qed.
Theorem C11_equivalence :
  (forall a, item_eqb a a = true) /\ (forall a b, item_eqb a b = true -> item_eqb b a = true) /\
  (forall a b c, item_eqb a b = true -> item_eqb b c = true -> item_eqb a c = true).
Proof.
  split; [|split].
  - intros a. now apply item_eqb_spec.
  - intros a b H. apply item_eqb_spec in H as [H1 [H2 H3]]. apply item_eqb_spec. split; [now symmetry|split; [now symmetry|]]. intros i. symmetry. apply H3.
  - intros a b c H H'. apply item_eqb_spec in H as [H1 [H2 H3]]. apply item_eqb_spec in H' as [H1' [H2' H3']].
    apply item_eqb_spec. split; [congruence|split; [congruence|]]. intros i. now rewrite H3.
Qed.
(** Equal items have equal hash values. *)
Theorem C11_hash a b : item_eqb a b = true -> hashed a = hashed b.
Proof.
  intros H. apply item_eqb_spec in H as [H1 [H2 H3]]. unfold hashed. rewrite H1, H2. do 2 f_equal.
  revert H3. generalize (values_ b) as w. induction (values_ a) as [|x v IH]; intros w H3.
  - assert (H : forall i, nth i w (ZSym []) = ZSym []) by (intros i; rewrite <- H3; now destruct i).
    clear H3. symmetry. induction w as [|y w IHw]; [reflexivity|]. cbn [map concat]. pose proof (H 0) as H0. cbn in H0. subst y.
    cbn. apply IHw. intros i. exact (H (S i)).
  - destruct w as [|y w].
    + assert (H : forall i, nth i (x :: v) (ZSym []) = ZSym []) by (intros i; rewrite H3; now destruct i).
      pose proof (H 0) as H0. cbn in H0. subst x. cbn [map concat zvalue_to_string app]. rewrite (IH []); [reflexivity|].
      intros i. pose proof (H (S i)) as Hi. cbn in Hi. rewrite Hi. now destruct i.
    + pose proof (H3 0) as H0. cbn in H0. subst y. cbn [map concat]. f_equal. apply IH. intros i. exact (H3 (S i)).
Qed.
(** When no attribute is set to NULL or to the empty string, two items of one manager
    are equal exactly when the records are. *)
Definition plain (r : record) : Prop := forall a, r_map r a <> Some ZNull /\ r_map r a <> Some (ZSym []).
Theorem C11_equal os s i j a b ra rb : run start os = Some s ->
  nth_error (items s) i = Some a -> nth_error (items s) j = Some b ->
  nth_error (fold_left r_step os []) i = Some ra -> nth_error (fold_left r_step os []) j = Some rb ->
  plain ra -> plain rb ->
  (item_eqb a b = true <-> r_category ra = r_category rb /\ r_text ra = r_text rb /\ forall x, r_map ra x = r_map rb x).
Proof.
  intros H Ha Hb Hra Hrb Pa Pb.
  assert (Hsim : sim s (fold_left r_step os [])).
  { eapply run_sim; [|exact H]. split; constructor. }
  destruct Hsim as [Hd Hall]. destruct (forall2_nth _ _ _ _ _ Hall Ha) as [ra' [Era Hr]].
  destruct (forall2_nth _ _ _ _ _ Hall Hb) as [rb' [Erb Hr']].
  assert (ra' = ra) by congruence. assert (rb' = rb) by congruence. subst ra' rb'.
  rewrite item_eqb_spec, (rep_category _ _ _ Hr), (rep_text _ _ _ Hr), (rep_category _ _ _ Hr'), (rep_text _ _ _ Hr').
  clear H Ha Hb Hra Hrb Hall Era Erb os.
  enough (E : (forall k, nth k (values_ a) (ZSym []) = nth k (values_ b) (ZSym [])) <-> (forall x, r_map ra x = r_map rb x)) by tauto.
  set (m := names s) in *.
  assert (Hslot : forall it r x k, rep m it r -> index m x = Some k ->
            r_map r x = if N.testbit (attributes_ it) (N.of_nat k) then Some (nth k (values_ it) ZNull) else None).
  { intros it r x k HH Hk. rewrite <- (rep_map _ _ _ HH). unfold attr. now rewrite Hk. }
  split.
  - intros E x.
    assert (Hdir : forall c d rc rd, rep m c rc -> rep m d rd -> plain rc -> plain rd ->
              (forall k, nth k (values_ c) (ZSym []) = nth k (values_ d) (ZSym [])) -> forall v, r_map rc x = Some v -> r_map rd x = Some v).
    { clear - Hslot. intros c d rc rd Hc Hd Pc Pd E v Hv.
      assert (Hidx : exists k, index m x = Some k).
      { rewrite <- (rep_map _ _ _ Hc) in Hv. unfold attr in Hv. destruct (index m x); [eauto|discriminate]. }
      destruct Hidx as [k Hk]. pose proof (Hslot _ _ _ _ Hc Hk) as Ec. pose proof (Hslot _ _ _ _ Hd Hk) as Ed.
      destruct (N.testbit (attributes_ c) (N.of_nat k)) eqn:Eb; [|congruence].
      pose proof (ok_bits _ _ (rep_ok _ _ _ Hc) _ Eb) as Hlt.
      assert (Hvv : nth k (values_ c) (ZSym []) = v) by (rewrite (nth_indep _ _ ZNull Hlt); congruence).
      destruct (Pc x) as [P1 P2]. rewrite E in Hvv.
      assert (Hltd : k < length (values_ d)).
      { destruct (Nat.lt_ge_cases k (length (values_ d))); [assumption|]. rewrite nth_overflow in Hvv by assumption. congruence. }
      rewrite (nth_indep _ _ ZNull Hltd) in Hvv.
      destruct (N.testbit (attributes_ d) (N.of_nat k)) eqn:Eb'; [congruence|].
      rewrite (ok_unset _ _ (rep_ok _ _ _ Hd) _ Eb') in Hvv. congruence. }
    destruct (r_map ra x) as [v|] eqn:Ea.
    + symmetry. eapply (Hdir a b); eassumption.
    + destruct (r_map rb x) as [v|] eqn:Eb; [|reflexivity]. exfalso.
      assert (r_map ra x = Some v); [|congruence]. eapply (Hdir b a); try eassumption. intros k. now rewrite E.
  - intros E.
    assert (Hname : forall it r k, rep m it r -> k < length (values_ it) -> exists x, index m x = Some k).
    { clear - Hd. intros it r k HH Hk. pose proof (ok_names _ _ (rep_ok _ _ _ HH)).
      destruct (nth_error m k) as [x|] eqn:Ex; [|apply nth_error_None in Ex; lia]. exists x. now apply index_nth. }
    assert (Hbit : forall k, N.testbit (attributes_ a) (N.of_nat k) = N.testbit (attributes_ b) (N.of_nat k)).
    { assert (Hdir : forall c d rc rd, rep m c rc -> rep m d rd -> (forall x, r_map rc x = r_map rd x) ->
                forall k, N.testbit (attributes_ c) (N.of_nat k) = true -> N.testbit (attributes_ d) (N.of_nat k) = true).
      { clear - Hslot Hname. intros c d rc rd Hc Hd E k Eb. pose proof (ok_bits _ _ (rep_ok _ _ _ Hc) _ Eb) as Hlt.
        destruct (Hname _ _ _ Hc Hlt) as [x Hx]. specialize (E x). rewrite (Hslot _ _ _ _ Hc Hx), (Hslot _ _ _ _ Hd Hx), Eb in E.
        destruct (N.testbit (attributes_ d) (N.of_nat k)); [reflexivity|discriminate]. }
      intros k. apply eq_true_iff_eq. split; [eapply (Hdir a b); eassumption|]. eapply (Hdir b a); try eassumption. intros x. now rewrite E. }
    assert (Hlen : length (values_ a) = length (values_ b)).
    { assert (Hdir : forall c d rc rd, rep m c rc -> rep m d rd ->
                (forall k, N.testbit (attributes_ c) (N.of_nat k) = N.testbit (attributes_ d) (N.of_nat k)) ->
                length (values_ c) <= length (values_ d)).
      { clear. intros c d rc rd Hc Hd Hbit. destruct (length (values_ c)) as [|n] eqn:El; [lia|].
        pose proof (ok_last _ _ (rep_ok _ _ _ Hc) _ El) as Hl. rewrite Hbit in Hl.
        apply (ok_bits _ _ (rep_ok _ _ _ Hd)) in Hl. lia. }
      apply Nat.le_antisymm; [eapply (Hdir a b)|eapply (Hdir b a)]; try eassumption. intros k. now rewrite Hbit. }
    intros k. destruct (Nat.lt_ge_cases k (length (values_ a))) as [Hk|Hk]; [|rewrite !nth_overflow by lia; reflexivity].
    rewrite (nth_indep _ _ ZNull Hk), (nth_indep (values_ b) _ ZNull) by lia.
    destruct (N.testbit (attributes_ a) (N.of_nat k)) eqn:Eb.
    + destruct (Hname _ _ _ Hr Hk) as [x Hx]. specialize (E x). rewrite (Hslot _ _ _ _ Hr Hx), (Hslot _ _ _ _ Hr' Hx), <- Hbit, Eb in E.
      congruence.
    + rewrite (ok_unset _ _ (rep_ok _ _ _ Hr) _ Eb). rewrite Hbit in Eb. now rewrite (ok_unset _ _ (rep_ok _ _ _ Hr') _ Eb).
Qed.

(** * Text that goes in and comes out *)
Local Open Scope Z_scope.
Lemma number_app acc a b : number acc (a ++ b) = number (number acc a) b.
Proof. revert acc. induction a as [|c a IH]; intros acc; cbn; auto. Qed.
Lemma digits_number f : forall i, 0 <= i < 10 ^ Z.of_nat f -> number 0 (digits f i) = i.
Proof.
  induction f as [|f IH]; intros i Hi; cbn [digits].
  - change (10 ^ Z.of_nat 0) with 1 in Hi. cbn. lia.
  - destruct (Z.eqb_spec i 0) as [->|]; [reflexivity|]. rewrite number_app, IH; cbn [number].
    + pose proof (Z.div_mod i 10 ltac:(lia)). lia.
    + rewrite Nat2Z.inj_succ, Z.pow_succ_r in Hi by lia. split; [apply Z.div_pos; lia|]. apply Z.div_lt_upper_bound; lia.
Qed.
Lemma digits_digits f : forall i, 0 <= i -> forallb is_digit (digits f i) = true.
Proof.
  induction f as [|f IH]; intros i Hi; cbn [digits]; [reflexivity|]. destruct (Z.eqb_spec i 0); [reflexivity|].
  rewrite forallb_app, IH by (apply Z.div_pos; lia). cbn [forallb andb]. unfold is_digit. pose proof (Z.mod_pos_bound i 10 ltac:(lia)).
  rewrite (proj2 (Z.leb_le 48 (48 + i mod 10))), (proj2 (Z.leb_le (48 + i mod 10) 57)) by lia. reflexivity.
Qed.
Definition decimal (i : Z) : str := if Z.abs i =? 0 then [48] else digits 16 (Z.abs i).
Lemma decimal_facts i : - 2 ^ 31 <= i < 2 ^ 31 -> decimal i <> [] /\ forallb is_digit (decimal i) = true /\ number 0 (decimal i) = Z.abs i.
Proof.
  intros Hi. unfold decimal. destruct (Z.eqb_spec (Z.abs i) 0) as [->|Hne]; [repeat split; discriminate|].
  split; [apply digits_nonempty; [lia|discriminate]|]. split; [apply digits_digits; lia|]. apply digits_number.
  change (10 ^ Z.of_nat 16) with 10000000000000000. lia.
Qed.
Lemma not_space c : is_digit c = true \/ c = 45 -> is_space c = false.
Proof.
  unfold is_digit, is_space. intros [H| ->]; [|reflexivity]. apply andb_true_iff in H as [H1 H2].
  apply Z.leb_le in H1. apply Z.leb_le in H2. rewrite orb_false_iff, andb_false_iff. split; [right; apply Z.leb_gt; lia|apply Z.eqb_neq; lia].
Qed.
Lemma whole_int_itoa i : - 2 ^ 31 <= i < 2 ^ 31 -> whole_int (itoa i) = Some i.
Proof.
  intros Hi. destruct (decimal_facts i Hi) as [Hne [Hd Hn]]. assert (Eit : itoa i = (if i <? 0 then [45] else []) ++ decimal i) by reflexivity. rewrite Eit. clear Eit.
  destruct (decimal i) as [|c ds] eqn:Ed; [congruence|].
  assert (Hc : is_digit c = true) by (cbn in Hd; now apply andb_true_iff in Hd as [Hd _]).
  assert (Hc1 : (c =? 45) = false /\ (c =? 43) = false).
  { unfold is_digit in Hc. apply andb_true_iff in Hc as [H1 H2]. apply Z.leb_le in H1. split; apply Z.eqb_neq; lia. }
  unfold whole_int. destruct (Z.ltb_spec i 0) as [Hneg|Hpos]; cbn [app skip_space].
  - change (is_space 45) with false. cbv iota. change (45 =? 45) with true. cbv iota. cbn [andb]. rewrite Hd, Hn.
    replace (- Z.abs i) with i by lia. rewrite (proj2 (Z.leb_le (- 2 ^ 31) i)), (proj2 (Z.ltb_lt i (2 ^ 31))) by lia. reflexivity.
  - rewrite (not_space c) by now left. destruct Hc1 as [-> ->]. cbn [andb]. rewrite Hd, Hn.
    replace (Z.abs i) with i by lia. rewrite (proj2 (Z.leb_le (- 2 ^ 31) i)), (proj2 (Z.ltb_lt i (2 ^ 31))) by lia. reflexivity.
Qed.
Lemma integer_small i : - 2 ^ 30 <= i < 2 ^ 30 -> integer_to_zvalue i = ZInt i.
Proof.
  intros Hi. unfold integer_to_zvalue, int32. rewrite Z.mod_small by lia. f_equal.
  replace (2 * i + 2 ^ 31 - 2 ^ 31) with (i * 2) by lia. apply Z.div_mul. lia.
Qed.
Lemma c_str_id s : ~ In 0 s -> c_str s = s.
Proof.
  induction s as [|c s IH]; intros H; cbn; [reflexivity|]. destruct (Z.eqb_spec c 0) as [->|]; [exfalso; apply H; now left|].
  rewrite IH; [reflexivity|]. intros C. apply H. now right.
Qed.
(** Numbers below 2^30 and texts that are neither numbers nor names of special values
    are read back as they were written. *)
Theorem C11_text_back os s i a x : run start os = Some s -> (i < length (items s))%nat ->
  (exists n, - 2 ^ 30 <= n < 2 ^ 30 /\ x = itoa n) \/ (whole_int x = None /\ ~ In 0 x /\ ~ In x [ANY; FALSE; EMPTY]) ->
  forall s', step s (SetValue i a x) = Some s' ->
  exists it, nth_error (items s') i = Some it /\ get_value_as_string (names s') it a = x.
Proof.
  intros H Hi Hx s' Hs.
  assert (Hsim : sim s (fold_left r_step os [])).
  { eapply run_sim; [|exact H]. split; constructor. }
  pose proof (step_sim _ _ _ _ Hsim Hs) as Hsim'.
  destruct (nth_error (items s') i) as [it|] eqn:Eit.
  2:{ exfalso. cbn in Hs. unfold on_item in Hs. destruct (nth_error (items s) i) as [it|] eqn:Ei; [|discriminate].
      unfold changed in Hs. destruct (set_value _ _ _ _) as [[m1 it1]|]; [|discriminate]. injection Hs as <-.
      cbn [items] in Eit. clear - Ei Eit. revert i Ei Eit. induction (items s) as [|y l IH]; intros [|i]; cbn; try discriminate. apply IH. }
  exists it. split; [reflexivity|].
  destruct Hsim' as [Hd Hall]. destruct (forall2_nth _ _ _ _ _ Hall Eit) as [r [Er Hr]].
  assert (Hmap : r_map r a = Some (value_of x)).
  { cbn [r_step] in Er. clear - Er. revert i Er. generalize (fold_left r_step os []) as rs. induction rs as [|y rs IH]; intros [|i]; cbn; try discriminate.
    - intros [= <-]. unfold set_r, update. cbn. destruct (str_dec a a); congruence.
    - apply IH. }
  assert (Hget : get_value (names s') it a = value_of x).
  { rewrite <- (rep_map _ _ _ Hr) in Hmap. unfold attr in Hmap. unfold get_value. destruct (index (names s') a); [|discriminate].
    destruct (N.testbit _ _); congruence. }
  unfold get_value_as_string. rewrite Hget. unfold value_of. destruct Hx as [[n [Hn ->]]|[Hw [H0 Hsp]]].
  - rewrite whole_int_itoa by lia. now rewrite integer_small.
  - rewrite Hw. unfold from_string. cbn [In] in Hsp.
    destruct (str_eqb x ANY) eqn:E1; [apply str_eqb_spec in E1; exfalso; apply Hsp; left; now symmetry|].
    destruct (str_eqb x NIL) eqn:E2; [apply str_eqb_spec in E2; now subst|]. cbn [orb].
    destruct (str_eqb x FAIL) eqn:E3; [apply str_eqb_spec in E3; now subst|].
    destruct (str_eqb x FALSE) eqn:E4; [apply str_eqb_spec in E4; exfalso; apply Hsp; right; left; now symmetry|].
    destruct (str_eqb x EMPTY) eqn:E5; [apply str_eqb_spec in E5; exfalso; apply Hsp; right; right; left; now symmetry|]. cbn [orb].
    cbn. now apply c_str_id.
Qed.

(** * What fails *)
Definition A0 : str := [97].
Definition A1 : str := [98].
Definition after (os : list op) : option (state) := run start os.
(** An attribute set to NULL or to the empty text counts as not set. *)
Theorem C11_equal_refuted : exists os s a b, run start os = Some s /\ items s = [a; b] /\ item_eqb a b = true /\
  get_values (names s) a = [(A0, [])] /\ get_values (names s) b = [].
Proof. exists [New [] []; New [] []; SetString 0 A0 []]. eexists _, _, _. split; [vm_compute; reflexivity|]. repeat split. Qed.
Theorem C11_equal_null_refuted : exists os s a b, run start os = Some s /\ items s = [a; b] /\ item_eqb a b = true /\
  get_values (names s) a = [(A0, FAIL); (A1, [120])] /\ get_values (names s) b = [(A1, [120])].
Proof.
  exists [New [] []; New [] []; SetValue 0 A0 FALSE; SetValue 0 A1 [120]; SetValue 1 A1 [120]].
  eexists _, _, _. split; [vm_compute; reflexivity|]. repeat split.
Qed.
(** "007", "any" and a number from 2^30 on come back changed. *)
Theorem C11_text_refuted :
  (exists s it, run start [New [] []; SetValue 0 A0 [48; 48; 55]] = Some s /\ items s = [it] /\ get_value_as_string (names s) it A0 = [55]) /\
  (exists s it, run start [New [] []; SetValue 0 A0 ANY] = Some s /\ items s = [it] /\ get_value_as_string (names s) it A0 = NIL) /\
  (exists s it, run start [New [] []; SetValue 0 A0 (itoa (2 ^ 30))] = Some s /\ items s = [it] /\
     get_value_as_string (names s) it A0 = itoa (- 2 ^ 30)).
Proof. repeat split; eexists _, _; (split; [vm_compute; reflexivity|]); split; vm_compute; reflexivity. Qed.

(** * Witnesses *)
Example ex_items : exists s a b, run start
   [New [110] [120]; SetValue 0 A0 [53]; New [110] [120]; SetValue 1 A1 [113]; SetValue 1 A0 [53]; AddValues 0 1; SetValue 1 A1 [114]; Copy 1; SetCategory 2 [109]] = Some s /\
   nth_error (items s) 0 = Some a /\ nth_error (items s) 1 = Some b /\
   get_values (names s) a = [(A0, [53]); (A1, [113])] /\ get_values (names s) b = [(A0, [53]); (A1, [114])] /\ item_eqb a b = false.
Proof. eexists _, _, _. split; [vm_compute; reflexivity|]. repeat split. Qed.
Example ex_plain : plain (Record [] [] (fun x => if str_dec A0 x then Some (ZInt 5) else None)).
Proof. intros a. cbn [r_map]. destruct (str_dec A0 a); split; discriminate. Qed.
Example ex_text : whole_int [49; 32] = None /\ itoa (-120) = [45; 49; 50; 48].
Proof. split; reflexivity. Qed.

Print Assumptions C11_history.
Print Assumptions C11_capacity.
Print Assumptions C11_equivalence.
Print Assumptions C11_hash.
Print Assumptions C11_equal.
Print Assumptions C11_text_back.
Print Assumptions C11_equal_refuted.
Print Assumptions C11_equal_null_refuted.
Print Assumptions C11_text_refuted.

(** C84: the tagset of the puddle parser. *)
From Coq Require Import String Ascii.
From Coq Require Import List Arith Bool Lia Permutation Sorted.
From Verif Require Import M_PuddleText P_PuddleText M_PuddleTagset.
Import ListNotations.
Local Open Scope nat_scope.

(** * Specification *)

(** The order of the names of attributes, by their characters. *)
Inductive before : text -> text -> Prop :=
| before_end : forall y b, before [] (y :: b)
| before_head : forall x y a b, nat_of_ascii x < nat_of_ascii y -> before (x :: a) (y :: b)
| before_tail : forall x a b, before a b -> before (x :: a) (x :: b).

(** An attribute of a part of speech as it stands in the file: its name, or its
    name in brackets if it is optional. *)
Definition written (name : text) (optional : bool) : text :=
  if optional then lit "[" ++ name ++ lit "]" else name.
(** A name has no blanks and no brackets and is not that of the part of speech
    itself. *)
Record name_ok (a : text) : Prop := {
  n_some : a <> [];
  n_plain : forall c, In c a -> is_space c = false /\ c <> "["%char /\ c <> "]"%char;
  n_pos : a <> lit "pos"
}.

(** A choice: for every attribute one of its values, or nothing if it is
    optional. *)
Inductive choice (vals : text -> text -> Prop) :
  list (text * bool) -> list (text * text) -> Prop :=
| choice_nil : choice vals [] []
| choice_take : forall a o l v c, vals a v -> choice vals l c -> choice vals ((a, o) :: l) ((a, v) :: c)
| choice_skip : forall a l c, choice vals l c -> choice vals ((a, true) :: l) c.

(** The values of an attribute in the tagset. *)
Definition vals (T : tagset) (a v : text) : Prop :=
  exists vs, In (a, vs) (attributes T) /\ In v vs.

(** The tagset is good: names of parts of speech and of attributes are unique,
    and the attributes of a part of speech are different and have good names. *)
Record good (T : tagset) : Prop := {
  g_attrs : NoDup (map fst (attributes T));
  g_parts : NoDup (map fst (parts T));
  g_some : forall p specs, In (p, specs) (parts T) -> p <> [];
  g_specs : forall p specs, In (p, specs) (parts T) ->
    exists l, specs = map (fun ao => written (fst ao) (snd ao)) l
      /\ NoDup (map fst l) /\ forall a o, In (a, o) l -> name_ok a
}.

(** * Order and maps *)

Lemma text_eqb_spec a b : reflect (a = b) (text_eqb a b).
Proof. unfold text_eqb. destruct (list_eq_dec ascii_dec a b); now constructor. Qed.
Lemma text_eqb_refl a : text_eqb a a = true.
Proof. now destruct (text_eqb_spec a a). Qed.

Lemma nat_ascii_inj x y : nat_of_ascii x = nat_of_ascii y -> x = y.
Proof. intro H. rewrite <- (ascii_nat_embedding x), <- (ascii_nat_embedding y). now rewrite H. Qed.

Lemma ltb_before a : forall b, text_ltb a b = true <-> before a b.
Proof.
  induction a as [|x a IH]; intros [|y b]; cbn [text_ltb].
  - split; [discriminate|inversion 1].
  - split; [constructor|reflexivity].
  - split; [discriminate|inversion 1].
  - destruct (Nat.ltb_spec (nat_of_ascii x) (nat_of_ascii y)) as [L|L].
    { split; [now constructor|reflexivity]. }
    destruct (Nat.ltb_spec (nat_of_ascii y) (nat_of_ascii x)) as [M|M].
    { split; [discriminate|]. inversion 1; subst; lia. }
    rewrite IH. split.
    + intro H. assert (x = y) as -> by (apply nat_ascii_inj; lia). now constructor.
    + inversion 1; subst; [lia|assumption].
Qed.

Lemma before_irrefl a : ~ before a a.
Proof. induction a as [|x a IH]; inversion 1; subst; [lia|auto]. Qed.
Lemma before_trans a : forall b c, before a b -> before b c -> before a c.
Proof.
  induction a as [|x a IH]; intros b c H1 H2; inversion H1; subst; inversion H2; subst;
    try apply before_end; try (apply before_head; lia); apply before_tail; eauto.
Qed.
Lemma before_total a : forall b, before a b \/ a = b \/ before b a.
Proof.
  induction a as [|x a IH]; intros [|y b]; [auto|left; constructor|right; right; constructor|].
  destruct (lt_eq_lt_dec (nat_of_ascii x) (nat_of_ascii y)) as [[L|Q]|L].
  - left. now constructor.
  - apply nat_ascii_inj in Q. subst y. destruct (IH b) as [H|[->|H]];
      [left; now constructor|auto|right; right; now constructor].
  - right. right. now constructor.
Qed.

Definition kb {V} (x y : text * V) : Prop := before (fst x) (fst y).

Lemma find_In {V} k (m : list (text * V)) v : NoDup (map fst m) ->
  (find_key k m = Some v <-> In (k, v) m).
Proof.
  induction m as [|(k', v') m IH]; intro N; cbn [find_key map fst] in *.
  - split; [discriminate|intros []].
  - inversion N as [|? ? N1 N2]; subst. destruct (text_eqb_spec k' k) as [->|D].
    + split.
      * intro H. injection H as ->. now left.
      * intros [H|H]; [congruence|]. exfalso. apply N1. apply in_map_iff. now exists (k, v).
    + rewrite (IH N2). split; [now right|]. intros [H|H]; [congruence|exact H].
Qed.

Lemma insert_perm {V} k (v : V) m : ~ In k (map fst m) -> Permutation (insert_new k v m) ((k, v) :: m).
Proof.
  induction m as [|(k', v') m IH]; intro N; [reflexivity|]. cbn [insert_new].
  destruct (text_ltb k k') eqn:L1; [reflexivity|]. destruct (text_ltb k' k) eqn:L2.
  - rewrite IH; [apply perm_swap|]. intro H. apply N. now right.
  - exfalso. apply N. left. cbn. destruct (before_total k k') as [H|[H|H]]; [|auto|];
      apply ltb_before in H; congruence.
Qed.

Lemma insert_sorted {V} k (v : V) m : StronglySorted kb m -> StronglySorted kb (insert_new k v m).
Proof.
  induction m as [|(k', v') m IH]; intro S; cbn [insert_new]; [repeat constructor|].
  inversion S as [|? ? S1 F]; subst. destruct (text_ltb k k') eqn:L1.
  - apply ltb_before in L1. constructor; [exact S|]. constructor; [exact L1|].
    revert F. apply Forall_impl. intros (a, b) H. cbn in *. eapply before_trans; eauto.
  - destruct (text_ltb k' k) eqn:L2; [|exact S]. apply ltb_before in L2.
    constructor; [now apply IH|]. apply Forall_forall. intros (a, b) I.
    assert (X : In (a, b) m \/ (a, b) = (k, v)).
    { clear - I. induction m as [|(k'', v'') m IH]; cbn [insert_new] in I.
      - destruct I as [I|[]]. auto.
      - destruct (text_ltb k k''); [destruct I as [I|I]; auto; now right|].
        destruct (text_ltb k'' k).
        + destruct I as [I|I]; [left; now left|]. destruct (IH I); auto. left. now right.
        + now left. }
    destruct X as [X|X].
    + rewrite Forall_forall in F. now apply F in X.
    + injection X as -> ->. exact L2.
Qed.

Lemma sorted_perm_eq {V} (a : list (text * V)) : forall b,
  StronglySorted kb a -> StronglySorted kb b -> Permutation a b -> a = b.
Proof.
  induction a as [|x a IH]; intros [|y b] SA SB P.
  - reflexivity.
  - apply Permutation_length in P. discriminate.
  - apply Permutation_length in P. discriminate.
  - inversion SA as [|? ? SA1 FA]; inversion SB as [|? ? SB1 FB]; subst.
    rewrite Forall_forall in FA, FB.
    assert (x = y).
    { assert (I1 : In x (y :: b)) by (eapply Permutation_in; [exact P|now left]).
      assert (I2 : In y (x :: a)) by (eapply Permutation_in; [symmetry; exact P|now left]).
      destruct I1 as [I1|I1]; [auto|]. destruct I2 as [I2|I2]; [auto|].
      exfalso. apply FB in I1. apply FA in I2. unfold kb in *.
      apply (before_irrefl (fst x)). eapply before_trans; eauto. }
    subst y. f_equal. apply IH; auto. now apply Permutation_cons_inv in P.
Qed.

Lemma fold_insert {V} c : forall m : list (text * V),
  StronglySorted kb m -> NoDup (map fst m ++ map fst c) ->
  StronglySorted kb (fold_left (fun m kv => insert_new (fst kv) (snd kv) m) c m)
  /\ Permutation (fold_left (fun m kv => insert_new (fst kv) (snd kv) m) c m) (m ++ c).
Proof.
  induction c as [|(k, v) c IH]; intros m S N; cbn [fold_left map fst snd] in *.
  - split; [exact S|now rewrite app_nil_r].
  - assert (NK : ~ In k (map fst m)).
    { intro H. apply NoDup_remove_2 in N. apply N. apply in_or_app. now left. }
    pose proof (insert_perm k v m NK) as IP.
    destruct (IH (insert_new k v m)) as (S' & P').
    + now apply insert_sorted.
    + apply Permutation_NoDup with (l := map fst m ++ k :: map fst c); [|exact N].
      transitivity (k :: map fst m ++ map fst c); [symmetry; apply Permutation_middle|].
      apply (Permutation_map fst) in IP. cbn [map fst] in IP. rewrite IP. reflexivity.
    + split; [exact S'|]. rewrite P', IP. apply Permutation_middle.
Qed.

(** * Names *)

Lemma spec_of_written a o : name_ok a -> spec_of (written a o) = (a, o).
Proof.
  intros [N1 N2 N3]. destruct o; cbn [written].
  - cbn [lit list_ascii_of_string app spec_of].
    rewrite rev_app_distr. cbn [rev app]. rewrite !Ascii.eqb_refl.
    replace (text_eqb (rev a) []) with false.
    2:{ destruct (text_eqb_spec (rev a) []) as [H|]; [|reflexivity]. exfalso. apply N1.
        rewrite <- (rev_involutive a), H. reflexivity. }
    replace (forallb _ (rev a)) with true.
    { cbn. now rewrite rev_involutive. }
    symmetry. apply forallb_forall. intros c C. apply in_rev in C. destruct (N2 c C) as (S & B1 & B2).
    rewrite S. unfold one_of. cbn. apply Ascii.eqb_neq in B1, B2. now rewrite B1, B2.
  - destruct a as [|c r]; [reflexivity|]. cbn [spec_of]. destruct (rev r) as [|d w]; [reflexivity|].
    destruct (N2 c (or_introl eq_refl)) as (_ & B & _). apply Ascii.eqb_neq in B. now rewrite B.
Qed.

Lemma unbracket_name a : name_ok a -> unbracket a = a.
Proof.
  intros [N1 N2 N3]. destruct a as [|c r]; [reflexivity|]. cbn [unbracket].
  destruct (N2 c (or_introl eq_refl)) as (_ & B & _). apply Ascii.eqb_neq in B. now rewrite B.
Qed.

Lemma unbracket_written a o : name_ok a -> unbracket (written a o) = a.
Proof.
  intro N. destruct o; cbn [written]; [|now apply unbracket_name].
  cbn [lit list_ascii_of_string app unbracket tl]. rewrite Ascii.eqb_refl.
  replace (List.last ("["%char :: a ++ ["]"%char]) "0"%char) with "]"%char.
  - rewrite Ascii.eqb_refl. cbn. apply removelast_last.
  - symmetry. change ("["%char :: a ++ ["]"%char]) with (("["%char :: a) ++ ["]"%char]). apply last_last.
Qed.

(** * Labels *)

Lemma vals_find T a v : good T ->
  (vals T a v <-> In v match find_key a (attributes T) with Some vs => vs | None => [] end).
Proof.
  intro G. unfold vals. split.
  - intros (vs & I & J). apply (find_In _ _ _ (g_attrs T G)) in I. now rewrite I.
  - destruct (find_key a (attributes T)) as [vs|] eqn:F; [|intros []]. intro J. exists vs.
    split; [now apply (find_In _ _ _ (g_attrs T G))|exact J].
Qed.

Lemma morphologies_spec T l : good T -> (forall a o, In (a, o) l -> name_ok a) -> forall ms m,
  (In m (fold_left (extend T) (map (fun ao => written (fst ao) (snd ao)) l) ms) <->
   exists m0 c, In m0 ms /\ choice (vals T) l c
     /\ m = fold_left (fun m kv => insert_new (fst kv) (snd kv) m) c m0).
Proof.
  intros G. induction l as [|(a, o) l IH]; intros N ms m; cbn [map fold_left fst snd].
  - split.
    + intro H. exists m, []. repeat split; [exact H|constructor].
    + intros (m0 & c & I & C & ->). inversion C; subst. exact I.
  - rewrite IH by (intros b p I; apply (N b p); now right).
    assert (NA : name_ok a) by (apply (N a o); now left).
    unfold extend. rewrite spec_of_written by exact NA.
    set (vs := match find_key a (attributes T) with Some vs => vs | None => [] end).
    set (tmp := flat_map (fun m => map (fun v => insert_new a v m) vs) ms).
    assert (TS : forall x, In x tmp <-> exists m0 v, In m0 ms /\ vals T a v /\ x = insert_new a v m0).
    { intro x. unfold tmp. rewrite in_flat_map. split.
      - intros (m0 & I & J). apply in_map_iff in J as (v & <- & J). exists m0, v.
        split; [exact I|]. split; [|reflexivity]. now apply (vals_find T a v G).
      - intros (m0 & v & I & J & ->). exists m0. split; [exact I|]. apply in_map_iff. exists v.
        split; [reflexivity|]. now apply (vals_find T a v G). }
    split.
    + intros (m0 & c & I & C & ->).
      assert (X : In m0 tmp \/ (o = true /\ In m0 ms)).
      { destruct o; [apply in_app_iff in I as [I|I]; auto|auto]. }
      destruct X as [X|(-> & X)].
      * apply TS in X as (m1 & v & X & V & ->). exists m1, ((a, v) :: c). split; [exact X|].
        split; [now constructor|reflexivity].
      * exists m0, c. split; [exact X|]. split; [now constructor|reflexivity].
    + intros (m0 & c & I & C & ->). inversion C as [|? ? ? v c' V C' |? ? ? C']; subst.
      * exists (insert_new a v m0), c'. split; [|split; [exact C'|reflexivity]].
        assert (In (insert_new a v m0) tmp) by (apply TS; now exists m0, v).
        destruct o; [apply in_app_iff; now right|assumption].
      * exists m0, c. split; [apply in_app_iff; now left|]. split; [exact C'|reflexivity].
Qed.

Lemma choice_names vs l c : choice vs l c -> forall k, In k (map fst c) -> In k (map fst l).
Proof.
  induction 1; intros k I; cbn in *; [exact I| |right; auto].
  destruct I as [I|I]; [now left|right; auto].
Qed.
Lemma choice_NoDup vs l c : choice vs l c -> NoDup (map fst l) -> NoDup (map fst c).
Proof.
  induction 1 as [|a o l v c V C IH|a l c C IH]; intro N; cbn in *; [constructor| |].
  - inversion N; subst. constructor; [|auto]. intro I. now apply (choice_names _ _ _ C) in I.
  - inversion N; subst. auto.
Qed.

Lemma filter_perm {A} (f : A -> bool) a b : Permutation a b -> Permutation (filter f a) (filter f b).
Proof.
  induction 1; cbn; [reflexivity| | |etransitivity; eauto].
  - destruct (f x); [now constructor|assumption].
  - destruct (f x), (f y); try reflexivity. apply perm_swap.
Qed.
Lemma filter_sorted {A} (R : A -> A -> Prop) f (l : list A) : StronglySorted R l -> StronglySorted R (filter f l).
Proof.
  induction 1 as [|x l S IH F]; cbn; [constructor|]. destruct (f x); [|exact IH].
  constructor; [exact IH|]. rewrite Forall_forall in *. intros y Y. apply filter_In in Y as (Y & _). auto.
Qed.

Lemma lookup_In k v m : NoDup (map fst m) -> In (k, v) m -> lookup k m = v.
Proof.
  induction m as [|(k', v') m IH]; intros N I; [destruct I|]. cbn [lookup map fst] in *.
  inversion N as [|? ? N1 N2]; subst. destruct (text_eqb_spec k' k) as [->|D].
  - destruct I as [I|I]; [congruence|]. exfalso. apply N1. apply in_map_iff. now exists (k, v).
  - destruct I as [I|I]; [congruence|auto].
Qed.

(** The string of the morphology made of a choice. *)
Lemma choice_string p c m : p <> [] -> NoDup (map fst c) -> ~ In (lit "pos") (map fst c) ->
  m = fold_left (fun m kv => insert_new (fst kv) (snd kv) m) c [(lit "pos", p)] ->
  exists s, StronglySorted kb s /\ Permutation s c /\ morphology_string m = join (p :: map snd s).
Proof.
  intros PN N NP ->.
  destruct (fold_insert c [(lit "pos", p)]) as (S & P).
  { repeat constructor. }
  { cbn [map fst app]. constructor; assumption. }
  set (m := fold_left _ c _) in *. cbn [app] in P.
  assert (ND : NoDup (map fst m)).
  { apply Permutation_NoDup with (l := map fst ((lit "pos", p) :: c)).
    - symmetry. now apply Permutation_map.
    - cbn [map fst]. now constructor. }
  assert (LP : lookup (lit "pos") m = p).
  { apply lookup_In; [exact ND|]. eapply Permutation_in; [symmetry; exact P|now left]. }
  exists (filter (fun av => negb (text_eqb (fst av) (lit "pos"))) m). split; [now apply filter_sorted|].
  split.
  - rewrite (filter_perm _ _ _ P). cbn [filter fst]. rewrite text_eqb_refl. cbn [negb].
    replace (filter _ c) with c; [reflexivity|]. clear - NP. induction c as [|(k, v) c IH]; [reflexivity|].
    cbn [filter map fst] in *. destruct (text_eqb_spec k (lit "pos")) as [->|D].
    + exfalso. apply NP. now left.
    + cbn [negb]. f_equal. apply IH. intro H. apply NP. now right.
  - rewrite C80_morphology by (now rewrite LP). rewrite LP. reflexivity.
Qed.

(** The proper labels: a part of speech and one value for each of its
    attributes, or none where it is optional, in the alphabetical order of the
    attributes. *)
Theorem C84_labels : forall T l, good T ->
  (In l (labels T) <->
   exists p specs attrs c s,
     In (p, specs) (parts T)
     /\ specs = map (fun ao => written (fst ao) (snd ao)) attrs
     /\ (forall a o, In (a, o) attrs -> name_ok a)
     /\ choice (vals T) attrs c
     /\ Permutation s c /\ StronglySorted (fun x y => before (fst x) (fst y)) s
     /\ l = join (p :: map snd s)).
Proof.
  intros T l G. unfold labels. rewrite in_flat_map.
  assert (WI : forall l1 l2, (forall a o, In (a, o) l1 -> name_ok a) -> (forall a o, In (a, o) l2 -> name_ok a) ->
     map (fun ao => written (fst ao) (snd ao)) l1 = map (fun ao => written (fst ao) (snd ao)) l2 -> l1 = l2).
  { induction l1 as [|(a, o) l1 IH]; intros [|(b, q) l2] N1 N2 H; try reflexivity; try discriminate.
    cbn [map fst snd] in H. injection H as H1 H2. f_equal.
    - rewrite <- (spec_of_written a o), <- (spec_of_written b q); [now rewrite H1| |].
      + apply (N2 b q). now left.
      + apply (N1 a o). now left.
    - apply IH; [intros; apply (N1 a0 o0); now right|intros; apply (N2 a0 o0); now right|exact H2]. }
  split.
  - intros ((p, specs) & I & H). cbn [fst snd] in H. apply in_map_iff in H as (m & <- & H).
    destruct (g_specs T G p specs I) as (attrs & -> & ND & NK). unfold morphologies in H.
    apply (morphologies_spec T attrs G NK) in H as (m0 & c & [<-|[]] & C & ->).
    assert (NP : ~ In (lit "pos") (map fst c)).
    { intro H. apply (choice_names _ _ _ C) in H. apply in_map_iff in H as ((a, o) & Q & H).
      cbn in Q. subst a. now apply (n_pos _ (NK _ _ H)). }
    destruct (choice_string p c _ (g_some T G _ _ I) (choice_NoDup _ _ _ C ND) NP eq_refl)
      as (s & S & P & E).
    exists p, (map (fun ao => written (fst ao) (snd ao)) attrs), attrs, c, s.
    split; [exact I|]. split; [reflexivity|]. split; [exact NK|]. split; [exact C|].
    split; [exact P|]. split; [exact S|exact E].
  - intros (p & specs & attrs & c & s & I & -> & NK & C & P & S & ->).
    destruct (g_specs T G _ _ I) as (attrs' & Q & ND & NK').
    apply (WI _ _ NK NK') in Q. subst attrs'.
    exists (p, map (fun ao => written (fst ao) (snd ao)) attrs). split; [exact I|]. cbn [fst snd].
    apply in_map_iff.
    set (m := fold_left (fun m kv => insert_new (fst kv) (snd kv) m) c [(lit "pos", p)]).
    exists m. split.
    + destruct (choice_string p c m (g_some T G _ _ I) (choice_NoDup _ _ _ C ND)) as (s' & S' & P' & E).
      { intro H. apply (choice_names _ _ _ C) in H. apply in_map_iff in H as ((a, o) & Q & H).
        cbn in Q. subst a. now apply (n_pos _ (NK _ _ H)). }
      { reflexivity. }
      rewrite E. do 2 f_equal. f_equal. apply sorted_perm_eq; [exact S'|exact S|].
      now rewrite P', P.
    + unfold morphologies. apply (morphologies_spec T attrs G NK). exists [(lit "pos", p)], c.
      split; [now left|]. split; [exact C|reflexivity].
Qed.
Print Assumptions C84_labels.

(** * Reading a label *)

Lemma split_on_no f s : (forall c, In c s -> f c = false) -> split_on f s = [s].
Proof.
  induction s as [|c s IH]; intro N; [reflexivity|]. cbn.
  rewrite (N c (or_introl eq_refl)), IH; [reflexivity|]. intros d D. apply N. now right.
Qed.
Lemma split_on_app f a c s : (forall c, In c a -> f c = false) -> f c = true ->
  split_on f (a ++ c :: s) = a :: split_on f s.
Proof.
  induction a as [|x a IH]; intros N F; cbn; [now rewrite F|].
  rewrite (N x (or_introl eq_refl)), IH; [reflexivity| |exact F]. intros d D. apply N. now right.
Qed.
Lemma split_join l : l <> [] -> (forall w c, In w l -> In c w -> c <> ":"%char) ->
  split_on (one_of ":") (join l) = l.
Proof.
  assert (OF : forall c, c <> ":"%char -> one_of ":" c = false).
  { intros c C. unfold one_of. cbn. apply Ascii.eqb_neq in C. now rewrite C. }
  induction l as [|w l IH]; intros N P; [congruence|]. destruct l as [|v l].
  - cbn. apply split_on_no. intros c C. apply OF. apply (P w); [now left|exact C].
  - rewrite join_cons2. cbn [lit list_ascii_of_string app].
    rewrite split_on_app; [|intros c C; apply OF; apply (P w); [now left|exact C]|reflexivity].
    f_equal. apply IH; [discriminate|]. intros u c U. apply P. now right.
Qed.

Lemma trim_left_id s : match s with c :: _ => is_space c = false | [] => True end -> trim_left s = s.
Proof. destruct s as [|c s]; intro H; cbn; [reflexivity|now rewrite H]. Qed.
Lemma trim_id s : (forall c, In c s -> is_space c = false) -> trim s = s.
Proof.
  intro H. unfold trim. rewrite (trim_left_id s).
  - rewrite trim_left_id; [apply rev_involutive|].
    destruct (rev s) as [|c r] eqn:R; [exact I|]. apply H. apply in_rev. rewrite R. now left.
  - destruct s; [exact I|]. apply H. now left.
Qed.

Lemma check_value_spec T a v : good T -> name_ok a -> (check_value T a v = true <-> vals T a v).
Proof.
  intros G N. unfold check_value. rewrite unbracket_name by exact N. rewrite (vals_find T a v G).
  destruct (find_key a (attributes T)) as [vs|]; [|split; [discriminate|intros []]].
  rewrite existsb_exists. split.
  - intros (w & W & Q). destruct (text_eqb_spec w v); [now subst|discriminate].
  - intro V. exists v. split; [exact V|apply text_eqb_refl].
Qed.

(** The loop over the values of a choice. *)
Lemma attr_loop_spec T p attrs c : good T -> p <> [] -> choice (vals T) attrs c ->
  (forall a o, In (a, o) attrs -> name_ok a) -> NoDup (map fst attrs) ->
  (forall a o b q v, In (a, o) attrs -> In (b, q) attrs -> vals T a v -> vals T b v -> a = b) ->
  (forall a v, In (a, v) c -> trim v = v) ->
  forall r, attr_loop T (map snd c) p (Some (map (fun ao => written (fst ao) (snd ao)) attrs)) r
  = Some (fold_left (fun m kv => insert_new (fst kv) (snd kv) m) c r).
Proof.
  intros G PN C. induction C as [|a o l v c V C IH|a l c C IH]; intros NK ND DJ TR r.
  - reflexivity.
  - cbn [map snd fst attr_loop]. destruct p as [|p0 p']; [congruence|].
    rewrite (TR a v) by now left. cbn [scan].
    assert (NA : name_ok a) by (apply (NK a o); now left).
    rewrite unbracket_written by exact NA. rewrite (proj2 (check_value_spec T a v G NA) V).
    cbn [map fst] in ND. inversion ND; subst.
    cbn [fold_left fst snd]. apply IH.
    + intros; eapply NK; right; eauto.
    + assumption.
    + intros; eapply DJ; try (right; eassumption); eauto.
    + intros; eapply TR; right; eauto.
  - cbn [map fst] in ND. inversion ND as [|? ? N1 N2]; subst.
    assert (IH' : forall r, attr_loop T (map snd c) p (Some (map (fun ao => written (fst ao) (snd ao)) l)) r
       = Some (fold_left (fun m kv => insert_new (fst kv) (snd kv) m) c r)).
    { apply IH; [intros; eapply NK; right; eauto|assumption| |assumption].
      intros; eapply DJ; try (right; eassumption); eauto. }
    rewrite <- IH'. destruct c as [|(b, v) c]; [reflexivity|].
    cbn [map snd fst attr_loop]. destruct p as [|p0 p']; [congruence|].
    cbn [scan]. assert (NA : name_ok a) by (apply (NK a true); now left).
    rewrite unbracket_written by exact NA.
    rewrite (TR b v) by now left.
    destruct (check_value T a v) eqn:CV; [|reflexivity]. exfalso.
    apply (check_value_spec T a v G NA) in CV.
    assert (B : exists q, In (b, q) l /\ vals T b v).
    { clear - C. remember ((b, v) :: c) as c' eqn:E. revert E. induction C as [|a o l w d V C IH|a l d C IH]; intro E.
      - discriminate.
      - injection E as -> -> ->. exists o. split; [now left|exact V].
      - destruct (IH E) as (q & Q & V). exists q. split; [now right|exact V]. }
    destruct B as (q & Q & VB).
    assert (a = b) by (eapply (DJ a true b q v); [now left|now right|exact CV|exact VB]). subst b.
    apply N1. apply in_map_iff. now exists (a, q).
Qed.

(** The attributes of a label that lists the values of a choice in the order of
    the attributes of its part of speech. *)
Theorem C84_attributes : forall T p attrs c, good T ->
  In (p, map (fun ao => written (fst ao) (snd ao)) attrs) (parts T) ->
  (forall a o, In (a, o) attrs -> name_ok a) -> NoDup (map fst attrs) ->
  choice (vals T) attrs c ->
  (forall a o b q v, In (a, o) attrs -> In (b, q) attrs -> vals T a v -> vals T b v -> a = b) ->
  (forall w x, In w (p :: map snd c) -> In x w -> is_space x = false /\ x <> ":"%char) ->
  exists m, get_attributes T (join (p :: map snd c)) = Some m
    /\ Permutation m ((lit "pos", p) :: c).
Proof.
  intros T p attrs c G I NK ND C DJ PL.
  assert (PN : p <> []) by (eapply g_some; eauto).
  unfold get_attributes. destruct (parts T) as [|x0 ps] eqn:PT; [destruct I|].
  rewrite split_join; [|discriminate|intros w x W X; now apply (PL w x)].
  cbn [attr_loop].
  assert (TP : trim p = p) by (apply trim_id; intros x X; apply (PL p x); [now left|exact X]).
  rewrite TP.
  assert (FP : find_key p (parts T) = Some (map (fun ao => written (fst ao) (snd ao)) attrs)).
  { apply find_In; [apply g_parts; exact G|]. now rewrite PT. }
  unfold check_pos. rewrite FP.
  assert (NP : ~ In (lit "pos") (map fst c)).
  { intro H. apply (choice_names _ _ _ C) in H. apply in_map_iff in H as ((a, o) & Q & H).
    cbn in Q. subst a. now apply (n_pos _ (NK _ _ H)). }
  exists (fold_left (fun m kv => insert_new (fst kv) (snd kv) m) c [(lit "pos", p)]). split.
  - cbn [insert_new].
    rewrite <- (attr_loop_spec T p attrs c G PN C NK ND DJ).
    + destruct c as [|(a, v) c]; [reflexivity|]. cbn [map snd attr_loop].
      destruct p as [|p0 p'] eqn:E; [congruence|]. rewrite <- E in *. rewrite E. rewrite <- E. now rewrite FP.
    + intros a v J. apply trim_id. intros x X. apply (PL v x); [|exact X]. right. apply in_map_iff.
      now exists (a, v).
  - destruct (fold_insert c [(lit "pos", p)]) as (_ & P); [repeat constructor| |exact P].
    cbn [map fst app]. constructor; [exact NP|]. eapply choice_NoDup; eauto.
Qed.
Print Assumptions C84_attributes.

(** * A proper label is read as it was made *)

(** If the attributes of a part of speech stand in alphabetical order then its
    proper labels are read back. *)
Theorem C84_round : forall T p attrs c s, good T ->
  In (p, map (fun ao => written (fst ao) (snd ao)) attrs) (parts T) ->
  (forall a o, In (a, o) attrs -> name_ok a) ->
  StronglySorted (fun x y => before (fst x) (fst y)) attrs ->
  choice (vals T) attrs c ->
  Permutation s c -> StronglySorted (fun x y => before (fst x) (fst y)) s ->
  (forall a o b q v, In (a, o) attrs -> In (b, q) attrs -> vals T a v -> vals T b v -> a = b) ->
  (forall w x, In w (p :: map snd c) -> In x w -> is_space x = false /\ x <> ":"%char) ->
  In (join (p :: map snd s)) (labels T)
  /\ exists m, get_attributes T (join (p :: map snd s)) = Some m
       /\ Permutation m ((lit "pos", p) :: c).
Proof.
  intros T p attrs c s G I NK SA C P S DJ PL. split.
  - apply C84_labels; [exact G|]. exists p, (map (fun ao => written (fst ao) (snd ao)) attrs), attrs, c, s.
    split; [exact I|]. split; [reflexivity|]. split; [exact NK|]. split; [exact C|].
    split; [exact P|]. split; [exact S|reflexivity].
  - assert (SC : StronglySorted (fun x y : text * text => before (fst x) (fst y)) c).
    { clear - SA C. induction C as [|a o l v c V C IH|a l c C IH].
      - constructor.
      - inversion SA as [|? ? S1 F]; subst. constructor; [auto|]. rewrite Forall_forall in *.
        intros (k, w) K. cbn. assert (H : In k (map fst l)).
        { apply (choice_names _ _ _ C). apply in_map_iff. now exists (k, w). }
        apply in_map_iff in H as ((k', q) & Q & H). cbn in Q. subst k'. now apply F in H.
      - inversion SA; subst. auto. }
    assert (s = c) as -> by now apply sorted_perm_eq.
    apply (C84_attributes T p attrs c G I NK); auto.
    clear - SA. induction SA as [|(a, o) l S IH F]; cbn [map fst]; [constructor|].
    constructor; [|exact IH]. intro H. apply in_map_iff in H as ((b, q) & Q & H). cbn in Q. subst b.
    rewrite Forall_forall in F. apply F in H. now apply before_irrefl in H.
Qed.
Print Assumptions C84_round.

(** * Reading the file *)

(** The words of a line. *)
Definition words (s : text) : list text := map trim (split_on blank_tab s).
Definition pos_words (s : text) : list text := match s with [] => [] | _ => words s end.
Definition empty : tagset := Tagset [] [] [] [].

Lemma insert_In {V} k (v : V) m x : find_key k m = None ->
  (In x (insert_new k v m) <-> x = (k, v) \/ In x m).
Proof.
  intro F. assert (N : ~ In k (map fst m)).
  { intro H. apply in_map_iff in H as ((k', w) & Q & H). cbn in Q. subst k'. revert F H.
    clear. induction m as [|(k', w') m IH]; intros F H; [destruct H|]. cbn in F.
    destruct (text_eqb_spec k' k); [discriminate|]. destruct H as [H|H]; [congruence|auto]. }
  pose proof (insert_perm k v m N) as P. split; intro H.
  - apply (Permutation_in _ P) in H as [H|H]; auto.
  - apply (Permutation_in _ (Permutation_sym P)). destruct H as [->|H]; [now left|now right].
Qed.
Lemma find_none {V} k (m : list (text * V)) : find_key k m = None <-> ~ In k (map fst m).
Proof.
  induction m as [|(k', w') m IH]; cbn; [tauto|]. destruct (text_eqb_spec k' k) as [->|D].
  - split; [discriminate|]. intro H. exfalso. apply H. now left.
  - rewrite IH. tauto.
Qed.
Lemma insert_nodup {V} k (v : V) m : find_key k m = None -> NoDup (map fst m) ->
  NoDup (map fst (insert_new k v m)).
Proof.
  intros F N. apply find_none in F. apply Permutation_NoDup with (l := map fst ((k, v) :: m)).
  - symmetry. apply Permutation_map. now apply insert_perm.
  - cbn. now constructor.
Qed.

Record holds (es : list entry) (T : tagset) : Prop := {
  h_attr : forall k vs, In (k, vs) (attributes T) <-> exists s, In (Attr k s) es /\ vs = words s;
  h_pos : forall k vs, In (k, vs) (parts T) <-> exists s, In (Pos k s) es /\ vs = pos_words s;
  h_list : forall k, In k (attr_list T) <-> exists s, In (Attr k s) es;
  h_open : forall k, In k (opens T) <-> exists s, In (Open s) es /\ In k (words s);
  h_known : forall k, In k (opens T) -> In k (map fst (parts T));
  h_nodup : NoDup (map fst (attributes T)) /\ NoDup (map fst (parts T))
}.

Lemma open_loop_spec ws : forall T T', open_loop ws T = Some T' ->
  attr_list T' = attr_list T /\ attributes T' = attributes T /\ parts T' = parts T
  /\ opens T' = opens T ++ map trim ws
  /\ forall w, In w ws -> In (trim w) (map fst (parts T)).
Proof.
  induction ws as [|w ws IH]; intros T T' H; cbn [open_loop map] in H.
  - injection H as <-. rewrite app_nil_r. repeat split. intros w [].
  - destruct (find_key (trim w) (parts T)) as [x|] eqn:F; [|discriminate].
    apply IH in H as (H1 & H2 & H3 & H4 & H5). cbn in H1, H2, H3, H4, H5.
    rewrite <- app_assoc in H4. cbn [app] in H4.
    repeat split; try assumption. intros v [<-|V]; [|now apply H5].
    destruct (in_dec (list_eq_dec ascii_dec) (trim w) (map fst (parts T))) as [Y|Y]; [exact Y|].
    apply find_none in Y. congruence.
Qed.

Lemma read_step es T e T' : holds es T ->
  match e with
  | Attr k s => parse_attribute k s T
  | Pos k s => parse_pos k s T
  | Open s => open_loop (split_on blank_tab s) T
  end = Some T' -> holds (es ++ [e]) T'.
Proof.
  intros [A P L O K (N1 & N2)] H.
  assert (IA : forall {X : Prop} x, In x (es ++ [e]) <-> In x es \/ x = e).
  { intros _ x. rewrite in_app_iff. cbn. intuition. }
  destruct e as [k s|k s|s].
  - unfold parse_attribute in H. destruct (find_key k (attributes T)) eqn:F; [discriminate|].
    injection H as <-. split; cbn [attributes parts attr_list opens].
    + intros k' vs. rewrite insert_In by exact F. rewrite A. split.
      * intros [H|(s' & H & ->)].
        -- injection H as -> ->. exists s. rewrite (IA True). auto.
        -- exists s'. rewrite (IA True). auto.
      * intros (s' & H & ->). apply (IA True) in H as [H|H]; [right; now exists s'|].
        injection H as -> ->. now left.
    + intros k' vs. rewrite P. split; intros (s' & H & ->); exists s'; (split; [|reflexivity]).
      * apply (IA True). auto.
      * apply (IA True) in H as [H|H]; [exact H|discriminate].
    + intro k'. rewrite in_app_iff, L. cbn [In]. split.
      * intros [(s' & H)|[->|[]]]; [exists s'|exists s]; apply (IA True); auto.
      * intros (s' & H). apply (IA True) in H as [H|H]; [left; now exists s'|].
        injection H as -> _. auto.
    + intro k'. rewrite O. split; intros (s' & H & W); exists s'; (split; [|exact W]).
      * apply (IA True). auto.
      * apply (IA True) in H as [H|H]; [exact H|discriminate].
    + exact K.
    + split; [now apply insert_nodup|exact N2].
  - unfold parse_pos in H. destruct (find_key k (parts T)) eqn:F; [discriminate|].
    injection H as <-. split; cbn [attributes parts attr_list opens].
    + intros k' vs. rewrite A. split; intros (s' & H & ->); exists s'; (split; [|reflexivity]).
      * apply (IA True). auto.
      * apply (IA True) in H as [H|H]; [exact H|discriminate].
    + intros k' vs. rewrite insert_In by exact F. rewrite P. fold (words s). split.
      * intros [H|(s' & H & ->)].
        -- injection H as -> ->. exists s. rewrite (IA True). auto.
        -- exists s'. rewrite (IA True). auto.
      * intros (s' & H & ->). apply (IA True) in H as [H|H]; [right; now exists s'|].
        injection H as -> ->. now left.
    + intro k'. rewrite L. split; intros (s' & H); exists s'.
      * apply (IA True). auto.
      * apply (IA True) in H as [H|H]; [exact H|discriminate].
    + intro k'. rewrite O. split; intros (s' & H & W); exists s'; (split; [|exact W]).
      * apply (IA True). auto.
      * apply (IA True) in H as [H|H]; [exact H|discriminate].
    + intros k' H. apply K in H. apply in_map_iff in H as ((x, y) & <- & H). apply in_map_iff.
      exists (x, y). split; [reflexivity|]. apply insert_In; auto.
    + split; [exact N1|now apply insert_nodup].
  - apply open_loop_spec in H as (H1 & H2 & H3 & H4 & H5). split.
    + intros k' vs. rewrite H2, A. split; intros (s' & H & ->); exists s'; (split; [|reflexivity]).
      * apply (IA True). auto.
      * apply (IA True) in H as [H|H]; [exact H|discriminate].
    + intros k' vs. rewrite H3, P. split; intros (s' & H & ->); exists s'; (split; [|reflexivity]).
      * apply (IA True). auto.
      * apply (IA True) in H as [H|H]; [exact H|discriminate].
    + intro k'. rewrite H1, L. split; intros (s' & H); exists s'.
      * apply (IA True). auto.
      * apply (IA True) in H as [H|H]; [exact H|discriminate].
    + intro k'. rewrite H4, in_app_iff, O. split.
      * intros [(s' & H & W)|W]; [exists s'|exists s]; (split; [apply (IA True); auto|assumption]).
      * intros (s' & H & W). apply (IA True) in H as [H|H]; [left; now exists s'|].
        injection H as ->. right. exact W.
    + intros k'. rewrite H4, H3, in_app_iff. intros [H|H]; [auto|].
      apply in_map_iff in H as (w & <- & H). now apply H5.
    + rewrite H2, H3. auto.
Qed.

(** What was read: the attributes, the parts of speech and the open classes of
    the entries, every name once; open classes are parts of speech. *)
Theorem C84_read : forall es T, read_entries es empty = Some T -> holds es T.
Proof.
  assert (H : forall es done T0 T, holds done T0 -> read_entries es T0 = Some T -> holds (done ++ es) T).
  { induction es as [|e es IH]; intros done T0 T H R; cbn [read_entries] in R.
    - injection R as <-. now rewrite app_nil_r.
    - match type of R with match ?x with _ => _ end = _ => destruct x as [T1|] eqn:X end; [|discriminate].
      apply (read_step _ _ _ _ H) in X. apply (IH _ _ _ X) in R. now rewrite <- app_assoc in R. }
  intros es T R. apply (H es [] empty T); [|exact R]. unfold empty.
  split; cbn; try (intros; split; [intros []|]); try (intros (s & [] & _)); try (intros (s & []));
    try (intros k []). split; constructor.
Qed.
Print Assumptions C84_read.

(** A name that is given twice is refused. *)
Theorem C84_read_twice : forall es1 es2 es3 k s s',
  read_entries (es1 ++ Attr k s :: es2 ++ Attr k s' :: es3) empty = None
  /\ read_entries (es1 ++ Pos k s :: es2 ++ Pos k s' :: es3) empty = None.
Proof.
  assert (H : forall a b T, read_entries (a ++ b) T
    = match read_entries a T with Some T' => read_entries b T' | None => None end).
  { induction a as [|e a IH]; intros b T; [reflexivity|]. cbn [app read_entries].
    match goal with |- match ?x with _ => _ end = _ => destruct x as [T1|] end; [apply IH|reflexivity]. }
  intros es1 es2 es3 k s s'. split.
  - change (es1 ++ Attr k s :: es2 ++ Attr k s' :: es3)
      with (es1 ++ (Attr k s :: es2) ++ Attr k s' :: es3). rewrite app_assoc, H.
    destruct (read_entries (es1 ++ Attr k s :: es2) empty) as [T|] eqn:R; [|reflexivity].
    apply C84_read in R. cbn [read_entries]. unfold parse_attribute.
    destruct (find_key k (attributes T)) eqn:F; [reflexivity|]. exfalso.
    apply find_none in F. apply F. apply in_map_iff. exists (k, words s). split; [reflexivity|].
    apply (h_attr _ _ R). exists s. split; [|reflexivity]. apply in_or_app. right. now left.
  - change (es1 ++ Pos k s :: es2 ++ Pos k s' :: es3)
      with (es1 ++ (Pos k s :: es2) ++ Pos k s' :: es3). rewrite app_assoc, H.
    destruct (read_entries (es1 ++ Pos k s :: es2) empty) as [T|] eqn:R; [|reflexivity].
    apply C84_read in R. cbn [read_entries]. unfold parse_pos.
    destruct (find_key k (parts T)) eqn:F; [reflexivity|]. exfalso.
    apply find_none in F. apply F. apply in_map_iff. exists (k, pos_words s). split; [reflexivity|].
    apply (h_pos _ _ R). exists s. split; [|reflexivity]. apply in_or_app. right. now left.
Qed.
Print Assumptions C84_read_twice.

(** * The action add *)

(** The values that a part of the pattern asks for. *)
Definition asked (T : tagset) (a part v : text) : Prop :=
  if text_eqb part (lit "*") then vals T a v
  else In v (split_on (one_of ".") part).

Lemma add_loop_spec T p vs : good T -> (forall a, In a (attr_list T) <-> In a (map fst (attributes T))) ->
  forall i ms out, add_loop T p i vs ms = Some out ->
  forall m, In m out <-> exists m0 ws, In m0 ms
    /\ Forall2 (fun kv v => asked T (fst kv) v (snd kv)) ws vs
    /\ map fst ws = map (attribute_at T p) (seq i (length vs))
    /\ m = fold_left (fun m kv => insert_new (fst kv) (snd kv) m) ws m0.
Proof.
  intros G AL. induction vs as [|v vs IH]; intros i ms out H m; cbn [add_loop] in H.
  - injection H as <-. split.
    + intro I. exists m, []. cbn. auto.
    + intros (m0 & ws & I & F & _ & ->). inversion F; subst. exact I.
  - destruct (part_values T (attribute_at T p i) v) as [pv|] eqn:PV; [|discriminate].
    assert (PS : forall w, In w pv <-> asked T (attribute_at T p i) v w).
    { intro w. unfold asked. unfold part_values in PV. destruct (text_eqb v (lit "*")).
      - injection PV as <-. unfold attribute_values. rewrite (vals_find T _ w G).
        destruct (check_attribute T (attribute_at T p i)) eqn:CA; [reflexivity|].
        destruct (find_key (attribute_at T p i) (attributes T)) as [x|] eqn:F; [|reflexivity].
        exfalso. apply not_true_iff_false in CA. apply CA. unfold check_attribute.
        apply existsb_exists. exists (attribute_at T p i). split; [|apply text_eqb_refl].
        apply AL. apply (find_In _ _ _ (g_attrs T G)) in F. apply in_map_iff. now exists (attribute_at T p i, x).
      - destruct (existsb (Ascii.eqb ".") v) eqn:DOT.
        + destruct (forallb _ _); [|discriminate]. injection PV as <-. reflexivity.
        + destruct (forallb _ _); [|discriminate]. injection PV as <-.
          rewrite split_on_no; [reflexivity|]. intros c C. unfold one_of. cbn. rewrite orb_false_r.
          apply Ascii.eqb_neq. intros ->. apply not_true_iff_false in DOT. apply DOT.
          apply existsb_exists. exists "."%char. split; [exact C|reflexivity]. }
    rewrite (IH (S i) _ _ H m). split.
    + intros (m0 & ws & I & F & K & ->). apply in_flat_map in I as (w & W & I).
      apply in_map_iff in I as (m1 & <- & I). exists m1, ((attribute_at T p i, w) :: ws).
      split; [exact I|]. split; [constructor; [now apply PS|exact F]|].
      split; [cbn; now rewrite K|reflexivity].
    + intros (m0 & ws & I & F & K & ->). inversion F as [|(k, w) ? ws' ? A F']; subst.
      cbn [map fst length seq] in K. injection K as -> K. cbn [fst snd] in A.
      exists (insert_new (attribute_at T p i) w m0), ws'. split.
      * apply in_flat_map. exists w. split; [now apply PS|]. apply in_map_iff. now exists m0.
      * split; [exact F'|]. split; [exact K|reflexivity].
Qed.

(** The interpretations that a pattern adds are exactly those in which every
    attribute, by its position, has one of the values asked for, and all are
    proper. *)
Theorem C84_add : forall es T pattern p vs out,
  read_entries es empty = Some T -> good T ->
  split_on (one_of ":") pattern = p :: vs ->
  add_interpretation T pattern = Some out ->
  (forall m, In m out <-> exists ws,
     Forall2 (fun kv v => asked T (fst kv) v (snd kv)) ws vs
     /\ map fst ws = map (attribute_at T p) (seq 0 (length vs))
     /\ m = fold_left (fun m kv => insert_new (fst kv) (snd kv) m) ws [(lit "pos", p)])
  /\ forall m, In m out -> In (morphology_string m) (labels T).
Proof.
  intros es T pattern p vs out R G SP H. unfold add_interpretation in H. rewrite SP in H.
  destruct (check_pos T p); [|discriminate].
  destruct (add_loop T p 0 vs [[(lit "pos", p)]]) as [ms|] eqn:A; [|discriminate].
  destruct (forallb _ ms) eqn:CM; [|discriminate]. injection H as ->.
  assert (AL : forall a, In a (attr_list T) <-> In a (map fst (attributes T))).
  { apply C84_read in R. intro a. rewrite (h_list _ _ R). split.
    - intros (s & S). apply in_map_iff. exists (a, words s). split; [reflexivity|].
      apply (h_attr _ _ R). now exists s.
    - intro I. apply in_map_iff in I as ((k, x) & <- & I). apply (h_attr _ _ R) in I as (s & S & _).
      now exists s. }
  split.
  - intro m. rewrite (add_loop_spec T p vs G AL _ _ _ A m). split.
    + intros (m0 & ws & [<-|[]] & W). now exists ws.
    + intros (ws & W). exists [(lit "pos", p)], ws. split; [now left|exact W].
  - intros m I. rewrite forallb_forall in CM. apply CM in I. unfold check_morphology in I.
    apply existsb_exists in I as (l & L & Q). destruct (text_eqb_spec (morphology_string m) l); [now subst|discriminate].
Qed.
Print Assumptions C84_add.

(** * Cases *)

Definition ex_entries : list entry :=
  [Attr (lit "case") (lit "nom gen"); Attr (lit "number") (lit "sg pl");
   Attr (lit "degree") (lit "pos com");
   Pos (lit "adj") (lit "case [degree] number"); Pos (lit "conj") []; Open (lit "adj")].
Definition ex_T : tagset :=
  Tagset [lit "case"; lit "number"; lit "degree"]
         [(lit "case", [lit "nom"; lit "gen"]); (lit "degree", [lit "pos"; lit "com"]);
          (lit "number", [lit "sg"; lit "pl"])]
         [(lit "adj", [lit "case"; lit "[degree]"; lit "number"]); (lit "conj", [])]
         [lit "adj"].
Example ex_read : read_entries ex_entries empty = Some ex_T.
Proof. vm_compute. reflexivity. Qed.

Ltac plain_name :=
  split; [discriminate|intros c C; cbn in C; intuition (subst; try reflexivity; discriminate)|discriminate].
Example ex_good : good ex_T.
Proof.
  split.
  - cbn. repeat constructor; cbn; intuition discriminate.
  - cbn. repeat constructor; cbn; intuition discriminate.
  - cbn. intros p specs [H|[H|[]]]; injection H as <- <-; discriminate.
  - cbn [parts ex_T]. intros p specs [H|[H|[]]]; injection H as <- <-.
    + exists [(lit "case", false); (lit "degree", true); (lit "number", false)].
      split; [reflexivity|]. split; [cbn; repeat constructor; cbn; intuition discriminate|].
      intros a o [H|[H|[H|[]]]]; injection H as <- <-; plain_name.
    + exists []. split; [reflexivity|]. split; [constructor|intros a o []].
Qed.
Example ex_labels : In (lit "adj:gen:com:sg") (labels ex_T) /\ In (lit "adj:gen:sg") (labels ex_T)
  /\ In (lit "conj") (labels ex_T) /\ length (labels ex_T) = 13.
Proof. vm_compute. intuition. Qed.
Example ex_attributes : get_attributes ex_T (lit "adj:gen:sg")
  = Some [(lit "case", lit "gen"); (lit "number", lit "sg"); (lit "pos", lit "adj")].
Proof. vm_compute. reflexivity. Qed.
Example ex_add : add_interpretation ex_T (lit "adj:*:com:sg.pl")
  = Some [[(lit "case", lit "nom"); (lit "degree", lit "com"); (lit "number", lit "sg"); (lit "pos", lit "adj")];
          [(lit "case", lit "gen"); (lit "degree", lit "com"); (lit "number", lit "sg"); (lit "pos", lit "adj")];
          [(lit "case", lit "nom"); (lit "degree", lit "com"); (lit "number", lit "pl"); (lit "pos", lit "adj")];
          [(lit "case", lit "gen"); (lit "degree", lit "com"); (lit "number", lit "pl"); (lit "pos", lit "adj")]].
Proof. vm_compute. reflexivity. Qed.

(** * What is not true *)

(** Attributes that do not stand in alphabetical order: a proper label is not
    read back, and a label in their order is not proper. *)
Definition ex_T2 : tagset :=
  Tagset [lit "number"; lit "case"]
         [(lit "case", [lit "nom"; lit "gen"]); (lit "number", [lit "sg"; lit "pl"])]
         [(lit "subst", [lit "number"; lit "case"])] [].
Theorem C84_order_refuted :
  read_entries [Attr (lit "number") (lit "sg pl"); Attr (lit "case") (lit "nom gen");
                Pos (lit "subst") (lit "number case")] empty = Some ex_T2
  /\ check_morphology ex_T2 (lit "subst:nom:sg") = true
  /\ get_attributes ex_T2 (lit "subst:nom:sg") = Some [(lit "case", lit "nom"); (lit "pos", lit "subst")]
  /\ check_morphology ex_T2 (lit "subst:sg:nom") = false.
Proof. split; [|split; [|split]]; vm_compute; reflexivity. Qed.
Print Assumptions C84_order_refuted.

(** The attributes of an unknown part of speech are taken from behind the end of
    the map. *)
Theorem C84_unknown_refuted :
  get_attributes ex_T (lit "verb") = Some [] /\ get_attributes ex_T (lit "verb:sg") = None.
Proof. split; vm_compute; reflexivity. Qed.
Print Assumptions C84_unknown_refuted.

(** Two blanks between values make an empty value, with which labels are
    proper. *)
Theorem C84_blank_refuted :
  exists T, read_entries [Attr (lit "number") (lit "sg  pl"); Pos (lit "subst") (lit "number")] empty = Some T
  /\ In (lit "subst:") (labels T).
Proof. eexists. split; [reflexivity|vm_compute; auto]. Qed.
Print Assumptions C84_blank_refuted.

(** A pattern with a star too many adds nothing, without an error. *)
Theorem C84_add_refuted :
  add_interpretation ex_T (lit "adj:nom:com:sg:*") = Some []
  /\ add_interpretation ex_T (lit "adj:nom:com:sg:x") = None.
Proof. split; vm_compute; reflexivity. Qed.
Print Assumptions C84_add_refuted.

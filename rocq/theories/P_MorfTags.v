(** C90: the tags of Morfologik and of SFST. *)
From Coq Require Import String Ascii.
From Coq Require Import List ZArith Bool Sorted Lia PeanoNat.
From Verif Require Import M_OrdSet L_OrdSet M_MultiStore M_Lamer P_Lamer M_MorfTags.
Import ListNotations.
Local Open Scope nat_scope.

(** * What is meant *)

Definition dot (c : Z) : Prop := c = 46%Z.
Definition colon (c : Z) : Prop := c = 58%Z.
(** A part of a tag has dots or not, and is of a kind: the text before its first dot is
    in the table. *)
Definition dotted (a : word) : Prop := In 46%Z a.
Definition before_dot (a h : word) : Prop := ~ dotted h /\ (a = h \/ exists r, a = h ++ 46%Z :: r).
Definition kind (table : list (word * word)) (a k : word) : Prop :=
  exists h t1 t2, before_dot a h /\ table = t1 ++ (h, k) :: t2 /\ ~ In h (map fst t1).
(** The first part of its kind. *)
Definition first_of (table : list (word * word)) (l1 : list word) (a k : word) : Prop :=
  kind table a k /\ forall b, In b l1 -> ~ kind table b k.
Definition described (table : list (word * word)) (parts : list word) (k v : word) : Prop :=
  exists l1 l2, parts = l1 ++ v :: l2 /\ first_of table l1 v k.
(** Every part with dots is the first of its kind. *)
Definition clean (table : list (word * word)) (parts : list word) : Prop :=
  forall l1 a l2, parts = l1 ++ a :: l2 -> dotted a -> exists k, first_of table l1 a k.
(** The descriptions in which every key has one of the values between the dots, in the
    order of the values, the first key being the slowest. *)
Inductive choices : feature_map -> list feature_map -> Prop :=
| choices_nil : choices [] [[]]
| choices_cons : forall k v vs m rs, fields dot v vs -> choices m rs ->
    choices ((k, v) :: m) (flat_map (fun x => map (cons (k, x)) rs) vs).

(** * Helpers *)

Lemma is_dot_spec c : is_dot c = true <-> dot c.
Proof. unfold is_dot, DOT, dot. apply Z.eqb_eq. Qed.
Lemma is_colon_spec c : is_colon c = true <-> colon c.
Proof. unfold is_colon, COLON, colon. apply Z.eqb_eq. Qed.
Lemma has_dot_spec s : has_dot s = true <-> dotted s.
Proof.
  unfold has_dot, dotted. rewrite existsb_exists. split; [intros (c & H & E); apply is_dot_spec in E; now rewrite <- E|].
  intros H. exists 46%Z. split; [exact H|reflexivity].
Qed.
Lemma has_dot_no s : has_dot s = false <-> ~ dotted s.
Proof. rewrite <- has_dot_spec. destruct (has_dot s); split; congruence. Qed.
Lemma head_before a : before_dot a (head a).
Proof.
  unfold before_dot, dotted. induction a as [|c a (N & IH)]; cbn [head]; [split; [easy|now left]|].
  destruct (is_dot c) eqn:E.
  - apply is_dot_spec in E. red in E. subst c. split; [easy|]. right. now exists a.
  - split; [intros [->|K]; [discriminate E|contradiction]|]. destruct IH as [IH|(r & IH)]; [left; congruence|right; exists r; cbn; congruence].
Qed.
Lemma before_fun a h h' : before_dot a h -> before_dot a h' -> h = h'.
Proof.
  unfold before_dot, dotted. revert h h'. induction a as [|c a IH]; intros h h' (N & E) (N' & E').
  - destruct E as [<-|(r & E)]; [|destruct h; discriminate E]. destruct E' as [E'|(r & E')]; [exact E'|destruct h'; discriminate E'].
  - destruct h as [|d h].
    + destruct E as [E|(r & E)]; [discriminate|]. injection E as -> ->. destruct h' as [|d h']; [reflexivity|].
      exfalso. apply N'. left. destruct E' as [E'|(r' & E')]; injection E'; congruence.
    + assert (d = c) as -> by (destruct E as [E|(r & E)]; injection E; congruence).
      destruct h' as [|d' h']; [exfalso; apply N; left; destruct E' as [E'|(r' & E')]; [discriminate|injection E'; congruence]|].
      assert (d' = c) as -> by (destruct E' as [E'|(r' & E')]; injection E'; congruence).
      f_equal. apply IH; (split; [intros K; first [apply N; right; exact K|apply N'; right; exact K]|]).
      * destruct E as [E|(r & E)]; injection E as E; [now left|right; now exists r].
      * destruct E' as [E'|(r & E')]; injection E' as E'; [now left|right; now exists r].
Qed.
Lemma look_first (t : list (word * word)) h k : look_up h t = Some k <-> exists t1 t2, t = t1 ++ (h, k) :: t2 /\ ~ In h (map fst t1).
Proof.
  induction t as [|[h' k'] t IH]; cbn [look_up].
  - split; [discriminate|]. intros (t1 & t2 & E & _). destruct t1; discriminate.
  - destruct (word_eqb h' h) eqn:E.
    + apply word_eqb_eq in E. subst h'. split.
      * intros K. injection K as ->. exists [], t. split; [reflexivity|easy].
      * intros (t1 & t2 & E & N). destruct t1 as [|[a b] t1]; cbn [app] in E; injection E; intros; [congruence|].
        exfalso. apply N. cbn. left. congruence.
    + apply word_eqb_neq in E. rewrite IH. split; intros (t1 & t2 & E' & N).
      * exists ((h', k') :: t1), t2. split; [cbn; congruence|]. intros [K|K]; [exact (E K)|contradiction].
      * destruct t1 as [|[a b] t1]; cbn [app] in E'; injection E'; intros E2 ? ?; [congruence|]. exists t1, t2. split; [exact E2|].
        intros K. apply N. now right.
Qed.
Lemma kind_look table a k : look_up (head a) table = Some k <-> kind table a k.
Proof.
  rewrite look_first. unfold kind. split.
  - intros (t1 & t2 & E & N). exists (head a), t1, t2. split; [apply head_before|]. now split.
  - intros (h & t1 & t2 & B & E & N). rewrite (before_fun _ _ _ (head_before a) B). now exists t1, t2.
Qed.
Lemma kind_fun table a k k' : kind table a k -> kind table a k' -> k = k'.
Proof. rewrite <- !kind_look. congruence. Qed.

Lemma insert_sorted k v m : sorted m -> sorted (insert k v m).
Proof. apply alter_sorted. Qed.
Lemma look_insert k v m : sorted m -> forall k', look_up k' (insert k v m) =
  if word_eqb k k' then Some (match look_up k m with Some x => x | None => v end) else look_up k' m.
Proof. intros So k'. unfold insert. now rewrite look_alter by exact So. Qed.
Lemma insert_there k v m x : sorted m -> look_up k m = Some x -> insert k v m = m.
Proof.
  destruct str_ltb_strict as [Ir Tr To]. unfold insert. intros So. induction So as [|[k0 v0] m So IH Hk]; [discriminate|]. cbn [alter look_up]. intros L.
  destruct (str_ltb k k0) eqn:E1; [|destruct (str_ltb k0 k) eqn:E2; [|reflexivity]].
  - exfalso. destruct (word_eqb k0 k) eqn:E; [apply word_eqb_eq in E; subst; rewrite Ir in E1; discriminate|].
    apply look_in in L. rewrite Forall_forall in Hk. apply Hk in L. cbn [fst] in L. pose proof (Tr _ _ _ E1 L) as T. rewrite Ir in T. discriminate.
  - destruct (word_eqb k0 k) eqn:E; [apply word_eqb_eq in E; subst; rewrite Ir in E2; discriminate|]. f_equal. now apply IH.
Qed.
(** How many values have dots. *)
Fixpoint dots_in (m : feature_map) : nat :=
  match m with [] => 0 | (_, v) :: m' => (if has_dot v then 1 else 0) + dots_in m' end.
Lemma insert_new_dots k v m : sorted m -> look_up k m = None -> dots_in (insert k v m) = (if has_dot v then 1 else 0) + dots_in m.
Proof.
  destruct str_ltb_strict as [Ir Tr To]. unfold insert. intros So. induction So as [|[k0 v0] m So IH Hk]; [reflexivity|]. cbn [alter look_up]. intros L.
  destruct (word_eqb k0 k) eqn:E; [discriminate|].
  destruct (str_ltb k k0) eqn:E1; [reflexivity|]. destruct (str_ltb k0 k) eqn:E2.
  - cbn [dots_in]. rewrite (IH L). lia.
  - exfalso. apply word_eqb_neq in E. apply E. symmetry. now apply To.
Qed.
Lemma insert_last k v m : (forall x, In x m -> str_ltb (fst x) k = true) -> insert k v m = m ++ [(k, v)].
Proof.
  destruct str_ltb_strict as [Ir Tr To]. unfold insert. induction m as [|[k0 v0] m IH]; intros H; [reflexivity|]. cbn [alter app].
  assert (E : str_ltb k0 k = true) by (apply (H (k0, v0)); now left).
  destruct (str_ltb k k0) eqn:E1; [pose proof (Tr _ _ _ E E1) as T; rewrite Ir in T; discriminate|]. rewrite E. f_equal. apply IH. intros x K. apply H. now right.
Qed.

(** * The description *)

Section Table.
Variable table : list (word * word).

Lemma described_snoc ps a k v : described table (ps ++ [a]) k v <->
  described table ps k v \/ (v = a /\ first_of table ps a k).
Proof.
  split.
  - intros (l1 & l2 & E & F). destruct l2 as [|x l2] using rev_ind.
    + apply app_inj_tail in E as [-> ->]. right. now split.
    + clear IHl2. rewrite app_comm_cons, app_assoc in E. apply app_inj_tail in E as [-> ->]. left. now exists l1, l2.
  - intros [(l1 & l2 & -> & F)|(-> & F)]; [exists l1, (l2 ++ [a])|exists ps, []; now split]. split; [now rewrite <- app_assoc|exact F].
Qed.
Lemma clean_snoc ps a : clean table (ps ++ [a]) <-> clean table ps /\ (dotted a -> exists k, first_of table ps a k).
Proof.
  unfold clean. split.
  - intros H. split; [intros l1 b l2 -> D; apply (H l1 b (l2 ++ [a])); [now rewrite <- app_assoc|exact D]|].
    intros D. exact (H ps a [] eq_refl D).
  - intros (H & Ha) l1 b l2 E D. destruct l2 as [|x l2] using rev_ind.
    + apply app_inj_tail in E as [-> ->]. now apply Ha.
    + clear IHl2. rewrite app_comm_cons, app_assoc in E. apply app_inj_tail in E as [-> ->]. exact (H l1 b l2 eq_refl D).
Qed.
Lemma kind_described ps b k : In b ps -> kind table b k -> exists v, described table ps k v.
Proof.
  induction ps as [|a ps IH] using rev_ind; [intros []|]. intros H K. rewrite in_app_iff in H.
  destruct H as [H|[->|[]]]; [destruct (IH H K) as (v & D); exists v; apply described_snoc; now left|].
  destruct (in_dec (fun x y : word => list_eq_dec Z.eq_dec x y) b ps) as [I|I].
  - destruct (IH I K) as (v & D). exists v. apply described_snoc. now left.
  - assert (Dec : (exists v, described table ps k v) \/ (forall c, In c ps -> ~ kind table c k)).
    { clear -ps. induction ps as [|c ps IH] using rev_ind; [right; intros ? []|]. destruct IH as [(v & D)|N].
      - left. exists v. apply described_snoc. now left.
      - destruct (look_up (head c) table) as [k'|] eqn:E.
        + destruct (list_eq_dec Z.eq_dec k' k) as [->|Ne].
          * left. exists c. apply described_snoc. right. split; [reflexivity|]. split; [now apply kind_look|exact N].
          * right. intros d Hd Kd. rewrite in_app_iff in Hd. destruct Hd as [Hd|[->|[]]]; [exact (N d Hd Kd)|]. apply kind_look in Kd. congruence.
        + right. intros d Hd Kd. rewrite in_app_iff in Hd. destruct Hd as [Hd|[->|[]]]; [exact (N d Hd Kd)|]. apply kind_look in Kd. congruence. }
    destruct Dec as [(v & D)|N]; [exists v; apply described_snoc; now left|]. exists b. apply described_snoc. right. now split.
Qed.

Definition simple_step (acc : feature_map * nat) (a : word) : feature_map * nat :=
  let '(m, n) := acc in
  (match look_up (head a) table with Some k => insert k a m | None => m end, if has_dot a then S n else n).
Record raw (ps : list word) (m : feature_map) (n : nat) : Prop := Raw {
  r_sorted : sorted m;
  r_in : forall k v, look_up k m = Some v <-> described table ps k v;
  r_le : dots_in m <= n;
  r_clean : dots_in m = n <-> clean table ps
}.
Lemma raw_fold ps : let '(m, n) := fold_left simple_step ps ([], 0) in raw ps m n.
Proof.
  induction ps as [|a ps IH] using rev_ind.
  - cbn [fold_left]. split; [constructor| | |].
    + intros k v. split; [discriminate|]. intros (l1 & l2 & E & _). destruct l1; discriminate.
    + cbn. lia.
    + split; [|reflexivity]. intros _ l1 b l2 E. destruct l1; discriminate.
  - rewrite fold_left_app. destruct (fold_left simple_step ps ([], 0)) as [m n]. destruct IH as [So In_ Le Cl]. cbn [fold_left simple_step].
    destruct (look_up (head a) table) as [k|] eqn:E.
    + pose proof (proj1 (kind_look table a k) E) as K. destruct (look_up k m) as [x|] eqn:L.
      * rewrite (insert_there k a m x So L). apply In_ in L.
        assert (NF : forall k', ~ first_of table ps a k').
        { intros k' (K' & N). rewrite (kind_fun _ _ _ _ K K') in L. destruct L as (l1 & l2 & -> & (Kx & _)).
          apply (N x); [rewrite in_app_iff; right; now left|exact Kx]. }
        split; [exact So| | |].
        -- intros k' v. rewrite In_, described_snoc. split; [now left|]. intros [D|(_ & F)]; [exact D|now apply NF in F].
        -- destruct (has_dot a); lia.
        -- rewrite clean_snoc, <- Cl. destruct (has_dot a) eqn:D.
           ++ apply has_dot_spec in D. split; [lia|]. intros (_ & F). destruct (F D) as (k' & F'). now apply NF in F'.
           ++ apply has_dot_no in D. split; [|intros [H _]; exact H]. intros H. split; [exact H|]. intros D'. contradiction.
      * assert (F : first_of table ps a k).
        { split; [exact K|]. intros b Hb Kb. destruct (kind_described ps b k Hb Kb) as (v & D). apply In_ in D. congruence. }
        split; [now apply insert_sorted| | |].
        -- intros k' v. rewrite look_insert by exact So. rewrite L, described_snoc. destruct (word_eqb k k') eqn:Ek.
           ++ apply word_eqb_eq in Ek. subst k'. split; [intros H; injection H as <-; right; now split|].
              intros [D|(-> & _)]; [apply In_ in D; congruence|reflexivity].
           ++ apply word_eqb_neq in Ek. rewrite In_. split; [now left|]. intros [D|(_ & (K' & _))]; [exact D|]. exfalso. apply Ek. exact (kind_fun _ _ _ _ K K').
        -- rewrite (insert_new_dots k a m So L). destruct (has_dot a); lia.
        -- rewrite (insert_new_dots k a m So L), clean_snoc, <- Cl. destruct (has_dot a); split; intros H; try (split; [lia|intros _; now exists k]); destruct H; lia.
    + assert (NK : forall k', ~ kind table a k') by (intros k' K; apply kind_look in K; congruence).
      split; [exact So| | |].
      * intros k' v. rewrite In_, described_snoc. split; [now left|]. intros [D|(_ & (K & _))]; [exact D|now apply NK in K].
      * destruct (has_dot a); lia.
      * rewrite clean_snoc, <- Cl. destruct (has_dot a) eqn:D.
        -- apply has_dot_spec in D. split; [lia|]. intros (_ & F). destruct (F D) as (k' & (K & _)). now apply NK in K.
        -- apply has_dot_no in D. split; [|intros [H _]; exact H]. intros H. split; [exact H|]. intros D'. contradiction.
Qed.
Lemma raw_simple tag parts m n : fields colon tag parts -> parse_simple table tag = (m, n) -> raw parts m n.
Proof.
  intros F E. pose proof (raw_fold parts) as R. unfold parse_simple in E. rewrite (split_fields colon is_colon is_colon_spec tag parts F) in E.
  change (fold_left simple_step parts ([], 0) = (m, n)) in E. now rewrite E in R.
Qed.
End Table.

(** The description of a tag has for every kind the first part of this kind. *)
Theorem C90_simple : forall table tag parts, fields colon tag parts ->
  sorted (fst (parse_simple table tag)) /\
  forall k v, In (k, v) (fst (parse_simple table tag)) <-> described table parts k v.
Proof.
  intros table tag parts F. destruct (parse_simple table tag) as [m n] eqn:E. pose proof (raw_simple table tag parts m n F E) as [So In_ _ _].
  split; [exact So|]. intros k v. cbn [fst]. rewrite in_look by exact So. apply In_.
Qed.
Print Assumptions C90_simple.

(** * The choices *)

Definition pick (e f : word * word) : Prop := fst f = fst e /\ exists vs, fields dot (snd e) vs /\ In (snd f) vs.
Lemma fields_same (sep : Z -> Prop) f : (forall c, f c = true <-> sep c) -> forall s fs fs', fields sep s fs -> fields sep s fs' -> fs = fs'.
Proof. intros H s fs fs' F F'. rewrite <- (split_fields sep f H s fs F). now apply (split_fields sep f H). Qed.
(** The choices are exactly the descriptions with one of the values for every key. *)
Theorem C90_choices : forall m rs, choices m rs -> forall r, In r rs <-> Forall2 pick m r.
Proof.
  induction 1 as [|k v vs m rs F C IH]; intros r.
  - cbn [In]. split; [intros [<-|[]]; constructor|]. intros K. inversion K. now left.
  - rewrite in_flat_map. split.
    + intros (x & Hx & K). apply in_map_iff in K as (r' & <- & K). constructor; [split; [reflexivity|now exists vs]|now apply IH].
    + intros K. inversion K as [|e f m' r' (E & vs' & F' & Hx) K' E1 E2]. subst. destruct f as [k' x]. cbn [fst snd] in *. subst k'.
      rewrite (fields_same dot is_dot is_dot_spec _ _ _ F' F) in Hx. exists x. split; [exact Hx|]. apply in_map_iff. exists r'. split; [reflexivity|now apply IH].
Qed.
Print Assumptions C90_choices.

Fixpoint prod (m : feature_map) : list feature_map :=
  match m with
  | [] => [[]]
  | (k, v) :: m' => flat_map (fun x => map (cons (k, x)) (prod m')) (split_any is_dot v)
  end.
Lemma prod_choices m : choices m (prod m).
Proof. induction m as [|[k v] m IH]; [constructor|]. cbn [prod]. constructor; [apply fields_split; exact is_dot_spec|exact IH]. Qed.
Lemma split_length f s : length (split_any f s) = length (filter f s) + 1.
Proof.
  induction s as [|c s IH]; [reflexivity|]. cbn [split_any filter]. destruct (f c); cbn [length]; [lia|].
  destruct (split_any f s); cbn [length] in *; lia.
Qed.
Lemma split_plain v x : In x (split_any is_dot v) -> has_dot x = false.
Proof.
  intros H. apply has_dot_no. intros D. pose proof (fields_split dot is_dot is_dot_spec v) as F.
  destruct (fields_clean dot v _ F x 46%Z H D) as [N _]. now apply N.
Qed.
Lemma split_one v : has_dot v = false -> split_any is_dot v = [v].
Proof.
  intros H. apply (split_fields dot is_dot is_dot_spec). constructor. intros c Hc D. red in D. subst c. apply has_dot_no in H. now apply H.
Qed.
Lemma sorted_keys : forall (m m' : feature_map), map fst m = map fst m' -> sorted m -> sorted m'.
Proof.
  unfold sorted. induction m as [|e m IH]; intros [|e' m'] E So; try discriminate; [constructor|]. cbn [map] in E. injection E as E1 E2.
  inversion So as [|? ? So' Hk]. subst. constructor; [now apply IH|]. rewrite Forall_forall in *. intros x Hx.
  apply (in_map fst) in Hx. rewrite <- E2 in Hx. apply in_map_iff in Hx as (y & Ey & Hy). rewrite <- Ey, <- E1. now apply Hk.
Qed.
Lemma sorted_before (r m : feature_map) k v : sorted (r ++ (k, v) :: m) -> forall x, In x r -> str_ltb (fst x) k = true.
Proof.
  unfold sorted. induction r as [|e r IH]; intros So x Hx; [destruct Hx|]. cbn [app] in So. inversion So as [|? ? So' Hk]. subst.
  destruct Hx as [<-|Hx]; [|now apply (IH So')]. rewrite Forall_forall in Hk. apply (Hk (k, v)). rewrite in_app_iff. right. now left.
Qed.
Lemma loop_rest : forall m R, (forall r, In r R -> sorted (r ++ m)) -> expand_loop m false R = map (fun r => r ++ m) R.
Proof.
  induction m as [|[k v] m IH]; intros R H; cbn [expand_loop andb].
  - rewrite <- (map_id R) at 1. apply map_ext. intros r. now rewrite app_nil_r.
  - assert (E : map (insert k v) R = map (fun r => r ++ [(k, v)]) R).
    { apply map_ext_in. intros r Hr. apply insert_last. exact (sorted_before r m k v (H r Hr)). }
    rewrite E, IH.
    + rewrite map_map. apply map_ext. intros r. now rewrite <- app_assoc.
    + intros r Hr. apply in_map_iff in Hr as (r' & <- & Hr). rewrite <- app_assoc. now apply H.
Qed.
Fixpoint singles (P m : feature_map) : list feature_map :=
  match m with
  | [] => []
  | (k, v) :: m' => if has_dot v then map (fun x => P ++ (k, x) :: m') (split_any is_dot v) else singles (P ++ [(k, v)]) m'
  end.
Lemma put_each_repeat k P : forall vs, (forall x, In x P -> str_ltb (fst x) k = true) ->
  put_each k vs (repeat P (length vs)) = map (fun x => P ++ [(k, x)]) vs.
Proof.
  intros vs H. induction vs as [|v vs IH]; [reflexivity|]. cbn [length repeat put_each map]. rewrite IH, insert_last by exact H. reflexivity.
Qed.
Lemma loop_first : forall m P, sorted (P ++ m) -> expand_loop m true (repeat P (first_length m)) = singles P m.
Proof.
  induction m as [|[k v] m IH]; intros P So; [reflexivity|]. cbn [first_length singles expand_loop andb]. pose proof (sorted_before P m k v So) as B.
  destruct (has_dot v).
  - unfold count_dots. rewrite <- split_length, put_each_repeat by exact B. rewrite loop_rest.
    + rewrite map_map. apply map_ext. intros x. now rewrite <- app_assoc.
    + intros r Hr. apply in_map_iff in Hr as (x & <- & _). rewrite <- app_assoc. cbn [app]. eapply sorted_keys; [|exact So].
      rewrite !map_app. reflexivity.
  - assert (E : map (insert k v) (repeat P (first_length m)) = repeat (P ++ [(k, v)]) (first_length m)).
    { clear IH So. induction (first_length m) as [|n IHn]; [reflexivity|]. cbn [repeat map]. rewrite IHn, insert_last by exact B. reflexivity. }
    rewrite E. apply IH. rewrite <- app_assoc. exact So.
Qed.
Lemma expand_singles m : sorted m -> expand_single m = singles [] m.
Proof. intros So. unfold expand_single. now apply loop_first. Qed.
Lemma dots_app a b : dots_in (a ++ b) = dots_in a + dots_in b.
Proof. induction a as [|[k v] a IH]; [reflexivity|]. cbn [app dots_in]. rewrite IH. lia. Qed.
Lemma singles_in : forall m P r, In r (singles P m) -> map fst r = map fst (P ++ m) /\ S (dots_in r) = dots_in P + dots_in m.
Proof.
  induction m as [|[k v] m IH]; intros P r; cbn [singles]; [intros []|]. destruct (has_dot v) eqn:D.
  - intros H. apply in_map_iff in H as (x & <- & Hx). rewrite !map_app. split; [reflexivity|]. rewrite dots_app. cbn [dots_in]. rewrite (split_plain v x Hx), D. lia.
  - intros H. destruct (IH _ _ H) as (E1 & E2). split; [rewrite E1, <- app_assoc; reflexivity|]. rewrite E2, dots_app. cbn [dots_in]. rewrite D. lia.
Qed.
Lemma prod_plain_app : forall P m, dots_in P = 0 -> prod (P ++ m) = map (app P) (prod m).
Proof.
  induction P as [|[k v] P IH]; intros m D; cbn [app]; [now rewrite map_id|]. cbn [dots_in] in D. destruct (has_dot v) eqn:E; [lia|].
  cbn [prod]. rewrite (split_one v E). cbn [flat_map]. rewrite app_nil_r, (IH m) by lia. rewrite map_map. reflexivity.
Qed.
Lemma prod_plain m : dots_in m = 0 -> prod m = [m].
Proof. intros D. rewrite <- (app_nil_r m) at 1. rewrite prod_plain_app by exact D. cbn. now rewrite app_nil_r. Qed.
Lemma map_flat {A B C} (f : B -> C) (g : A -> list B) l : map f (flat_map g l) = flat_map (fun x => map f (g x)) l.
Proof. induction l as [|a l IH]; [reflexivity|]. cbn [flat_map]. now rewrite map_app, IH. Qed.
Lemma flat_map_map {A B C} (f : B -> list C) (g : A -> B) l : flat_map f (map g l) = flat_map (fun x => f (g x)) l.
Proof. induction l as [|a l IH]; [reflexivity|]. cbn [map flat_map]. now rewrite IH. Qed.
Lemma flat_map_eq {A B} (f g : A -> list B) l : (forall x, In x l -> f x = g x) -> flat_map f l = flat_map g l.
Proof. induction l as [|a l IH]; intros H; [reflexivity|]. cbn [flat_map]. rewrite (H a), IH; [reflexivity| |now left]. intros x Hx. apply H. now right. Qed.
Lemma flat_flat {A B C} (f : B -> list C) (g : A -> list B) l : flat_map f (flat_map g l) = flat_map (fun x => flat_map f (g x)) l.
Proof. induction l as [|a l IH]; [reflexivity|]. cbn [flat_map]. now rewrite flat_map_app, IH. Qed.
Lemma singles_prod : forall m P, dots_in P = 0 -> 0 < dots_in m -> flat_map prod (singles P m) = map (app P) (prod m).
Proof.
  induction m as [|[k v] m IH]; intros P DP Dm; [cbn in Dm; lia|]. cbn [singles]. destruct (has_dot v) eqn:D.
  - rewrite flat_map_map. cbn [prod]. rewrite map_flat. apply flat_map_eq. intros x Hx. rewrite prod_plain_app by exact DP. f_equal.
    cbn [prod]. rewrite (split_one x (split_plain v x Hx)). cbn [flat_map]. now rewrite app_nil_r.
  - cbn [dots_in] in Dm. rewrite D in Dm. rewrite IH; [| |lia].
    + cbn [prod]. rewrite (split_one v D). cbn [flat_map]. rewrite app_nil_r, map_map. apply map_ext. intros r. now rewrite <- app_assoc.
    + rewrite dots_app. cbn [dots_in]. rewrite D. lia.
Qed.
Lemma expand_exact n : forall ms, (forall m, In m ms -> sorted m /\ dots_in m = n) -> expand n ms = flat_map prod ms.
Proof.
  induction n as [|n IH]; intros ms H; cbn [expand].
  - symmetry. transitivity (flat_map (fun m => [m]) ms).
    + apply flat_map_eq. intros m Hm. apply prod_plain. now apply H.
    + clear. induction ms as [|m ms IH]; [reflexivity|]. cbn [flat_map app]. now rewrite IH.
  - rewrite IH.
    + rewrite flat_flat. apply flat_map_eq. intros m Hm. destruct (H m Hm) as (So & D). rewrite expand_singles by exact So.
      rewrite singles_prod; [|reflexivity|lia]. cbn [app]. now rewrite map_id.
    + intros r Hr. apply in_flat_map in Hr as (m & Hm & Hr). destruct (H m Hm) as (So & D). rewrite expand_singles in Hr by exact So.
      destruct (singles_in _ _ _ Hr) as (E1 & E2). split; [|cbn [dots_in] in E2; lia]. eapply sorted_keys; [symmetry; exact E1|exact So].
Qed.
Lemma expand_more n : forall ms, (forall m, In m ms -> sorted m /\ dots_in m < n) -> expand n ms = [].
Proof.
  induction n as [|n IH]; intros ms H; cbn [expand]; [destruct ms as [|m ms]; [reflexivity|]; destruct (H m (or_introl eq_refl)); lia|].
  apply IH. intros r Hr. apply in_flat_map in Hr as (m & Hm & Hr). destruct (H m Hm) as (So & D). rewrite expand_singles in Hr by exact So.
  destruct (singles_in _ _ _ Hr) as (E1 & E2). split; [|cbn [dots_in] in E2; lia]. eapply sorted_keys; [symmetry; exact E1|exact So].
Qed.
Lemma expand_all_exact m n : sorted m -> dots_in m = n -> expand_all m n = prod m.
Proof.
  intros So D. unfold expand_all. destruct (Nat.eqb_spec n 0) as [E|E]; [symmetry; apply prod_plain; lia|].
  rewrite expand_exact; [cbn; now rewrite app_nil_r|]. intros m' [<-|[]]. now split.
Qed.
Lemma expand_all_more m n : sorted m -> dots_in m < n -> expand_all m n = [].
Proof.
  intros So D. unfold expand_all. destruct (Nat.eqb_spec n 0) as [E|E]; [lia|]. apply expand_more. intros m' [<-|[]]. now split.
Qed.

(** A tag whose parts with dots are all known and the first of their kind is read as all choices;
    any other tag as nothing at all. *)
Theorem C90_parse : forall table tag parts, fields colon tag parts ->
  (clean table parts -> choices (fst (parse_simple table tag)) (parse table tag)) /\
  (~ clean table parts -> parse table tag = []).
Proof.
  intros table tag parts F. unfold parse. destruct (parse_simple table tag) as [m n] eqn:E.
  destruct (raw_simple table tag parts m n F E) as [So _ Le Cl]. cbn [fst]. split; intros C.
  - rewrite expand_all_exact; [apply prod_choices|exact So|now apply Cl].
  - apply expand_all_more; [exact So|]. assert (dots_in m <> n) by (intros K; apply C; now apply Cl). lia.
Qed.
Print Assumptions C90_parse.

(** * Attributes of forms *)

Lemma erase_sorted k m : sorted m -> sorted (erase k m).
Proof.
  unfold sorted, erase. induction 1 as [|e m So IH Hk]; cbn [filter]; [constructor|]. destruct (negb (word_eqb (fst e) k)); [|exact IH].
  constructor; [exact IH|]. rewrite Forall_forall in *. intros x Hx. apply filter_In in Hx as [Hx _]. now apply Hk.
Qed.
Lemma in_erase k m x v : In (x, v) (erase k m) <-> In (x, v) m /\ x <> k.
Proof. unfold erase. rewrite filter_In. cbn [fst]. rewrite negb_true_iff, word_eqb_neq. reflexivity. Qed.
Lemma erase_dots k m : sorted m -> dots_in (erase k m) + (if has_dot (at_key k m) then 1 else 0) = dots_in m.
Proof.
  unfold at_key. induction 1 as [|[x v] m So IH Hk]; [reflexivity|]. unfold erase in *. cbn [filter fst look_up]. destruct (word_eqb x k) eqn:E; cbn [negb].
  - apply word_eqb_eq in E. subst x. assert (N : filter (fun e : word * word => negb (word_eqb (fst e) k)) m = m).
    { clear -Hk. destruct str_ltb_strict as [Ir _ _]. induction Hk as [|e m He Hk IH]; [reflexivity|]. cbn [filter]. rewrite IH.
      destruct (word_eqb (fst e) k) eqn:E; [apply word_eqb_eq in E; cbn [fst] in He; rewrite E, Ir in He; discriminate|reflexivity]. }
    rewrite N. cbn [dots_in]. lia.
  - cbn [dots_in]. lia.
Qed.
Lemma at_erase k k' m : sorted m -> k <> k' -> at_key k' (erase k m) = at_key k' m.
Proof.
  intros So N. unfold at_key. destruct (look_up k' m) as [v|] eqn:E.
  - apply look_in in E. assert (K : In (k', v) (erase k m)) by (apply in_erase; split; [exact E|congruence]).
    apply (in_look _ (erase_sorted k m So)) in K. now rewrite K.
  - destruct (look_up k' (erase k m)) as [v|] eqn:E'; [|reflexivity]. apply look_in in E'. apply in_erase in E' as [E' _].
    apply (in_look _ So) in E'. congruence.
Qed.
(** The attribute that belongs to the lexeme. *)
Definition of_lexeme (pos k : word) : Prop :=
  (pos = w "subst" /\ k = w "gender") \/ (pos = w "verb" /\ k = w "aspect").
Lemma lexeme_keys_cases pos : (lexeme_keys pos = [] /\ pos <> w "subst" /\ pos <> w "verb") \/
  (pos = w "subst" /\ lexeme_keys pos = [w "gender"]) \/ (pos = w "verb" /\ lexeme_keys pos = [w "aspect"]).
Proof.
  unfold lexeme_keys, LEXEME_TAGS. cbn [filter fst map]. destruct (word_eqb (w "subst") pos) eqn:E1.
  - apply word_eqb_eq in E1. subst pos. right. left. split; reflexivity.
  - destruct (word_eqb (w "verb") pos) eqn:E2.
    + apply word_eqb_eq in E2. subst pos. right. right. split; reflexivity.
    + left. apply word_eqb_neq in E1, E2. repeat split; congruence.
Qed.
(** The value of a key, empty if there is none. *)
Definition value (table : list (word * word)) (parts : list word) (k v : word) : Prop :=
  described table parts k v \/ (v = [] /\ forall x, ~ described table parts k x).
Lemma value_at table parts m n k : raw table parts m n -> value table parts k (at_key k m).
Proof.
  intros [So I _ _]. unfold value, at_key. destruct (look_up k m) as [v|] eqn:E; [left; now apply I|]. right. split; [reflexivity|].
  intros x D. apply I in D. congruence.
Qed.
Lemma value_fun table parts m n k v : raw table parts m n -> value table parts k v -> v = at_key k m.
Proof.
  intros [So I _ _] [D|(-> & N)]; unfold at_key; [apply I in D; now rewrite D|]. destruct (look_up k m) as [v|] eqn:E; [|reflexivity].
  apply I in E. now apply N in E.
Qed.
(** The forms of a tag: pos and the attribute of the lexeme are taken away, and of the rest all
    choices are made, provided that the tag is clean and has no dots in pos (and, for sfst, none
    in the attribute of the lexeme); otherwise there are none. *)
Theorem C90_forms : forall table counted tag parts pos, fields colon tag parts -> value table parts (w "pos") pos ->
  exists m, sorted m /\
    (forall k v, In (k, v) m <-> described table parts k v /\ k <> w "pos" /\ ~ of_lexeme pos k) /\
    let proper := clean table parts /\ ~ dotted pos /\
                  (counted = false -> forall k v, of_lexeme pos k -> described table parts k v -> ~ dotted v) in
    (proper -> choices m (form_attributes table counted tag)) /\
    (~ proper -> form_attributes table counted tag = []).
Proof.
  intros table counted tag parts pos F V. unfold form_attributes. destruct (parse_simple table tag) as [m n] eqn:E.
  pose proof (raw_simple table tag parts m n F E) as R. rewrite (value_fun table parts m n _ _ R V). clear pos V.
  destruct R as [So I Le Cl]. unfold remove_lexeme. cbn [fst].
  set (pos := at_key (w "pos") m).
  assert (Ip : forall k v, In (k, v) m <-> described table parts k v) by (intros k v; rewrite in_look by exact So; apply I).
  pose proof (erase_dots (w "pos") m So) as Dp. fold pos in Dp.
  destruct (lexeme_keys_cases pos) as [(L & N1 & N2)|L].
  - rewrite L. cbn [fold_left]. exists (erase (w "pos") m). split; [now apply erase_sorted|]. split.
    + intros k v. rewrite in_erase, Ip. split; [|tauto]. intros (D & N). split; [exact D|split; [exact N|]]. intros [(K & _)|(K & _)]; contradiction.
    + rewrite Nat2Z.id. split.
      * intros (C & ND & _). apply has_dot_no in ND. rewrite ND in Dp. rewrite expand_all_exact; [apply prod_choices|now apply erase_sorted|]. apply Cl in C. lia.
      * intros NP. apply expand_all_more; [now apply erase_sorted|]. destruct (has_dot pos) eqn:HP; [lia|].
        destruct (Nat.eq_dec (dots_in m) n) as [Q|Q]; [|lia]. exfalso. apply NP. split; [now apply Cl|]. split; [now apply has_dot_no|].
        intros _ k v [(K & _)|(K & _)]; contradiction.
  - assert (exists key, lexeme_keys pos = [key] /\ key <> w "pos" /\ forall k, of_lexeme pos k <-> k = key) as (key & L' & Nk & Ol).
    { destruct L as [(Q & L)|(Q & L)]; [exists (w "gender")|exists (w "aspect")]; (split; [exact L|split; [discriminate|]]);
        intros k; unfold of_lexeme; rewrite Q; (split; [intros [(K1 & K2)|(K1 & K2)]; [try discriminate K1; exact K2|try discriminate K1; exact K2]|intros ->]);
        [left|right]; now split. }
    rewrite L'. cbn [fold_left]. set (m1 := erase key m).
    assert (So1 : sorted m1) by now apply erase_sorted.
    pose proof (erase_dots key m So) as Dk. fold m1 in Dk.
    pose proof (erase_dots (w "pos") m1 So1) as Dp1. unfold m1 in Dp1 at 2. rewrite at_erase in Dp1 by assumption. fold pos in Dp1.
    exists (erase (w "pos") m1). split; [now apply erase_sorted|]. split.
    + intros k v. rewrite in_erase. unfold m1. rewrite in_erase, Ip, Ol. tauto.
    + assert (Kd : has_dot (at_key key m) = false <-> forall k v, of_lexeme pos k -> described table parts k v -> ~ dotted v).
      { rewrite has_dot_no. unfold at_key. split.
        - intros H k v O D. apply Ol in O. subst k. apply I in D. now rewrite D in H.
        - intros H. destruct (look_up key m) as [v|] eqn:Q; [|intros []]. apply (H key v); [now apply Ol|now apply I]. }
      split.
      * intros (C & ND & O). apply has_dot_no in ND. rewrite ND in Dp1. apply Cl in C.
        rewrite expand_all_exact; [apply prod_choices|now apply erase_sorted|].
        destruct counted; cbn [andb].
        -- destruct (has_dot (at_key key m)); lia.
        -- rewrite (proj2 Kd (O eq_refl)) in Dk. lia.
      * intros NP. apply expand_all_more; [now apply erase_sorted|].
        destruct (Nat.eq_dec (dots_in m) n) as [Q|Q].
        -- destruct (has_dot pos) eqn:HP.
           ++ destruct counted; cbn [andb]; destruct (has_dot (at_key key m)); lia.
           ++ destruct counted; cbn [andb].
              ** exfalso. apply NP. split; [now apply Cl|]. split; [now apply has_dot_no|]. discriminate.
              ** destruct (has_dot (at_key key m)) eqn:HK; [lia|]. exfalso. apply NP. split; [now apply Cl|]. split; [now apply has_dot_no|]. intros _. now apply Kd.
        -- destruct counted; cbn [andb]; destruct (has_dot (at_key key m)); destruct (has_dot pos); lia.
Qed.
Print Assumptions C90_forms.

(** * Attributes of lexemes *)

(** The value of the first kind that may be a part of speech and has one. *)
Inductive pos_of (table : list (word * word)) (parts : list word) : list word -> word -> Prop :=
| pos_none : pos_of table parts [] []
| pos_here : forall k ks v, described table parts k v -> v <> [] -> pos_of table parts (k :: ks) v
| pos_next : forall k ks p, (forall v, described table parts k v -> v = []) -> pos_of table parts ks p -> pos_of table parts (k :: ks) p.
Definition generalized (general : list (word * word)) (p q : word) : Prop :=
  (exists t1 t2, general = t1 ++ (p, q) :: t2 /\ ~ In p (map fst t1)) \/ (~ In p (map fst general) /\ q = p).
(** Dots become dashes. *)
Definition dashed : word -> word -> Prop := Forall2 (fun c d => (c = 46%Z /\ d = 45%Z) \/ (c <> 46%Z /\ d = c)).
Lemma dashes_dashed x : dashed x (dashes x).
Proof.
  induction x as [|c x IH]; [constructor|]. constructor; [|exact IH]. destruct (is_dot c) eqn:E.
  - left. apply is_dot_spec in E. now split.
  - right. split; [intros ->; discriminate E|reflexivity].
Qed.
Lemma dashed_fun x y : dashed x y -> y = dashes x.
Proof.
  induction 1 as [|c d x y H _ IH]; [reflexivity|]. cbn [dashes map]. unfold dashes in IH. rewrite <- IH. f_equal.
  destruct (is_dot c) eqn:E; destruct H as [(-> & ->)|(N & ->)]; try reflexivity; [|discriminate E]. apply is_dot_spec in E. contradiction.
Qed.
Lemma select_pos_of table parts m n : raw table parts m n -> forall ks p, pos_of table parts ks p <-> select_pos ks m = p.
Proof.
  intros R ks. pose proof R as [So I _ _]. induction ks as [|k ks IH]; intros p; cbn [select_pos].
  - split; [intros H; now inversion H|intros <-; constructor].
  - split.
    + intros H. inversion H as [|k' ks' v D N|k' ks' p' N H']; subst.
      * unfold at_key. apply I in D. rewrite D. destruct p; [contradiction|reflexivity].
      * assert (E : at_key k m = []) by (unfold at_key; destruct (look_up k m) as [v|] eqn:L; [apply I in L; now apply N|reflexivity]).
        rewrite E. now apply IH.
    + destruct (at_key k m) as [|c v] eqn:E.
      * intros H. apply pos_next; [|now apply IH]. intros v D. apply I in D. unfold at_key in E. now rewrite D in E.
      * intros <-. apply pos_here; [|discriminate]. apply I. unfold at_key in E. destruct (look_up k m); [now rewrite E|discriminate].
Qed.
Lemma generalized_look general p q : generalized general p q <-> match look_up p general with Some g => g | None => p end = q.
Proof.
  unfold generalized. rewrite <- look_first. destruct (look_up p general) as [g|] eqn:E.
  - split; [intros [K|(N & _)]; [congruence|]|intros <-; now left]. exfalso. apply N. apply look_in in E. apply in_map_iff. now exists (p, g).
  - split; [intros [K|(_ & K)]; [discriminate|congruence]|]. intros <-. right. split; [|reflexivity]. intros K.
    apply in_map_iff in K as ([p' g] & K & K'). cbn [fst] in K. subst p'. revert E K'. clear. induction general as [|[a b] t IH]; [intros _ []|]. cbn [look_up].
    destruct (word_eqb a p) eqn:E; [discriminate|]. intros L [K|K]; [injection K as -> ->; apply word_eqb_neq in E; now apply E|now apply IH].
Qed.
(** The lexeme of a tag has its part of speech and, if this is subst or verb, the gender or the
    aspect with dashes, which is empty if the tag does not tell. *)
Theorem C90_lexeme : forall table allowed general tag parts p0 p, fields colon tag parts ->
  pos_of table parts allowed p0 -> generalized general p0 p ->
  forall k v, In (k, v) (lexeme_attributes table allowed general tag) <->
    (k = w "pos" /\ v = p) \/ (of_lexeme p k /\ exists x, value table parts k x /\ dashed x v).
Proof.
  intros table allowed general tag parts p0 p F P G k v. unfold lexeme_attributes, part_of_speech.
  destruct (parse_simple table tag) as [m n] eqn:E. pose proof (raw_simple table tag parts m n F E) as R. cbn [fst].
  apply (select_pos_of table parts m n R) in P. rewrite P. apply generalized_look in G. rewrite G. clear G P.
  assert (X : forall k v, (exists x, value table parts k x /\ dashed x v) <-> v = dashes (at_key k m)).
  { intros k' v'. split.
    - intros (x & V & D). rewrite <- (value_fun table parts m n k' x R V). now apply dashed_fun.
    - intros ->. exists (at_key k' m). split; [now apply (value_at table parts m n)|apply dashes_dashed]. }
  destruct (lexeme_keys_cases p) as [(L & N1 & N2)|[(Q & L)|(Q & L)]]; rewrite L; cbn [fold_left].
  - cbn [In]. split; [intros [K|[]]; injection K as <- <-; left; now split|]. intros [(-> & ->)|([(K & _)|(K & _)] & _)]; [now left|contradiction|contradiction].
  - change (insert (w "gender") (dashes (at_key (w "gender") m)) [(w "pos", p)]) with [(w "gender", dashes (at_key (w "gender") m)); (w "pos", p)].
    cbn [In]. rewrite X. unfold of_lexeme. subst p. split.
    + intros [K|[K|[]]]; injection K as <- <-; [right|left; now split]. split; [left; now split|reflexivity].
    + intros [(-> & ->)|([(_ & ->)|(K & _)] & ->)]; [right; now left|now left|discriminate K].
  - change (insert (w "aspect") (dashes (at_key (w "aspect") m)) [(w "pos", p)]) with [(w "aspect", dashes (at_key (w "aspect") m)); (w "pos", p)].
    cbn [In]. rewrite X. unfold of_lexeme. subst p. split.
    + intros [K|[K|[]]]; injection K as <- <-; [right|left; now split]. split; [right; now split|reflexivity].
    + intros [(-> & ->)|([(K & _)|(_ & ->)] & ->)]; [right; now left|discriminate K|now left].
Qed.
Print Assumptions C90_lexeme.

(** A concrete case: "subst:sg:nom.acc:m2.m3" has two forms, and its lexeme the gender m2-m3. *)
Example C90_case : let tag := w "subst:sg:nom.acc:m2.m3" in
  fields colon tag [w "subst"; w "sg"; w "nom.acc"; w "m2.m3"] /\
  clean PREDEFINED_TAGS [w "subst"; w "sg"; w "nom.acc"; w "m2.m3"] /\
  form_attributes PREDEFINED_TAGS true tag =
    [[(w "case", w "nom"); (w "number", w "sg")]; [(w "case", w "acc"); (w "number", w "sg")]] /\
  lexeme_attributes PREDEFINED_TAGS ALLOWED_AS_POS GENERALIZATIONS tag = [(w "gender", w "m2-m3"); (w "pos", w "subst")] /\
  length (parse PREDEFINED_TAGS tag) = 4.
Proof.
  cbv zeta. assert (F : fields colon (w "subst:sg:nom.acc:m2.m3") [w "subst"; w "sg"; w "nom.acc"; w "m2.m3"]).
  { change [w "subst"; w "sg"; w "nom.acc"; w "m2.m3"] with (split_any is_colon (w "subst:sg:nom.acc:m2.m3")). apply fields_split. exact is_colon_spec. }
  split; [exact F|]. split.
  - destruct (parse_simple PREDEFINED_TAGS (w "subst:sg:nom.acc:m2.m3")) as [m n] eqn:E.
    pose proof (raw_simple _ _ _ m n F E) as R. apply (r_clean _ _ _ _ R). vm_compute in E. injection E as <- <-. reflexivity.
  - split; [vm_compute; reflexivity|]. split; vm_compute; reflexivity.
Qed.
(** Not true: that a tag with known parts has forms.  A second part of a kind with dots, or an
    unknown part with dots, loses them all. *)
Theorem C90_forms_lost_refuted : exists tag, form_attributes PREDEFINED_TAGS true tag = [] /\ parse PREDEFINED_TAGS tag = [] /\
  fields colon tag [w "adj"; w "sg"; w "nom"; w "acc.voc"] /\
  forall a, In a [w "adj"; w "sg"; w "nom"; w "acc.voc"] -> exists k, kind PREDEFINED_TAGS a k.
Proof.
  exists (w "adj:sg:nom:acc.voc"). split; [vm_compute; reflexivity|]. split; [vm_compute; reflexivity|]. split.
  - change [w "adj"; w "sg"; w "nom"; w "acc.voc"] with (split_any is_colon (w "adj:sg:nom:acc.voc")). apply fields_split. exact is_colon_spec.
  - intros a H. assert (K : exists k, look_up (head a) PREDEFINED_TAGS = Some k).
    { destruct H as [<-|[<-|[<-|[<-|[]]]]]; eexists; vm_compute; reflexivity. }
    destruct K as (k & K). exists k. now apply kind_look.
Qed.
Print Assumptions C90_forms_lost_refuted.
(** Not true for the parser of SFST: that the forms of a noun do not depend on the writing of its
    gender. *)
Theorem C90_sfst_gender_refuted : form_attributes SFST_TAGS false (w "subst:sg:nom:m1") <> [] /\
  form_attributes SFST_TAGS false (w "subst:sg:nom:m1.m2") = [] /\
  form_attributes PREDEFINED_TAGS true (w "subst:sg:nom:m1.m2") = [[(w "case", w "nom"); (w "number", w "sg")]].
Proof. split; [vm_compute; discriminate|split; vm_compute; reflexivity]. Qed.
Print Assumptions C90_sfst_gender_refuted.

(** * The levels *)

Definition weak (m : list (word * list word)) : Prop := StronglySorted (fun x y => str_ltb (fst y) (fst x) = false) m.
Lemma multi_in k v m x : In x (multi_insert k v m) <-> x = (k, v) \/ In x m.
Proof.
  induction m as [|[k' v'] m IH]; cbn [multi_insert].
  - cbn. intuition.
  - destruct (str_ltb k k'); cbn [In]; [intuition|]. rewrite IH. intuition.
Qed.
Lemma multi_weak k v m : weak m -> weak (multi_insert k v m).
Proof.
  destruct str_ltb_strict as [Ir Tr To]. unfold weak. induction 1 as [|[k' v'] m So IH Hk]; cbn [multi_insert]; [repeat constructor|].
  rewrite Forall_forall in Hk. destruct (str_ltb k k') eqn:E.
  - constructor; [constructor; [exact So|now apply Forall_forall]|]. rewrite Forall_forall. intros x [<-|Hx]; cbn [fst].
    + destruct (str_ltb k' k) eqn:E'; [|reflexivity]. pose proof (Tr _ _ _ E E') as T. rewrite Ir in T. discriminate.
    + destruct (str_ltb (fst x) k) eqn:E'; [|reflexivity]. pose proof (Tr _ _ _ E' E) as T. specialize (Hk x Hx). cbn [fst] in Hk. congruence.
  - constructor; [exact IH|]. rewrite Forall_forall. intros x Hx. apply multi_in in Hx as [->|Hx]; [exact E|now apply Hk].
Qed.
Lemma multi_of l k v m : weak m -> of_lemma l (multi_insert k v m) = of_lemma l m ++ (if word_eqb k l then [v] else []).
Proof.
  unfold of_lemma, weak. induction 1 as [|[k' v'] m So IH Hk]; cbn [multi_insert].
  - cbn [filter map fst app]. destruct (word_eqb k l); reflexivity.
  - destruct (str_ltb k k') eqn:E.
    + cbn [filter fst]. destruct (word_eqb k l) eqn:E1; [|now rewrite app_nil_r]. apply word_eqb_eq in E1. subst l.
      assert (N : forall x, In x ((k', v') :: m) -> word_eqb (fst x) k = false).
      { destruct str_ltb_strict as [Ir Tr To]. rewrite Forall_forall in Hk. intros x Hx. apply word_eqb_neq. intros Q. destruct Hx as [<-|Hx]; cbn [fst] in Q.
        - subst k'. rewrite Ir in E. discriminate.
        - specialize (Hk x Hx). cbn [fst] in Hk. rewrite Q in Hk. congruence. }
      assert (Z0 : filter (fun e : word * list word => word_eqb (fst e) k) ((k', v') :: m) = []).
      { clear -N. induction ((k', v') :: m) as [|x r IH]; [reflexivity|]. cbn [filter]. rewrite (N x (or_introl eq_refl)). apply IH. intros y Hy. apply N. now right. }
      cbn [filter fst] in Z0. rewrite Z0. reflexivity.
    + cbn [filter fst]. destruct (word_eqb k' l); cbn [map snd app]; rewrite IH; reflexivity.
Qed.
Lemma stems_snoc answers a : stems_of (answers ++ [a]) = multi_insert (fst a) (split_any is_tag_separator (snd a)) (stems_of answers).
Proof. unfold stems_of. now rewrite fold_left_app. Qed.
Lemma stems_weak answers : weak (stems_of answers).
Proof. induction answers as [|a l IH] using rev_ind; [constructor|]. rewrite stems_snoc. now apply multi_weak. Qed.
(** The tags of the answers with a lemma, in the order of the answers. *)
Fixpoint tags_for (lemma : word) (answers : list (word * word)) : list (list word) :=
  match answers with
  | [] => []
  | (l, t) :: r => if list_eq_dec Z.eq_dec l lemma then split_any is_tag_separator t :: tags_for lemma r else tags_for lemma r
  end.
Lemma tags_for_app lemma a b : tags_for lemma (a ++ b) = tags_for lemma a ++ tags_for lemma b.
Proof. induction a as [|[l t] a IH]; [reflexivity|]. cbn [app tags_for]. destruct (list_eq_dec Z.eq_dec l lemma); cbn [app]; now rewrite IH. Qed.
Lemma stems_tags lemma answers : of_lemma lemma (stems_of answers) = tags_for lemma answers.
Proof.
  induction answers as [|[l t] r IH] using rev_ind; [reflexivity|]. rewrite stems_snoc, multi_of by apply stems_weak. rewrite IH, tags_for_app. f_equal.
  cbn [tags_for fst snd]. destruct (list_eq_dec Z.eq_dec l lemma) as [->|N]; [now rewrite (proj2 (word_eqb_eq lemma lemma) eq_refl)|]. apply word_eqb_neq in N. now rewrite N.
Qed.
Lemma stems_in answers l : In l (map fst (stems_of answers)) <-> exists t, In (l, t) answers.
Proof.
  induction answers as [|a r IH] using rev_ind; [cbn; split; [intros []|intros (t & [])]|]. rewrite stems_snoc. split.
  - intros H. apply in_map_iff in H as (x & <- & H). apply multi_in in H as [->|H].
    + destruct a as [l t]. exists t. rewrite in_app_iff. right. now left.
    + assert (K : In (fst x) (map fst (stems_of r))) by now apply in_map. apply IH in K as (t & K). exists t. rewrite in_app_iff. now left.
  - intros (t & H). rewrite in_app_iff in H. apply in_map_iff. destruct H as [H|[->|[]]].
    + assert (K : exists t, In (l, t) r) by now exists t. apply IH in K. apply in_map_iff in K as (x & E & K). exists x. split; [exact E|]. apply multi_in. now right.
    + eexists. split; [|apply multi_in; left; reflexivity]. reflexivity.
Qed.
Lemma distinct_in l x : In x (distinct l) <-> In x l.
Proof.
  induction l as [|a l IH]; [reflexivity|]. destruct l as [|b l]; [reflexivity|]. change (distinct (a :: b :: l)) with (if word_eqb a b then distinct (b :: l) else a :: distinct (b :: l)).
  destruct (word_eqb a b) eqn:E; cbn [In] in *; rewrite IH; [|reflexivity]. apply word_eqb_eq in E. subst. intuition.
Qed.
Lemma distinct_increasing l : StronglySorted (fun x y => str_ltb y x = false) l -> increasing str_ltb (distinct l).
Proof.
  destruct str_ltb_strict as [Ir Tr To]. unfold increasing. induction 1 as [|a l So IH Hk]; [constructor|]. destruct l as [|b l]; [repeat constructor|].
  change (distinct (a :: b :: l)) with (if word_eqb a b then distinct (b :: l) else a :: distinct (b :: l)). destruct (word_eqb a b) eqn:E; [exact IH|].
  constructor; [exact IH|]. rewrite Forall_forall in *. intros x Hx. apply (proj1 (distinct_in _ _)) in Hx. apply word_eqb_neq in E.
  assert (Eab : str_ltb a b = true).
  { destruct (str_ltb a b) eqn:Q; [reflexivity|]. exfalso. apply E. apply To; [exact Q|]. apply Hk. now left. }
  destruct Hx as [<-|Hx]; [exact Eab|]. inversion So as [|? ? _ Hb]. subst. rewrite Forall_forall in Hb. specialize (Hb x Hx).
  destruct (str_ltb b x) eqn:Q; [exact (Tr _ _ _ Eab Q)|]. rewrite <- (To _ _ Q Hb). exact Eab.
Qed.
Lemma weak_keys m : weak m -> StronglySorted (fun x y => str_ltb y x = false) (map fst m).
Proof.
  unfold weak. induction 1 as [|e m So IH Hk]; cbn [map]; constructor; [exact IH|]. rewrite Forall_forall in *. intros x Hx.
  apply in_map_iff in Hx as (y & <- & Hy). now apply Hk.
Qed.

(** On levels 2 and 3 the lemmas are the stems that the library answers, each once and in order,
    and to each belong the tags of its answers: on level 2 a lexeme for each answer, the last one
    first, from its first tag; on level 3 the lexeme of each answer and behind it the forms of all
    its tags. *)
Theorem C90_levels : forall table allowed general counted word_ answers, answers <> [] ->
  exists lemmas, increasing str_ltb lemmas /\ (forall l, In l lemmas <-> exists t, In (l, t) answers) /\
  morfologik table allowed general counted 2 word_ answers =
    (true, ENorm word_ :: flat_map (fun l => ELemma l :: map (fun ts => lexeme_event table allowed general l (hd [] ts)) (rev (tags_for l answers))) lemmas) /\
  forall level, 3 <= level -> morfologik table allowed general counted level word_ answers =
    (true, ENorm word_ :: flat_map (fun l => ELemma l :: flat_map (fun ts =>
        lexeme_event table allowed general l (hd [] ts) ::
        flat_map (fun t => map (form_event table allowed general word_ (hd [] ts)) (form_attributes table counted t)) ts) (tags_for l answers)) lemmas).
Proof.
  intros table allowed general counted word_ answers NE. exists (distinct (map fst (stems_of answers))).
  split; [apply distinct_increasing, weak_keys, stems_weak|]. split; [intros l; rewrite distinct_in; apply stems_in|].
  assert (NL : distinct (map fst (stems_of answers)) <> []).
  { destruct answers as [|[l t] r]; [contradiction|]. intros Q. assert (K : In l (distinct (map fst (stems_of ((l, t) :: r))))).
    { apply distinct_in, stems_in. exists t. now left. } rewrite Q in K. destruct K. }
  assert (AE : forall f, all_events word_ f (distinct (map fst (stems_of answers))) = ENorm word_ :: flat_map (fun l => ELemma l :: f l) (distinct (map fst (stems_of answers)))).
  { intros f. unfold all_events. destruct (distinct (map fst (stems_of answers))); [contradiction|reflexivity]. }
  split.
  - unfold morfologik. rewrite AE. f_equal. f_equal. apply flat_map_eq. intros l _. f_equal. rewrite stems_tags, map_rev, map_map, map_rev. reflexivity.
  - intros [|[|[|level]]] H; try lia. unfold morfologik. rewrite AE. f_equal. f_equal. apply flat_map_eq. intros l _. f_equal. rewrite stems_tags.
    apply flat_map_eq. intros ts Hts. assert (Ne : ts <> []).
    { clear -Hts. induction answers as [|[l' t] r IH]; [destruct Hts|]. cbn [tags_for] in Hts. destruct (list_eq_dec Z.eq_dec l' l); [|now apply IH].
      destruct Hts as [<-|Hts]; [|now apply IH]. clear. intros Q. pose proof (split_length is_tag_separator t) as L. rewrite Q in L. cbn in L. lia. }
    destruct ts as [|t ts]; [contradiction|]. reflexivity.
Qed.
Print Assumptions C90_levels.
(** Nothing is given out without answers or on level 0. *)
Theorem C90_nothing : forall table allowed general counted level word_ answers, level = 0 \/ answers = [] ->
  morfologik table allowed general counted level word_ answers = (false, []).
Proof.
  intros table allowed general counted level word_ answers [->| ->]; [reflexivity|]. destruct level as [|[|[|level]]]; reflexivity.
Qed.
Print Assumptions C90_nothing.
(** The values of a form: its own, and those of the lexeme that it does not have. *)
Theorem C90_form_values : forall table allowed general word_ tag form, sorted form ->
  exists pos vs, form_event table allowed general word_ tag form = EForm pos word_ vs /\
    forall k, look_up k vs = match look_up k form with
                             | Some v => Some v
                             | None => if list_eq_dec Z.eq_dec k (w "pos") then None else look_up k (lexeme_attributes table allowed general tag)
                             end.
Proof.
  intros table allowed general word_ tag form So. unfold form_event. eexists. eexists. split; [reflexivity|]. intros k.
  assert (SL : sorted (lexeme_attributes table allowed general tag)).
  { unfold lexeme_attributes. set (m := fst (parse_simple table tag)).
    assert (G : forall ks r, sorted r -> sorted (fold_left (fun r k => insert k (dashes (at_key k m)) r) ks r)).
    { induction ks as [|k0 ks IH]; intros r Hr; [exact Hr|]. cbn [fold_left]. apply IH. now apply insert_sorted. }
    apply G. repeat constructor. }
  assert (L0 : look_up k (erase (w "pos") (lexeme_attributes table allowed general tag)) =
    if list_eq_dec Z.eq_dec k (w "pos") then None else look_up k (lexeme_attributes table allowed general tag)).
  { destruct (list_eq_dec Z.eq_dec k (w "pos")) as [->|N].
    - apply look_none. intros v H. apply in_erase in H. now apply H.
    - assert (E : w "pos" <> k) by congruence. pose proof (at_erase (w "pos") k _ SL E) as A.
      destruct (look_up k (lexeme_attributes table allowed general tag)) as [v|] eqn:Q.
      + apply (in_look _ (erase_sorted _ _ SL)). apply in_erase. split; [now apply look_in|congruence].
      + apply look_none. intros v H. apply in_erase in H as (H & _). apply (in_look _ SL) in H. congruence. }
  rewrite <- L0. clear L0. pose proof (erase_sorted (w "pos") _ SL) as S0. revert S0. generalize (erase (w "pos") (lexeme_attributes table allowed general tag)).
  induction So as [|[k0 v0] form So IH Hk]; intros r S0; [reflexivity|]. cbn [fold_left look_up fst snd]. rewrite IH by now apply alter_sorted.
  rewrite look_alter by exact S0. destruct (word_eqb k0 k) eqn:E; [|reflexivity]. apply word_eqb_eq in E. subst k0.
  rewrite (look_none k form); [reflexivity|]. intros v H. rewrite Forall_forall in Hk. apply Hk in H. cbn [fst] in H.
  destruct str_ltb_strict as [Ir _ _]. rewrite Ir in H. discriminate.
Qed.
Print Assumptions C90_form_values.
(** Not true on level 1: that every lemma is given once. *)
Theorem C90_lemma_twice_refuted : exists word_ answers lemma evs1 evs2 evs3,
  morfologik PREDEFINED_TAGS ALLOWED_AS_POS GENERALIZATIONS true 1 word_ answers = (true, evs1 ++ ELemma lemma :: evs2 ++ ELemma lemma :: evs3).
Proof.
  exists (w "mam"), [(w "mama", w "subst:pl:gen:f"); (w "mieć", w "verb:fin:sg:pri"); (w "mama", w "subst:pl:acc:f")], (w "mama"),
    [ENorm (w "mam")], [ELemma (w "mieć")], []. vm_compute. reflexivity.
Qed.
Print Assumptions C90_lemma_twice_refuted.
Example C90_levels_case : morfologik PREDEFINED_TAGS ALLOWED_AS_POS GENERALIZATIONS true 3 (w "psa") [(w "pies", w "subst:sg:gen.acc:m2")] =
  (true, [ENorm (w "psa"); ELemma (w "pies"); ELexeme (w "subst") (w "pies+subst") [(w "gender", w "m2")];
          EForm (w "subst") (w "psa") [(w "case", w "gen"); (w "gender", w "m2"); (w "number", w "sg")];
          EForm (w "subst") (w "psa") [(w "case", w "acc"); (w "gender", w "m2"); (w "number", w "sg")]]).
Proof. vm_compute. reflexivity. Qed.

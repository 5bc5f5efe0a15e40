(** Lemmas about rules with holes. *)
From Coq Require Import List ZArith Bool PeanoNat Lia Sorted.
From Verif Require Import M_Extract S_Extract L_Extract.
Import ListNotations.
Local Open Scope nat_scope.

Lemma fop_app {A} (R : A -> A -> Prop) l m : ForallOrdPairs R (l ++ m) <-> ForallOrdPairs R l /\ ForallOrdPairs R m /\ forall x y, In x l -> In y m -> R x y.
Proof.
  induction l as [|a l IH]; cbn [app].
  - split; [intros H; repeat split; [constructor|easy|easy]|now intros (_ & H & _)].
  - split.
    + intros H. inversion H as [|? ? H1 H2]; subst. apply IH in H2 as (H2 & H3 & H4). apply Forall_app in H1 as [H1 H5]. repeat split; [now constructor|easy|].
      intros x y [<-|I] J; [now apply (proj1 (Forall_forall _ _) H5)|now apply H4].
    + intros (H1 & H2 & H3). inversion H1 as [|? ? H4 H5]; subst. constructor.
      * apply Forall_app. split; [easy|]. apply Forall_forall. intros y J. apply H3; [now left|easy].
      * apply IH. repeat split; auto. intros x y I J. apply H3; [now right|easy].
Qed.
Lemma total_app f a b : total f (a ++ b) = total f a + total f b.
Proof. induction a; cbn; lia. Qed.

Section Hiero.
Context (o : options) (n : sentence) (P : list point) (nt ns : nat) (R : represents P nt ns n).
Context (pair : span -> Prop) (ph : span) (exist : list span).
Context (Pair : forall h, pair h -> sT h <= eT h /\ sS h <= eS h /\ exists s t, In (s, t) P /\ in_t h t).
Context (Ph : sT ph <= eT ph /\ sS ph <= eS ph).
Context (Ex : forall h, sT ph <= sT h -> eT h <= eT ph -> ~ (sT h = sT ph /\ eT h = eT ph) -> In h exist <-> pair h).
Context (Mh : 0 < min_hole_t o).

(** What holds of a list of holes that may be extended. *)
Definition aligned_ok (hs : list span) : Prop :=
  aligned_word o = true -> aligned_left P ph hs \/ (total size_t hs = size_t ph /\ total size_s hs = size_s ph).
Definition sofar (hs : list span) : Prop :=
  length hs <= max_nonterm o
  /\ Forall (hole_ok o pair ph) hs /\ ForallOrdPairs (after_t o) hs /\ ForallOrdPairs (apart_s o) hs
  /\ choice_points ph hs <= max_scope o.
Definition wordy (hs : list span) : Prop :=
  total size_t hs + min_words o <= size_t ph /\ total size_s hs + min_words o <= size_s ph.
Definition fits (hs : list span) : Prop :=
  size_t ph + length hs <= max_symbols_t o + total size_t hs /\ size_s ph + length hs <= max_symbols_s o + total size_s hs.
Lemma rule_ok_split hs : rule_ok o P pair ph hs <-> hs <> [] /\ sofar hs /\ wordy hs /\ aligned_ok hs /\ fits hs.
Proof. unfold rule_ok, sofar, wordy, fits, aligned_ok. tauto. Qed.

Lemma hole_facts h : hole_ok o pair ph h -> sT h <= eT h /\ sS h <= eS h /\ sT ph <= sT h /\ eT h <= eT ph /\ sS ph <= sS h /\ eS h <= eS ph.
Proof. intros (A & B). destruct (Pair h A) as (C & D & _). tauto. Qed.
Lemma after_lt g h : after_t o g h -> eT g < sT h.
Proof. unfold after_t. destruct (consec_t o); lia. Qed.
Lemma apart_ne g h : apart_s o g h -> eS g < sS h \/ eS h < sS g.
Proof. unfold apart_s. destruct (consec_s o); lia. Qed.

(** Sizes of the holes add up to at most the phrase. *)
Lemma total_t hs : Forall (hole_ok o pair ph) hs -> ForallOrdPairs (after_t o) hs ->
  forall lo, (forall h, In h hs -> lo <= sT h) -> lo <= S (eT ph) -> total size_t hs + lo <= S (eT ph).
Proof.
  induction hs as [|h hs IH]; intros F O lo L Lo; cbn [total]; [lia|].
  inversion F as [|? ? F1 F2]; subst. inversion O as [|? ? O1 O2]; subst. pose proof (hole_facts h F1) as H. rewrite Forall_forall in O1.
  specialize (L h (or_introl eq_refl)) as Lh.
  specialize (IH F2 O2 (S (eT h))). unfold size_t at 1.
  assert (K : total size_t hs + S (eT h) <= S (eT ph)); [|lia]. apply IH; [|lia]. intros g I. specialize (O1 g I). apply after_lt in O1. lia.
Qed.
(** The sum of the sizes of disjoint spans: by counting positions. *)
Lemma total_s hs : Forall (hole_ok o pair ph) hs -> ForallOrdPairs (apart_s o) hs -> total size_s hs <= size_s ph.
Proof.
  intros F O. assert (E : total size_s hs = length (flat_map (fun h => seq (sS h) (size_s h)) hs)).
  { clear. induction hs as [|h hs IH]; cbn [total flat_map]; [easy|]. now rewrite app_length, seq_length, IH. }
  rewrite E. replace (size_s ph) with (length (seq (sS ph) (size_s ph))) by apply seq_length.
  apply NoDup_incl_length.
  - clear E. induction hs as [|h hs IH]; cbn [flat_map]; [constructor|]. inversion F as [|? ? F1 F2]; subst. inversion O as [|? ? O1 O2]; subst.
    specialize (IH F2 O2). rewrite Forall_forall in O1.
    assert (D : forall x, In x (seq (sS h) (size_s h)) -> ~ In x (flat_map (fun h => seq (sS h) (size_s h)) hs)).
    { intros x I J. apply in_seq in I. apply in_flat_map in J as (g & Ig & J). apply in_seq in J. specialize (O1 g Ig). apply apart_ne in O1.
      rewrite Forall_forall in F2. pose proof (hole_facts h F1). pose proof (hole_facts g (F2 g Ig)). unfold size_s in *. lia. }
    revert D. generalize (seq_NoDup (size_s h) (sS h)). generalize (seq (sS h) (size_s h)) as l. induction l as [|x l IHl]; intros N D; [exact IH|].
    cbn [app]. inversion N; subst. constructor.
    + rewrite in_app_iff. intros [K|K]; [easy|]. now apply (D x (or_introl eq_refl)).
    + apply IHl; [easy|]. intros y Hy. apply D. now right.
  - intros x I. apply in_flat_map in I as (h & Ih & I). apply in_seq in I. rewrite Forall_forall in F. pose proof (hole_facts h (F h Ih)).
    apply in_seq. unfold size_s in *. lia.
Qed.

(** Choice points of a list with one more hole. *)
Lemma filter_ext_len {A} (f g : A -> bool) l : (forall x, In x l -> f x = g x) -> length (filter f l) = length (filter g l).
Proof. intros H. now rewrite (filter_ext_in f g l H). Qed.
Lemma scope_step hs h : Forall (hole_ok o pair ph) (hs ++ [h]) -> ForallOrdPairs (apart_s o) (hs ++ [h]) ->
  scope ph hs (choice_points ph hs) h = choice_points ph (hs ++ [h]).
Proof.
  intros F O. apply Forall_app in F as [F Fh]. inversion Fh as [|? ? Fh' _]; subst. apply fop_app in O as (O & _ & Oh).
  rewrite Forall_forall in F. pose proof (hole_facts h Fh') as Hh.
  assert (Hg : forall g, In g hs -> (sS g <= eS g /\ sS ph <= sS g /\ eS g <= eS ph) /\ (eS g < sS h \/ eS h < sS g)).
  { intros g I. pose proof (hole_facts g (F g I)). split; [tauto|]. apply apart_ne, Oh; [easy|now left]. }
  unfold choice_points. rewrite !filter_app, !app_length. cbn [filter].
  assert (B : begins ph (hs ++ [h]) h = begins ph hs h).
  { unfold begins. rewrite existsb_app. cbn [existsb]. replace (S (eS h) =? sS h) with false by (symmetry; apply Nat.eqb_neq; lia).
    now rewrite !orb_false_r. }
  rewrite B.
  assert (C : length (filter (begins ph (hs ++ [h])) hs) = length (filter (begins ph hs) hs) + (if existsb (fun g => sS g =? S (eS h)) hs then 1 else 0)).
  { rewrite (filter_split (begins ph hs) (fun g => sS g =? S (eS h))).
    - f_equal.
      (* at most one hole begins there *)
      clear B Oh. induction hs as [|g hs IH]; cbn [filter existsb]; [easy|]. inversion O as [|? ? O1 O2]; subst.
      destruct (Nat.eqb_spec (sS g) (S (eS h))) as [E|N]; cbn [orb].
      + cbn [length]. f_equal. apply length_zero_iff_nil.
        destruct (filter (fun g0 => sS g0 =? S (eS h)) hs) as [|x l] eqn:Q; [easy|]. exfalso.
        assert (I : In x (filter (fun g0 => sS g0 =? S (eS h)) hs)) by (rewrite Q; now left). apply filter_In in I as [I E']. apply Nat.eqb_eq in E'.
        rewrite Forall_forall in O1. specialize (O1 x I). apply apart_ne in O1. destruct (Hg g (or_introl eq_refl)) as [G _]. destruct (Hg x (or_intror I)) as [X _]. lia.
      + apply IH; [intros x I; apply F; now right|easy|intros x I; apply Hg; now right].
    - intros g. unfold begins. rewrite existsb_app. cbn [existsb]. rewrite orb_false_r, orb_assoc. f_equal. apply Nat.eqb_sym.
    - intros g A1 A2. apply Nat.eqb_eq in A2. unfold begins in A1. apply orb_true_iff in A1 as [A1|A1].
      + apply Nat.eqb_eq in A1. lia.
      + apply existsb_exists in A1 as (x & I & E). apply Nat.eqb_eq in E. destruct (Hg x I) as [X Y]. lia. }
  rewrite C. unfold scope. change ((sS h =? sS ph) || existsb (fun g => S (eS g) =? sS h) hs) with (begins ph hs h).
  assert (D : (eS h =? eS ph) && existsb (fun g => sS g =? S (eS h)) hs = false).
  { apply andb_false_iff. destruct (Nat.eqb_spec (eS h) (eS ph)) as [E|]; [right|now left]. apply not_true_iff_false. intros X.
    apply existsb_exists in X as (x & I & E'). apply Nat.eqb_eq in E'. destruct (Hg x I). lia. }
  destruct (begins ph hs h), (eS h =? eS ph), (existsb (fun g => sS g =? S (eS h)) hs); cbn [length orb andb] in *; try discriminate; lia.
Qed.

(** Looking for an aligned word. *)
Lemma word_left_spec new et fuel : sT new <= eT new -> forall pos hs, et < pos + fuel ->
  (forall h, In h hs -> sT h <= eT h /\ pos <= sT h /\ eT h < sT new) -> ForallOrdPairs (fun g h => eT g < sT h) hs ->
  (pos <= sT new \/ (eT new < pos /\ hs = [])) ->
  word_left n fuel pos et hs new = true <->
  exists t, pos <= t <= et /\ nth t (to_t n) [] <> [] /\ (forall h, In h hs -> ~ in_t h t) /\ ~ in_t new t.
Proof.
  intros Ln. unfold in_t. induction fuel as [|f IH]; intros pos hs Lf H O Q; cbn [word_left].
  - split; [easy|]. intros (t & L & _). lia.
  - destruct (Nat.ltb_spec et pos) as [E|E]; [split; [easy|]; intros (t & L & _); lia|].
    destruct (Nat.eqb_spec pos (sT new)) as [En|Nn].
    + assert (hs = []) as ->. { destruct hs as [|h hs]; [easy|]. specialize (H h (or_introl eq_refl)). lia. }
      rewrite IH; [|lia|easy|constructor|right; split; [lia|easy]]. split; intros (t & L & Ne & A & B); exists t.
      * split; [lia|]. split; [easy|]. split; [easy|lia].
      * split; [lia|]. split; [easy|]. split; [easy|lia].
    + assert (W : (forall h, In h hs -> pos <> sT h) ->
        match nth pos (to_t n) [] with [] => word_left n f (S pos) et hs new | _ => true end = true <->
        exists t, pos <= t <= et /\ nth t (to_t n) [] <> [] /\ (forall h, In h hs -> ~ sT h <= t <= eT h) /\ ~ sT new <= t <= eT new).
      { intros Ns. destruct (nth pos (to_t n) []) eqn:Ew.
        - rewrite IH; [|lia| |easy|].
          + split; intros (t & L & Ne & A & B); exists t; (split; [|easy]); [lia|]. assert (t <> pos) by congruence. lia.
          + intros h I. specialize (H h I). specialize (Ns h I). lia.
          + destruct Q as [Q|[Q ->]]; [left; lia|right; split; [lia|easy]].
        - split; [intros _|easy]. exists pos. split; [lia|]. split; [congruence|]. split.
          + intros h I. specialize (H h I). specialize (Ns h I). lia.
          + destruct Q as [Q|[Q _]]; lia. }
      destruct hs as [|h hs]; [now apply W|]. destruct (Nat.eqb_spec (sT h) pos) as [Eh|Nh].
      * inversion O as [|? ? O1 O2]; subst. rewrite Forall_forall in O1. pose proof (H h (or_introl eq_refl)) as Hh.
        rewrite IH; [|lia| |easy|left; lia].
        -- split; intros (t & L & Ne & A & B); exists t.
           ++ split; [lia|]. split; [easy|]. split; [|easy]. intros x [<-|I]; [lia|now apply A].
           ++ specialize (A h (or_introl eq_refl)) as Ah. split; [lia|]. split; [easy|]. split; [|easy]. intros x I. apply A. now right.
        -- intros x I. specialize (O1 x I). specialize (H x (or_intror I)). lia.
      * apply W. intros x [<-|I]; [lia|]. inversion O as [|? ? O1 O2]; subst. rewrite Forall_forall in O1. specialize (O1 x I).
        pose proof (H h (or_introl eq_refl)). lia.
Qed.
Lemma to_t_nonempty t : nth t (to_t n) [] <> [] <-> exists s, In (s, t) P.
Proof.
  destruct R as (A & B & C & D & E). rewrite C. split.
  - intros H. destruct (filter (fun p => snd p =? t) P) as [|[s t'] l] eqn:F; [easy|].
    assert (I : In (s, t') (filter (fun p => snd p =? t) P)) by (rewrite F; now left). apply filter_In in I as [I K]. apply Nat.eqb_eq in K. cbn in K. subst. now exists s.
  - intros (s & I) F. assert (J : In (s, t) (filter (fun p => snd p =? t) P)) by (apply filter_In; split; [easy|apply Nat.eqb_refl]).
    destruct (filter (fun p => snd p =? t) P); easy.
Qed.
Lemma fop_impl {A} (Q Q' : A -> A -> Prop) l : (forall x y, Q x y -> Q' x y) -> ForallOrdPairs Q l -> ForallOrdPairs Q' l.
Proof. intros H. induction 1 as [|x l F O IH]; constructor; [|easy]. eapply Forall_impl; [|exact F]. intros y. apply H. Qed.
Lemma word_left_aligned hs h : Forall (hole_ok o pair ph) (hs ++ [h]) -> ForallOrdPairs (after_t o) (hs ++ [h]) ->
  word_left n (S (eT ph)) (sT ph) (eT ph) hs h = true <-> aligned_left P ph (hs ++ [h]).
Proof.
  intros F O. apply Forall_app in F as [F Fh]. inversion Fh as [|? ? Fh' _]; subst. apply fop_app in O as (O & _ & Oh).
  rewrite Forall_forall in F. pose proof (hole_facts h Fh') as Hh. rewrite word_left_spec; [|lia|lia| | |left; lia].
  - unfold aligned_left, in_t. split.
    + intros (t & L & Ne & A & B). apply to_t_nonempty in Ne as (s & I). exists s, t. split; [easy|]. split; [lia|]. intros g Ig. apply in_app_iff in Ig as [Ig|[<-|[]]]; [now apply A|easy].
    + intros (s & t & I & L & A). exists t. split; [lia|]. split; [apply to_t_nonempty; now exists s|]. split; [intros g Ig; apply A, in_app_iff; now left|]. apply A, in_app_iff. right. now left.
  - intros g I. pose proof (hole_facts g (F g I)). specialize (Oh g h I (or_introl eq_refl)). apply after_lt in Oh. lia.
  - revert O. apply fop_impl. intros x y. apply after_lt.
Qed.

(** Shorter lists of holes. *)
Lemma choice_mono a b : choice_points ph a <= choice_points ph (a ++ b).
Proof.
  unfold choice_points. rewrite !filter_app, !app_length.
  enough (length (filter (begins ph a) a) <= length (filter (begins ph (a ++ b)) a)) by lia.
  assert (M : forall x, begins ph a x = true -> begins ph (a ++ b) x = true).
  { intros x. unfold begins. rewrite existsb_app. destruct (sS x =? sS ph); [easy|]. cbn [orb]. intros ->. easy. }
  revert M. generalize (begins ph a) as f, (begins ph (a ++ b)) as g. intros f g M. clear -M. induction a as [|x a IH]; cbn; [lia|].
  specialize (M x). destruct (f x), (g x); cbn; try lia; specialize (M eq_refl); discriminate.
Qed.
Lemma sofar_prefix a b : sofar (a ++ b) -> sofar a.
Proof.
  intros (A & B & C & D & E). unfold sofar. rewrite app_length in A. apply Forall_app in B as [B _]. apply fop_app in C as [C _], D as [D _].
  pose proof (choice_mono a b). split; [lia|]. split; [easy|]. split; [easy|]. split; [easy|lia].
Qed.
Lemma wordy_prefix a b : wordy (a ++ b) -> wordy a.
Proof. unfold wordy. rewrite !total_app. lia. Qed.
Lemma aligned_prefix a h b : sofar (a ++ h :: b) -> aligned_ok a.
Proof.
  intros (_ & F & O & _) _. left. apply Forall_app in F as [F Fh]. inversion Fh as [|? ? Fh' _]; subst. apply fop_app in O as (_ & _ & Oh).
  destruct Fh' as (Ph' & Q). pose proof (Pair h Ph') as (L1 & L2 & s & t & I & J). exists s, t. split; [easy|]. unfold in_t in *. split; [lia|].
  intros g Ig. specialize (Oh g h Ig (or_introl eq_refl)). apply after_lt in Oh. lia.
Qed.

Lemma hiero_in fuel : forall hs sc init wt ws r, max_nonterm o <= length hs + fuel -> sofar hs -> sc = choice_points ph hs ->
  wt = (Z.of_nat (size_t ph) - Z.of_nat (total size_t hs))%Z -> ws = (Z.of_nat (size_s ph) - Z.of_nat (total size_s hs))%Z ->
  (forall h, (sT ph <= sT h /\ (first_word o = false -> sT h <> sT ph) /\ forall g, In g hs -> after_t o g h) <-> init <= sT h) ->
  In r (hiero o n fuel exist ph hs sc (length hs) init wt ws) <->
  exists h ext, r = hs ++ h :: ext /\ sofar r /\ wordy r /\ aligned_ok r /\ fits r.
Proof.
  induction fuel as [|f IH]; intros hs sc init wt ws r Lf Sf Esc Ewt Ews Hi; cbn [hiero].
  { split; [easy|]. intros (h & ext & -> & (L & _) & _). rewrite app_length in L. cbn in L. lia. }
  destruct (Nat.leb_spec (max_nonterm o) (length hs)) as [Lm|Lm].
  { split; [easy|]. intros (h & ext & -> & (L & _) & _). rewrite app_length in L. cbn in L. lia. }
  assert (Next : forall h, sofar (hs ++ [h]) -> forall h', (sT ph <= sT h' /\ (first_word o = false -> sT h' <> sT ph) /\ forall g, In g (hs ++ [h]) -> after_t o g h')
     <-> (if consec_t o then S (eT h) else S (S (eT h))) <= sT h').
  { intros h (_ & F & O & _) h'. apply Forall_app in F as [_ Fh]. inversion Fh as [|? ? Fh' _]; subst. pose proof (hole_facts h Fh') as Hh.
    apply fop_app in O as (_ & _ & Oh). assert (Lh : init <= sT h).
    { apply Hi. destruct Fh' as (_ & A1 & _ & _ & _ & _ & _ & _ & A2). split; [easy|]. split; [easy|]. intros g I. apply Oh; [easy|now left]. }
    split.
    - intros (_ & _ & A). specialize (A h ltac:(apply in_app_iff; right; now left)). unfold after_t in A. destruct (consec_t o); lia.
    - intros A. split; [destruct (consec_t o); lia|]. split; [intros _; destruct (consec_t o); lia|]. intros g I. apply in_app_iff in I as [I|[<-|[]]].
      + specialize (Oh g h I (or_introl eq_refl)). unfold after_t in *. destruct (consec_t o); lia.
      + unfold after_t. destruct (consec_t o); lia. }
  assert (Rec : forall h, sofar (hs ++ [h]) ->
     In r (hiero o n f exist ph (hs ++ [h]) (scope ph hs sc h) (S (length hs)) (if consec_t o then S (eT h) else S (S (eT h)))
        (wt - Z.of_nat (size_t h)) (ws - Z.of_nat (size_s h))) <->
     exists h' ext, r = (hs ++ [h]) ++ h' :: ext /\ sofar r /\ wordy r /\ aligned_ok r /\ fits r).
  { intros h Sh. rewrite <- (IH (hs ++ [h]) (scope ph hs sc h) (if consec_t o then S (eT h) else S (S (eT h))) (wt - Z.of_nat (size_t h))%Z (ws - Z.of_nat (size_s h))%Z r).
    - rewrite app_length. cbn [length]. replace (length hs + 1) with (S (length hs)) by lia. reflexivity.
    - rewrite app_length. cbn [length]. lia.
    - easy.
    - destruct Sh as (_ & F & _ & O & _). rewrite Esc. now apply scope_step.
    - rewrite total_app. cbn [total]. lia.
    - rewrite total_app. cbn [total]. lia.
    - now apply Next. }
  clear IH. rewrite in_flat_map. split.
  - intros (st & I1 & I2). apply in_seq in I1. apply in_flat_map in I2 as (et & I2 & I3). apply in_seq in I2.
    destruct ((length hs =? max_nonterm o - 1) && _) eqn:C1 in I3; [easy|]. cbv zeta in I3.
    destruct (Z.ltb_spec (wt - Z.of_nat (S et - st)) (Z.of_nat (min_words o))) as [|C2] in I3; [easy|].
    destruct ((st =? sT ph) && (et =? eT ph)) eqn:C3 in I3; [easy|].
    apply in_flat_map in I3 as (g & I3 & I4). apply filter_In in I3 as [Ig Eg]. apply andb_true_iff in Eg as [E1 E2]. apply Nat.eqb_eq in E1, E2.
    subst st et.
    assert (Eg : Span (sT g) (eT g) (sS g) (eS g) = g) by now destruct g. rewrite Eg in I4.
    destruct (Nat.ltb_spec (S (eS g) - sS g) (min_hole_s o)) as [|C4] in I4; [easy|].
    destruct ((length hs =? max_nonterm o - 1) && _) eqn:C5 in I4; [easy|].
    destruct (Z.ltb_spec (ws - Z.of_nat (S (eS g) - sS g)) (Z.of_nat (min_words o))) as [|C6] in I4; [easy|].
    destruct ((sS g <? sS ph) || (eS ph <? eS g)) eqn:C7 in I4; [easy|].
    destruct (existsb (fun h => overlap_s h g) hs) eqn:C8 in I4; [easy|].
    destruct (negb (consec_s o) && existsb (fun h => neighbor_s h g) hs) eqn:C9 in I4; [easy|].
    destruct (Nat.ltb_spec (max_scope o) (scope ph hs sc g)) as [|C10] in I4; [easy|].
    destruct (aligned_word o && _ && _) eqn:C11 in I4; [easy|].
    assert (C3' : ~ (sT g = sT ph /\ eT g = eT ph)).
    { intros [X Y]. rewrite X, Y, !Nat.eqb_refl in C3. discriminate. }
    destruct (proj2 (Hi g) ltac:(lia)) as (K1 & K2 & K3).
    assert (Pg : pair g) by (apply Ex; [lia|lia|easy|easy]). pose proof (Pair g Pg) as (G1 & G2 & _).
    apply orb_false_iff in C7 as [C7 C7']. apply Nat.ltb_ge in C7, C7'.
    assert (Hg : hole_ok o pair ph g).
    { unfold hole_ok, size_t, size_s. split; [exact Pg|]. do 4 (split; [lia|]). split; [exact C3'|]. split; [lia|]. split; [lia|exact K2]. }
    assert (Ap : forall x, In x hs -> apart_s o x g).
    { intros x I. assert (X8 : overlap_s x g = false).
      { apply not_true_iff_false. intros X. apply not_true_iff_false in C8. apply C8, existsb_exists. now exists x. }
      unfold overlap_s in X8. apply negb_false_iff in X8. apply orb_true_iff in X8. rewrite !Nat.ltb_lt in X8.
      unfold apart_s. destruct (consec_s o) eqn:Ec; [lia|]. cbn [negb andb] in C9.
      assert (X9 : neighbor_s x g = false).
      { apply not_true_iff_false. intros X. apply not_true_iff_false in C9. apply C9, existsb_exists. now exists x. }
      unfold neighbor_s in X9. apply orb_false_iff in X9 as [X9 X9']. apply Nat.eqb_neq in X9, X9'. lia. }
    destruct Sf as (S1 & S2 & S3 & S4 & S5).
    assert (F' : Forall (hole_ok o pair ph) (hs ++ [g])) by (apply Forall_app; split; [easy|now constructor]).
    assert (O' : ForallOrdPairs (after_t o) (hs ++ [g])).
    { apply fop_app. split; [easy|]. split; [repeat constructor|]. intros x y I [<-|[]]. now apply K3. }
    assert (A' : ForallOrdPairs (apart_s o) (hs ++ [g])).
    { apply fop_app. split; [easy|]. split; [repeat constructor|]. intros x y I [<-|[]]. now apply Ap. }
    assert (Sg : sofar (hs ++ [g])).
    { split; [rewrite app_length; cbn [length]; lia|]. split; [easy|]. split; [easy|]. split; [easy|].
      rewrite <- scope_step by easy. rewrite Esc in C10. exact C10. }
    apply in_app_iff in I4 as [I4|I4].
    + destruct (_ || _) eqn:C12 in I4; [easy|]. destruct I4 as [<-|[]]. apply orb_false_iff in C12 as [C12 C12']. apply Z.ltb_ge in C12, C12'.
      exists g, []. split; [easy|]. split; [easy|]. unfold wordy, fits. rewrite !total_app, app_length. cbn [total length].
      unfold size_t, size_s in *. split; [lia|]. split; [|lia].
      intros Aw. rewrite Aw in C11. cbn [andb] in C11. apply andb_false_iff in C11 as [C11|C11].
      * right. apply orb_false_iff in C11 as [Y1 Y2]. apply Z.ltb_ge in Y1, Y2. rewrite !total_app. cbn [total].
        pose proof (total_s _ F' A') as Ts. pose proof (total_t _ F' O' (sT ph)) as Tt. rewrite !total_app in *. cbn [total] in *. unfold size_t, size_s in *. 
        assert (Tt' : total (fun h => S (eT h) - sT h) hs + (S (eT g) - sT g + 0) + sT ph <= S (eT ph)).
        { apply Tt; [|lia]. intros x I. rewrite Forall_forall in F'. now apply hole_facts, F'. }
        lia.
      * left. apply negb_false_iff in C11. now apply word_left_aligned in C11.
    + apply Rec in I4; [|easy]. destruct I4 as (h' & ext & -> & Q). exists g, (h' :: ext). split; [now rewrite <- app_assoc|exact Q].
  - intros (g & ext & -> & Sr & Wr & Ar & Fr).
    assert (Er : hs ++ g :: ext = (hs ++ [g]) ++ ext) by now rewrite <- app_assoc.
    assert (Sg : sofar (hs ++ [g])) by (rewrite Er in Sr; now apply sofar_prefix in Sr).
    assert (Wg : wordy (hs ++ [g])) by (rewrite Er in Wr; now apply wordy_prefix in Wr).
    assert (Ag : aligned_ok (hs ++ [g])).
    { destruct ext as [|h' ext]; [exact Ar|]. rewrite Er in Sr. now apply aligned_prefix in Sr. }
    assert (Lr : length hs + S (length ext) <= max_nonterm o) by (destruct Sr as (L & _); rewrite app_length in L; exact L).
    pose proof Sg as (S1 & S2 & S3 & S4 & S5). pose proof (proj1 (Forall_app _ _ _) S2) as [S2a S2b].
    inversion S2b as [|? ? Hg _]; subst. pose proof (hole_facts g Hg) as G. pose proof Hg as (Pg & _ & _ & _ & _ & H5 & H6 & H7 & H8).
    pose proof (proj1 (fop_app _ _ _) S3) as (_ & _ & S3'). pose proof (proj1 (fop_app _ _ _) S4) as (_ & _ & S4').
    assert (Lh : init <= sT g).
    { apply Hi. split; [lia|]. split; [easy|]. intros x I. apply S3'; [easy|now left]. }
    unfold wordy in Wg. rewrite !total_app in Wg. cbn [total] in Wg. unfold size_t, size_s in *.
    exists (sT g). split; [apply in_seq; lia|]. apply in_flat_map. exists (eT g). split; [apply in_seq; lia|].
    pose proof Fr as Fr0. destruct Fr as [Fr1 Fr2]. rewrite total_app, app_length in Fr1, Fr2. cbn [total length] in Fr1, Fr2.
    replace ((length hs =? max_nonterm o - 1) && _) with false.
    2:{ symmetry. apply andb_false_iff. destruct (Nat.eqb_spec (length hs) (max_nonterm o - 1)) as [E|]; [right|now left].
        assert (ext = []) as -> by (destruct ext; [easy|]; cbn [length] in Lr; lia). cbn [total length] in *. apply Z.ltb_ge. unfold size_t, size_s in *. lia. }
    cbv zeta. replace (_ <? Z.of_nat (min_words o))%Z with false by (symmetry; apply Z.ltb_ge; unfold size_t, size_s in *; lia).
    replace ((sT g =? sT ph) && (eT g =? eT ph)) with false.
    2:{ symmetry. apply andb_false_iff. rewrite !Nat.eqb_neq. lia. }
    apply in_flat_map. exists g. split.
    { apply filter_In. rewrite !Nat.eqb_refl. split; [|easy]. apply Ex; [lia|lia|easy|easy]. }
    assert (Eg : Span (sT g) (eT g) (sS g) (eS g) = g) by now destruct g. rewrite Eg.
    replace (S (eS g) - sS g <? min_hole_s o) with false by (symmetry; apply Nat.ltb_ge; lia).
    replace ((length hs =? max_nonterm o - 1) && _) with false.
    2:{ symmetry. apply andb_false_iff. destruct (Nat.eqb_spec (length hs) (max_nonterm o - 1)) as [E|]; [right|now left].
        assert (ext = []) as -> by (destruct ext; [easy|]; cbn [length] in Lr; lia). cbn [total length] in *. apply Z.ltb_ge. unfold size_t, size_s in *. lia. }
    replace (_ <? Z.of_nat (min_words o))%Z with false by (symmetry; apply Z.ltb_ge; unfold size_t, size_s in *; lia).
    replace ((sS g <? sS ph) || (eS ph <? eS g)) with false.
    2:{ symmetry. apply orb_false_iff. rewrite !Nat.ltb_ge. lia. }
    replace (existsb (fun h => overlap_s h g) hs) with false.
    2:{ symmetry. apply not_true_iff_false. intros X. apply existsb_exists in X as (x & I & X). specialize (S4' x g I (or_introl eq_refl)). apply apart_ne in S4'.
        unfold overlap_s in X. apply negb_true_iff, orb_false_iff in X. rewrite !Nat.ltb_ge in X. lia. }
    replace (negb (consec_s o) && existsb (fun h => neighbor_s h g) hs) with false.
    2:{ symmetry. apply andb_false_iff. destruct (consec_s o) eqn:Ec; [now left|right]. apply not_true_iff_false. intros X. apply existsb_exists in X as (x & I & X).
        specialize (S4' x g I (or_introl eq_refl)). unfold apart_s in S4'. rewrite Ec in S4'. unfold neighbor_s in X. apply orb_true_iff in X. rewrite !Nat.eqb_eq in X.
        rewrite Forall_forall in S2a. pose proof (hole_facts x (S2a x I)). lia. }
    replace (max_scope o <? scope ph hs (choice_points ph hs) g) with false.
    2:{ symmetry. apply Nat.ltb_ge. rewrite scope_step by easy. exact S5. }
    replace (aligned_word o && _ && _) with false.
    2:{ symmetry. destruct (aligned_word o) eqn:Aw; [|easy]. cbn [andb]. apply andb_false_iff. destruct (Ag Aw) as [A|[A B]].
        - right. apply negb_false_iff. now apply word_left_aligned.
        - left. rewrite total_app in A, B. cbn [total] in A, B. unfold size_t, size_s in *. apply orb_false_iff. split; apply Z.ltb_ge; lia. }
    apply in_app_iff. destruct ext as [|h' ext].
    + left. replace (_ || _) with false; [now left|]. symmetry. cbn [total length] in *. unfold size_t, size_s in *. apply orb_false_iff. split; apply Z.ltb_ge; lia.
    + right. apply Rec; [easy|]. exists h', ext. split; [now rewrite <- app_assoc|]. split; [easy|]. split; [easy|]. split; [easy|exact Fr0].
Qed.
End Hiero.

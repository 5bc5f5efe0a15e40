(** C76: the text, the alignment and the counts of extracted rules. *)
From Coq Require Import String List ZArith QArith Bool PeanoNat Lia Permutation Sorted.
From Verif Require Import M_Extract M_Rules S_Extract L_Extract L_Hiero L_Once P_Extract.
Import ListNotations.
Local Open Scope nat_scope.
Local Open Scope list_scope.

(** ** The two sides *)
(** The positions a side stands for, and its holes. *)
Definition covered (b e : span -> nat) (i : item) : list nat := match i with W p => [p] | H h => seq (b h) (S (e h) - b h) end.
Definition holes (l : list item) : list span := flat_map (fun i => match i with W _ => [] | H h => [h] end) l.

Lemma walk_spec b e last fuel : forall pos hs, S last <= pos + fuel -> (forall h, In h hs -> pos <= b h /\ b h <= e h /\ e h <= last) ->
  ForallOrdPairs (fun g h => e g < b h) hs ->
  flat_map (covered b e) (walk b e fuel pos last hs) = seq pos (S last - pos) /\ holes (walk b e fuel pos last hs) = hs.
Proof.
  induction fuel as [|f IH]; intros pos hs L Hh O; cbn [walk].
  - replace (S last - pos) with 0 by lia. split; [easy|]. destruct hs as [|h hs]; [easy|]. specialize (Hh h (or_introl eq_refl)). lia.
  - destruct (Nat.ltb_spec last pos) as [E|E].
    + replace (S last - pos) with 0 by lia. split; [easy|]. destruct hs as [|h hs]; [easy|]. specialize (Hh h (or_introl eq_refl)). lia.
    + assert (Word : (forall h, In h hs -> b h <> pos) ->
        flat_map (covered b e) (W pos :: walk b e f (S pos) last hs) = seq pos (S last - pos) /\ holes (W pos :: walk b e f (S pos) last hs) = hs).
      { intros N. destruct (IH (S pos) hs) as [I1 I2]; [lia| |easy|].
        - intros h I. specialize (Hh h I). specialize (N h I). lia.
        - cbn [flat_map covered app holes]. rewrite I1. fold (holes (walk b e f (S pos) last hs)). rewrite I2.
          replace (S last - pos) with (S (S last - S pos)) by lia. easy. }
      destruct hs as [|h hs]; [apply Word; easy|]. pose proof (Hh h (or_introl eq_refl)) as Hx. inversion O as [|? ? O1 O2]; subst. rewrite Forall_forall in O1.
      destruct (Nat.eqb_spec (b h) pos) as [Eb|Nb].
      * destruct (IH (S (e h)) hs) as [I1 I2]; [lia| |easy|].
        -- intros g I. specialize (O1 g I). specialize (Hh g (or_intror I)). lia.
        -- cbn [flat_map covered app holes]. rewrite I1. fold (holes (walk b e f (S (e h)) last hs)). rewrite I2. split; [|easy]. rewrite Eb.
           replace (S last - pos) with ((S (e h) - pos) + (S last - S (e h))) by lia. rewrite seq_app. f_equal. f_equal. lia.
      * apply Word. intros g [<-|I]; [easy|]. specialize (O1 g I). lia.
Qed.

Lemma put_perm h l : Permutation (put h l) (h :: l).
Proof. induction l as [|g l IH]; cbn [put]; [easy|]. destruct (sS h <? sS g); [reflexivity|]. rewrite IH. apply perm_swap. Qed.
Lemma sort_perm hs : Permutation (sort_s hs) hs.
Proof. induction hs as [|h hs IH]; cbn; [easy|]. rewrite put_perm. now constructor. Qed.
Lemma put_sorted h l : StronglySorted (fun a b => sS a <= sS b) l -> StronglySorted (fun a b => sS a <= sS b) (put h l).
Proof.
  induction l as [|g l IH]; intros St; cbn [put]; [repeat constructor|]. pose proof St as St0. apply StronglySorted_inv in St as [St F].
  destruct (Nat.ltb_spec (sS h) (sS g)) as [L|L].
  - constructor; [easy|]. constructor; [lia|]. eapply Forall_impl; [|exact F]. cbn. intros. lia.
  - constructor; [now apply IH|]. rewrite Forall_forall in *. intros x I. apply (Permutation_in _ (put_perm h l)) in I as [<-|I]; [lia|now apply F].
Qed.
Lemma sort_sorted hs : StronglySorted (fun a b => sS a <= sS b) (sort_s hs).
Proof. induction hs as [|h hs IH]; cbn; [constructor|now apply put_sorted]. Qed.
Definition disjoint_s (a b : span) : Prop := eS a < sS b \/ eS b < sS a.
Lemma disjoint_perm l m : Permutation l m -> ForallOrdPairs disjoint_s l -> ForallOrdPairs disjoint_s m.
Proof.
  induction 1 as [|x l m P IH|x y l|l m k P1 IH1 P2 IH2]; intros O; auto.
  - inversion O; subst. constructor; [|now apply IH]. rewrite Forall_forall in *. intros z I. apply H1. now apply (Permutation_in _ (Permutation_sym P)).
  - inversion O as [|? ? O1 O2]; subst. inversion O2 as [|? ? O3 O4]; subst. inversion O1 as [|? ? O5 O6]; subst. constructor; [constructor; [|easy]|constructor; easy].
    unfold disjoint_s in *. lia.
Qed.
Lemma fop_impl' {A} (Q Q' : A -> A -> Prop) l : (forall x y, Q x y -> Q' x y) -> ForallOrdPairs Q l -> ForallOrdPairs Q' l.
Proof. intros K. induction 1 as [|x l F O IH]; constructor; [|easy]. eapply Forall_impl; [|exact F]. intros y. apply K. Qed.
Lemma sort_before o (pair : span -> Prop) ph hs : (forall h, pair h -> sS h <= eS h) -> Forall (hole_ok o pair ph) hs -> ForallOrdPairs (apart_s o) hs ->
  ForallOrdPairs (fun g h => eS g < sS h) (sort_s hs).
Proof.
  intros Pr F A. assert (D : ForallOrdPairs disjoint_s (sort_s hs)).
  { apply (disjoint_perm hs); [symmetry; apply sort_perm|]. revert A. apply fop_impl'. intros x y. unfold apart_s, disjoint_s. destruct (consec_s o); lia. }
  assert (F' : Forall (fun h => sS h <= eS h) (sort_s hs)).
  { apply Forall_forall. intros x I. apply (Permutation_in _ (sort_perm hs)) in I. rewrite Forall_forall in F. destruct (F x I) as (K & _). now apply Pr. }
  pose proof (sort_sorted hs) as St. clear A F. induction (sort_s hs) as [|x l IH]; [constructor|].
  apply StronglySorted_inv in St as [St Sx]. inversion D as [|? ? D1 D2]; subst. inversion F' as [|? ? F1 F2]; subst. constructor; [|now apply IH].
  rewrite Forall_forall in *. intros y I. specialize (Sx y I). specialize (D1 y I). specialize (F2 y I). unfold disjoint_s in D1. cbn in Sx. lia.
Qed.

Section Rule.
Context (big : nat) (node_t node_s : nat -> nat -> bool) (o : options) (b : bool) (nt ns : nat) (points : list (nat * nat)) (n : sentence).
Context (C : create b nt ns points = Some n) (B : words b ns <= S big) (M : 0 < min_hole_t o).
Context (ph : span) (hs : list span) (I : In (ph, hs) (extract big node_t node_s b o n)) (Ne : hs <> []).

Lemma facts : sT ph <= eT ph /\ sS ph <= eS ph /\ (forall h, In h hs -> (sT ph <= sT h /\ sT h <= eT h /\ eT h <= eT ph) /\ (sS ph <= sS h /\ sS h <= eS h /\ eS h <= eS ph))
  /\ ForallOrdPairs (fun g h => eT g < sT h) hs /\ ForallOrdPairs (fun g h => eS g < sS h) (sort_s hs).
Proof.
  pose proof I as J. apply (C75_rules big node_t node_s o b nt ns points n C B M) in J as [Pp (_ & _ & F & O & A & _)]; [|easy].
  destruct Pp as (_ & L1 & L2 & _). split; [lia|]. split; [lia|]. split; [|split].
  - intros h Ih. rewrite Forall_forall in F. destruct (F h Ih) as ((_ & L3 & L4 & _) & Q). lia.
  - revert O. apply fop_impl'. intros x y. unfold after_t. destruct (consec_t o); lia.
  - eapply sort_before; [|exact F|exact A]. intros h (_ & _ & L & _). lia.
Qed.
Lemma target_spec : flat_map (covered sT eT) (target_items ph hs) = seq (sT ph) (S (eT ph) - sT ph) /\ holes (target_items ph hs) = hs.
Proof.
  destruct facts as (L1 & L2 & Hf & O & _). apply walk_spec; [lia| |easy]. intros h J. specialize (Hf h J). lia.
Qed.
Lemma source_spec : flat_map (covered sS eS) (source_items ph hs) = seq (sS ph) (S (eS ph) - sS ph) /\ holes (source_items ph hs) = sort_s hs.
Proof.
  destruct facts as (L1 & L2 & Hf & _ & O). apply walk_spec; [lia| |easy]. intros h J. apply (Permutation_in _ (sort_perm hs)) in J. specialize (Hf h J). lia.
Qed.
End Rule.

(** The sides of a rule with holes: the words of the phrase in order, with each hole in the place of its words. *)
Theorem C76_sides big node_t node_s o b nt ns points n ph hs :
  create b nt ns points = Some n -> words b ns <= S big -> 0 < min_hole_t o -> In (ph, hs) (extract big node_t node_s b o n) -> hs <> [] ->
  flat_map (covered sT eT) (target_items ph hs) = seq (sT ph) (size_t ph) /\ holes (target_items ph hs) = hs
  /\ flat_map (covered sS eS) (source_items ph hs) = seq (sS ph) (size_s ph) /\ Permutation (holes (source_items ph hs)) hs
  /\ length (target_items ph hs) <= max_symbols_t o /\ length (source_items ph hs) <= max_symbols_s o.
Proof.
  intros C B M I Ne. destruct (target_spec big node_t node_s o b nt ns points n C B M ph hs I Ne) as [T1 T2].
  destruct (source_spec big node_t node_s o b nt ns points n C B M ph hs I Ne) as [S1 S2].
  split; [exact T1|]. split; [easy|]. split; [exact S1|]. split; [rewrite S2; apply sort_perm|].
  assert (Len : forall bb ee l, length (flat_map (covered bb ee) l) + length (holes l) = length l + total (fun h => S (ee h) - bb h) (holes l)).
  { intros bb ee l. induction l as [|[p|h] l IH]; cbn [flat_map covered holes app length]; [easy| |].
    - fold (holes l). lia.
    - cbn [total]. fold (holes l). rewrite app_length, seq_length. lia. }
  apply (C75_rules big node_t node_s o b nt ns points n C B M) in I as [_ (_ & _ & _ & _ & _ & _ & _ & F1 & F2 & _)]; [|easy].
  split.
  - specialize (Len sT eT (target_items ph hs)). rewrite T1, T2, seq_length in Len. change (fun h => S (eT h) - sT h) with size_t in Len. unfold size_t at 1 in F1. lia.
  - specialize (Len sS eS (source_items ph hs)). rewrite S1, S2, seq_length in Len. change (fun h => S (eS h) - sS h) with size_s in Len.
    assert (P : total size_s (sort_s hs) = total size_s hs).
    { generalize (sort_perm hs). generalize (sort_s hs) as l. intros l P. clear -P. induction P; cbn [total]; lia. }
    rewrite (Permutation_length (sort_perm hs)), P in Len. unfold size_s at 1 in F2. lia.
Qed.
Print Assumptions C76_sides.

(** ** Alignments *)
Lemma index_w_some p l i : index_w p l = Some i -> nth_error l i = Some (W p).
Proof.
  revert i. induction l as [|[q|h] l IH]; intros i E; cbn in E; [easy| |].
  - destruct (Nat.eqb_spec q p) as [->|N]; [now inversion E|]. destruct (index_w p l) as [j|]; [|easy]. inversion E; subst. now apply IH.
  - destruct (index_w p l) as [j|]; [|easy]. inversion E; subst. now apply IH.
Qed.
Lemma index_h_some h l i : (forall g, In g (holes l) -> sS g = sS h -> g = h) -> index_h h l = Some i -> nth_error l i = Some (H h).
Proof.
  revert i. induction l as [|[q|g] l IH]; intros i U E; cbn in E; [easy| |].
  - destruct (index_h h l) as [j|]; [|easy]. inversion E; subst. now apply IH.
  - destruct (Nat.eqb_spec (sS g) (sS h)) as [Eq|N].
    + inversion E; subst. cbn. now rewrite (U g (or_introl eq_refl) Eq).
    + destruct (index_h h l) as [j|]; [|easy]. inversion E; subst. apply IH; [|easy]. intros x Ix. apply U. now right.
Qed.
Lemma index_w_in p l : In (W p) l -> exists i, index_w p l = Some i.
Proof.
  induction l as [|[q|h] l IH]; intros J; [easy| |]; cbn.
  - destruct (Nat.eqb_spec q p) as [->|N]; [eauto|]. destruct J as [J|J]; [congruence|]. destruct (IH J) as (i & ->). cbn. eauto.
  - destruct J as [J|J]; [congruence|]. destruct (IH J) as (i & ->). cbn. eauto.
Qed.
Lemma index_h_in h l : In (H h) l -> exists i, index_h h l = Some i.
Proof.
  induction l as [|[q|g] l IH]; intros J; [easy| |]; cbn.
  - destruct J as [J|J]; [congruence|]. destruct (IH J) as (i & ->). cbn. eauto.
  - destruct (Nat.eqb_spec (sS g) (sS h)) as [Eq|N]; [eauto|]. destruct J as [J|J]; [congruence|]. destruct (IH J) as (i & ->). cbn. eauto.
Qed.
(** Where positions are covered once, every item is at one place. *)
Lemma covered_once b e l : (forall h, In h (holes l) -> b h <= e h) -> NoDup (flat_map (covered b e) l) -> forall i j x, nth_error l i = Some x -> nth_error l j = Some x -> i = j.
Proof.
  intros Hh N. assert (Nz : forall x, In x l -> exists p, In p (covered b e x)).
  { intros [p|h] J; cbn [covered]; [exists p; now left|]. exists (b h). apply in_seq.
    assert (Ih : In h (holes l)) by (apply in_flat_map; exists (H h); split; [easy|now left]). specialize (Hh h Ih). lia. }
  clear Hh. induction l as [|y l IH]; intros i j x Ei Ej; [now destruct i|].
  assert (Y : forall k, nth_error l k = Some y -> False).
  { intros k Ek. destruct (Nz y (or_introl eq_refl)) as (p & Ip). cbn [flat_map] in N. apply nth_error_In in Ek.
    assert (Q : In p (flat_map (covered b e) l)) by (apply in_flat_map; now exists y).
    apply in_split in Ip as (u & v & Eu). rewrite Eu, <- app_assoc in N. cbn [app] in N. apply NoDup_remove_2 in N. apply N, in_app_iff. right. apply in_app_iff. now right. }
  destruct i as [|i], j as [|j]; cbn in Ei, Ej; [easy| | |].
  - exfalso. inversion Ei; subst. now apply (Y j).
  - exfalso. inversion Ej; subst. now apply (Y i).
  - f_equal. apply (IH) with (x := x); auto.
    + cbn [flat_map] in N. clear -N. induction (covered b e y) as [|p m IHm]; [easy|]. cbn in N. inversion N; auto.
    + intros z J. apply Nz. now right.
Qed.
Lemma all_some_in {A} (l : list (option A)) : (forall x, In x l -> x <> None) -> exists m, all_some l = Some m /\ forall x, In x m <-> In (Some x) l.
Proof.
  induction l as [|[x|] l IH]; intros Hx; cbn.
  - exists []. easy.
  - destruct IH as (m & -> & E); [intros y J; apply Hx; now right|]. exists (x :: m). split; [easy|]. intros y. cbn. rewrite E. split; (intros [K|K]; [left; congruence|now right]).
  - exfalso. now apply (Hx None (or_introl eq_refl)).
Qed.
(** The alignment of a rule with holes is always defined; it links words that are left as in the sentence, and each hole to itself. *)
Theorem C76_alignment big node_t node_s o b nt ns points n ph hs :
  create b nt ns points = Some n -> words b ns <= S big -> 0 < min_hole_t o -> In (ph, hs) (extract big node_t node_s b o n) -> hs <> [] ->
  exists al, hiero_alignment n ph hs = Some al /\ forall i j, In (i, j) al <->
    (exists s t, In (s, t) (all_points b nt ns points) /\ nth_error (source_items ph hs) i = Some (W s) /\ nth_error (target_items ph hs) j = Some (W t))
    \/ (exists h, In h hs /\ nth_error (source_items ph hs) i = Some (H h) /\ nth_error (target_items ph hs) j = Some (H h)).
Proof.
  intros C B M I Ne.
  destruct (target_spec big node_t node_s o b nt ns points n C B M ph hs I Ne) as [T1 T2].
  destruct (source_spec big node_t node_s o b nt ns points n C B M ph hs I Ne) as [S1 S2].
  destruct (facts big node_t node_s o b nt ns points n C B M ph hs I Ne) as (L1 & L2 & Hf & Ot & Os).
  pose proof (C75_words big node_t node_s o b nt ns points n ph hs C B M I) as Wd. pose proof (create_some _ _ _ _ _ C) as Rp.
  set (src := source_items ph hs) in *. set (tgt := target_items ph hs) in *.
  assert (Us : forall i j x, nth_error src i = Some x -> nth_error src j = Some x -> i = j).
  { apply (covered_once sS eS); [|rewrite S1; apply seq_NoDup]. intros h J. rewrite S2 in J. apply (Permutation_in _ (sort_perm hs)) in J. now apply Hf. }
  assert (Ut : forall i j x, nth_error tgt i = Some x -> nth_error tgt j = Some x -> i = j).
  { apply (covered_once sT eT); [|rewrite T1; apply seq_NoDup]. intros h J. rewrite T2 in J. now apply Hf. }
  assert (Hs : forall h, In h hs -> In (H h) src).
  { intros h J. apply (Permutation_in _ (Permutation_sym (sort_perm hs))) in J. rewrite <- S2 in J. apply in_flat_map in J as ([p|g] & J & K); [easy|]. destruct K as [<-|[]]. easy. }
  assert (Ht : forall h, In h hs -> In (H h) tgt).
  { intros h J. rewrite <- T2 in J. apply in_flat_map in J as ([p|g] & J & K); [easy|]. destruct K as [<-|[]]. easy. }
  assert (Key : forall g h, In g hs -> In h hs -> sS g = sS h -> g = h).
  { intros g h Jg Jh E. apply (Permutation_in _ (Permutation_sym (sort_perm hs))) in Jg, Jh. destruct (Hf g) as [_ Fg]; [now apply (Permutation_in _ (sort_perm hs))|].
    destruct (Hf h) as [_ Fh]; [now apply (Permutation_in _ (sort_perm hs))|].
    destruct (ForallOrdPairs_In Os g h Jg Jh) as [->|[K|K]]; [easy| |]; lia. }
  (* words in the items *)
  assert (Wt : forall t, In (W t) tgt <-> sT ph <= t <= eT ph /\ forall h, In h hs -> ~ in_t h t).
  { intros t. split.
    - intros J. split.
      + assert (K : In t (flat_map (covered sT eT) tgt)) by (apply in_flat_map; exists (W t); split; [easy|now left]). rewrite T1 in K. apply in_seq in K. lia.
      + intros h Jh K. apply In_nth_error in J as (i & Ei). pose proof (Ht h Jh) as J2. apply In_nth_error in J2 as (j & Ej).
        assert (Nd : NoDup (flat_map (covered sT eT) tgt)) by (rewrite T1; apply seq_NoDup).
        clear -Ei Ej Nd K. revert i j Ei Ej. induction tgt as [|y l IH]; intros i j Ei Ej; [now destruct i|]. cbn [flat_map] in Nd.
        assert (X : forall u v, In t (covered sT eT u) -> nth_error l v = Some u -> In t (covered sT eT y) -> False).
        { intros u v Ku Ev Ky. apply nth_error_In in Ev. assert (Q : In t (flat_map (covered sT eT) l)) by (apply in_flat_map; now exists u).
          apply in_split in Ky as (a & c & E). rewrite E, <- app_assoc in Nd. cbn [app] in Nd. apply NoDup_remove_2 in Nd. apply Nd, in_app_iff. right. apply in_app_iff. now right. }
        assert (Kh : In t (covered sT eT (H h))) by (cbn [covered]; apply in_seq; unfold in_t in K; lia).
        destruct i as [|i], j as [|j]; cbn in Ei, Ej; [congruence| | |].
        * inversion Ei; subst. apply (X (H h) j); [easy|easy|now left].
        * inversion Ej; subst. apply (X (W t) i); [now left|easy|easy].
        * apply (IH) with (i := i) (j := j); auto. clear -Nd. induction (covered sT eT y) as [|p m IHm]; [easy|]. cbn in Nd. inversion Nd; auto.
    - intros (Lt & K). assert (J : In t (flat_map (covered sT eT) tgt)) by (rewrite T1; apply in_seq; lia). apply in_flat_map in J as ([p|h] & J & Q).
      + destruct Q as [<-|[]]. easy.
      + exfalso. assert (Jh : In h hs) by (rewrite <- T2; apply in_flat_map; exists (H h); split; [easy|now left]). apply (K h Jh). cbn [covered] in Q. apply in_seq in Q. unfold in_t. lia. }
  assert (Ws : forall s, sS ph <= s <= eS ph -> (forall h, In h hs -> ~ in_s h s) -> In (W s) src).
  { intros s Lt K. assert (J : In s (flat_map (covered sS eS) src)) by (rewrite S1; apply in_seq; lia). apply in_flat_map in J as ([p|h] & J & Q).
    - destruct Q as [<-|[]]. easy.
    - exfalso. assert (Jh : In h hs). { apply (Permutation_in _ (sort_perm hs)). rewrite <- S2. apply in_flat_map. exists (H h). split; [easy|now left]. }
      apply (K h Jh). cbn [covered] in Q. apply in_seq in Q. unfold in_s. lia. }
  assert (At : forall t s, In s (nth t (to_t n) []) <-> In (s, t) (all_points b nt ns points)).
  { intros t s. destruct Rp as (_ & _ & E & _). rewrite E, in_map_iff. split.
    - intros ([s' t'] & <- & J). apply filter_In in J as [J K]. apply Nat.eqb_eq in K. cbn in *. now subst.
    - intros J. exists (s, t). split; [easy|]. apply filter_In. split; [easy|apply Nat.eqb_refl]. }
  assert (Word : forall t s, In (W t) tgt -> In (s, t) (all_points b nt ns points) -> In (W s) src).
  { intros t s J K. apply Wt in J as (J1 & J2). destruct (Wd s t K) as [W1 W2]. apply Ws; [now apply W1|]. intros h Jh Q. apply (J2 h Jh). now apply W2. }
  unfold hiero_alignment. fold src. fold tgt. cbv zeta.
  assert (Hp : forall h, In h hs -> exists i j, hole_point src tgt h = Some (i, j) /\ nth_error src i = Some (H h) /\ nth_error tgt j = Some (H h)).
  { intros h J. destruct (index_h_in h src (Hs h J)) as (i & Ei). destruct (index_h_in h tgt (Ht h J)) as (j & Ej). exists i, j.
    unfold hole_point. rewrite Ei, Ej. split; [easy|]. split.
    - apply index_h_some; [|easy]. intros g Jg. rewrite S2 in Jg. apply (Permutation_in _ (sort_perm hs)) in Jg. now apply Key.
    - apply index_h_some; [|easy]. intros g Jg. rewrite T2 in Jg. now apply Key. }
  destruct (all_some_in (flat_map (word_points n src tgt) (seq (sT ph) (S (eT ph) - sT ph)) ++ map (hole_point src tgt) hs)) as (al & Ea & Al).
  { intros x J. apply in_app_iff in J as [J|J].
    - apply in_flat_map in J as (t & _ & J). unfold word_points in J. destruct (index_w t tgt) as [j|] eqn:Ej; [|easy]. apply in_map_iff in J as (s & <- & J).
      apply At in J. apply index_w_some, nth_error_In in Ej. destruct (index_w_in s src (Word t s Ej J)) as (i & ->). easy.
    - apply in_map_iff in J as (h & <- & J). destruct (Hp h J) as (i & j & -> & _). easy. }
  exists al. split; [easy|]. intros i j. rewrite Al, in_app_iff. split.
  - intros [J|J].
    + left. apply in_flat_map in J as (t & _ & J). unfold word_points in J. destruct (index_w t tgt) as [j'|] eqn:Ej; [|easy]. apply in_map_iff in J as (s & E & J).
      destruct (index_w s src) as [i'|] eqn:Ei; [|easy]. cbn in E. assert (i' = i /\ j' = j) as [-> ->] by (split; congruence). exists s, t. split; [now apply At|]. split; now apply index_w_some.
    + right. apply in_map_iff in J as (h & E & J). destruct (Hp h J) as (i' & j' & E' & Q1 & Q2). rewrite E' in E. assert (i' = i /\ j' = j) as [-> ->] by (split; congruence). now exists h.
  - intros [(s & t & J & Ei & Ej)|(h & J & Ei & Ej)].
    + left. apply in_flat_map. exists t. pose proof (nth_error_In _ _ Ej) as Jt. pose proof (proj1 (Wt t) Jt) as (Lt & _). split; [apply in_seq; lia|].
      unfold word_points. destruct (index_w_in t tgt Jt) as (j' & Ej'). rewrite Ej'. apply in_map_iff. exists s. split; [|now apply At].
      destruct (index_w_in s src (nth_error_In _ _ Ei)) as (i' & Ei'). rewrite Ei'. cbn. apply index_w_some in Ei', Ej'.
      now rewrite (Us _ _ _ Ei Ei'), (Ut _ _ _ Ej Ej').
    + right. apply in_map_iff. exists h. split; [|easy]. destruct (Hp h J) as (i' & j' & -> & Q1 & Q2). now rewrite (Us _ _ _ Ei Q1), (Ut _ _ _ Ej Q2).
Qed.
Print Assumptions C76_alignment.
Example C76_alignment_some : let ph := Span 0 3 0 3 in let hs := [Span 0 0 0 0; Span 2 2 1 2] in
  source_items ph hs = [H (Span 0 0 0 0); H (Span 2 2 1 2); W 3] /\ target_items ph hs = [H (Span 0 0 0 0); W 1; H (Span 2 2 1 2); W 3]
  /\ hiero_alignment n1 ph hs = Some [(2, 1); (2, 3); (0, 0); (1, 2)].
Proof. now vm_compute. Qed.
(** Without holes: the alignment of the sentence, moved to the beginning. *)
Theorem C76_lexical big node_t node_s o b nt ns points n ph :
  create b nt ns points = Some n -> words b ns <= S big -> In ph (spans big node_t node_s o n) ->
  forall i j, In (i, j) (lexical_alignment n ph) <-> In (sS ph + i, sT ph + j) (all_points b nt ns points) /\ sT ph + j <= eT ph.
Proof.
  intros C B I i j. apply (C74_pairs big node_t node_s o b nt ns points n C B) in I as ((_ & K) & L1 & L2 & _).
  pose proof (create_some _ _ _ _ _ C) as (_ & _ & E & _). unfold lexical_alignment. rewrite in_flat_map. split.
  - intros (t & J1 & J2). apply in_seq in J1. rewrite E in J2. apply in_map_iff in J2 as (s & Es & J2). apply in_map_iff in J2 as ([s' t'] & <- & J2).
    apply filter_In in J2 as [J2 J3]. apply Nat.eqb_eq in J3. cbn [fst snd] in *. subst t'. inversion Es; subst.
    pose proof (proj2 (K _ _ J2)) as Q. unfold in_t, in_s in Q. specialize (Q ltac:(lia)). replace (sS ph + (s' - sS ph)) with s' by lia. replace (sT ph + (t - sT ph)) with t by lia.
    split; [easy|lia].
  - intros (J & L). exists (sT ph + j). split; [apply in_seq; lia|]. rewrite E. apply in_map_iff. exists (sS ph + i). split; [f_equal; lia|].
    apply in_map_iff. exists (sS ph + i, sT ph + j). split; [easy|]. apply filter_In. split; [easy|apply Nat.eqb_refl].
Qed.
Print Assumptions C76_lexical.
Example C76_lexical_some : In (Span 1 3 1 3) (spans 9 any any o1 n1) /\ lexical_alignment n1 (Span 1 3 1 3) = [(2, 0); (0, 1); (2, 2)].
Proof. vm_compute. intuition. Qed.

(** ** Labels *)
(** With boundary words, rules at an end of the sentence are to be labelled "S".  Rules with holes at the end are not. *)
Theorem C76_label big node_t node_s o b nt ns points n ph hs :
  create b nt ns points = Some n -> words b ns <= S big -> 0 < min_hole_t o -> In (ph, hs) (extract big node_t node_s b o n) ->
  label b n ph hs = if b && ((sS ph =? 0) || match hs with [] => eS ph =? S ns | _ => false end) then "S"%string else "X"%string.
Proof.
  intros C B M I. unfold label. destruct b; [|easy]. cbn [andb]. destruct (Nat.eqb_spec (sS ph) 0) as [Z0|Z0]; [easy|]. cbn [orb].
  pose proof (create_some _ _ _ _ _ C) as (_ & Len & _). unfold words in Len. destruct hs as [|h hs].
  - cbn [passed_count]. rewrite Len. destruct (Nat.eqb_spec (eS ph) (S ns)), (Z.eqb_spec (Z.of_nat (eS ph)) (Z.of_nat (ns + 2) - 1)); first [reflexivity|exfalso; lia].
  - destruct (facts big node_t node_s o true nt ns points n C B M ph (h :: hs) I) as (L1 & L2 & _); [easy|].
    cbn [passed_count]. generalize (removelast (h :: hs)) as l. intros l.
    assert (P : (0 <= fold_right (fun h z => Z.of_nat (S (eS h) - sS h) + z)%Z 0%Z l)%Z).
    { induction l as [|x l IH]; cbn [fold_right]; [lia|]. lia. }
    rewrite (proj2 (Z.eqb_neq _ _)); [easy|lia].
Qed.
Print Assumptions C76_label.
Definition n2 : sentence := match create true 2 2 [(0, 0); (1, 1)] with Some n => n | None => Sentence [] [] end.
Example C76_label_some : In (Span 0 2 0 2, [Span 1 1 1 1]) (extract 9 any any true o2 n2) /\ label true n2 (Span 0 2 0 2) [Span 1 1 1 1] = "S"%string
  /\ In (Span 2 3 2 3, []) (extract 9 any any true o2 n2) /\ label true n2 (Span 2 3 2 3) [] = "S"%string.
Proof. vm_compute. intuition. Qed.
Theorem C76_label_refuted : ~ (forall big node_t node_s o nt ns points n ph hs, create true nt ns points = Some n -> words true ns <= S big -> 0 < min_hole_t o ->
  In (ph, hs) (extract big node_t node_s true o n) -> eS ph = S ns -> label true n ph hs = "S"%string).
Proof.
  intros K. specialize (K 9 any any o2 2 2 [(0, 0); (1, 1)] n2 (Span 1 3 1 3) [Span 1 1 1 1] eq_refl).
  assert (X : label true n2 (Span 1 3 1 3) [Span 1 1 1 1] = "X"%string) by reflexivity. rewrite X in K.
  discriminate K; [cbn; lia|cbn; lia|vm_compute; intuition|reflexivity].
Qed.
Print Assumptions C76_label_refuted.

(** ** Keeping one of equal rules *)
Definition same_words (a b : rule) : Prop := r_source a = r_source b /\ r_target a = r_target b.
Definition meet (a b : rule) : Prop := exists t, in_t (r_span a) t /\ in_t (r_span b) t.
Lemma same_text_iff a b : same_text a b = true <-> same_words a b.
Proof. unfold same_text, same_words. destruct (list_eq_dec _ _ _), (list_eq_dec _ _ _); cbn; intuition; congruence. Qed.
Lemma overlap_iff a b : sT (r_span a) <= eT (r_span a) -> sT (r_span b) <= eT (r_span b) -> overlap_t a b = true <-> meet a b.
Proof.
  intros La Lb. unfold overlap_t, meet, in_t. rewrite negb_true_iff, orb_false_iff, !Nat.ltb_ge. split.
  - intros [K1 K2]. exists (Nat.max (sT (r_span a)) (sT (r_span b))). lia.
  - intros (t & K1 & K2). lia.
Qed.
Inductive sub {A} : list A -> list A -> Prop :=
| sub_nil : sub [] []
| sub_skip x l m : sub l m -> sub l (x :: m)
| sub_keep x l m : sub l m -> sub (x :: l) (x :: m).
Lemma sub_snoc {A} (l m : list A) x : sub l m -> sub l (m ++ [x]) /\ sub (l ++ [x]) (m ++ [x]).
Proof.
  induction 1 as [|y l m S [I1 I2]|y l m S [I1 I2]]; cbn; split.
  - apply sub_skip, sub_nil.
  - apply sub_keep, sub_nil.
  - now apply sub_skip.
  - now apply sub_skip.
  - now apply sub_keep.
  - now apply sub_keep.
Qed.
(** Without duplicates the result is a part of the rules in their order, no two in it have the same words and targets that meet,
    and whatever was left out is such a double of one that was kept before. *)
Theorem C76_duplicates l : Forall (fun r => sT (r_span r) <= eT (r_span r)) l ->
  collect_rules true l = l /\ sub (collect_rules false l) l
  /\ ForallOrdPairs (fun a b => ~ (same_words a b /\ meet a b)) (collect_rules false l)
  /\ forall r, In r l -> exists q, In q (collect_rules false l) /\ same_words q r /\ meet q r.
Proof.
  intros F. split.
  { unfold collect_rules. enough (K : forall m a, fold_left (collect_rule true) m a = a ++ m) by now rewrite K.
    induction m as [|r m IH]; intros a; cbn; [now rewrite app_nil_r|]. rewrite IH. unfold collect_rule. cbn. now rewrite <- app_assoc. }
  induction l as [|r l IH] using rev_ind.
  { cbn. split; [constructor|]. split; [constructor|easy]. }
  apply Forall_app in F as [F Fr]. inversion Fr as [|? ? Lr _]; subst. destruct (IH F) as (I1 & I2 & I3). unfold collect_rules in *. rewrite fold_left_app. cbn [fold_left].
  set (c := fold_left (collect_rule false) l []) in *.
  assert (Fc : forall q, In q c -> sT (r_span q) <= eT (r_span q)).
  { rewrite Forall_forall in F. intros q J. apply F. clear -I1 J. induction I1; [easy|right; auto|destruct J; [now left|right; auto]]. }
  unfold collect_rule. cbn [negb andb]. destruct (existsb (fun q => same_text q r && overlap_t q r) c) eqn:E.
  - apply existsb_exists in E as (q & J & K). apply andb_true_iff in K as [K1 K2]. apply same_text_iff in K1. apply overlap_iff in K2; [|now apply Fc|easy].
    split; [now apply sub_snoc|]. split; [easy|]. intros x Jx. apply in_app_iff in Jx as [Jx|[<-|[]]]; [now apply I3|]. now exists q.
  - split; [now apply sub_snoc|]. split.
    + clear -E I2 Fc Lr. assert (K : forall q, In q c -> ~ (same_words q r /\ meet q r)).
      { intros q J [K1 K2]. apply not_true_iff_false in E. apply E, existsb_exists. exists q. split; [easy|]. apply andb_true_iff. split; [now apply same_text_iff|]. apply overlap_iff; auto. }
      clear E Fc. induction c as [|x c IH]; cbn; [repeat constructor|]. inversion I2; subst. constructor.
      * apply Forall_app. split; [easy|]. constructor; [|constructor]. apply K. now left.
      * apply IH; [easy|]. intros q J. apply K. now right.
    + intros x Jx. apply in_app_iff in Jx as [Jx|[<-|[]]].
      * destruct (I3 x Jx) as (q & J & K). exists q. split; [apply in_app_iff; now left|easy].
      * exists r. split; [apply in_app_iff; right; now left|]. split; [easy|]. exists (sT (r_span r)). unfold in_t. lia.
Qed.
Print Assumptions C76_duplicates.
Example C76_duplicates_some : let r1 := Rule (Span 0 1 0 1) ["a"%string] ["b"%string] [] in let r2 := Rule (Span 1 2 0 1) ["a"%string] ["b"%string] [] in
  let r3 := Rule (Span 2 3 0 1) ["a"%string] ["b"%string] [] in
  collect_rules false [r1; r2; r3] = [r1; r3] /\ collect_rules true [r1; r2; r3] = [r1; r2; r3].
Proof. easy. Qed.

(** ** Counts *)
Local Open Scope Q_scope.
Lemma sumq_app l m : sumq (l ++ m) == sumq l + sumq m.
Proof. induction l as [|x l IH]; cbn [app sumq]; [ring|rewrite IH; ring]. Qed.
Lemma sumq_split {A} (f : A -> Q) (p q r : A -> bool) l :
  (forall x, In x l -> p x = xorb (q x) (r x) /\ q x && r x = false) ->
  sumq (map f (filter p l)) == sumq (map f (filter q l)) + sumq (map f (filter r l)).
Proof.
  induction l as [|x l IH]; intros K; cbn [filter map sumq]; [ring|]. specialize (IH (fun y J => K y (or_intror J))). destruct (K x (or_introl eq_refl)) as [K1 K2].
  destruct (p x), (q x), (r x); try discriminate; cbn [map sumq]; rewrite IH; ring.
Qed.
Lemma same_rule_iff a b : same_rule a b = true <-> same_words a b /\ r_align a = r_align b.
Proof. unfold same_rule. rewrite andb_true_iff, same_text_iff. destruct (list_eq_dec _ _ _); intuition; congruence. Qed.
Lemma same_rule_key a b : same_rule a b = true <-> (r_source a, r_target a, r_align a) = (r_source b, r_target b, r_align b).
Proof. rewrite same_rule_iff. unfold same_words. split; [intros [[-> ->] ->]; easy|]. intros E. inversion E. easy. Qed.
Lemma exists_cons r a l : existsb (same_rule r) (a :: l) = same_rule r a || existsb (same_rule r) l. Proof. easy. Qed.
Lemma same_sym a b : same_rule a b = same_rule b a.
Proof. apply eq_true_iff_eq. rewrite !same_rule_key. split; congruence. Qed.
Lemma same_exists a b l : same_rule a b = true -> existsb (same_rule a) l = existsb (same_rule b) l.
Proof.
  intros E. induction l as [|x l IH]; [easy|]. cbn. rewrite IH. f_equal. apply eq_true_iff_eq. apply same_rule_key in E. rewrite !same_rule_key. split; congruence.
Qed.
Lemma share_sum all : forall l seen, sumq (map snd (share all seen l)) ==
  sumq (map snd (filter (fun x => existsb (same_rule (fst x)) l && negb (existsb (same_rule (fst x)) seen)) all)).
Proof.
  induction l as [|r l IH]; intros seen; cbn [share map sumq snd].
  - induction all as [|x all IHa]; [easy|]. cbn. exact IHa.
  - rewrite IH. destruct (existsb (same_rule r) seen) eqn:E.
    + rewrite Qplus_0_l. apply eq_subrelation; [typeclasses eauto|]. f_equal. f_equal. apply filter_ext. intros x. cbn [existsb].
      destruct (same_rule (fst x) r) eqn:Er; cbn [orb]; [|easy]. rewrite (same_exists _ _ seen Er), E. cbn [negb]. now rewrite !andb_false_r.
    + symmetry. apply sumq_split. intros x _. cbn [existsb]. rewrite (same_sym r (fst x)).
      destruct (same_rule (fst x) r) eqn:Er; cbn [orb negb andb xorb].
      * rewrite (same_exists _ _ seen Er), E. cbn [negb]. now rewrite andb_false_r.
      * now destruct (_ && _).
Qed.
(** Sums by groups. *)
Lemma sum_groups {A K} (dec : forall x y : K, {x = y} + {x <> y}) (key : A -> K) (f : A -> Q) l : forall ks, NoDup ks -> (forall x, In x l -> In (key x) ks) ->
  sumq (map f l) == sumq (map (fun k => sumq (map f (filter (fun x => if dec (key x) k then true else false) l))) ks).
Proof.
  induction l as [|x l IH]; intros ks N J; cbn [map sumq filter].
  - clear. induction ks as [|k ks IH]; cbn; [easy|]. rewrite <- IH. ring.
  - rewrite (IH ks N) by (intros y Jy; apply J; now right). specialize (J x (or_introl eq_refl)). clear IH. induction ks as [|k ks IH]; [easy|].
    inversion N as [|? ? N1 N2]; subst. cbn [map sumq]. destruct (dec (key x) k) as [E|E].
    + cbn [map sumq]. rewrite <- Qplus_assoc. apply Qplus_comp; [easy|]. apply Qplus_comp; [easy|]. apply eq_subrelation; [typeclasses eauto|]. f_equal. apply map_ext_in. intros k' Jk.
      destruct (dec (key x) k') as [E'|]; [|easy]. exfalso. apply N1. congruence.
    + destruct J as [J|J]; [congruence|]. rewrite <- (IH N2 J). ring.
Qed.
Definition span_dec (a b : span) : {a = b} + {a <> b}. Proof. decide equality; apply Nat.eq_dec. Defined.
Lemma same_span_iff a b : same_span a b = true <-> r_span a = r_span b.
Proof.
  unfold same_span. rewrite !andb_true_iff, !Nat.eqb_eq. destruct (r_span a), (r_span b). cbn. split; [intros [[[-> ->] ->] ->]; easy|]. intros E. now inversion E.
Qed.
Lemma own_total fractional l : sumq (map (own_count fractional l) l) ==
  inject_Z (Z.of_nat (if fractional then length (nodup span_dec (map r_span l)) else length l)).
Proof.
  destruct fractional; cbn [own_count].
  - set (ks := nodup span_dec (map r_span l)). rewrite (sum_groups span_dec r_span _ l ks); [|apply NoDup_nodup|intros x J; apply nodup_In, in_map, J].
    assert (K : forall k, In k ks -> sumq (map (fun r => / inject_Z (Z.of_nat (span_count l r))) (filter (fun x => if span_dec (r_span x) k then true else false) l)) == 1).
    { intros k J. apply nodup_In, in_map_iff in J as (r & <- & J). set (g := filter _ l).
      assert (Eg : forall x, In x g -> span_count l x = length g).
      { intros x Jx. apply filter_In in Jx as [_ Jx]. destruct (span_dec (r_span x) (r_span r)) as [E|]; [|easy]. unfold span_count. f_equal. apply filter_ext. intros y.
        apply eq_true_iff_eq. rewrite same_span_iff, E. destruct (span_dec (r_span y) (r_span r)); intuition congruence. }
      assert (Ng : length g <> 0%nat). { intros Z. apply length_zero_iff_nil in Z. assert (Jg : In r g) by (apply filter_In; split; [easy|]; now destruct (span_dec (r_span r) (r_span r))). rewrite Z in Jg. easy. }
      rewrite (map_ext_in _ (fun _ => / inject_Z (Z.of_nat (length g)))) by (intros x Jx; now rewrite Eg).
      assert (S : forall m : list rule, sumq (map (fun _ => / inject_Z (Z.of_nat (length g))) m) == inject_Z (Z.of_nat (length m)) * / inject_Z (Z.of_nat (length g))).
      { induction m as [|y m IH]; cbn [map sumq length]; [ring|]. rewrite IH, Nat2Z.inj_succ, <- Z.add_1_r, inject_Z_plus. ring. }
      rewrite S. apply Qmult_inv_r. intros E. unfold Qeq in E. cbn in E. lia. }
    clearbody ks. induction ks as [|k ks IH]; [easy|]. cbn [map sumq length]. rewrite (K k) by now left. rewrite IH by (intros; apply K; now right).
    rewrite Nat2Z.inj_succ, <- Z.add_1_l, inject_Z_plus. easy.
  - induction l as [|r l IH]; [easy|]. cbn [map sumq length]. unfold own_count at 1. rewrite Nat2Z.inj_succ, <- Z.add_1_l, inject_Z_plus. apply Qplus_comp; [easy|].
    rewrite <- IH. easy.
Qed.
Lemma own_pos fractional l r : In r l -> 0 < own_count fractional l r.
Proof.
  intros J. unfold own_count. destruct fractional; [|easy]. apply Qinv_lt_0_compat. change 0 with (inject_Z 0). rewrite <- Zlt_Qlt.
  assert (In r (filter (same_span r) l)) as K by (apply filter_In; split; [easy|now apply same_span_iff]). unfold span_count. destruct (filter (same_span r) l); [easy|cbn; lia].
Qed.
Lemma filter_map_pair {A B} (f : A -> B) (p : A -> bool) l : map snd (filter (fun x => p (fst x)) (map (fun r => (r, f r)) l)) = map f (filter p l).
Proof. induction l as [|x l IH]; [easy|]. cbn. destruct (p x); cbn; now rewrite IH. Qed.
(** The counts of what is written add up to the number of different phrases, or to the number of rules. *)
Theorem C76_total fractional l : sumq (map snd (written fractional l)) ==
  inject_Z (Z.of_nat (if fractional then length (nodup span_dec (map r_span l)) else length l)).
Proof.
  rewrite <- own_total. unfold written. transitivity (sumq (map snd (consolidate fractional l))).
  - generalize (consolidate fractional l) as c. induction c as [|x c IH]; [easy|]. cbn [filter]. destruct (Qeq_bool (snd x) 0) eqn:E; cbn [negb map sumq]; [|now rewrite IH].
    apply Qeq_bool_iff in E. rewrite IH, E. ring.
  - unfold consolidate. rewrite share_sum. cbn [existsb negb].
    rewrite (filter_ext_in _ (fun x => true)).
    + apply eq_subrelation; [typeclasses eauto|]. f_equal. rewrite (filter_map_pair (own_count fractional l) (fun _ => true)). f_equal.
      clear. induction l as [|r m IH]; [easy|]. cbn. now rewrite IH.
    + intros x J. apply in_map_iff in J as (r & <- & J). rewrite andb_true_r. apply existsb_exists. exists r. split; [easy|]. now apply same_rule_key.
Qed.
Print Assumptions C76_total.
(** No two written rules have the same words and alignment, each rule is written in one of them, and its count is what the rules
    with these words and this alignment have. *)
Theorem C76_written fractional l :
  ForallOrdPairs (fun x y => ~ (same_words (fst x) (fst y) /\ r_align (fst x) = r_align (fst y))) (written fractional l)
  /\ (forall r, In r l -> exists x, In x (written fractional l) /\ same_words (fst x) r /\ r_align (fst x) = r_align r)
  /\ forall r c, In (r, c) (written fractional l) -> In r l /\ c = sumq (map (own_count fractional l) (filter (same_rule r) l)).
Proof.
  unfold written, consolidate. set (all := map (fun r => (r, own_count fractional l r)) l).
  assert (Pos : forall r, In r l -> ~ sumq (map snd (filter (fun x => same_rule r (fst x)) all)) == 0).
  { intros r J. unfold all. rewrite (filter_map_pair (own_count fractional l) (same_rule r)). apply Qnot_eq_sym, Qlt_not_eq.
    assert (P : forall m, (forall x, In x m -> In x l) -> 0 <= sumq (map (own_count fractional l) m)).
    { induction m as [|x m IH]; intros K; cbn; [easy|]. setoid_replace 0 with (0 + 0) by easy. apply Qplus_le_compat; [apply Qlt_le_weak, own_pos, K; now left|apply IH; intros; apply K; now right]. }
    assert (Jr : In r (filter (same_rule r) l)) by (apply filter_In; split; [easy|now apply same_rule_key]).
    apply in_split in Jr as (u & v & E). assert (Sub : forall x, In x (u ++ r :: v) -> In x l) by (intros x; rewrite <- E; intros K; now apply filter_In in K).
    rewrite E, map_app, sumq_app. cbn [map sumq]. setoid_replace 0 with (0 + (0 + 0)) by easy.
    eapply Qle_lt_trans; [apply Qplus_le_compat; [apply (P u)|apply Qle_refl]; intros x K; apply Sub, in_app_iff; now left|].
    apply Qplus_lt_r. eapply Qle_lt_trans; [apply Qplus_le_compat; [apply Qle_refl|apply (P v)]; intros x K; apply Sub, in_app_iff; right; now right|].
    apply Qplus_lt_l. now apply own_pos. }
  assert (Out : forall m seen x, In x (filter (fun x => negb (Qeq_bool (snd x) 0)) (share all seen m)) -> In (fst x) m /\ existsb (same_rule (fst x)) seen = false /\ snd x = sumq (map snd (filter (fun y => same_rule (fst x) (fst y)) all))).
  { induction m as [|r m IH]; intros seen x J; [easy|]. cbn [share filter] in J. destruct (existsb (same_rule r) seen) eqn:E.
    - cbn in J. destruct (IH _ _ J) as (K1 & K2 & K3). cbn in K2. apply orb_false_iff in K2 as [K2 K4]. split; [now right|]. easy.
    - cbn [snd] in J. destruct (negb _) in J; [destruct J as [<-|J]; [cbn [fst snd]; split; [now left|easy]|]|].
      + destruct (IH _ _ J) as (K1 & K2 & K3). cbn in K2. apply orb_false_iff in K2 as [K2 K4]. split; [now right|]. easy.
      + destruct (IH _ _ J) as (K1 & K2 & K3). cbn in K2. apply orb_false_iff in K2 as [K2 K4]. split; [now right|]. easy. }
  split; [|split].
  - generalize (@nil rule) as seen. enough (K : forall m seen, ForallOrdPairs (fun x y => ~ (same_words (fst x) (fst y) /\ r_align (fst x) = r_align (fst y))) (filter (fun x => negb (Qeq_bool (snd x) 0)) (share all seen m))) by apply K.
    induction m as [|r m IH]; intros seen; [constructor|]. cbn [share filter snd]. destruct (negb _); [|apply IH]. constructor; [|apply IH]. apply Forall_forall. intros y J K.
    apply Out in J as (_ & J & _). cbn [existsb] in J. apply orb_false_iff in J as [J _]. cbn [fst] in K. apply same_rule_iff in K. rewrite same_sym in K. congruence.
  - intros r J. enough (K : forall m seen, (forall x, In x m -> In x l) -> In r m -> existsb (same_rule r) seen = false -> exists x, In x (filter (fun x => negb (Qeq_bool (snd x) 0)) (share all seen m)) /\ same_words (fst x) r /\ r_align (fst x) = r_align r).
    { now apply (K l []). }
    induction m as [|q m IH]; intros seen Sub Jr E; [easy|]. destruct (same_rule r q) eqn:Er.
    + cbn [share filter snd]. rewrite <- (same_exists _ _ _ Er), E. destruct (Qeq_bool _ 0) eqn:Eq.
      * exfalso. apply Qeq_bool_iff in Eq. revert Eq. apply Pos, Sub. now left.
      * cbn [negb]. eexists. split; [left; reflexivity|]. cbn [fst]. apply same_rule_iff. now rewrite same_sym.
    + destruct Jr as [<-|Jr]; [exfalso; apply not_true_iff_false in Er; apply Er; now apply same_rule_key|].
      destruct (IH (q :: seen)) as (x & Jx & Kx); [intros; apply Sub; now right|easy|cbn; now rewrite Er|]. exists x. split; [|easy].
      cbn [share filter snd]. destruct (negb _); [now right|easy].
  - intros r c J. apply Out in J as (J1 & _ & J2). cbn [fst snd] in *. split; [easy|]. rewrite J2. unfold all. now rewrite (filter_map_pair (own_count fractional l) (same_rule r)).
Qed.
Print Assumptions C76_written.
Example C76_written_some : let r1 := Rule (Span 0 1 0 1) ["a"%string] ["b"%string] [] in let r2 := Rule (Span 0 1 0 1) ["c"%string] ["b"%string] [] in
  let r3 := Rule (Span 2 3 2 3) ["a"%string] ["b"%string] [] in
  map (fun x => (r_source (fst x), Qred (snd x))) (written true [r1; r2; r3]) = [(["a"%string], 3 # 2); (["c"%string], 1 # 2)].
Proof. easy. Qed.

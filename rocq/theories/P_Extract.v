(** C74: extraction of pairs of phrases; C75: extraction of rules with holes. *)
From Coq Require Import List ZArith Bool PeanoNat Lia FinFun.
From Verif Require Import M_Extract S_Extract L_Extract L_Hiero L_Once.
Import ListNotations.
Local Open Scope nat_scope.

(** ** C74 *)
(** An alignment is taken if no sentence is empty and all its points are between words, boundaries included. *)
Theorem C74_create b nt ns points : (exists n, create b nt ns points = Some n) <->
  words b nt <> 0 /\ words b ns <> 0 /\ forall s t, In (s, t) points -> if b then s <= ns /\ t <= nt else s < ns /\ t < nt.
Proof.
  rewrite create_iff. split; intros (A & B & C); (split; [easy|]); (split; [easy|]).
  - intros s t I. specialize (C (shift b (s, t)) (in_map _ _ _ I)). destruct b; cbn in *; lia.
  - intros p I. apply in_map_iff in I as ([s t] & <- & I). specialize (C s t I). destruct b; cbn in *; lia.
Qed.
Print Assumptions C74_create.
Definition pts : list (nat * nat) := [(0, 0); (1, 2); (3, 1); (3, 3)].
Definition o1 : options := Options 5 1 1 1 4 4 2 9 true true false true.
Example C74_create_some : exists n, create false 5 5 pts = Some n. Proof. now eexists. Qed.
(** With boundary rules, points one behind the end are taken for alignments to the boundary. *)
Theorem C74_boundary_refuted : ~ (forall nt ns points n, create true nt ns points = Some n -> forall s t, In (s, t) points -> s < ns /\ t < nt).
Proof. intros H. specialize (H 1 1 [(1, 0)] _ eq_refl 1 0 (or_introl eq_refl)). lia. Qed.
Print Assumptions C74_boundary_refuted.

(** The pairs of phrases are exactly those that are consistent with the alignment, within the limits and with nodes in the trees. *)
Theorem C74_pairs big node_t node_s o b nt ns points n : create b nt ns points = Some n -> words b ns <= S big ->
  forall h, In h (spans big node_t node_s o n) <->
    pair_ok (all_points b nt ns points) (words b nt) (words b ns) (max_span o) node_t node_s h.
Proof. intros C B h. apply spans_in; [|easy]. now apply create_some. Qed.
Print Assumptions C74_pairs.
Theorem C74_once big node_t node_s o n : NoDup (spans big node_t node_s o n).
Proof. apply spans_once. Qed.
Print Assumptions C74_once.
Definition any (_ _ : nat) : bool := true.
Definition n1 : sentence := match create false 5 5 pts with Some n => n | None => Sentence [] [] end.
Example C74_pairs_some : map (fun h => (sT h, eT h, sS h, eS h)) (spans 9 any any o1 n1)
  = [(0, 0, 0, 0); (2, 2, 1, 1); (2, 2, 1, 2); (1, 3, 1, 3); (1, 3, 1, 4); (0, 3, 0, 3); (0, 3, 0, 4); (1, 4, 1, 3); (1, 4, 1, 4); (0, 4, 0, 3); (0, 4, 0, 4)].
Proof. now vm_compute. Qed.
(** Not in sentences with more words than the code expects. *)
Theorem C74_long_refuted big : exists n h, create false 1 (S (S big)) [(S big, 0)] = Some n /\
  pair_ok [(S big, 0)] 1 (S (S big)) 1 any any h /\ spans big any any (Options 1 1 1 1 1 1 0 9 true true true true) n = [].
Proof.
  exists (add_point (Sentence [[]] (repeat 0 (S (S big)))) (S big, 0)), (Span 0 0 (S big) (S big)).
  split; [|split].
  - unfold create. cbn [fold_left fst snd orb Nat.eqb]. replace (1 <=? 0) with false by easy. cbn [orb].
    replace (S (S big) <=? S big) with false by (symmetry; apply Nat.leb_gt; lia). reflexivity.
  - unfold pair_ok, consistent, in_s, in_t. cbn [sT eT sS eS]. split; [split|].
    + exists (S big), 0. split; [now left|lia].
    + intros s t [E|[]]. inversion E; subst. lia.
    + repeat split; lia.
  - unfold spans. cbn [to_t add_point upd snd fst max_span]. unfold source_spans. cbn [negb any]. unfold touched. cbn [to_t add_point upd fst snd].
    cbn [length Nat.min seq flat_map Nat.add Nat.sub nth app map max_span]. unfold max_s, min_s. cbn [fold_left].
    replace (S big <? big) with false by (symmetry; apply Nat.ltb_ge; lia).
    replace (1 <=? S big - big) with true by (symmetry; apply Nat.leb_le; lia). reflexivity.
Qed.
Print Assumptions C74_long_refuted.

(** ** All rules *)
Lemma rules_from_in b o n h hs : forall todo exist,
  In (h, hs) (rules_from b o n exist todo) <-> exists x y, todo = x ++ h :: y /\ In (h, hs) (rules_of b o n (exist ++ x ++ [h]) h).
Proof.
  assert (Own : forall e p, In (h, hs) (rules_of b o n e p) -> p = h).
  { intros e p I. unfold rules_of in I. apply in_app_iff in I as [I|I].
    - destruct (_ && _) in I; [|easy]. destruct I as [I|[]]. congruence.
    - apply in_map_iff in I as (r & E & _). congruence. }
  induction todo as [|p todo IH]; intros exist; cbn [rules_from].
  - split; [easy|]. intros (x & y & E & _). now destruct x.
  - rewrite in_app_iff, IH. split.
    + intros [I|(x & y & -> & I)].
      * pose proof (Own _ _ I) as ->. now exists [], todo.
      * exists (p :: x), y. split; [easy|]. cbn [app]. rewrite <- app_assoc in I. exact I.
    + intros (x & y & E & I). destruct x as [|q x]; cbn [app] in *; inversion E; subst; [now left|right].
      exists x, y. split; [easy|]. now rewrite <- app_assoc.
Qed.
Lemma lexical_in b o n exist h : In (h, []) (rules_of b o n exist h) <->
  eT h - sT h < max_symbols_t o /\ eS h - sS h < max_symbols_s o /\
  ~ (b = true /\ (eS h = 0 /\ sS h = 0 \/ eS h = length (count_s n) - 1 /\ sS h = length (count_s n) - 1)).
Proof.
  unfold rules_of. rewrite in_app_iff. split.
  - intros [I|I].
    + destruct (_ && _) eqn:E in I; [|easy]. apply andb_true_iff in E as [E E3]. apply andb_true_iff in E as [E1 E2]. apply Nat.ltb_lt in E1, E2.
      split; [easy|]. split; [easy|]. intros [-> K]. apply negb_true_iff in E3. cbn [andb] in E3. apply orb_false_iff in E3 as [E3 E4].
      apply andb_false_iff in E3, E4. rewrite !Nat.eqb_neq in E3, E4. lia.
    + apply in_map_iff in I as (r & E & I). apply hiero_form in I as (x & ext & ->). inversion E.
  - intros (A & B & C). left. replace (_ && _) with true; [now left|]. symmetry. apply andb_true_iff. split; [apply andb_true_iff; split; now apply Nat.ltb_lt|].
    apply negb_true_iff. apply not_true_iff_false. intros K. apply C. apply andb_true_iff in K as [K1 K2]. split; [easy|].
    apply orb_true_iff in K2. rewrite !andb_true_iff, !Nat.eqb_eq in K2. tauto.
Qed.
(** Rules without holes are the pairs with few enough words, but not a boundary alone. *)
Theorem C74_lexical big node_t node_s o b nt ns points n : create b nt ns points = Some n -> words b ns <= S big ->
  forall h, In (h, []) (extract big node_t node_s b o n) <->
    pair_ok (all_points b nt ns points) (words b nt) (words b ns) (max_span o) node_t node_s h
    /\ size_t h <= max_symbols_t o /\ size_s h <= max_symbols_s o
    /\ ~ (b = true /\ sS h = eS h /\ (sS h = 0 \/ sS h = S ns)).
Proof.
  intros C B h. pose proof (C74_pairs big node_t node_s o b nt ns points n C B) as Sp. pose proof (create_some _ _ _ _ _ C) as Rp.
  assert (L : length (count_s n) = words b ns) by apply Rp.
  unfold extract. rewrite rules_from_in. rewrite <- Sp. split.
  - intros (x & y & E & I). apply lexical_in in I as (A1 & A2 & A3). assert (I : In h (spans big node_t node_s o n)) by (rewrite E; apply in_app_iff; right; now left).
    split; [easy|]. apply Sp in I as (_ & L1 & L2 & _). unfold size_t, size_s. split; [lia|]. split; [lia|]. intros (-> & E1 & E2). apply A3. split; [easy|].
    rewrite L. unfold words. lia.
  - intros (I & A1 & A2 & A3). pose proof (proj1 (Sp h) I) as (_ & L1 & L2 & _). apply in_split in I as (x & y & E). exists x, y. split; [easy|]. apply lexical_in.
    unfold size_t, size_s in *. split; [lia|]. split; [lia|]. intros (-> & K). apply A3. split; [easy|]. rewrite L in K. unfold words in K. lia.
Qed.
Print Assumptions C74_lexical.
Example C74_lexical_some : existsb (fun r => (sT (fst r) =? 1) && (eT (fst r) =? 3) && (length (snd r) =? 0)) (extract 9 any any false o1 n1) = true.
Proof. now vm_compute. Qed.

(** ** C75 *)
(** Rules with holes are exactly those that leave enough words, are small enough, and whose holes are pairs that follow each other
    in the target and are apart in the source. *)
Theorem C75_rules big node_t node_s o b nt ns points n : create b nt ns points = Some n -> words b ns <= S big -> 0 < min_hole_t o ->
  let pair := pair_ok (all_points b nt ns points) (words b nt) (words b ns) (max_span o) node_t node_s in
  forall ph hs, hs <> [] ->
    (In (ph, hs) (extract big node_t node_s b o n) <-> pair ph /\ rule_ok o (all_points b nt ns points) pair ph hs).
Proof.
  intros C B Mh pair ph hs Ne. pose proof (C74_pairs big node_t node_s o b nt ns points n C B) as Sp. fold pair in Sp.
  pose proof (create_some _ _ _ _ _ C) as Rp. unfold extract. rewrite rules_from_in.
  assert (Pair : forall h, pair h -> sT h <= eT h /\ sS h <= eS h /\ exists s t, In (s, t) (all_points b nt ns points) /\ in_t h t).
  { intros h (((s & t & I & _ & J) & _) & L1 & L2 & _). split; [lia|]. split; [lia|]. now exists s, t. }
  assert (Core : forall x y, spans big node_t node_s o n = x ++ ph :: y -> pair ph ->
     In (ph, hs) (rules_of b o n ([] ++ x ++ [ph]) ph) <-> rule_ok o (all_points b nt ns points) pair ph hs).
  { intros x y E Pp. unfold rules_of. rewrite in_app_iff, in_map_iff. cbn [app].
    assert (Ex : forall h, sT ph <= sT h -> eT h <= eT ph -> ~ (sT h = sT ph /\ eT h = eT ph) -> In h (x ++ [ph]) <-> pair h).
    { intros h L1 L2 Nw. rewrite <- Sp. split.
      - intros I. rewrite E. apply in_app_iff in I. apply in_app_iff. destruct I as [I|[<-|[]]]; [now left|right; now left].
      - intros I. pose proof (proj1 (Sp h) I) as Ph. apply Pair in Ph as (L3 & _). rewrite E in I. apply in_app_iff in I. apply in_app_iff.
        destruct I as [I|I]; [now left|exfalso]. apply (spans_order _ _ _ _ _ _ _ _ _ E) in I. unfold size_t in I. lia. }
    destruct (Pair ph Pp) as (L1 & L2 & _).
    assert (H : forall r, In r (hiero o n (max_nonterm o) (x ++ [ph]) ph [] 0 0 (if first_word o then sT ph else S (sT ph)) (Z.of_nat (S (eT ph) - sT ph)) (Z.of_nat (S (eS ph) - sS ph)))
       <-> exists h ext, r = [] ++ h :: ext /\ sofar o pair ph r /\ wordy o ph r /\ aligned_ok o (all_points b nt ns points) ph r /\ fits o ph r).
    { intros r. refine (hiero_in o n (all_points b nt ns points) _ _ Rp pair ph (x ++ [ph]) Pair (conj L1 L2) Ex Mh (max_nonterm o) [] 0 _ _ _ r _ _ _ _ _ _).
      - cbn [length]. lia.
      - split; [cbn; lia|]. split; [constructor|]. split; [constructor|]. split; [constructor|]. cbn. lia.
      - easy.
      - unfold size_t. cbn [total]. lia.
      - unfold size_s. cbn [total]. lia.
      - intros h. destruct (first_word o); split.
        + now intros [K _].
        + intros K. split; [lia|]. split; [discriminate|easy].
        + intros (K1 & K2 & _). specialize (K2 eq_refl). lia.
        + intros K. split; [lia|]. split; [intros _; lia|easy]. }
    rewrite rule_ok_split by easy. split.
    - intros [I|(r & Er & I)].
      + destruct (_ && _) in I; [|easy]. destruct I as [I|[]]. congruence.
      + inversion Er; subst r. apply H in I as (h & ext & _ & Q). split; [easy|exact Q].
    - intros (_ & Q). right. exists hs. split; [easy|]. apply H. destruct hs as [|h ext]; [easy|]. exists h, ext. split; [easy|exact Q]. }
  split.
  - intros (x & y & E & I). assert (Ip : In ph (spans big node_t node_s o n)) by (rewrite E; apply in_app_iff; right; now left).
    apply Sp in Ip. split; [easy|]. now apply (Core x y E Ip).
  - intros (Pp & Q). pose proof Pp as Ip. apply Sp, in_split in Ip as (x & y & E). exists x, y. split; [easy|]. now apply (Core x y E Pp).
Qed.
Print Assumptions C75_rules.
Definition o2 : options := Options 5 1 1 1 4 4 2 9 true true true true.
Definition holes_of (o : options) := map (fun r => map (fun h => (sT h, eT h, sS h, eS h)) (snd r))
  (filter (fun r => (sT (fst r) =? 0) && (eT (fst r) =? 3) && (eS (fst r) =? 3)) (extract 9 any any false o n1)).
Example C75_rules_some : holes_of o1 = [[]; [(0, 0, 0, 0)]; [(1, 3, 1, 3)]; [(2, 2, 1, 1)]; [(2, 2, 1, 2)]]
  /\ holes_of o2 = [[]; [(0, 0, 0, 0)]; [(0, 0, 0, 0); (2, 2, 1, 1)]; [(0, 0, 0, 0); (2, 2, 1, 2)]; [(1, 3, 1, 3)]; [(2, 2, 1, 1)]; [(2, 2, 1, 2)]].
Proof. split; now vm_compute. Qed.
Theorem C75_once big node_t node_s b o n : NoDup (extract big node_t node_s b o n).
Proof.
  unfold extract. pose proof (spans_once big node_t node_s o n) as N. revert N. generalize (spans big node_t node_s o n) as todo.
  assert (K : forall todo exist, NoDup (exist ++ todo) -> NoDup (rules_from b o n exist todo)).
  { induction todo as [|p todo IH]; intros exist N; cbn [rules_from]; [constructor|].
    assert (N' : NoDup ((exist ++ [p]) ++ todo)) by now rewrite <- app_assoc.
    assert (Ne : NoDup (exist ++ [p])). { clear -N'. induction (exist ++ [p]) as [|a l IH]; [constructor|]. cbn in N'. inversion N'; subst. constructor; [|now apply IH]. intros I. apply H1, in_app_iff. now left. }
    apply NoDup_app'; [|now apply IH|].
    - unfold rules_of. apply NoDup_app'.
      + destruct (_ && _); repeat constructor; easy.
      + apply FinFun.Injective_map_NoDup; [intros x y E; now inversion E|]. now apply hiero_once.
      + intros r I J. destruct (_ && _) in I; [|easy]. destruct I as [<-|[]]. apply in_map_iff in J as (r & E & J). apply hiero_form in J as (x & ext & ->). inversion E.
    - intros [h hs] I J. apply rules_from_in in J as (x & y & E & _).
      assert (h = p) as ->. { unfold rules_of in I. apply in_app_iff in I as [I|I]; [destruct (_ && _) in I; [|easy]; destruct I as [I|[]]; congruence|]. apply in_map_iff in I as (r & E' & _). congruence. }
      rewrite E in N. apply NoDup_remove_2 in N. apply N, in_app_iff. right. apply in_app_iff. right. now left. }
  intros todo N. now apply K.
Qed.
Print Assumptions C75_once.
(** Words that are left are aligned to words that are left. *)
Theorem C75_words big node_t node_s o b nt ns points n ph hs : create b nt ns points = Some n -> words b ns <= S big -> 0 < min_hole_t o ->
  In (ph, hs) (extract big node_t node_s b o n) ->
  forall s t, In (s, t) (all_points b nt ns points) ->
    (in_t ph t <-> in_s ph s) /\ forall h, In h hs -> (in_t h t <-> in_s h s).
Proof.
  intros C B Mh I s t J. destruct (list_eq_dec (fun a b : span => ltac:(decide equality; apply Nat.eq_dec)) hs []) as [->|Ne].
  - apply (C74_lexical big node_t node_s o b nt ns points n C B) in I as [((_ & K) & _) _]. split; [symmetry; now apply K|easy].
  - apply (C75_rules big node_t node_s o b nt ns points n C B Mh) in I as [((_ & K) & _) (_ & _ & F & _)]; [|easy]. split; [symmetry; now apply K|].
    intros h Ih. rewrite Forall_forall in F. destruct (F h Ih) as (((_ & Kh) & _) & _). symmetry. now apply Kh.
Qed.
Print Assumptions C75_words.

(** C89: the detokenizer. *)
From Coq Require Import String Ascii.
From Coq Require Import List ZArith Bool Sorted Lia.
From Verif Require Import M_Detok.
Import ListNotations.

(** * What is meant *)

(** No space behind an opening bracket and none before a closing bracket or a stop. *)
Definition opens (t : text) : bool :=
  match last t "x"%char with
  | "("%char | "["%char | "{"%char => true
  | _ => false
  end.
Definition stops (t : text) : bool :=
  match t with
  | (("." | "," | ";" | ":" | ")" | "]" | "}" | "!" | "?")%char) :: _ => true
  | _ => false
  end.
Definition gap (t u : text) : text := if opens t || stops u then [] else [" "%char].
Fixpoint glue (ts : list text) : text :=
  match ts with
  | [] => []
  | t :: r => t ++ match r with [] => [] | u :: _ => gap t u ++ glue r end
  end.
Definition filled (t : text) : bool := match t with [] => false | _ => true end.
(** The tokens that count: the last one at every position, in the order of the positions. *)
Definition counted (tokens ordered : list (Z * text)) : Prop :=
  StronglySorted (fun x y => (fst x < fst y)%Z) ordered /\
  forall k t, In (k, t) ordered <-> exists l1 l2, tokens = l1 ++ (k, t) :: l2 /\ forall t', ~ In (k, t') l2.

(** * Proofs *)

Lemma put_in {V} k (v : V) m : StronglySorted (fun x y => (fst x < fst y)%Z) m ->
  forall k' v', In (k', v') (put k v m) <-> (k' = k /\ v' = v) \/ (k' <> k /\ In (k', v') m).
Proof.
  intros So. induction So as [|[k0 v0] m So IH Hk]; intros k' v'; cbn [put].
  - cbn. split; [intros [H|[]]; injection H as <- <-; now left|]. intros [[-> ->]|[_ []]]. now left.
  - rewrite Forall_forall in Hk. cbn [fst] in Hk. destruct (Z.ltb_spec k k0) as [L|L]; [|destruct (Z.ltb_spec k0 k) as [L'|L']]; cbn [In].
    + split.
      * intros [H|[H|H]]; [injection H as <- <-; now left| |]; right; [injection H as <- <-; split; [lia|now left]|]. split; [|now right].
        apply Hk in H. cbn [fst] in H. lia.
      * intros [[-> ->]|[N [H|H]]]; [now left|right; now left|right; now right].
    + rewrite IH. split.
      * intros [H|[H|[N H]]]; [injection H as <- <-; right; split; [lia|now left]|now left|]. right. split; [exact N|now right].
      * intros [[-> ->]|[N [H|H]]]; [right; now left|now left|right; right; now split].
    + assert (k0 = k) by lia. subst k0. split.
      * intros [H|H]; [injection H as <- <-; now left|]. right. split; [|now right]. apply Hk in H. cbn [fst] in H. lia.
      * intros [[-> ->]|[N [H|H]]]; [now left|injection H as <- _; congruence|now right].
Qed.
Lemma put_sorted {V} k (v : V) m : StronglySorted (fun x y => (fst x < fst y)%Z) m -> StronglySorted (fun x y => (fst x < fst y)%Z) (put k v m).
Proof.
  intros So. pose proof (put_in k v) as P. induction So as [|[k0 v0] m So IH Hk]; cbn [put]; [repeat constructor|].
  rewrite Forall_forall in Hk. cbn [fst] in Hk. destruct (Z.ltb_spec k k0) as [L|L]; [|destruct (Z.ltb_spec k0 k) as [L'|L']].
  - constructor; [constructor; [exact So|now apply Forall_forall]|]. constructor; [exact L|]. apply Forall_forall. intros x K. apply Hk in K. cbn [fst]. lia.
  - constructor; [exact IH|]. apply Forall_forall. intros [k1 v1] K. apply (P m So) in K as [[-> _]|[_ K]]; [exact L'|]. now apply Hk in K.
  - constructor; [exact So|]. apply Forall_forall. intros x K. apply Hk in K. cbn [fst]. lia.
Qed.
Lemma order_counted tokens : counted tokens (order_map tokens).
Proof.
  unfold order_map. induction tokens as [|[k t] tokens [So IH]] using rev_ind.
  - split; [constructor|]. intros k t. split; [intros []|]. intros (l1 & l2 & E & _). now destruct l1.
  - rewrite fold_left_app. cbn [fold_left fst snd]. split; [now apply put_sorted|]. intros k' t'. rewrite put_in by exact So. rewrite IH. split.
    + intros [[-> ->]|[N (l1 & l2 & -> & H)]].
      * exists tokens, []. split; [reflexivity|]. intros t' [].
      * exists l1, (l2 ++ [(k, t)]). split; [now rewrite <- app_assoc|]. intros u K. apply in_app_iff in K as [K|[K|[]]]; [now apply H in K|]. injection K as -> _. congruence.
    + intros (l1 & l2 & E & H). destruct l2 as [|x l2] using rev_ind.
      * apply app_inj_tail in E as [_ E]. injection E as -> ->. now left.
      * clear IHl2. rewrite app_comm_cons, app_assoc in E. apply app_inj_tail in E as [-> <-]. right. split; [intros ->; apply (H t), in_app_iff; right; now left|].
        exists l1, l2. split; [reflexivity|]. intros u K. apply (H u), in_app_iff. now left.
Qed.
Lemma preceded_stops t : filled t = true -> preceded t = negb (stops t).
Proof. destruct t as [|c t]; [discriminate|]. intros _. destruct c as [b1 b2 b3 b4 b5 b6 b7 b8]. destruct b1, b2, b3, b4, b5, b6, b7, b8; reflexivity. Qed.
Lemma followed_opens x t : filled t = true -> followed (x ++ t) = negb (opens t).
Proof.
  destruct t as [|c t] using rev_ind; [discriminate|]. intros _. clear IHt. unfold followed, opens. rewrite app_assoc, rev_app_distr, last_last. cbn [rev app].
  destruct c as [b1 b2 b3 b4 b5 b6 b7 b8]. destruct b1, b2, b3, b4, b5, b6, b7, b8; reflexivity.
Qed.
Lemma join_more : forall ts x t, filled t = true ->
  fst (fold_left join_step ts (x ++ t, false)) = x ++ glue (t :: filter filled ts).
Proof.
  induction ts as [|u ts IH]; intros x t Ht; [cbn; now rewrite app_nil_r|]. cbn [fold_left]. unfold join_step at 2. cbv iota. destruct (filled u) eqn:Eu.
  - rewrite (preceded_stops u Eu), (followed_opens x t Ht). cbn [filter]. rewrite Eu.
    assert (G : forall y, fst (fold_left join_step ts ((x ++ t) ++ y ++ u, false)) = (x ++ t) ++ y ++ glue (u :: filter filled ts)).
    { intros y. rewrite (app_assoc (x ++ t)). rewrite IH by exact Eu. now rewrite <- app_assoc. }
    change (glue (t :: u :: filter filled ts)) with (t ++ gap t u ++ glue (u :: filter filled ts)).
    assert (G0 : fst (fold_left join_step ts ((x ++ t) ++ u, false)) = (x ++ t) ++ glue (u :: filter filled ts)) by exact (G []).
    unfold gap. destruct (opens t), (stops u); cbn [negb andb orb].
    + rewrite G0. now rewrite <- app_assoc.
    + rewrite G0. now rewrite <- app_assoc.
    + rewrite G0. now rewrite <- app_assoc.
    + rewrite <- (app_assoc (x ++ t)). change (lit " " ++ u) with ([" "%char] ++ u). rewrite (G [" "%char]). now rewrite <- app_assoc.
  - destruct u; [|discriminate]. cbn [preceded andb filter filled]. rewrite app_nil_r. now apply IH.
Qed.
Lemma join_start : forall ts first, fst (fold_left join_step ts ([], first)) = glue (filter filled ts).
Proof.
  induction ts as [|t ts IH]; intros first; [reflexivity|]. cbn [fold_left filter]. unfold join_step at 2. cbv iota. destruct (filled t) eqn:Et.
  - assert (E : (if first then [] else if preceded t && followed [] then [] ++ lit " " else []) = []) by (destruct first; [reflexivity|]; cbn [followed rev]; now rewrite andb_false_r).
    rewrite E. now apply (join_more ts []).
  - destruct t; [|discriminate]. cbn [preceded andb]. rewrite app_nil_r. destruct first; apply IH.
Qed.
(** The text is the tokens that count and are not empty, in the order of their positions,
    with a space between two of them unless the first ends with an opening bracket or the
    second begins with a closing one or a stop. *)
Theorem C89_text : forall tokens, exists ordered, counted tokens ordered /\ detok tokens = glue (filter filled (map snd ordered)).
Proof. intros tokens. exists (order_map tokens). split; [apply order_counted|]. unfold detok. apply join_start. Qed.
Print Assumptions C89_text.
(** There is only one such order, so this tells the text. *)
Theorem C89_unique : forall tokens o1 o2, counted tokens o1 -> counted tokens o2 -> o1 = o2.
Proof.
  intros tokens o1 o2 [S1 H1] [S2 H2]. assert (E : forall x, In x o1 <-> In x o2) by (intros [k t]; rewrite H1, H2; reflexivity). clear H1 H2.
  revert o2 S2 E. induction S1 as [|x o1 S1 IH F1]; intros [|y o2] S2 E.
  - reflexivity.
  - exfalso. apply (E y). now left.
  - exfalso. apply (E x). now left.
  - apply StronglySorted_inv in S2 as [S2 F2]. rewrite Forall_forall in F1, F2.
    assert (x = y) as ->.
    { destruct (proj1 (E x) (or_introl eq_refl)) as [K|K]; [now symmetry|]. destruct (proj2 (E y) (or_introl eq_refl)) as [K'|K']; [assumption|].
      apply F1 in K'. apply F2 in K. lia. }
    f_equal. apply IH; [exact S2|]. intros z. split; intros K.
    + destruct (proj1 (E z) (or_intror K)) as [<-|K']; [|exact K']. apply F1 in K. lia.
    + destruct (proj2 (E z) (or_intror K)) as [<-|K']; [|exact K']. apply F2 in K. lia.
Qed.
Print Assumptions C89_unique.
(** Nothing but spaces is added: without spaces the text is the tokens in a row. *)
Definition black (t : text) : text := filter (fun c => negb (Ascii.eqb c " ")) t.
Theorem C89_content : forall tokens, exists ordered, counted tokens ordered /\ black (detok tokens) = black (concat (map snd ordered)).
Proof.
  intros tokens. exists (order_map tokens). split; [apply order_counted|]. unfold detok. rewrite join_start. generalize (map snd (order_map tokens)). clear tokens. intros ts.
  induction ts as [|t ts IH]; [reflexivity|]. cbn [filter concat]. unfold black in *. rewrite filter_app. destruct (filled t) eqn:E.
  - unfold glue. fold glue. rewrite filter_app. f_equal. destruct (filter filled ts) as [|u r]; [exact IH|]. rewrite filter_app, IH.
    unfold gap. destruct (opens t || stops u); reflexivity.
  - destruct t; [|discriminate]. exact IH.
Qed.
Print Assumptions C89_content.
(** Of two tokens at one position one is lost; a token without a position has one, 0. *)
Theorem C89_lost_refuted : exists tokens, length tokens = 2 /\ detok tokens = lit "b".
Proof. exists [(0%Z, lit "a"); (0%Z, lit "b")]. split; reflexivity. Qed.
Print Assumptions C89_lost_refuted.

(** "Yes (no), he said." *)
Example C89_example :
  detok [(7%Z, lit "said"); (1%Z, lit "Yes"); (2%Z, lit "("); (4%Z, lit ")"); (3%Z, lit "no"); (5%Z, lit ","); (6%Z, lit "he"); (8%Z, []); (9%Z, lit ".")]
  = lit "Yes (no), he said.".
Proof. reflexivity. Qed.

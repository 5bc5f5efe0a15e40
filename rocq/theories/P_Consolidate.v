(** C96: consolidate reads its lines, takes scores apart, discounts and bins counts. *)
From Coq Require Import String Ascii.
From Coq Require Import List Arith ZArith QArith Qround Qminmax Bool Lia Lqa.
From Verif Require Import M_Consolidate.
Import ListNotations.
Local Open Scope nat_scope.

(** * Lines *)
Definition separator : str := list_ascii_of_string " ||| ".
(** The items with separators between them. *)
Fixpoint joined (first : str) (others : list str) : str :=
  match others with [] => first | i :: others' => first ++ separator ++ joined i others' end.
(** The item, written between blanks, has no separator in it. *)
Definition simple (item : str) : Prop := forall x y, [space] ++ item ++ [space] <> x ++ separator ++ y.

Definition bar : ascii := "|"%char.
Definition at_sep (s : str) : bool :=
  match s with
  | " "%char :: "|"%char :: "|"%char :: "|"%char :: " "%char :: _ => true
  | _ => false
  end.
Lemma at_sep_ok s : at_sep s = true -> exists y, s = separator ++ y.
Proof.
  intros H. unfold at_sep in H.
  repeat match type of H with (match ?x with _ => _ end) = true => destruct x; try discriminate H end. eexists. reflexivity.
Qed.
Lemma loop_sep s item back : at_sep s = true -> split_loop s item back = item :: split_loop (skipn 4 s) [] true.
Proof. intros H. destruct (at_sep_ok s H) as (y & ->). reflexivity. Qed.
Lemma loop_other c s item back : at_sep (c :: s) = false -> split_loop (c :: s) item back = if back then split_loop s [] false else split_loop s (item ++ [c]) false.
Proof.
  intros H. cbn [split_loop]. unfold at_sep in H.
  repeat match type of H with (match ?x with _ => _ end) = false => destruct x; try reflexivity; try discriminate H end.
Qed.

(** No separator begins in the item before one. *)
Lemma no_sep c item rest : at_sep ((c :: item) ++ [space]) = false -> at_sep ((c :: item) ++ separator ++ rest) = false.
Proof.
  intros H. destruct (at_sep ((c :: item) ++ separator ++ rest)) eqn:E; [|reflexivity]. exfalso. apply at_sep_ok in E as (y & E).
  destruct item as [|c1 [|c2 [|c3 [|c4 item]]]]; cbn in E; try (injection E; intros; subst; discriminate).
Qed.
Lemma simple_tail item x y : simple item -> [space] ++ item = x ++ y -> at_sep (y ++ [space]) = false.
Proof.
  intros Si E. destruct (at_sep (y ++ [space])) eqn:A; [|reflexivity]. exfalso. apply at_sep_ok in A as (z & A). apply (Si x z).
  rewrite <- A. rewrite app_assoc, E, <- app_assoc. reflexivity.
Qed.
Lemma scan : forall item acc rest, (forall x y, item = x ++ y -> at_sep (y ++ [space]) = false) ->
  split_loop (item ++ separator ++ rest) acc false = (acc ++ item) :: split_loop (space :: rest) [] true.
Proof.
  induction item as [|c item IH]; intros acc rest H.
  - cbn [app]. rewrite loop_sep by reflexivity. rewrite app_nil_r. reflexivity.
  - change ((c :: item) ++ separator ++ rest) with (c :: (item ++ separator ++ rest)). rewrite loop_other.
    + rewrite IH; [now rewrite <- app_assoc|]. intros x y ->. apply (H (c :: x) y eq_refl).
    + apply (no_sep c item rest). apply (H [] (c :: item) eq_refl).
Qed.
Lemma no_sep_end s : at_sep (s ++ [space]) = false -> at_sep s = false.
Proof. intros H. destruct (at_sep s) eqn:E; [|reflexivity]. apply at_sep_ok in E as (y & ->). discriminate H. Qed.
Lemma scan_end : forall item acc, (forall x y, item = x ++ y -> at_sep (y ++ [space]) = false) -> split_loop item acc false = [acc ++ item].
Proof.
  induction item as [|c item IH]; intros acc H; [cbn; now rewrite app_nil_r|]. rewrite loop_other.
  - rewrite IH; [now rewrite <- app_assoc|]. intros x y ->. apply (H (c :: x) y eq_refl).
  - apply no_sep_end. apply (H [] (c :: item) eq_refl).
Qed.
Lemma after_sep : forall others first, simple first -> Forall simple others -> split_loop (space :: joined first others) [] true = first :: others.
Proof.
  induction others as [|i others IH]; intros first Sf So; cbn [joined].
  - rewrite loop_other; [|apply no_sep_end; exact (simple_tail first [] (space :: first) Sf eq_refl)]. rewrite scan_end; [reflexivity|].
    intros x y E. apply (simple_tail first (space :: x) y Sf). cbn [app]. now rewrite E.
  - inversion So as [|? ? Si So']; subst. rewrite loop_other; [|exact (no_sep space first (joined i others) (simple_tail first [] (space :: first) Sf eq_refl))].
    rewrite scan; [rewrite IH by assumption; reflexivity|]. intros x y E. apply (simple_tail first (space :: x) y Sf). cbn [app]. now rewrite E.
Qed.

(** A line of items is read as these items. *)
Theorem C96_lines : forall first others, simple first -> Forall simple others -> split_line (joined first others) = first :: others.
Proof.
  intros first others Sf So. unfold split_line.
  assert (H : forall x y, first = x ++ y -> at_sep (y ++ [space]) = false) by (intros x y E; apply (simple_tail first (space :: x) y Sf); cbn [app]; now rewrite E).
  destruct others as [|i others]; cbn [joined]; [now apply scan_end|]. inversion So; subst. rewrite scan by exact H. now rewrite after_sep.
Qed.
Print Assumptions C96_lines.
Example C96_lines_case : split_line (joined (list_ascii_of_string "a b") [list_ascii_of_string "c"; []; list_ascii_of_string "0-0"])
  = [list_ascii_of_string "a b"; list_ascii_of_string "c"; []; list_ascii_of_string "0-0"]
  /\ simple (list_ascii_of_string "a b") /\ simple [].
Proof.
  split; [reflexivity|]. split; intros x y E; apply (f_equal (@length ascii)) in E as L; rewrite !app_length in L; cbn in L; try lia.
  destruct x as [|c x]; [discriminate E|]. cbn in L. lia.
Qed.

(** * Scores *)
Definition plain (w : str) : Prop := w <> [] /\ Forall (fun c => is_blank c = false) w.
Lemma tokens_word : forall w s acc, Forall (fun c => is_blank c = false) w -> w <> [] \/ acc <> None ->
  tokens_loop (w ++ space :: s) acc = (match acc with Some a => a | None => [] end ++ w) :: tokens_loop s None.
Proof.
  induction w as [|c w IH]; intros s acc F N.
  - cbn. destruct acc as [a|]; [now rewrite app_nil_r|destruct N as [N|N]; now elim N].
  - inversion F as [|? ? Fc Fw]; subst. cbn [app tokens_loop]. rewrite Fc. rewrite IH; [|exact Fw|right; discriminate]. destruct acc as [a|]; cbn; [now rewrite <- app_assoc|reflexivity].
Qed.
Lemma tokens_last : forall w acc, Forall (fun c => is_blank c = false) w -> w <> [] \/ acc <> None ->
  tokens_loop w acc = [match acc with Some a => a | None => [] end ++ w].
Proof.
  induction w as [|c w IH]; intros acc F N.
  - cbn. destruct acc as [a|]; [now rewrite app_nil_r|destruct N as [N|N]; now elim N].
  - inversion F as [|? ? Fc Fw]; subst. cbn [tokens_loop]. rewrite Fc. rewrite IH; [|exact Fw|right; discriminate]. destruct acc as [a|]; cbn; [now rewrite <- app_assoc|reflexivity].
Qed.
(** Words with blanks between them. *)
Fixpoint spaced (l : list str) : str :=
  match l with [] => [] | [w] => w | w :: l' => w ++ space :: spaced l' end.
Lemma tokens_spaced l : Forall plain l -> tokens (spaced l) = l.
Proof.
  unfold tokens. induction 1 as [|w l [N F] Hl IH]; [reflexivity|]. destruct l as [|v l]; cbn [spaced].
  - rewrite tokens_last; [reflexivity|exact F|now left].
  - rewrite tokens_word; [|exact F|now left]. cbn [app]. f_equal. exact IH.
Qed.

(** Scores: numbers by themselves and numbers with a name. *)
Inductive score := Core (w : str) | Sparse (name value : str).
Definition score_words (s : score) : list str := match s with Core w => [w] | Sparse n v => [n; v] end.
Definition decimal (c : ascii) : Prop := In c (list_ascii_of_string "0123456789").
Lemma decimal_ok c : is_digit c = true <-> decimal c.
Proof.
  split.
  - destruct c as [[] [] [] [] [] [] [] []]; intros H; vm_compute in H; try discriminate H; vm_compute; intuition.
  - intros H. unfold decimal in H. cbn [list_ascii_of_string In] in H. repeat (destruct H as [<-|H]; [reflexivity|]). destruct H.
Qed.
Definition score_ok (s : score) : Prop :=
  match s with
  | Core w => plain w /\ decimal (hd space w)
  | Sparse n v => plain n /\ plain v /\ ~ decimal (hd space n)
  end.
Definition cores (l : list score) : list str := flat_map (fun s => match s with Core w => [w] | Sparse _ _ => [] end) l.
Definition sparses (l : list score) : list str := flat_map (fun s => match s with Core _ => [] | Sparse n v => [n; v] end) l.
Definition led (l : list str) : str := flat_map (fun w => space :: w) l.
Lemma led_spaced l : tl (led l) = spaced l.
Proof.
  destruct l as [|w l]; [reflexivity|]. cbn [led flat_map app tl]. revert w. induction l as [|v l IH]; intros w; cbn [flat_map spaced]; [now rewrite app_nil_r|].
  f_equal. cbn [app]. f_equal. apply IH.
Qed.
Lemma hd_plain w d d' : w <> [] -> @hd ascii d w = hd d' w.
Proof. now destruct w. Qed.
Lemma breakdown_two w v l core sparse : breakdown_loop (w :: v :: l) core sparse =
  if is_digit (hd "000"%char w) then breakdown_loop (v :: l) (core ++ space :: w) sparse
  else breakdown_loop l core ((sparse ++ space :: w) ++ space :: v).
Proof. reflexivity. Qed.
Lemma breakdown_ok : forall l core sparse, Forall score_ok l ->
  breakdown_loop (flat_map score_words l) core sparse = (core ++ led (cores l), sparse ++ led (sparses l)).
Proof.
  induction l as [|s l IH]; intros core sparse F; [cbn; now rewrite !app_nil_r|]. inversion F as [|? ? Fs Fl]; subst. destruct s as [w|n v]; cbn [flat_map score_words].
  - destruct Fs as ((N & _) & Fd). apply decimal_ok in Fd. cbn [app]. destruct (flat_map score_words l) as [|v ws] eqn:E.
    + destruct l as [|[|] l]; try discriminate E. cbn. now rewrite !app_nil_r.
    + rewrite breakdown_two, (hd_plain w _ space N), Fd. rewrite IH by exact Fl. cbn [cores sparses flat_map led app]. rewrite <- app_assoc. reflexivity.
  - destruct Fs as ((N & _) & _ & Fd). rewrite <- decimal_ok in Fd. apply not_true_is_false in Fd. cbn [app]. rewrite breakdown_two, (hd_plain n _ space N), Fd. rewrite IH by exact Fl.
    cbn [cores sparses flat_map led app]. rewrite <- !app_assoc. reflexivity.
Qed.

(** Scores that begin with digits are kept apart from those with names, in any mixture. *)
Theorem C96_scores : forall l, Forall score_ok l -> breakdown (spaced (flat_map score_words l)) = (spaced (cores l), spaced (sparses l)).
Proof.
  intros l F. unfold breakdown. rewrite tokens_spaced.
  - rewrite breakdown_ok by exact F. cbn [app]. now rewrite !led_spaced.
  - induction F as [|s l Fs Fl IH]; [constructor|]. cbn [flat_map]. apply Forall_app. split; [|exact IH].
    destruct s as [w|n v]; cbn [score_words]; [destruct Fs as (P & _); constructor; [exact P|constructor]|destruct Fs as (P1 & P2 & _); constructor; [exact P1|constructor; [exact P2|constructor]]].
Qed.
Print Assumptions C96_scores.
(** A negative score, as --LogProb gives them, is taken for a name. *)
Theorem C96_scores_refuted : breakdown (list_ascii_of_string "-0.5 0.25 -1.5") = (list_ascii_of_string "-1.5", list_ascii_of_string "-0.5 0.25").
Proof. reflexivity. Qed.
Print Assumptions C96_scores_refuted.
Example C96_scores_case : breakdown (list_ascii_of_string "0.5 dom_x 1 0.25") = (list_ascii_of_string "0.5 0.25", list_ascii_of_string "dom_x 1").
Proof. reflexivity. Qed.

(** * Discounts *)
Lemma clip_ok d prev : (prev <= 1)%Q -> (prev <= clip d prev <= 1)%Q /\ (prev <= d -> d <= 1 -> clip d prev == d)%Q.
Proof.
  intros H. unfold clip. destruct (Qle_bool d 1) eqn:E1.
  - apply Qle_bool_iff in E1. destruct (Qle_bool prev d) eqn:E2.
    + apply Qle_bool_iff in E2. split; [lra|]. intros; reflexivity.
    + split; [lra|]. intros Q1 _. apply Qle_bool_iff in Q1. congruence.
  - assert (~ (d <= 1)%Q) by (intros Q1; apply Qle_bool_iff in Q1; congruence). destruct (Qle_bool prev 1) eqn:E2; [split; [lra|intros; lra]|].
    exfalso. apply Qle_bool_iff in H. congruence.
Qed.
Lemma discounts_two i prev c c1 counts : exists x, discounts i prev (c :: c1 :: counts) = clip x prev :: discounts (i + 1) (clip x prev) (c1 :: counts).
Proof. eexists. reflexivity. Qed.
Lemma clip_max d prev : (prev <= 1)%Q -> (clip d prev == Qmax prev (Qmin 1 d))%Q.
Proof.
  intros H. unfold clip. assert (B : forall a b, Qle_bool a b = false -> (b < a)%Q) by (intros a b E; apply Qnot_le_lt; intros Q1; apply Qle_bool_iff in Q1; congruence).
  destruct (Qle_bool d 1) eqn:E1; [apply Qle_bool_iff in E1|apply B in E1].
  - rewrite (Q.min_r 1 d) by exact E1. destruct (Qle_bool prev d) eqn:E2; [apply Qle_bool_iff in E2; now rewrite Q.max_r|apply B in E2; rewrite Q.max_l; [reflexivity|lra]].
  - rewrite (Q.min_l 1 d) by lra. destruct (Qle_bool prev 1) eqn:E2; [now rewrite Q.max_r|]. apply B in E2. lra.
Qed.
(** What the discount of a number should be: (k+1)/k times the quotient of the counts, but not above 1 and not below the one before. *)
Definition ratio (k : Z) (c c1 : Q) : Q := ((inject_Z k + 1) / inject_Z k * ((c1 + (1 # 10)) / (c + (1 # 10))))%Q.
Lemma discounts_value : forall counts i prev k d p c c1, (prev <= 1)%Q -> nth_error (discounts i prev counts) k = Some d -> nth_error (prev :: discounts i prev counts) k = Some p ->
  nth_error counts k = Some c -> nth_error counts (S k) = Some c1 -> (d == Qmax p (Qmin 1 (ratio (i + Z.of_nat k) c c1)))%Q.
Proof.
  induction counts as [|a counts IH]; intros i prev k d p c c1 H Ed Ep Ec Ec1; [destruct k; discriminate|]. destruct counts as [|a1 counts]; [destruct k; discriminate Ed|].
  change (discounts i prev (a :: a1 :: counts)) with (clip (ratio i a a1) prev :: discounts (i + 1) (clip (ratio i a a1) prev) (a1 :: counts)) in *.
  destruct (clip_ok (ratio i a a1) prev H) as ((_ & C2) & _).
  destruct k as [|k].
  - injection Ed as <-. injection Ep as <-. injection Ec as <-. injection Ec1 as <-. rewrite Z.add_0_r. now apply clip_max.
  - replace (i + Z.of_nat (S k))%Z with (i + 1 + Z.of_nat k)%Z by lia. now apply (IH (i + 1)%Z (clip (ratio i a a1) prev) k d p c c1 C2).
Qed.
Lemma discounts_ok : forall counts i prev, (prev <= 1)%Q -> length (discounts i prev counts) = pred (length counts)
  /\ (forall k d, nth_error (discounts i prev counts) k = Some d -> prev <= d <= 1)%Q
  /\ forall k d e, nth_error (discounts i prev counts) k = Some d -> nth_error (discounts i prev counts) (S k) = Some e -> (d <= e)%Q.
Proof.
  induction counts as [|c counts IH]; intros i prev H; [repeat split; destruct k; discriminate|].
  destruct counts as [|c1 counts]; [repeat split; destruct k; discriminate|]. destruct (discounts_two i prev c c1 counts) as (x & ->).
  destruct (clip_ok x prev H) as ((C1 & C2) & _). destruct (IH (i + 1)%Z (clip x prev) C2) as (I1 & I2 & I3).
  split; [cbn [length]; rewrite I1; reflexivity|]. split.
  - intros [|k] d E; cbn in E; [injection E as <-; lra|]. apply I2 in E. lra.
  - intros [|k] d e E1 E2; cbn [nth_error] in E1, E2; [injection E1 as <-; apply (I2 0) in E2; lra|]. now apply I3 with k.
Qed.

(** There is a discount for 0 and for every number but the last, between 0.01 and 1, and it grows with the number; what is
    taken off a count is read within the table, and a count is never made larger. *)
Theorem C96_discounts : forall counts, length (good_turing counts) = S (pred (length counts))
  /\ (forall k d, nth_error (good_turing counts) k = Some d -> (1 # 100) <= d <= 1)%Q
  /\ (forall k d e, nth_error (good_turing counts) k = Some d -> nth_error (good_turing counts) (S k) = Some e -> (d <= e)%Q)
  /\ (forall k d p c c1, nth_error (good_turing counts) (S k) = Some d -> nth_error (good_turing counts) k = Some p ->
        nth_error counts k = Some c -> nth_error counts (S k) = Some c1 -> d == Qmax p (Qmin 1 (ratio (Z.of_nat (S k)) c c1)))%Q
  /\ (forall k d, nth_error (good_turing counts) k = Some d -> S (S k) <= length (good_turing counts) ->
        adjusted (good_turing counts) (inject_Z (Z.of_nat k)) = Some (inject_Z (Z.of_nat k) * d)%Q)
  /\ forall n, (0 <= n)%Q -> exists r, adjusted (good_turing counts) n = Some r /\ (n * (1 # 100) <= r <= n)%Q.
Proof.
  intros counts. destruct (discounts_ok counts 1 (1 # 100)) as (I1 & I2 & I3); [lra|]. unfold good_turing.
  assert (Range : forall k d, nth_error ((1 # 100)%Q :: discounts 1 (1 # 100) counts) k = Some d -> ((1 # 100) <= d <= 1)%Q).
  { intros [|k] d E; cbn [nth_error] in E; [injection E as <-; lra|]. now apply I2 in E. }
  split; [cbn [length]; now rewrite I1|]. split; [exact Range|]. split.
  - intros [|k] d e E1 E2; cbn [nth_error] in E1, E2; [injection E1 as <-; now apply (I2 0) in E2|]. now apply I3 with k.
  - split; [|split].
    { intros k d p c c1 E1 E2 E3 E4. replace (Z.of_nat (S k)) with (1 + Z.of_nat k)%Z by lia. now apply (discounts_value counts 1 (1 # 100) k d p c c1); [lra|..]. }
    { intros k d E L. unfold adjusted. set (t := (1 # 100)%Q :: _) in *.
      assert (L' : (inject_Z (Z.of_nat k) + 2 <= inject_Z (Z.of_nat (length t)))%Q). { change 2%Q with (inject_Z 2). rewrite <- inject_Z_plus, <- Zle_Qle. lia. }
      destruct (Qle_bool _ _) eqn:B; [apply Qle_bool_iff in B; lra|].
      assert (Fl : Qfloor (inject_Z (Z.of_nat k) + (99998 # 100000)) = Z.of_nat k).
      { assert (F1 := Qfloor_le (inject_Z (Z.of_nat k) + (99998 # 100000))). assert (F2 := Qlt_floor (inject_Z (Z.of_nat k) + (99998 # 100000))).
        set (f := Qfloor _) in *. assert (A1 : (inject_Z f < inject_Z (Z.of_nat k + 1))%Q) by (rewrite inject_Z_plus; change (inject_Z 1) with 1%Q; lra).
        assert (A2 : (inject_Z (Z.of_nat k) < inject_Z (f + 1))%Q) by lra. rewrite <- Zlt_Qlt in A1, A2. lia. }
      rewrite Fl, Nat2Z.id, E. reflexivity. }
    intros n Hn. unfold adjusted. set (t := (1 # 100)%Q :: _) in *. destruct (Qle_bool (inject_Z (Z.of_nat (length t)) - 1) (n + (99999 # 100000))) eqn:E.
    + exists n. split; [reflexivity|]. lra.
    + assert (E' : (n + (99999 # 100000) < inject_Z (Z.of_nat (length t)) - 1)%Q). { apply Qnot_le_lt. intros Q1. apply Qle_bool_iff in Q1. congruence. }
      assert (Fl : (inject_Z (Qfloor (n + (99998 # 100000))) <= n + (99998 # 100000))%Q) by apply Qfloor_le.
      assert (F0 : (0 <= Qfloor (n + (99998 # 100000)))%Z). { change 0%Z with (Qfloor 0). apply Qfloor_resp_le. lra. }
      assert (Lt : (Qfloor (n + (99998 # 100000)) < Z.of_nat (length t))%Z). { rewrite Zlt_Qlt. lra. }
      destruct (nth_error t (Z.to_nat (Qfloor (n + (99998 # 100000))))) as [d|] eqn:En.
      * exists (n * d)%Q. split; [reflexivity|]. apply Range in En. destruct En as [D1 D2]. split.
        -- rewrite (Qmult_comm n), (Qmult_comm n). apply Qmult_le_compat_r; assumption.
        -- setoid_replace n with (1 * n)%Q at 2 by ring. rewrite (Qmult_comm n). apply Qmult_le_compat_r; assumption.
      * apply nth_error_None in En. lia.
Qed.
Print Assumptions C96_discounts.
Example C96_discounts_case : map Qred (good_turing [100; 40; 20; 15]%Q) = [1 # 100; 802 # 1001; 802 # 1001; 1]%Q.
Proof. reflexivity. Qed.

(** * Bins *)
Lemma bin_none : forall bins count, bin_loop count bins true = (repeat false (length bins), true).
Proof. induction bins as [|b bins IH]; intros count; [reflexivity|]. cbn [bin_loop negb andb orb]. rewrite IH. reflexivity. Qed.
(** One feature of all is set: that of the first bin that the count is not above, or the one after the bins. *)
Theorem C96_bins : forall count bins, exists k, bin_features count bins = repeat false k ++ true :: repeat false (length bins - k)
  /\ k <= length bins
  /\ (forall i b, (i < k)%nat -> nth_error bins i = Some b -> ~ count <= inject_Z b)%Q
  /\ (forall b, nth_error bins k = Some b -> count <= inject_Z b)%Q.
Proof.
  intros count bins. unfold bin_features. induction bins as [|b bins (k & E & L & H1 & H2)].
  - exists 0. split; [reflexivity|]. split; [lia|]. split; [intros i b Hi; lia|discriminate].
  - cbn [bin_loop negb andb orb]. destruct (Qle_bool count (inject_Z b)) eqn:Eb.
    + rewrite bin_none. exists 0. split; [cbn [repeat app length Nat.sub negb]; f_equal; clear; induction (length bins) as [|n IH]; [reflexivity|cbn; now rewrite IH]|].
      split; [lia|]. split; [intros i b' Hi; lia|]. intros b' Q1. injection Q1 as <-. now apply Qle_bool_iff.
    + destruct (bin_loop count bins false) as [l f]. exists (S k). split; [cbn [app repeat]; rewrite E; reflexivity|]. split; [cbn; lia|]. split.
      * intros [|i] b' Hi Q1; cbn in Q1; [injection Q1 as <-; intros Q2; apply Qle_bool_iff in Q2; congruence|]. now apply (H1 i b'); [lia|].
      * intros b' Q1. now apply H2.
Qed.
Print Assumptions C96_bins.
(** The name of a bin tells the numbers that are in it: it ends at the first bin that the count is not above, and begins after the
    bin before or, if there is none, with 1. *)
Theorem C96_names : forall count bins, (forall i b c, nth_error bins i = Some b -> nth_error bins (S i) = Some c -> (b < c)%Z) ->
  match bin_name count None bins with
  | None => forall b, In b bins -> ~ (count <= inject_Z b)%Q
  | Some (lo, hi) => exists i, nth_error bins i = Some hi /\ (count <= inject_Z hi)%Q
      /\ (forall j b, (j < i)%nat -> nth_error bins j = Some b -> ~ count <= inject_Z b)%Q
      /\ (forall z, lo = Some z -> z = match i with O => 1 | S j => nth j bins 0 + 1 end)%Z
      /\ (lo = None -> match i with O => hi <= 1 | S j => hi = nth j bins 0 + 1 end)%Z
  end.
Proof.
  intros count bins Inc.
  assert (G : forall rest before, bins = before ++ rest -> (forall b, In b before -> ~ (count <= inject_Z b)%Q) ->
    match bin_name count (match rev before with [] => None | p :: _ => Some p end) rest with
    | None => forall b, In b bins -> ~ (count <= inject_Z b)%Q
    | Some (lo, hi) => exists i, nth_error bins i = Some hi /\ (count <= inject_Z hi)%Q
        /\ (forall j b, (j < i)%nat -> nth_error bins j = Some b -> ~ count <= inject_Z b)%Q
        /\ (forall z, lo = Some z -> z = match i with O => 1 | S j => nth j bins 0 + 1 end)%Z
        /\ (lo = None -> match i with O => hi <= 1 | S j => hi = nth j bins 0 + 1 end)%Z
    end).
  { induction rest as [|b rest IH]; intros before E Hb; cbn [bin_name].
    - rewrite app_nil_r in E. subst before. exact Hb.
    - destruct (Qle_bool count (inject_Z b)) eqn:Eb.
      + apply Qle_bool_iff in Eb. exists (length before).
        assert (N : nth_error bins (length before) = Some b) by (rewrite E, nth_error_app2, Nat.sub_diag by lia; reflexivity).
        split; [exact N|]. split; [exact Eb|]. split.
        { intros j b' Hj Q1. apply Hb. rewrite E, nth_error_app1 in Q1 by exact Hj. now apply nth_error_In in Q1. }
        destruct before as [|p before _] using rev_ind.
        * cbn [rev length]. destruct (Z.ltb_spec 1 b); split; congruence || lia || (intros; lia) || (intros; congruence).
        * rewrite rev_app_distr. cbn [rev app]. rewrite app_length in *. cbn [length] in *. rewrite Nat.add_1_r in *.
          assert (Np : nth (length before) bins 0%Z = p) by (rewrite E, <- app_assoc, app_nth2, Nat.sub_diag by lia; reflexivity).
          assert (Ne : nth_error bins (length before) = Some p) by (rewrite E, <- app_assoc, nth_error_app2, Nat.sub_diag by lia; reflexivity).
          assert (Lt := Inc _ _ _ Ne N). rewrite Np. destruct (Z.ltb_spec (p + 1) b); split; intros; try congruence; lia.
      + assert (Eb' : ~ (count <= inject_Z b)%Q) by (intros Q1; apply Qle_bool_iff in Q1; congruence).
        specialize (IH (before ++ [b])). rewrite rev_app_distr in IH. apply IH; [rewrite <- app_assoc; exact E|]. intros b' I. apply in_app_or in I as [I|[<-|[]]]; [now apply Hb|exact Eb']. }
  apply (G bins [] eq_refl). intros b [].
Qed.
Print Assumptions C96_names.
Example C96_bins_case : bin_features 3%Q [1; 2; 5; 9]%Z = [false; false; true; false; false]
  /\ bin_name 3%Q None [1; 2; 5; 9]%Z = Some (Some 3%Z, 5%Z) /\ bin_name 2%Q None [1; 2; 5]%Z = Some (None, 2%Z) /\ bin_name 20%Q None [1; 2; 5]%Z = None.
Proof. repeat split. Qed.

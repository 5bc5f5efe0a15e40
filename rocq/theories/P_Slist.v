(** C70: rules are fitted back into the sentence correctly, their target sides are built from the right nonterminals, and
    their cost is the weighted sum of their costs. *)
From Coq Require Import String Ascii.
From Coq Require Import List ZArith Bool Sorted Lia PeanoNat.
From Verif Require Import M_Slist S_Slist L_Slist.
Import ListNotations.
Local Open Scope nat_scope.

(** ** Fitting a rule *)
Lemma fit_all_spec fuel um rhs : wide um rhs -> rhs <> [] -> forall ls r, fit_all fuel um rhs ls = Some r ->
  (forall lhs p, In (lhs, p) r -> In lhs ls /\ wf p /\ fits um rhs lhs (rev (l_syms p))) /\
  (forall lhs l, In lhs ls -> fits um rhs lhs l -> exists p, In (lhs, p) r) /\
  (NoDup ls -> NoDup (map fst r)).
Proof.
  intros W N. induction ls as [|x ls IH]; intros r E; cbn [fit_all] in E.
  - injection E as <-. split; [intros lhs p []|]. split; [intros lhs l []|]. constructor.
  - pose proof (search_spec um rhs x W fuel _ _ (start_inv um rhs x W N)) as S0. destruct (search fuel um rhs x _ l_empty) as [[p0|]|]; [| |discriminate]; (destruct (fit_all fuel um rhs ls) as [r0|]; [|discriminate]);
    injection E as <-; destruct (IH r0 eq_refl) as (H1 & H2 & H3).
    + split; [|split].
      * intros lhs p [[= <- <-]|H]; [split; [now left|assumption]|]. apply H1 in H as (K1 & K2). split; [now right|assumption].
      * intros lhs l [<-|H] F; [exists p0; now left|]. destruct (H2 lhs l H F) as (p & K). exists p. now right.
      * intros D. inversion D as [|? ? D1 D2]; subst. cbn [map fst]. constructor; [|now apply H3]. intros K. apply in_map_iff in K as ([y p] & E & K). cbn in E. subst y. now apply H1 in K.
    + split; [|split].
      * intros lhs p H. apply H1 in H as (K1 & K2). split; [now right|assumption].
      * intros lhs l [<-|H] F; [|now apply (H2 lhs l)]. elim S0. now apply (start_promising um rhs x W l).
      * intros D. inversion D as [|? ? D1 D2]; subst. now apply H3.
Qed.
(** What is given fits; a left side which the rule fits is given, with one of the ways to fit it; left sides are not repeated. *)
Theorem C70_fit fuel um a rhs r : wide um rhs -> rhs <> [] -> word_to_slist fuel um (a :: rhs) = Some r ->
  (forall lhs p, In (lhs, p) r -> In lhs (um a) /\ fits um rhs lhs (rev (l_syms p))) /\
  (forall lhs l, In lhs (um a) -> fits um rhs lhs l -> exists p, In (lhs, p) r) /\
  (NoDup (um a) -> NoDup (map fst r)).
Proof.
  intros W N E. destruct (fit_all_spec fuel um rhs W N (um a) r E) as (H1 & H2 & H3). split; [|now split]. intros lhs p H. now apply H1 in H.
Qed.
Print Assumptions C70_fit.

Theorem C70_ends um a rhs : wide um rhs -> rhs <> [] -> exists enough, forall fuel, enough <= fuel -> exists r, word_to_slist fuel um (a :: rhs) = Some r.
Proof.
  intros W N. exists (S (most um rhs) * S (most um rhs) ^ length rhs). intros fuel Lf. cbn [word_to_slist]. induction (um a) as [|x ls IH]; cbn [fit_all]; [now exists []|].
  destruct IH as (r & ->). pose proof (search_spec um rhs x W fuel _ _ (start_inv um rhs x W N)) as S0. destruct (search fuel um rhs x _ l_empty) as [[p|]|]; [now exists ((x, p) :: r)|now exists r|].
  rewrite push_all_spec, app_nil_r, weight_all in S0. replace (S (length rhs) - 1) with (length rhs) in S0 by lia.
  assert (L : length (first_symbols um rhs x) <= most um rhs) by (etransitivity; [apply filter_len|apply most_le, nth_In; destruct rhs; [congruence|cbn; lia]]).
  assert (length (first_symbols um rhs x) * S (most um rhs) ^ length rhs <= most um rhs * S (most um rhs) ^ length rhs) by now apply Nat.mul_le_mono_r. lia.
Qed.
Print Assumptions C70_ends.

(** nt_index gives the place of the i-th nonterminal. *)
Theorem C70_index fuel um a rhs r lhs p i : wide um rhs -> rhs <> [] -> word_to_slist fuel um (a :: rhs) = Some r -> In (lhs, p) r -> (0 <= i)%Z ->
  nt_index p i = nth_error (nt_places (rev (l_syms p))) (Z.to_nat i).
Proof.
  intros W N E H L. destruct (fit_all_spec fuel um rhs W N (um a) r E) as (H1 & _). apply H1 in H as (_ & Wp & _). unfold nt_index. destruct (Z.ltb_spec i 0); [lia|]. unfold wf in Wp. now rewrite Wp.
Qed.
Print Assumptions C70_index.

(** A sentence: NP(0,2), a(0,1), b(1,2), c(2,3) and two symbols d that overlap. *)
Local Open Scope string_scope.
Definition some_um : Z -> list sym := fun z =>
  match z with
  | 5 => [Sym "<S>" 0 3 true; Sym "<S>" 1 3 true]
  | 1 => [Sym "<NP>" 0 2 true]
  | 2 => [Sym "a" 0 1 false]
  | 3 => [Sym "b" 1 2 false]
  | 4 => [Sym "c" 2 3 false]
  | 7 => [Sym "<D>" 0 1 true; Sym "<D>" 0 2 true; Sym "<D>" 1 3 true; Sym "<D>" 2 3 true]
  | _ => []
  end%Z.
Example C70_some : wide some_um [1; 4; 7; 3; 2]%Z /\
  word_to_slist 100 some_um [5; 1; 4]%Z = Some [(Sym "<S>" 0 3 true, Slist [Sym "c" 2 3 false; Sym "<NP>" 0 2 true] [0])] /\
  word_to_slist 100 some_um [5; 3; 7]%Z = Some [(Sym "<S>" 1 3 true, Slist [Sym "<D>" 2 3 true; Sym "b" 1 2 false] [1])] /\
  word_to_slist 100 some_um [5; 7; 7]%Z = Some [(Sym "<S>" 0 3 true, Slist [Sym "<D>" 2 3 true; Sym "<D>" 0 2 true] [1; 0])].
Proof.
  split; [|repeat split; vm_compute; reflexivity]. intros a t Ha Ht. cbn in Ha. repeat destruct Ha as [<-|Ha]; try contradiction; cbn in Ht; repeat destruct Ht as [<-|Ht]; try contradiction; cbn; lia.
Qed.
(** The last rule fits in two ways, D(0,1) D(1,3) and D(0,2) D(2,3); only one is given. *)
Theorem C70_all_ways_refuted : exists fuel um a rhs r lhs l, wide um rhs /\ rhs <> [] /\ word_to_slist fuel um (a :: rhs) = Some r /\
  In lhs (um a) /\ fits um rhs lhs l /\ forall p, In (lhs, p) r -> rev (l_syms p) <> l.
Proof.
  exists 100, some_um, 5%Z, [7; 7]%Z. eexists. exists (Sym "<S>" 0 3 true), [Sym "<D>" 0 1 true; Sym "<D>" 1 3 true].
  split. { intros a t Ha Ht. cbn in Ha. repeat destruct Ha as [<-|Ha]; try contradiction; cbn in Ht; repeat destruct Ht as [<-|Ht]; try contradiction; cbn; lia. }
  split; [discriminate|]. split; [vm_compute; reflexivity|]. split; [now left|]. split.
  - split; [|intros t [= <-]; left; discriminate]. apply (chain_cons _ 7%Z [7%Z] (Sym "<D>" 0 1 true)); [now left|]. apply (chain_cons _ 7%Z [] (Sym "<D>" 1 3 true)); [cbn; tauto|]. constructor.
  - intros p [[= <-]|[]]. discriminate.
Qed.
Print Assumptions C70_all_ways_refuted.
(** With symbols that cover nothing, rules that fit are lost: E(1,1) takes b(1,2)'s place on the path. *)
Definition empty_um : Z -> list sym := fun z =>
  match z with 5 => [Sym "<S>" 0 2 true] | 2 => [Sym "a" 0 1 false] | 8 => [Sym "<E>" 1 1 true] | 3 => [Sym "b" 1 2 false] | _ => [] end%Z.
Theorem C70_empty_refuted : exists um a rhs lhs l, rhs <> [] /\ In lhs (um a) /\ fits um rhs lhs l /\
  forall fuel r, word_to_slist fuel um (a :: rhs) = Some r -> r = [].
Proof.
  exists empty_um, 5%Z, [2; 8; 3]%Z, (Sym "<S>" 0 2 true), [Sym "a" 0 1 false; Sym "<E>" 1 1 true; Sym "b" 1 2 false].
  split; [discriminate|]. split; [now left|]. split.
  - split; [|intros t [= <-]; left; discriminate]. apply (chain_cons _ 2%Z [8; 3]%Z (Sym "a" 0 1 false)); [now left|]. apply (chain_cons _ 8%Z [3]%Z (Sym "<E>" 1 1 true)); [now left|].
    apply (chain_cons _ 3%Z [] (Sym "b" 1 2 false)); [now left|]. constructor.
  - intros [|[|[|[|fuel]]]] r E; vm_compute in E; try discriminate; congruence.
Qed.
Print Assumptions C70_empty_refuted.

(** ** The target side *)
Definition is_digits (ds : string) : Prop := forall n c, String.get n ds = Some c -> (48 <= Z.of_N (N_of_ascii c) <= 57)%Z.
(** The value of a string of digits. *)
Fixpoint decimal (ds : string) (v : Z) : Z :=
  match ds with EmptyString => v | String c ds => decimal ds (10 * v + (Z.of_N (N_of_ascii c) - 48))%Z end.
Lemma digit_some c : (48 <= Z.of_N (N_of_ascii c) <= 57)%Z -> digit c = Some (Z.of_N (N_of_ascii c) - 48)%Z.
Proof. intros L. unfold digit. destruct (Z.leb_spec 48 (Z.of_N (N_of_ascii c))); [|lia]. destruct (Z.leb_spec (Z.of_N (N_of_ascii c)) 57); [reflexivity|lia]. Qed.
Lemma digits_spec : forall ds v s, is_digits ds -> (forall c r, s = String c r -> digit c = None) -> digits (ds ++ s) v = decimal ds v.
Proof.
  induction ds as [|c ds IH]; intros v s D H; cbn [append digits decimal].
  - destruct s as [|c r]; [reflexivity|]. cbn [digits]. now rewrite (H c r eq_refl).
  - rewrite (digit_some c (D 0 c eq_refl)). apply IH; [|assumption]. intros n c' E. now apply (D (S n) c').
Qed.
(** "<X>[", digits and anything else is read as the number. *)
Theorem C70_scan ds s : ds <> EmptyString -> is_digits ds -> (forall c r, s = String c r -> digit c = None) ->
  scan_x ("<X>[" ++ ds ++ s) = Number (decimal ds 0).
Proof.
  intros N D H. unfold scan_x. cbn [append scan Ascii.eqb Bool.eqb]. destruct ds as [|c ds]; [congruence|]. cbn [append integer]. pose proof (D 0 c eq_refl) as Lc.
  assert (B : blank c = false).
  { clear - Lc. destruct c as [[] [] [] [] [] [] [] []]; try reflexivity; vm_compute in Lc; destruct Lc as [L1 L2]; now elim L1. }
  rewrite B. destruct (Ascii.eqb_spec c "-") as [->|_]; [cbn in Lc; lia|]. destruct (Ascii.eqb_spec c "+") as [->|_]; [cbn in Lc; lia|].
  unfold number. rewrite (digit_some c Lc). f_equal. rewrite Z.mul_1_l. exact (digits_spec (String c ds) 0%Z s D H).
Qed.
Print Assumptions C70_scan.
(** White space before the number and a sign are read too; a minus sign makes the number negative. *)
Theorem C70_scan_sign bs sg ds s : (forall n c, String.get n bs = Some c -> In c [" "; "009"; "010"]%char) -> In sg ["+"; "-"]%char ->
  ds <> EmptyString -> is_digits ds -> (forall c r, s = String c r -> digit c = None) ->
  scan_x ("<X>[" ++ bs ++ String sg (ds ++ s)) = Number (if Ascii.eqb sg "-" then - decimal ds 0 else decimal ds 0)%Z.
Proof.
  intros Hb Hs N D H. unfold scan_x. cbn [append scan Ascii.eqb Bool.eqb].
  assert (I : integer (bs ++ String sg (ds ++ s)) = integer (String sg (ds ++ s))).
  { induction bs as [|b bs IH]; [reflexivity|]. cbn [append integer]. assert (B : blank b = true) by (destruct (Hb 0 b eq_refl) as [<-|[<-|[<-|[]]]]; reflexivity).
    rewrite B. apply IH. intros n c E. exact (Hb (S n) c E). }
  rewrite I. assert (M : forall sign, number sign (ds ++ s) = Number (sign * decimal ds 0)%Z).
  { intros sign. destruct ds as [|c ds]; [congruence|]. unfold number. cbn [append]. rewrite (digit_some c (D 0 c eq_refl)). f_equal. f_equal. exact (digits_spec (String c ds) 0%Z s D H). }
  destruct Hs as [<-|[<-|[]]]; cbn [integer Ascii.eqb Bool.eqb]; change (blank "+") with false; change (blank "-") with false; cbv iota; rewrite M; f_equal; lia.
Qed.
Print Assumptions C70_scan_sign.
Example C70_scan_sign_example : scan_x "<X>[ -12]" = Number (-12)%Z.
Proof. reflexivity. Qed.
(** What is no beginning of "<X>[" and does not begin with it is no number. *)
Theorem C70_scan_plain s : prefix "<X>[" s = false -> prefix s "<X>[" = false -> scan_x s = Mismatch.
Proof.
  unfold scan_x. generalize "<X>[". intros f. revert s. induction f as [|c f IH]; intros [|d s] H1 H2; cbn [prefix] in *; try discriminate.
  cbn [scan]. destruct (ascii_dec c d) as [->|N].
  - rewrite Ascii.eqb_refl. destruct (ascii_dec d d) as [_|N]; [|easy]. now apply IH.
  - destruct (Ascii.eqb_spec c d); [contradiction|reflexivity].
Qed.
Print Assumptions C70_scan_plain.
(** A proper beginning, such as the word "<", makes sscanf give EOF, and an index that was never set is used. *)
Theorem C70_unset_refuted : exists names src word z, In z word /\ nth_error names (Z.to_nat z) = Some "<" /\ targets names src word = None.
Proof. exists ["<"], l_empty, [0%Z], 0%Z. split; [now left|]. split; vm_compute; reflexivity. Qed.
Print Assumptions C70_unset_refuted.

(** The target side, with the numbers of the word that have names. *)
Definition named (names : list string) (word : list Z) : list string :=
  flat_map (fun z => if (z <? 0)%Z then [] else match nth_error names (Z.to_nat z) with Some s => [s] | None => [] end) word.
(** [t] is what [s] stands for: the i-th nonterminal of the source side, or itself. *)
Inductive stands (src : list sym) (s : string) : sym -> Prop :=
  | stands_nt i j t : scan_x s = Number i -> (0 <= i)%Z -> nth_error (nt_places src) (Z.to_nat i) = Some j -> nth_error src j = Some t -> stands src s t
  | stands_far i : scan_x s = Number i -> (i < 0 \/ Z.of_nat (length (nt_places src)) <= i)%Z -> stands src s (Sym s (-1) (-1) false)
  | stands_plain : scan_x s = Mismatch -> stands src s (Sym s (-1) (-1) false).
Theorem C70_targets names src word l n : wf src -> targets names src word = Some (l, n) ->
  Forall2 (stands (rev (l_syms src))) (named names word) l /\ n = length (filter y_nt l).
Proof.
  intros W. revert l n. induction word as [|z word IH]; intros l n E; cbn [targets] in E.
  - injection E as <- <-. split; [constructor|reflexivity].
  - destruct (targets names src word) as [[l0 n0]|]; [|discriminate]. destruct (IH l0 n0 eq_refl) as [F Nn]. unfold named. cbn [flat_map]. fold (named names word).
    destruct (z <? 0)%Z; [injection E as <- <-; now split|]. destruct (nth_error names (Z.to_nat z)) as [s|]; [|injection E as <- <-; now split]. cbn [app].
    destruct (scan_x s) as [i| |] eqn:Es; [|injection E as <- <-; split; [constructor; [now apply stands_plain|assumption]|assumption]|discriminate].
    destruct (nt_index src i) as [j|] eqn:Ei.
    + destruct (nth_error (rev (l_syms src)) j) as [t|] eqn:Et; [|discriminate]. injection E as <- <-. unfold nt_index in Ei. destruct (Z.ltb_spec i 0) as [|Li]; [discriminate|]. unfold wf in W. rewrite W in Ei. split.
      * constructor; [now apply (stands_nt _ _ i j t)|assumption].
      * cbn [filter]. assert (Ht : y_nt t = true); [|rewrite Ht; cbn [length]; congruence].
        apply nth_error_In in Ei. unfold nt_places in Ei. apply filter_In in Ei as [_ Ei]. now rewrite Et in Ei.
    + injection E as <- <-. split; [|assumption]. constructor; [|assumption]. apply (stands_far _ _ i Es). unfold nt_index in Ei. destruct (Z.ltb_spec i 0) as [|Li]; [now left|right].
      unfold wf in W. rewrite W in Ei. apply nth_error_None in Ei. lia.
Qed.
Print Assumptions C70_targets.
Example C70_some_targets : targets ["d"; "<X>[1]"; "<X>[0]"; "<X>[7]"; "<Y>"] (Slist [Sym "<D>" 2 3 true; Sym "a" 1 2 false; Sym "<D>" 0 1 true] [2; 0]) [1; 0; 2; 3; 9; 4]%Z =
  Some ([Sym "<D>" 2 3 true; Sym "d" (-1) (-1) false; Sym "<D>" 0 1 true; Sym "<X>[7]" (-1) (-1) false; Sym "<Y>" (-1) (-1) false], 2) /\
  wf (Slist [Sym "<D>" 2 3 true; Sym "a" 1 2 false; Sym "<D>" 0 1 true] [2; 0]).
Proof. split; vm_compute; reflexivity. Qed.

(** ** The cost *)
Fixpoint dot (a b : list Z) : Z := match a, b with x :: a, y :: b => (x * y + dot a b)%Z | _, _ => 0%Z end.
Lemma fold_dot : forall a b c, fold_left (fun c x => (c + fst x * snd x)%Z) (combine a b) c = (c + dot a b)%Z.
Proof. induction a as [|x a IH]; intros [|y b] c; cbn [combine fold_left dot fst snd]; try lia. rewrite IH. lia. Qed.
Lemma dot_app a b c d : length a = length b -> dot (a ++ c) (b ++ d) = (dot a b + dot c d)%Z.
Proof. revert b. induction a as [|x a IH]; intros [|y b] E; cbn [app dot]; try discriminate; [lia|]. rewrite IH by (cbn in E; congruence). lia. Qed.
(** The cost is the weighted sum of the costs, which are as many as there are weights. *)
Theorem C70_cost cast names tm rs wp index probs len nts cost costs : costs_of cast names tm rs wp index probs len nts = Some (cost, costs) ->
  length costs = length (tm ++ wp :: rs) /\ cost = dot (tm ++ wp :: rs) costs /\
  nth_error costs (length tm) = Some (Z.of_nat len - Z.of_nat nts)%Z /\ nth_error costs (length tm + 1 + index) = Some 1%Z.
Proof.
  unfold costs_of. destruct (Nat.ltb_spec index (length rs)) as [L|]; [|discriminate]. intros [= <- <-].
  assert (L1 : length (map (prob_cost cast names probs) (seq 0 (length tm))) = length tm) by now rewrite map_length, seq_length.
  split; [|split; [|split]].
  - rewrite !app_length. cbn [length]. rewrite L1, map_length, seq_length. reflexivity.
  - rewrite !fold_dot, dot_app by now rewrite L1. cbn [dot]. lia.
  - rewrite nth_error_app2 by lia. now rewrite L1, Nat.sub_diag.
  - rewrite nth_error_app2 by lia. rewrite L1. replace (length tm + 1 + index - length tm) with (S index) by lia. cbn [nth_error].
    rewrite nth_error_map, nth_error_nth' with (d := 0) by now rewrite seq_length. rewrite seq_nth by assumption. cbn. now rewrite Nat.eqb_refl.
Qed.
Print Assumptions C70_cost.
Example C70_some_cost : costs_of (fun s => if String.eqb s "3" then Some 3%Z else None) ["3"; "x"] [2; 5; 7]%Z [11; 13]%Z 17 1 [0; 1]%Z 5 2 = Some (70, [3; 0; 0; 3; 0; 1])%Z.
Proof. vm_compute. reflexivity. Qed.

(** Points of an alignment come in pairs; a number left over is paired with what is behind the vector. *)
Theorem C70_points align : points align = None <-> Nat.Odd (length align).
Proof.
  assert (H : forall n l, length l <= n -> (points l = None <-> Nat.Odd (length l))).
  { induction n as [|n IH]; intros l L.
    - destruct l; [|cbn in L; lia]. split; [discriminate|]. intros [k K]. cbn in K. lia.
    - destruct l as [|a [|b l]]; cbn [points length].
      + split; [discriminate|]. intros [k K]. lia.
      + split; [intros _; now exists 0|reflexivity].
      + assert (I := IH l ltac:(cbn in L; lia)). destruct (points l) as [r|].
        * split; [discriminate|]. intros [k K]. assert (Nat.Odd (length l)) by (exists (k - 1); lia). apply I in H. discriminate.
        * split; [|reflexivity]. intros _. destruct (proj1 I eq_refl) as [k K]. exists (S k). lia. }
  now apply (H (length align)).
Qed.
Print Assumptions C70_points.

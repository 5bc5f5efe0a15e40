(** C44: string fragments denote the strings they were made of. *)
From Coq Require Import List ZArith Bool Arith Lia.
From Verif Require Import M_StringFrag.
Import ListNotations.

(** ** Specification: ways to make a fragment and the string meant. *)
Inductive fexpr :=
| FStr : list Z -> fexpr
| FSrc : list Z -> nat -> nat -> fexpr
| FSub : fexpr -> nat -> nat -> fexpr
| FApp : fexpr -> fexpr -> fexpr.

Fixpoint denote (e : fexpr) : list Z :=
  match e with
  | FStr s => s
  | FSrc s b l => firstn l (skipn b s)
  | FSub e b l => firstn l (skipn b (denote e))
  | FApp e1 e2 => denote e1 ++ denote e2
  end.

(** Position of the first occurrence of [c] at [pos] or later. *)
Definition first_at (s : list Z) (c : Z) (pos i : nat) : Prop :=
  pos <= i /\ nth_error s i = Some c /\ forall j, pos <= j < i -> nth_error s j <> Some c.

(** Making the fragment with the operations of the class. *)
Fixpoint eval (v : bool) (e : fexpr) : option frag :=
  match e with
  | FStr s => Some (of_string s)
  | FSrc s b l => of_source v s b l
  | FSub e b l => match eval v e with Some f => of_frag v f b l | None => None end
  | FApp e1 e2 =>
      match eval v e1, eval v e2 with
      | Some f, Some g => append v f g
      | _, _ => None
      end
  end.

(** Indices within bounds; sub-fragments only of fragments that refer to a source;
    and, in the default mode, appending only to a fragment that holds its text, is
    empty, or ends where the other begins. *)
Fixpoint legal (v : bool) (e : fexpr) : Prop :=
  match e with
  | FStr s => True
  | FSrc s b l => b + l <= length s
  | FSub e b l => legal v e /\ b + l <= length (denote e) /\
      (forall f, eval v e = Some f -> stored f = false)
  | FApp e1 e2 => legal v e1 /\ legal v e2 /\
      (v = false -> forall f g, eval v e1 = Some f -> eval v e2 = Some g ->
         denote e1 = [] \/ contents f <> [] \/
         exists b, begin_ f = Some b /\ begin_ g = Some (b + len f) /\ src f = src g)
  end.

(** ** Proofs *)
Lemma bytes_eqb_eq : forall a b, bytes_eqb a b = true <-> a = b.
Proof.
  induction a as [|x a IH]; intros [|y b]; cbn; split; intro H; try discriminate; auto.
  - apply andb_true_iff in H. destruct H as [H1 H2]. apply Z.eqb_eq in H1. apply IH in H2. congruence.
  - inversion H; subst. rewrite Z.eqb_refl. apply IH. reflexivity.
Qed.

(** [rep v f s]: [f] stands for [s]. *)
Definition rep (v : bool) (f : frag) (s : list Z) : Prop :=
  match begin_ f with
  | None => contents f = s
  | Some b => b + len f <= length (src f) /\ firstn (len f) (skipn b (src f)) = s /\
      ((v = false /\ contents f = []) \/ contents f = firstn ABBR_LENGTH s)
  end.

Lemma firstn_min : forall (l : list Z) a b, firstn (Nat.min a b) l = firstn b (firstn a l).
Proof. intros. rewrite firstn_firstn, Nat.min_comm. reflexivity. Qed.

Lemma rep_len : forall v f s b, rep v f s -> begin_ f = Some b -> length s = len f.
Proof.
  intros v f s b H E. unfold rep in H. rewrite E in H. destruct H as (H1 & <- & _).
  rewrite firstn_length, skipn_length. lia.
Qed.

Lemma rep_valid : forall v f s, rep v f s -> valid v f = true.
Proof.
  intros v f s H. unfold valid. destruct v; [|reflexivity]. cbn [negb orb].
  unfold rep in H. destruct (begin_ f) as [b|]; [|reflexivity].
  destruct H as (H1 & H2 & [[E _]|H3]); [discriminate|].
  unfold substr. destruct (Nat.ltb_spec (length (src f)) b); [lia|].
  apply bytes_eqb_eq. rewrite H3, <- H2.
  replace (if len f <? ABBR_LENGTH then len f else ABBR_LENGTH) with (Nat.min (len f) ABBR_LENGTH).
  - apply firstn_min.
  - destruct (Nat.ltb_spec (len f) ABBR_LENGTH); lia.
Qed.

Lemma rep_str : forall v f s, rep v f s -> str v f = Some s.
Proof.
  intros v f s H. unfold str. rewrite (rep_valid v f s H). unfold rep in H.
  destruct (begin_ f) as [b|]; [|congruence]. destruct H as (H1 & H2 & _).
  unfold substr. destruct (Nat.ltb_spec (length (src f)) b); [lia|]. congruence.
Qed.

Lemma skipn_add : forall (l : list Z) a b, skipn (a + b) l = skipn b (skipn a l).
Proof.
  induction l as [|x l IH]; intros [|a] b; cbn; try reflexivity. - destruct b; reflexivity. - apply IH.
Qed.

Lemma firstn_add : forall (l : list Z) a b, firstn (a + b) l = firstn a l ++ firstn b (skipn a l).
Proof. induction l as [|x l IH]; intros [|a] b; cbn; try reflexivity. - destruct b; reflexivity. - f_equal. apply IH. Qed.

Lemma of_source_rep : forall v s b l, b + l <= length s ->
  exists f, of_source v s b l = Some f /\ rep v f (firstn l (skipn b s)).
Proof.
  intros v s b l H. unfold of_source. destruct v.
  - unfold substr. destruct (Nat.ltb_spec (length s) b); [lia|].
    eexists. split; [reflexivity|]. unfold rep. cbn. split; [assumption|]. split; [reflexivity|].
    right. apply firstn_min.
  - eexists. split; [reflexivity|]. unfold rep. cbn. auto.
Qed.

Lemma of_frag_rep : forall v f s b l, rep v f s -> stored f = false -> b + l <= length s ->
  exists g, of_frag v f b l = Some g /\ rep v g (firstn l (skipn b s)).
Proof.
  intros v f s b l H Hs Hl. unfold of_frag, stored in *. destruct (begin_ f) as [b0|] eqn:E; [|discriminate].
  pose proof (rep_len v f s b0 H E) as Hlen. unfold rep in H. rewrite E in H. destruct H as (H1 & H2 & _).
  destruct (of_source_rep v (src f) (b0 + b) l) as (g & Eg & Hg); [lia|].
  exists g. split; [assumption|].
  replace (firstn l (skipn b s)) with (firstn l (skipn (b0 + b) (src f))); [assumption|].
  rewrite <- H2, skipn_add, skipn_firstn_comm, firstn_firstn. f_equal. lia.
Qed.

Lemma append_rep : forall v f g s t, rep v f s -> rep v g t ->
  (v = false -> s = [] \/ contents f <> [] \/
     exists b, begin_ f = Some b /\ begin_ g = Some (b + len f) /\ src f = src g) ->
  exists h, append v f g = Some h /\ rep v h (s ++ t).
Proof.
  intros v f g s t Hf Hg Hc. unfold append. rewrite (rep_valid _ _ _ Hf), (rep_valid _ _ _ Hg). cbn [andb].
  rewrite (rep_str _ _ _ Hf), (rep_str _ _ _ Hg).
  assert (Hmix : (v = false -> s = [] \/ contents f <> []) ->
    exists h, match contents f with
              | [] => Some g
              | _ => Some {| contents := s ++ t; src := src f; begin_ := None; len := len f |}
              end = Some h /\ rep v h (s ++ t)).
  { intro Hc'. destruct (contents f) as [|x c] eqn:Ec.
    - exists g. split; [reflexivity|]. assert (Es : s = []).
      { unfold rep in Hf. destruct (begin_ f) as [b|].
        - destruct Hf as (_ & _ & [[Hv _]|Hf]).
          + destruct (Hc' Hv); [assumption|congruence].
          + rewrite Ec in Hf. destruct s; [reflexivity|discriminate].
        - congruence. }
      subst s. assumption.
    - eexists. split; [reflexivity|]. unfold rep. reflexivity. }
  destruct (begin_ f) as [b|] eqn:Ef; [|apply Hmix].
  2:{ intros _. unfold rep in Hf. rewrite Ef in Hf. destruct s; [auto|]. right. congruence. }
  destruct (begin_ g) as [b'|] eqn:Eg.
  2:{ apply Hmix. intro Hv. destruct (Hc Hv) as [H|[H|(b0 & _ & H & _)]]; [auto|auto|discriminate]. }
  destruct (bytes_eqb (src f) (src g) && (b + len f =? b')) eqn:Ea.
  - apply andb_true_iff in Ea. destruct Ea as [Ea1 Ea2]. apply bytes_eqb_eq in Ea1. apply Nat.eqb_eq in Ea2.
    unfold rep in Hf, Hg. rewrite Ef in Hf. rewrite Eg in Hg.
    destruct Hf as (F1 & F2 & _). destruct Hg as (G1 & G2 & _). subst b'. rewrite <- Ea1 in *.
    assert (Est : s ++ t = firstn (len f + len g) (skipn b (src f))).
    { rewrite firstn_add, F2. f_equal. rewrite <- G2. f_equal. apply skipn_add. }
    unfold substr. destruct (Nat.ltb_spec (length (src f)) b); [lia|].
    eexists. split; [reflexivity|]. unfold rep. cbn [begin_ len src contents]. rewrite Est.
    split; [lia|]. split; [reflexivity|]. right. apply firstn_min.
  - apply Hmix. intro Hv. destruct (Hc Hv) as [H|[H|(b0 & Hb & H & Hs)]]; [auto|auto|].
    injection Hb as <-. injection H as ->. rewrite Hs in Ea.
    assert (bytes_eqb (src g) (src g) = true) by (apply bytes_eqb_eq; reflexivity).
    rewrite H, Nat.eqb_refl in Ea. discriminate.
Qed.

Lemma eval_rep : forall v e, legal v e -> exists f, eval v e = Some f /\ rep v f (denote e).
Proof.
  intros v e. induction e as [s|s b l|e IH b l|e1 IH1 e2 IH2]; cbn [legal eval denote].
  - intros _. exists (of_string s). split; [reflexivity|]. unfold rep. reflexivity.
  - intro H. apply of_source_rep. assumption.
  - intros (H1 & H2 & H3). destruct (IH H1) as (f & E & Hf). rewrite E.
    apply of_frag_rep; [assumption|apply H3; assumption|assumption].
  - intros (H1 & H2 & H3). destruct (IH1 H1) as (f & Ef & Hf). destruct (IH2 H2) as (g & Eg & Hg).
    rewrite Ef, Eg. apply append_rep; try assumption. intro Hv. apply (H3 Hv f g Ef Eg).
Qed.

(** find *)
Lemma find_from_spec : forall s c i, Z.le 0 i -> Z.lt (i + Z.of_nat (length s)) (2 ^ 64) ->
  (find_from s c i = NPOS /\ ~ In c s) \/
  (exists k, find_from s c i = (i + Z.of_nat k)%Z /\ nth_error s k = Some c /\
     forall j, j < k -> nth_error s j <> Some c).
Proof.
  induction s as [|x s IH]; intros c i Hi Hl; cbn [find_from].
  - left. split; [reflexivity|auto].
  - destruct (Z.eqb_spec x c) as [->|Hne].
    + right. exists 0. split; [lia|]. split; [reflexivity|]. intros; lia.
    + cbn [length] in Hl. destruct (IH c (i + 1)%Z ltac:(lia) ltac:(lia)) as [[E N]|(k & E & K1 & K2)].
      * left. split; [assumption|]. intros [H|H]; auto.
      * right. exists (S k). split; [lia|]. split; [assumption|].
        intros [|j] Hj; cbn; [congruence|]. apply K2. lia.
Qed.

Lemma nth_error_firstn : forall (l : list Z) n i, i < n -> nth_error (firstn n l) i = nth_error l i.
Proof. induction l as [|x l IH]; intros [|n] [|i] H; cbn; try lia; try reflexivity. apply IH. lia. Qed.
Lemma nth_error_skipn : forall (l : list Z) n i, nth_error (skipn n l) i = nth_error l (n + i).
Proof. induction l as [|x l IH]; intros [|n] i; cbn; try reflexivity. - destruct i; reflexivity. - apply IH. Qed.

(** The result of find is a position in the fragment iff the character is there;
    sources are shorter than 2^63. *)
Lemma find_rep : forall v f s c pos, rep v f s -> pos <= length s ->
  Z.lt (Z.of_nat (length (src f))) (2 ^ 63) -> Z.lt (Z.of_nat (length s)) (2 ^ 63) ->
  exists r, find v f c pos = Some r /\
    ((exists i, r = Z.of_nat i /\ i < length s /\ first_at s c pos i) \/
     (Z.le (Z.of_nat (length s)) r /\ forall i, pos <= i -> nth_error s i <> Some c)).
Proof.
  intros v f s c pos H Hpos Hsrc Hs. unfold find. rewrite (rep_valid _ _ _ H).
  destruct (begin_ f) as [b|] eqn:E.
  - pose proof (rep_len v f s b H E) as Hlen. unfold rep in H. rewrite E in H. destruct H as (H1 & H2 & _).
    eexists. split; [reflexivity|].
    assert (Hnth : forall i, i < length s -> nth_error s i = nth_error (src f) (b + i)).
    { intros i Hi. rewrite <- H2, nth_error_firstn by lia. apply nth_error_skipn. }
    unfold string_find.
    destruct (find_from_spec (skipn (b + pos) (src f)) c (Z.of_nat (b + pos))) as [[-> N]|(k & -> & K1 & K2)].
    { lia. } { rewrite skipn_length. lia. }
    + right. split.
      * unfold NPOS. rewrite Z.mod_small by lia. lia.
      * intros i Hi Ei. apply N. assert (Hil : i < length s) by (apply nth_error_Some; congruence).
        rewrite Hnth in Ei by assumption. apply (nth_error_In _ (i - pos)). rewrite nth_error_skipn.
        replace (b + pos + (i - pos)) with (b + i) by lia. assumption.
    + rewrite nth_error_skipn in K1.
      assert (Hk : b + pos + k < length (src f)) by (apply nth_error_Some; congruence).
      rewrite Z.mod_small by lia.
      destruct (Nat.lt_ge_cases (pos + k) (length s)) as [Hin|Hout].
      * left. exists (pos + k). split; [lia|]. split; [assumption|]. split; [lia|]. split.
        -- rewrite Hnth by assumption. rewrite Nat.add_assoc. assumption.
        -- intros j Hj. rewrite Hnth by lia. specialize (K2 (j - pos) ltac:(lia)). rewrite nth_error_skipn in K2.
           replace (b + pos + (j - pos)) with (b + j) in K2 by lia. assumption.
      * right. split; [lia|]. intros i Hi Ei.
        assert (Hil : i < length s) by (apply nth_error_Some; congruence).
        specialize (K2 (i - pos) ltac:(lia)). apply K2. rewrite nth_error_skipn.
        replace (b + pos + (i - pos)) with (b + i) by lia. rewrite <- Hnth by assumption. assumption.
  - unfold rep in H. rewrite E in H. subst s. eexists. split; [reflexivity|]. unfold string_find.
    destruct (find_from_spec (skipn pos (contents f)) c (Z.of_nat pos)) as [[-> N]|(k & -> & K1 & K2)].
    { lia. } { rewrite skipn_length. lia. }
    + right. split; [unfold NPOS; lia|]. intros i Hi Ei. apply N. apply (nth_error_In _ (i - pos)).
      rewrite nth_error_skipn. replace (pos + (i - pos)) with i by lia. assumption.
    + left. rewrite nth_error_skipn in K1. exists (pos + k). split; [lia|].
      split; [apply nth_error_Some; congruence|]. split; [lia|]. split; [assumption|].
      intros j Hj. specialize (K2 (j - pos) ltac:(lia)). rewrite nth_error_skipn in K2.
      replace (pos + (j - pos)) with j in K2 by lia. assumption.
Qed.

(** ** C44 *)
Theorem C44_fragments : forall v e, legal v e ->
  exists f, eval v e = Some f /\
    str v f = Some (denote e) /\
    flength f = length (denote e) /\
    (forall i, i < length (denote e) -> at_ v f i = nth_error (denote e) i).
Proof.
  intros v e H. destruct (eval_rep v e H) as (f & E & Hf). exists f. split; [assumption|].
  split; [apply rep_str; assumption|]. split.
  - unfold flength. destruct (begin_ f) as [b|] eqn:Eb.
    + symmetry. eapply rep_len; eassumption.
    + unfold rep in Hf. rewrite Eb in Hf. congruence.
  - intros i Hi. unfold at_. rewrite (rep_valid _ _ _ Hf).
    destruct (begin_ f) as [b|] eqn:Eb.
    + pose proof (rep_len v f _ b Hf Eb). unfold rep in Hf. rewrite Eb in Hf. destruct Hf as (H1 & H2 & _).
      rewrite <- H2. rewrite nth_error_firstn by lia. symmetry. apply nth_error_skipn.
    + unfold rep in Hf. rewrite Eb in Hf. congruence.
Qed.
Print Assumptions C44_fragments.

(** Search: the result is a position of the fragment iff the character occurs there
    from [pos] on, and then it is the first one. *)
Theorem C44_find : forall v e f c pos, legal v e -> eval v e = Some f ->
  pos <= length (denote e) ->
  Z.lt (Z.of_nat (length (src f))) (2 ^ 63) -> Z.lt (Z.of_nat (length (denote e))) (2 ^ 63) ->
  exists r, find v f c pos = Some r /\
    (forall i, i < length (denote e) -> (r = Z.of_nat i <-> first_at (denote e) c pos i)).
Proof.
  intros v e f c pos H E Hpos Hsrc Hs. destruct (eval_rep v e H) as (f' & E' & Hf).
  assert (f' = f) by congruence. subst f'.
  destruct (find_rep v f (denote e) c pos Hf Hpos Hsrc Hs) as (r & Er & Hr). exists r. split; [assumption|].
  intros i Hi. destruct Hr as [(k & -> & Hk & F1 & F2 & F3)|[Hr Hno]].
  - split.
    + intro Ei. assert (k = i) by lia. subst. split; [assumption|]. auto.
    + intros (G1 & G2 & G3). f_equal. destruct (Nat.lt_trichotomy k i) as [L|[L|L]]; [|assumption|].
      * exfalso. apply (G3 k); [lia|assumption].
      * exfalso. apply (F3 i); [lia|assumption].
  - split; [lia|]. intros (G1 & G2 & _). exfalso. apply (Hno i G1 G2).
Qed.
Print Assumptions C44_find.

(** "ala" and " ma" of "ala ma kota" are adjacent; "kota" is then appended. *)
Definition ala_ma_kota : list Z := [97; 108; 97; 32; 109; 97; 32; 107; 111; 116; 97]%Z.
Example C44_witness :
  let e := FApp (FApp (FSub (FSrc ala_ma_kota 0 11) 0 3) (FSrc ala_ma_kota 3 3)) (FSub (FSrc ala_ma_kota 0 11) 7 4) in
  legal true e /\ legal false e /\ denote e = [97; 108; 97; 32; 109; 97; 107; 111; 116; 97]%Z.
Proof.
  cbn [denote ala_ma_kota firstn skipn app]. split; [|split; [|reflexivity]]; cbn [legal denote eval].
  - cbn. split; [|split; [|discriminate]].
    + split; [|split; [|discriminate]]; [|cbn; lia]. split; [lia|]. split; [cbn; lia|]. intros f E. injection E as <-. reflexivity.
    + split; [lia|]. split; [lia|]. intros f E. injection E as <-. reflexivity.
  - split; [|split].
    + split; [|split].
      * split; [cbn; lia|]. split; [cbn; lia|]. intros f E. injection E as <-. reflexivity.
      * cbn. lia.
      * intros _ f g Ef Eg. right. right. injection Ef as <-. injection Eg as <-. exists 0. auto.
    + split; [cbn; lia|]. split; [cbn; lia|]. intros f E. injection E as <-. reflexivity.
    + intros _ f g Ef Eg. right. left. cbn in Ef. injection Ef as <-. discriminate.
Qed.

(** In the default mode appending a fragment that is not adjacent loses the text of
    the first one. *)
Theorem C44_append_default_refuted : exists s f g h,
  of_source false s 0 3 = Some f /\ of_source false s 7 4 = Some g /\ append false f g = Some h /\
  str false f = Some [97; 108; 97]%Z /\ str false g = Some [107; 111; 116; 97]%Z /\
  str false h = Some [107; 111; 116; 97]%Z.
Proof.
  exists ala_ma_kota. do 3 eexists. split; [reflexivity|]. split; [reflexivity|]. split; [reflexivity|]. repeat split; vm_compute; reflexivity.
Qed.
Print Assumptions C44_append_default_refuted.

(** A sub-fragment of a fragment that holds its own text is shifted by one. *)
Theorem C44_sub_of_stored_refuted : exists f,
  of_frag false (of_string ala_ma_kota) 1 3 = Some f /\
  str false f = Some [97; 108; 97]%Z /\
  firstn 3 (skipn 1 ala_ma_kota) = [108; 97; 32]%Z.
Proof. eexists. split; [reflexivity|]. split; vm_compute; reflexivity. Qed.
Print Assumptions C44_sub_of_stored_refuted.

(** find reports characters behind the end of the fragment, and something else than
    npos for an absent character. *)
Theorem C44_find_npos_refuted :
  (exists f, of_source false ala_ma_kota 0 3 = Some f /\ find false f 107 0 = Some 7%Z) /\
  (exists f, of_source false ala_ma_kota 7 4 = Some f /\ find false f 122 0 = Some (NPOS - 7)%Z).
Proof. split; eexists; (split; [reflexivity|]); vm_compute; reflexivity. Qed.
Print Assumptions C44_find_npos_refuted.

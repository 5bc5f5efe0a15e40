(** C24: the K-L-ending code. *)
From Coq Require Import List ZArith Bool Lia Arith.
From Verif Require Import M_KLEnd.
Import ListNotations.
Open Scope Z_scope.

(** ** Specification: a code (k, l, e) means "drop k characters from the front and
    l from the back of the reference word and append e". *)
Definition kl_means (ref : list Z) (k l : nat) (e word : list Z) : Prop :=
  exists front mid back, ref = front ++ mid ++ back /\
    length front = k /\ length back = l /\ word = mid ++ e.

(** ** Proofs *)
Lemma common_le : forall ref code, (common ref code <= length ref /\ common ref code <= length code)%nat.
Proof.
  induction ref as [|r ref IH]; intros [|c code]; cbn; try lia.
  destruct (r =? c); [|lia]. specialize (IH code). lia.
Qed.

Lemma common_firstn : forall ref code, firstn (common ref code) ref = firstn (common ref code) code.
Proof.
  induction ref as [|r ref IH]; intros [|c code]; cbn; try reflexivity.
  destruct (Z.eqb_spec r c); cbn; [|reflexivity]. subst. f_equal. apply IH.
Qed.

Lemma common_max : forall n ref code, (n <= length ref)%nat -> (n <= length code)%nat ->
  firstn n ref = firstn n code -> (n <= common ref code)%nat.
Proof.
  induction n as [|n IH]; intros ref code H1 H2 E; [lia|].
  destruct ref as [|r ref]; [cbn in H1; lia|]. destruct code as [|c code]; [cbn in H2; lia|].
  cbn in *. injection E as -> E. rewrite Z.eqb_refl. apply le_n_S, IH; try lia. assumption.
Qed.

Lemma skipn_S_cons : forall (l : list Z) i r t, skipn i l = r :: t -> skipn (S i) l = t.
Proof.
  induction l as [|x l IH]; intros [|i] r t E; cbn in *; try discriminate.
  - injection E as -> ->. reflexivity.
  - destruct l; [destruct i; discriminate|]. apply (IH i r t E).
Qed.

(** [occ ref code l i]: the first [l] characters of [code] occur in [ref] at [i]. *)
Definition occ (ref code : list Z) (l i : nat) : Prop :=
  (i + l <= length ref)%nat /\ (l <= length code)%nat /\ firstn l (skipn i ref) = firstn l code.

Lemma search_spec : forall ref0 code, code <> [] -> forall ref i ml mi,
  skipn i ref0 = ref -> (i <= length ref0)%nat ->
  occ ref0 code ml mi -> (forall l j, (j < i)%nat -> occ ref0 code l j -> (l <= ml)%nat) ->
  let '(ml', mi') := search ref code i ml mi in
  occ ref0 code ml' mi' /\ (forall l j, occ ref0 code l j -> (l <= ml')%nat).
Proof.
  intros ref0 code Hne ref. induction ref as [|r ref IH]; intros i ml mi Hsk Hi Hocc Hmax; cbn [search].
  - split; [assumption|]. intros l j Ho.
    destruct (Nat.lt_ge_cases j i) as [Hj|Hj]; [eauto|].
    assert (length (skipn i ref0) = O) by (rewrite Hsk; reflexivity). rewrite skipn_length in H.
    destruct Ho as (H1 & _). lia.
  - assert (Hlen : length (skipn i ref0) = S (length ref)) by (rewrite Hsk; reflexivity).
    rewrite skipn_length in Hlen.
    destruct code as [|c code]; [congruence|]. cbn [hd tl].
    set (upd := if r =? c then if Nat.ltb ml (S (common ref code)) then (S (common ref code), i) else (ml, mi) else (ml, mi)).
    assert (Hupd : occ ref0 (c :: code) (fst upd) (snd upd) /\
              (forall l j, (j < S i)%nat -> occ ref0 (c :: code) l j -> (l <= fst upd)%nat)).
    { assert (Hhere : forall l, occ ref0 (c :: code) l i ->
                (l <= (if Z.eqb r c then S (common ref code) else 0))%nat).
      { intros l (H1 & H2 & H3). rewrite Hsk in H3. destruct l as [|l]; [lia|].
        cbn in H3. injection H3 as -> H3. rewrite Z.eqb_refl.
        assert (l <= common ref code)%nat; [|lia]. apply common_max; cbn in *; try lia. assumption. }
      unfold upd. destruct (Z.eqb_spec r c) as [->|Hrc].
      - pose proof (common_le ref code) as [Hc1 Hc2].
        destruct (Nat.ltb_spec ml (S (common ref code))); cbn [fst snd].
        + split.
          * unfold occ. rewrite Hsk. cbn. split; [lia|]. split; [lia|]. f_equal. apply common_firstn.
          * intros l j Hj Ho. destruct (Nat.eq_dec j i) as [->|]; [auto|].
            specialize (Hmax l j ltac:(lia) Ho). lia.
        + split; [assumption|]. intros l j Hj Ho. destruct (Nat.eq_dec j i) as [->|].
          * specialize (Hhere l Ho). lia.
          * apply (Hmax l j); [lia|assumption].
      - cbn [fst snd]. split; [assumption|]. intros l j Hj Ho. destruct (Nat.eq_dec j i) as [->|].
        + specialize (Hhere l Ho). lia.
        + apply (Hmax l j); [lia|assumption]. }
    fold upd. destruct upd as [ml1 mi1]. cbn [fst snd] in Hupd. destruct Hupd as [Hu1 Hu2].
    destruct (Nat.ltb_spec (length (r :: ref)) ml1) as [Hb|Hb].
    + split; [assumption|]. intros l j Ho. destruct (Nat.lt_ge_cases j (S i)) as [Hj|Hj]; [eauto|].
      destruct Ho as (H1 & _). cbn in Hb. lia.
    + apply IH.
      * apply (skipn_S_cons _ _ _ _ Hsk).
      * lia.
      * assumption.
      * assumption.
Qed.

Lemma search_empty : forall ref i, ~ In 0 ref -> search ref [] i 0 0 = (0, 0)%nat.
Proof.
  induction ref as [|r ref IH]; intros i Hn; cbn; [reflexivity|].
  destruct (Z.eqb_spec r 0); [exfalso; apply Hn; left; assumption|]. cbn.
  apply IH. intro; apply Hn; right; assumption.
Qed.

Lemma search_all : forall ref code, code <> [] \/ ~ In 0 ref ->
  let '(ml, mi) := search ref code 0 0 0 in
  occ ref code ml mi /\ (forall l j, occ ref code l j -> (l <= ml)%nat).
Proof.
  intros ref code H.
  assert (D : code = [] \/ code <> []) by (destruct code; [left; reflexivity|right; discriminate]).
  destruct D as [->|Hne].
  - rewrite search_empty by tauto. split.
    + split; cbn; [lia|]. split; [lia|reflexivity].
    + intros l j (_ & Hl & _). cbn in Hl. lia.
  - apply (search_spec ref code Hne ref 0 0 0); try reflexivity; [lia| |].
    + split; cbn; [lia|]. split; [lia|reflexivity].
    + intros; lia.
Qed.

Lemma to_char_small : forall z, 0 <= z <= 127 -> to_char z = z.
Proof. intros z H. unfold to_char. rewrite Z.mod_small; lia. Qed.
Lemma to_size_small : forall z, 0 <= z < 2 ^ 64 -> to_size z = z.
Proof. intros. apply Z.mod_small. assumption. Qed.

(** What the encoder returns, when both cuts fit into a char. *)
Lemma encode_spec : forall ref code, code <> [] \/ ~ In 0 ref ->
  Z.of_nat (length ref) < 2 ^ 63 -> Z.of_nat (length code) < 2 ^ 63 ->
  exists ml mi e,
    occ ref code ml mi /\ (forall l j, occ ref code l j -> (l <= ml)%nat) /\
    code = firstn ml code ++ e /\
    kl_encode ref code =
      Some (to_char (65 + Z.of_nat mi) :: to_char (65 + Z.of_nat (length ref - mi - ml)) :: e).
Proof.
  intros ref code Hne Hr Hc. pose proof (search_all ref code Hne) as H.
  unfold kl_encode. destruct (search ref code 0 0 0) as [ml mi]. destruct H as [Ho Hmax].
  exists ml, mi, (skipn ml code). split; [assumption|]. split; [assumption|].
  split; [symmetry; apply firstn_skipn|].
  destruct Ho as (H1 & H2 & H3). unfold substr.
  destruct (Z.ltb_spec (Z.of_nat (length code)) (Z.of_nat ml)); [lia|].
  rewrite Nat2Z.id. rewrite to_size_small by lia.
  replace (65 + Z.of_nat (length ref) - (Z.of_nat mi + Z.of_nat ml))
    with (65 + Z.of_nat (length ref - mi - ml)) by lia.
  f_equal. f_equal. f_equal. apply firstn_all2. rewrite skipn_length. lia.
Qed.

Lemma decode_spec : forall ref k l e, (k <= 62)%nat -> (l <= 62)%nat -> (k + l <= length ref)%nat ->
  Z.of_nat (length ref) < 2 ^ 63 ->
  kl_decode ref (to_char (65 + Z.of_nat k) :: to_char (65 + Z.of_nat l) :: e) =
  Some (firstn (length ref - k - l) (skipn k ref) ++ e).
Proof.
  intros ref k l e Hk Hl Hkl Hr. unfold kl_decode. rewrite !to_char_small by lia.
  rewrite !(to_size_small (65 + _ - 65)) by lia.
  rewrite to_size_small by lia. unfold substr.
  destruct (Z.ltb_spec (Z.of_nat (length ref)) (65 + Z.of_nat k - 65)); [lia|].
  replace (Z.to_nat (65 + Z.of_nat k - 65)) with k by lia. do 3 f_equal. lia.
Qed.

(** ** C24 *)
Theorem C24_kl_roundtrip : forall ref code,
  (length ref <= 62)%nat -> Z.of_nat (length code) < 2 ^ 63 -> code <> [] \/ ~ In 0 ref ->
  exists kle, kl_encode ref code = Some kle /\ kl_decode ref kle = Some code.
Proof.
  intros ref code Hr Hc Hne.
  destruct (encode_spec ref code Hne ltac:(lia) Hc) as (ml & mi & e & (H1 & H2 & H3) & _ & Hcode & ->).
  eexists. split; [reflexivity|]. rewrite decode_spec by lia. f_equal. transitivity (firstn ml code ++ e); [|symmetry; assumption]. f_equal.
  replace (length ref - mi - (length ref - mi - ml))%nat with ml by lia. assumption.
Qed.
Print Assumptions C24_kl_roundtrip.

(** Longer words: the code is still right whenever both cuts are at most 62; the
    cuts of the code produced are those of the meaning above. *)
Theorem C24_kl_meaning : forall ref code,
  Z.of_nat (length ref) < 2 ^ 63 -> Z.of_nat (length code) < 2 ^ 63 -> code <> [] \/ ~ In 0 ref ->
  exists k l e,
    kl_encode ref code = Some (to_char (65 + Z.of_nat k) :: to_char (65 + Z.of_nat l) :: e) /\
    kl_means ref k l e code /\
    ((k <= 62)%nat -> (l <= 62)%nat ->
      kl_decode ref (to_char (65 + Z.of_nat k) :: to_char (65 + Z.of_nat l) :: e) = Some code) /\
    (* no other code has a shorter ending *)
    (forall k' l' e', kl_means ref k' l' e' code -> (length e <= length e')%nat).
Proof.
  intros ref code Hr Hc Hne.
  destruct (encode_spec ref code Hne Hr Hc) as (ml & mi & e & (H1 & H2 & H3) & Hmax & Hcode & ->).
  exists mi, (length ref - mi - ml)%nat, e. split; [reflexivity|]. split; [|split].
  - exists (firstn mi ref), (firstn ml (skipn mi ref)), (skipn ml (skipn mi ref)). split; [|split; [|split]].
    + rewrite firstn_skipn, firstn_skipn. reflexivity.
    + rewrite firstn_length. lia.
    + rewrite !skipn_length. lia.
    + rewrite H3. assumption.
  - intros Hk Hl. rewrite decode_spec by lia. f_equal. transitivity (firstn ml code ++ e); [|symmetry; assumption]. f_equal.
    replace (length ref - mi - (length ref - mi - ml))%nat with ml by lia. assumption.
  - intros k' l' e' (front & mid & back & -> & Hk & Hl & ->).
    assert (Ho : occ (front ++ mid ++ back) (mid ++ e') (length mid) (length front)).
    { unfold occ. rewrite !app_length. split; [lia|]. split; [lia|].
      rewrite skipn_app, skipn_all, Nat.sub_diag. cbn.
      rewrite !firstn_app, !Nat.sub_diag, !firstn_all. reflexivity. }
    apply Hmax in Ho. apply (f_equal (@length _)) in Hcode. rewrite !app_length, firstn_length, app_length in Hcode. rewrite app_length in H2. lia.
Qed.
Print Assumptions C24_kl_meaning.

(** "nienajlepszy" / "lepiej": drop "nienaj" and "szy", append "iej". *)
Example C24_witness :
  let ref := [110; 105; 101; 110; 97; 106; 108; 101; 112; 115; 122; 121] in
  let code := [108; 101; 112; 105; 101; 106] in
  kl_encode ref code = Some [71; 68; 105; 101; 106] /\
  kl_decode ref [71; 68; 105; 101; 106] = Some code.
Proof. vm_compute. split; reflexivity. Qed.

(** With 63 characters to drop the code does not decode: char overflows and the
    decoder throws, or silently restores another word. *)
Theorem C24_long_refuted :
  (exists ref code kle, length ref = 64%nat /\ code <> [] /\
     kl_encode ref code = Some kle /\ kl_decode ref kle = None) /\
  (exists ref code kle w, length ref = 64%nat /\ code <> [] /\
     kl_encode ref code = Some kle /\ kl_decode ref kle = Some w /\ w <> code).
Proof.
  split.
  - exists (repeat 97 63 ++ [98]), [98], [-128; 65]. vm_compute. repeat split; discriminate.
  - exists ([98] ++ repeat 97 63), [98], [65; -128], ([98] ++ repeat 97 63). vm_compute. repeat split; discriminate.
Qed.
Print Assumptions C24_long_refuted.

(** An empty word against a reference containing NUL makes the encoder throw. *)
Theorem C24_nul_refuted : exists ref, kl_encode ref [] = None.
Proof. exists [0]. vm_compute. reflexivity. Qed.
Print Assumptions C24_nul_refuted.

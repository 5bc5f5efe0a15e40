(** C100: scrambled texts and numbers of values in gobio. *)
From Coq Require Import String Ascii.
From Coq Require Import List Arith ZArith Bool Lia.
From Verif Require Import M_ScoreRead P_ScoreRead M_GobioNum.
Import ListNotations.
Local Open Scope Z_scope.

(* ------------------------------------------------------------------ *)
(** * Random numbers *)

Definition word (n : Z) : Prop := 0 <= n < 2 ^ 32.
Definition good (k : imoa_key) : Prop := word (x_4 k) /\ word (x_3 k) /\ word (x_2 k) /\ word (x_1 k) /\ word (carry k).

(** The sum that a step makes of a key. *)
Definition step_sum (k : imoa_key) : Z :=
  2111111111 * x_4 k + (1492 * x_3 k) mod 2 ^ 32 + (1776 * x_2 k) mod 2 ^ 32 + (5115 * x_1 k) mod 2 ^ 32 + carry k.

(** A step does not overflow 64 bits; its answer is the sum's lower half, which goes into the key, and the upper half is the
    next carry; a key of words stays one. *)
Theorem C100_random : forall k, good k ->
  let '(r, k') := imoa_random k in
  step_sum k < 2 ^ 64 /\ r = step_sum k mod 2 ^ 32 /\ step_sum k = carry k' * 2 ^ 32 + r
  /\ x_1 k' = r /\ x_2 k' = x_1 k /\ x_3 k' = x_2 k /\ x_4 k' = x_3 k /\ good k'.
Proof.
  intros [a b c d e] (A & B & C & D & E). unfold word in *. cbn [x_4 x_3 x_2 x_1 carry] in *. unfold imoa_random, step_sum. cbn [x_4 x_3 x_2 x_1 carry].
  pose proof (Z.mod_pos_bound (1492 * b) (2 ^ 32) ltac:(lia)) as Mb.
  pose proof (Z.mod_pos_bound (1776 * c) (2 ^ 32) ltac:(lia)) as Mc.
  pose proof (Z.mod_pos_bound (5115 * d) (2 ^ 32) ltac:(lia)) as Md.
  unfold u64, u32. set (p := (1492 * b) mod 2 ^ 32) in *. set (q := (1776 * c) mod 2 ^ 32) in *. set (t := (5115 * d) mod 2 ^ 32) in *.
  clearbody p q t. rewrite (Z.mod_small (2111111111 * a)) by lia. rewrite (Z.mod_small (_ + p)) by lia. rewrite (Z.mod_small (_ + q)) by lia.
  rewrite (Z.mod_small (_ + t)) by lia. rewrite (Z.mod_small (_ + e)) by lia.
  set (s := 2111111111 * a + p + q + t + e). assert (S0 : 0 <= s < 2 ^ 64) by (unfold s; lia). clearbody s.
  assert (H : 0 <= s / 2 ^ 32 < 2 ^ 32) by (split; [apply Z.div_pos; lia|apply Z.div_lt_upper_bound; lia]).
  rewrite (Z.mod_small (s / 2 ^ 32)) by exact H. pose proof (Z.mod_pos_bound s (2 ^ 32) ltac:(lia)) as M.
  split; [lia|]. split; [reflexivity|]. split; [rewrite (Z.div_mod s (2 ^ 32)) at 1 by lia; lia|].
  repeat (split; [reflexivity|]). unfold good, word. cbn [x_4 x_3 x_2 x_1 carry]. repeat split; lia.
Qed.
Print Assumptions C100_random.

(** Not true: that this is the generator "Mother of all", whose four products are of 64 bits. *)
Definition mother (k : imoa_key) : Z := 2111111111 * x_4 k + 1492 * x_3 k + 1776 * x_2 k + 5115 * x_1 k + carry k.
Definition rules_key : imoa_key := mkKey 975194686 563985047 882673925 202719441 956051273.
Theorem C100_mother_refuted : good rules_key
  /\ fst (imoa_random rules_key) = mother rules_key mod 2 ^ 32
  /\ carry (snd (imoa_random rules_key)) <> mother rules_key / 2 ^ 32
  /\ fst (imoa_random (snd (imoa_random rules_key)))
     <> mother (mkKey 563985047 882673925 202719441 (mother rules_key mod 2 ^ 32) (mother rules_key / 2 ^ 32)) mod 2 ^ 32.
Proof. split; [unfold good, word; cbn; lia|]. vm_compute. repeat split; discriminate. Qed.
Print Assumptions C100_mother_refuted.

(** Numbers from an interval lie in it. *)
Theorem C100_interval : forall k min max, min <= max -> min <= fst (imoa_irandom k min max) <= max.
Proof.
  intros k min max H. unfold imoa_irandom. destruct (Z.leb_spec (max - min + 1) 0); [lia|]. destruct (imoa_random k) as [r k'].
  pose proof (Z.mod_pos_bound r (max - min + 1) ltac:(lia)) as M. destruct (Z.leb_spec (max - min + 1) (r mod (max - min + 1))); cbn [fst]; lia.
Qed.
Print Assumptions C100_interval.

(* ------------------------------------------------------------------ *)
(** * Scrambled texts *)

Definition byte (b : Z) : Prop := 0 <= b < 256.
Lemma xor_back c n : byte c -> Z.lxor (Z.lxor c n mod 256) n mod 256 = c.
Proof.
  intros H. change 256 with (2 ^ 8) in *. rewrite <- !Z.land_ones by lia. unfold byte in H.
  transitivity (Z.land c (Z.ones 8)); [|rewrite Z.land_ones by lia; apply Z.mod_small; exact H].
  apply Z.bits_inj. intros i. rewrite !Z.land_spec, !Z.lxor_spec, !Z.land_spec, !Z.lxor_spec.
  destruct (Z.testbit (Z.ones 8) i), (Z.testbit c i), (Z.testbit n i); reflexivity.
Qed.

(** Scrambling twice from the same key gives the text back and leaves the same key; a text may be done in parts. *)
Theorem C100_imoaxor : forall text k, Forall byte text ->
  imoaxor (fst (imoaxor text k)) k = (text, snd (imoaxor text k))
  /\ Forall byte (fst (imoaxor text k)) /\ length (fst (imoaxor text k)) = length text
  /\ forall more, imoaxor (text ++ more) k =
       (fst (imoaxor text k) ++ fst (imoaxor more (snd (imoaxor text k))), snd (imoaxor more (snd (imoaxor text k)))).
Proof.
  induction text as [|c text IH]; intros k F.
  - split; [reflexivity|]. split; [apply Forall_nil|]. split; [reflexivity|]. intros more. cbn. now destruct (imoaxor more k).
  - inversion F as [|? ? Fc Ft]; subst. cbn [imoaxor app]. destruct (imoa_irandom k 0 256) as [n k1] eqn:E. destruct (IH k1 Ft) as (A & B & C & D).
    destruct (imoaxor text k1) as [rest k2] eqn:E2. cbn [fst snd] in *. cbn [imoaxor]. rewrite E, A, (xor_back c n Fc).
    split; [reflexivity|]. split; [apply Forall_cons; [apply Z.mod_pos_bound; lia|exact B]|]. split; [cbn [length]; now rewrite C|].
    intros more. rewrite (D more). reflexivity.
Qed.
Print Assumptions C100_imoaxor.
Example C100_imoaxor_case : fst (imoaxor [82; 117; 108; 101] rules_key) <> [82; 117; 108; 101]
  /\ fst (imoaxor (fst (imoaxor [82; 117; 108; 101] rules_key)) rules_key) = [82; 117; 108; 101].
Proof. vm_compute. split; [discriminate|reflexivity]. Qed.

(** The same for the simple sequence; the i-th byte is changed by the key plus i + 1. *)
Theorem C100_doxor : forall text key, Forall byte text ->
  doxor (fst (doxor text key)) key = (text, snd (doxor text key))
  /\ forall i c, nth_error text i = Some c ->
       nth_error (fst (doxor text key)) i = Some (Z.lxor c ((key + Z.of_nat i + 1) mod 2 ^ 32) mod 256).
Proof.
  induction text as [|c text IH]; intros key F.
  - split; [reflexivity|]. intros [|i] c; discriminate.
  - inversion F as [|? ? Fc Ft]; subst. cbn [doxor]. destruct (IH (prandom key) Ft) as (A & B).
    destruct (doxor text (prandom key)) as [rest key'] eqn:E. cbn [fst snd] in *. cbn [doxor]. rewrite A, (xor_back c (prandom key) Fc).
    split; [reflexivity|]. intros [|i] c0; cbn [nth_error].
    + intros Q. injection Q as <-. unfold prandom, u32. now rewrite Z.add_0_r.
    + intros Q. rewrite (B i c0 Q). unfold prandom, u32. do 3 f_equal.
      replace ((key + 1) mod 2 ^ 32 + Z.of_nat i + 1) with ((key + 1) mod 2 ^ 32 + (Z.of_nat i + 1)) by ring.
      rewrite Zplus_mod_idemp_l. f_equal. lia.
Qed.
Print Assumptions C100_doxor.
Example C100_doxor_case : doxor [65; 66] 8042003 = ([Z.lxor 65 0x14; Z.lxor 66 0x15], 8042005) /\ 8042004 mod 256 = 0x14.
Proof. vm_compute. split; reflexivity. Qed.

(* ------------------------------------------------------------------ *)
(** * Numbers of values *)

Definition reserved (s : str) : Prop := In s (map lit ["any"; "nil"; "fail"; "false"; "empty"]%string).

(** A string that is not reserved gets a number above all integers, by which it is found, now and after other strings have
    been given numbers; equal numbers are equal strings. The reserved strings are true or false. *)
Theorem C100_strings : forall reg s reg' v, NoDup reg -> from_string reg s = (reg', v) ->
  NoDup reg'
  /\ (~ reserved s -> is_int v = false /\ is_string v = true
        /\ (forall more, to_string (reg' ++ more) v = Some s /\ representation (reg' ++ more) v = Some (inr s))
        /\ (forall s2 reg2, from_string reg' s2 = (reg2, v) -> s2 = s))
  /\ (reserved s -> reg' = reg /\ (v = 0 \/ v = -1) /\ (is_true v = true <-> s = lit "any" \/ s = lit "nil")).
Proof.
  intros reg s reg' v N E.
  assert (R : reserved s <-> (str_eqb s (lit "any") || str_eqb s (lit "nil")) || (str_eqb s (lit "fail") || str_eqb s (lit "false") || str_eqb s (lit "empty")) = true).
  { unfold reserved. cbn [map In]. rewrite !orb_true_iff, !str_eqb_eq. intuition congruence. }
  unfold from_string in E. destruct (str_eqb s (lit "any") || str_eqb s (lit "nil")) eqn:E1; [|destruct (str_eqb s (lit "fail") || str_eqb s (lit "false") || str_eqb s (lit "empty")) eqn:E2].
  - injection E as <- <-. split; [exact N|]. split; [intros H; exfalso; apply H, R; reflexivity|]. intros _. split; [reflexivity|]. split; [now left|].
    apply orb_true_iff in E1. rewrite !str_eqb_eq in E1. split; [intros _; exact E1|reflexivity].
  - injection E as <- <-. split; [exact N|]. split; [intros H; exfalso; apply H, R; reflexivity|]. intros _. split; [reflexivity|]. split; [now right|].
    apply orb_false_iff in E1 as [Q1 Q2]. split; [discriminate|]. intros [-> | ->]; [rewrite (proj2 (str_eqb_eq _ _) eq_refl) in Q1|rewrite (proj2 (str_eqb_eq _ _) eq_refl) in Q2]; discriminate.
  - destruct (store reg s) as [r n] eqn:Es. injection E as <- <-. destruct (C97_vocabulary reg s r n N Es) as (N' & _ & U). split; [exact N'|].
    split; [|intros H; apply R in H; discriminate].
    intros _. assert (I : is_int (Z.of_nat n + 1 + int_limit) = false) by (unfold is_int, int_limit; apply Z.leb_gt; lia).
    assert (J : is_string (Z.of_nat n + 1 + int_limit) = true) by (unfold is_string, int_limit; destruct (Z.ltb_spec 65535 (Z.of_nat n + 1 + 65535)); [reflexivity|lia]).
    split; [exact I|]. split; [exact J|]. split.
    + intros more. assert (T : to_string (r ++ more) (Z.of_nat n + 1 + int_limit) = Some s).
      { unfold to_string. rewrite J. cbn [negb]. unfold int_limit. destruct (Z.eqb_spec (Z.of_nat n + 1 + 65535) 0); [lia|].
        destruct (Z.eqb_spec (Z.of_nat n + 1 + 65535) (-1)); [lia|]. replace (Z.to_nat (Z.of_nat n + 1 + 65535 - (1 + 65535))) with n by lia.
        assert (Q : nth_error r n = Some s) by now apply U. rewrite nth_error_app1; [exact Q|]. apply nth_error_Some. congruence. }
      split; [exact T|]. unfold representation. now rewrite I, T.
    + intros s2 reg2 E3. unfold from_string in E3. destruct (str_eqb s2 (lit "any") || str_eqb s2 (lit "nil")).
      { assert (0 = Z.of_nat n + 1 + int_limit) by congruence. unfold int_limit in *. lia. }
      destruct (str_eqb s2 (lit "fail") || str_eqb s2 (lit "false") || str_eqb s2 (lit "empty")).
      { assert (-1 = Z.of_nat n + 1 + int_limit) by congruence. unfold int_limit in *. lia. }
      destruct (store r s2) as [r2 n2] eqn:Es2. assert (n2 = n) as -> by (assert (Z.of_nat n2 + 1 + int_limit = Z.of_nat n + 1 + int_limit) by congruence; lia).
      destruct (store_ok _ _ _ _ Es2) as [A [x B]]. assert (Q : nth_error r n = Some s) by now apply U.
      rewrite B, nth_error_app1 in A by (apply nth_error_Some; congruence). congruence.
Qed.
Print Assumptions C100_strings.

(** Integers up to the limit stand for themselves, but only those but 0 and -1 are not strings as well. *)
Theorem C100_integers : forall i, i <= int_limit -> from_int i = Some i /\ to_int i = Some i /\ (forall reg, representation reg i = Some (inl i))
  /\ (is_string i = true <-> i = 0 \/ i = -1).
Proof.
  intros i H. unfold from_int, to_int, representation, is_int, is_string, int_limit in *. destruct (Z.leb_spec i 65535); [|lia].
  split; [reflexivity|]. split; [reflexivity|]. split; [reflexivity|]. destruct (Z.ltb_spec 65535 i); [lia|]. cbn [orb].
  destruct (Z.eqb_spec i (-1)); destruct (Z.eqb_spec i 0); cbn [orb]; intuition (try lia; try discriminate).
Qed.
Print Assumptions C100_integers.
Example C100_strings_case : let '(r1, v1) := from_string [] (lit "gen") in let '(r2, v2) := from_string r1 (lit "acc") in
  v1 = 65536 /\ v2 = 65537 /\ to_string r2 v1 = Some (lit "gen") /\ from_string r2 (lit "gen") = (r2, 65536).
Proof. vm_compute. repeat split. Qed.

(** Not true: that a value is printed as the string it was made of (nil and fail are printed as 0 and -1), or is told apart
    from a number. *)
Theorem C100_strings_refuted : from_string [] (lit "nil") = ([], 0) /\ to_string [] 0 = Some (lit "nil") /\ representation [] 0 = Some (inl 0)
  /\ from_string [] (lit "empty") = ([], -1) /\ to_string [] (-1) = Some (lit "fail") /\ representation [] (-1) = Some (inl (-1)) /\ from_int 0 = Some 0.
Proof. vm_compute. repeat split. Qed.
Print Assumptions C100_strings_refuted.

(** C04-C08: the UTF-8 library. *)
From Coq Require Import List ZArith Bool Lia ZifyBool.
From Verif Require Import M_Utf8 S_Utf8 L_Utf8.
Import ListNotations.
Open Scope Z_scope.

(** C04 *)
Theorem C04_append_next : forall cp rest, scalar cp ->
  exists bytes, append cp = Some bytes /\ bytes = enc cp /\
    next (bytes ++ rest) = Some (cp, rest) /\
    unchecked_append cp = bytes /\
    unchecked_next (bytes ++ rest) = Some (cp, rest).
Proof.
  intros cp rest Hs. exists (enc cp). repeat split.
  - apply append_scalar; assumption.
  - apply next_enc; assumption.
  - apply unchecked_append_enc; assumption.
  - apply unchecked_next_enc; assumption.
Qed.
Print Assumptions C04_append_next.

Theorem C04_append_rejects : forall cp, 0 <= cp -> ~ scalar cp -> append cp = None.
Proof. exact append_nonscalar. Qed.
Print Assumptions C04_append_rejects.

(** Whatever [next] accepts is the shortest-form encoding of a scalar value. *)
Theorem C04_next_sound : forall l cp rest, Forall byte l ->
  next l = Some (cp, rest) -> scalar cp /\ l = enc cp ++ rest.
Proof. exact next_sound. Qed.
Print Assumptions C04_next_sound.

Example C04_example :
  append 0x20AC = Some [0xE2; 0x82; 0xAC] /\
  next [0xE2; 0x82; 0xAC; 0x41] = Some (0x20AC, [0x41]) /\
  append 0xDC00 = None /\ next [0xC0; 0x80] = None /\
  append 0x1F600 = Some [0xF0; 0x9F; 0x98; 0x80] /\ scalar 0x1F600.
Proof. vm_compute. repeat split. right. split; discriminate. Qed.

(** C05 *)
Theorem C05_is_valid_iff_well_formed : forall l, Forall byte l ->
  (is_valid l = true <-> well_formed l).
Proof. exact is_valid_iff. Qed.
Print Assumptions C05_is_valid_iff_well_formed.

(** The reported position ends the longest prefix that consists of whole
    encodings. *)
Theorem C05_find_invalid_longest_prefix : forall l, Forall byte l ->
  exists cps rest, find_invalid l = Some rest /\
    l = flat_map enc cps ++ rest /\ Forall scalar cps /\
    forall cps' rest', Forall scalar cps' -> l = flat_map enc cps' ++ rest' ->
      exists ext, cps = cps' ++ ext.
Proof.
  intros l Hb. destruct (find_invalid_spec l Hb) as (cps & rest & Hf & Hs & El & Hmax).
  exists cps, rest. repeat split; try assumption.
  intros cps' rest' Hs' El'. apply (maximal_decomposition cps cps' rest rest'); congruence || assumption.
Qed.
Print Assumptions C05_find_invalid_longest_prefix.

Theorem C05_distance : forall l n, Forall byte l ->
  (distance l = Some n <-> exists cps, encodes cps l /\ length cps = n).
Proof.
  intros l n Hb. split.
  - apply distance_loop_sound. assumption.
  - intros (cps & He & <-). apply distance_encodes. assumption.
Qed.
Print Assumptions C05_distance.

Theorem C05_decoding_unique : forall cps cps' l,
  encodes cps l -> encodes cps' l -> cps = cps'.
Proof. exact encodes_unique. Qed.
Print Assumptions C05_decoding_unique.

Example C05_example :
  is_valid [0x61; 0xC5; 0x82; 0x62] = true /\
  find_invalid [0x61; 0xC5; 0x82; 0xED; 0xA0; 0x80] = Some [0xED; 0xA0; 0x80] /\
  distance [0x61; 0xC5; 0x82; 0x62] = Some 3%nat /\
  is_valid [0xE0; 0x80; 0x80] = false.
Proof. vm_compute. repeat split. Qed.

(** C06 *)
Theorem C06_replace_invalid : forall rep l, scalar rep -> Forall byte l ->
  match replace_invalid rep l with
  | Some out => well_formed out
  | None => exists p t, l = p ++ t /\ cut_short t
  end.
Proof.
  intros rep l Hs Hb.
  pose proof (replace_invalid_loop_spec (length l) rep l Hs (le_n _) Hb) as H.
  unfold replace_invalid. destruct (replace_invalid_loop (length l) rep l); [assumption|].
  destruct H as (p & t & -> & lead & trails & -> & Hlen & Ht).
  exists p, (lead :: trails). split; [reflexivity|].
  apply Forall_app in Hb. destruct Hb as [_ Hb]. inversion Hb as [|? ? Hbl Hbt]; subst.
  exists lead, trails. split; [reflexivity|]. split.
  - clear - Ht Hbt. induction Ht as [|b trails Hb Ht IH]; constructor.
    + inversion Hbt; subst. rewrite is_trail_byte in Hb by assumption. lia.
    + apply IH. inversion Hbt; assumption.
  - rewrite seqlen_byte in Hlen by assumption. unfold announced. assumption.
Qed.
Print Assumptions C06_replace_invalid.

Theorem C06_well_formed_unchanged : forall rep l, well_formed l ->
  replace_invalid rep l = Some l.
Proof.
  intros rep l (cps & Hs & ->). unfold replace_invalid.
  apply replace_invalid_loop_enc; [assumption|apply flat_map_enc_length].
Qed.
Print Assumptions C06_well_formed_unchanged.

(** The only exception does occur (documented "not enough room"). *)
Example C06_example :
  replace_invalid 0xFFFD [0x61; 0xFF; 0xE0; 0x80; 0x80; 0x62]
    = Some [0x61; 0xEF; 0xBF; 0xBD; 0xEF; 0xBF; 0xBD; 0x62] /\
  replace_invalid 0xFFFD [0x61; 0xE2; 0x82] = None.
Proof. vm_compute. split; reflexivity. Qed.

(** C07: holds for any text before the character, well-formed or not. *)
Theorem C07_prior_inverts_next : forall before cp, scalar cp ->
  prior (before ++ enc cp) = Some (cp, before) /\
  unchecked_prior (before ++ enc cp) = Some (cp, before).
Proof.
  intros. split; [apply prior_enc|apply unchecked_prior_enc]; assumption.
Qed.
Print Assumptions C07_prior_inverts_next.

(** Iterating [prior] down to the start of the text. *)
Fixpoint backwards (n : nat) (text : list Z) : option (list Z) :=
  match n with
  | O => if (length text =? 0)%nat then Some [] else None
  | S n' => match prior text with
            | Some (cp, before) => option_map (cons cp) (backwards n' before)
            | None => None
            end
  end.

Theorem C07_backward_iteration : forall cps text, encodes cps text ->
  backwards (length cps) text = Some (rev cps).
Proof.
  intros cps text [Hs ->]. induction cps as [|c cps IH] using rev_ind; [reflexivity|].
  apply Forall_app in Hs. destruct Hs as [Hs Hc]. inversion Hc; subst.
  rewrite app_length, Nat.add_comm, flat_map_app, rev_app_distr.
  cbn [length Nat.add backwards flat_map rev app].
  rewrite app_nil_r. rewrite prior_enc by assumption. rewrite IH by assumption. reflexivity.
Qed.
Print Assumptions C07_backward_iteration.

Example C07_example :
  prior [0x61; 0xC5; 0x82; 0xE2; 0x82; 0xAC] = Some (0x20AC, [0x61; 0xC5; 0x82]) /\
  backwards 3 [0x61; 0xC5; 0x82; 0xE2; 0x82; 0xAC] = Some [0x20AC; 0x142; 0x61].
Proof. vm_compute. split; reflexivity. Qed.

(** C08 *)
Theorem C08_utf8_utf16_roundtrip : forall cps l, encodes cps l ->
  utf8to16 l = Some (flat_map enc16 cps) /\
  utf16to8 (flat_map enc16 cps) = Some l.
Proof.
  intros cps l [Hs ->]. split.
  - apply utf8to16_loop_enc; [assumption|apply flat_map_enc_length].
  - apply utf16to8_enc16; assumption.
Qed.
Print Assumptions C08_utf8_utf16_roundtrip.

Example C08_example :
  utf8to16 [0xF0; 0x9F; 0x98; 0x80; 0x41] = Some [0xD83D; 0xDE00; 0x41] /\
  utf16to8 [0xD83D; 0xDE00; 0x41] = Some [0xF0; 0x9F; 0x98; 0x80; 0x41] /\
  utf16to8 [0xD83D; 0x41] = None.
Proof. vm_compute. repeat split. Qed.

(** C01, C02, C03: quoting and escape detection. *)
From Coq Require Import List Ascii String Arith Bool.
From Verif Require Import M_Quoter S_Quoter L_Quoter.
Import ListNotations.

(** C01.  UTTQuoter is [extra = []], PsiQuoter is [extra = ["#"]]. *)
Theorem C01_quote_roundtrip : forall extra s,
  ~ In "n"%char extra -> ~ In "t"%char extra -> ~ In "r"%char extra ->
  unescape extra (escape extra s) = Some s.
Proof. exact unescape_escape. Qed.
Print Assumptions C01_quote_roundtrip.

Theorem C01_psi_quoter_roundtrip : forall s,
  unescape ["#"%char] (escape ["#"%char] s) = Some s.
Proof.
  intro s. apply C01_quote_roundtrip; intros [H|[]]; discriminate.
Qed.
Print Assumptions C01_psi_quoter_roundtrip.

(** The side condition is necessary: quoting the letter n additionally makes
    the round trip fail. *)
Theorem C01_quoted_letter_n_refuted :
  exists s, unescape ["n"%char] (escape ["n"%char] s) <> Some s.
Proof. exists ["n"%char]. vm_compute. discriminate. Qed.
Print Assumptions C01_quoted_letter_n_refuted.

Example C01_example :
  escape ["#"%char] (list_ascii_of_string "a #_b\*")
    = list_ascii_of_string "a_\#\_b\\\*" /\
  unescape ["#"%char] (list_ascii_of_string "a_\#\_b\\\*")
    = Some (list_ascii_of_string "a #_b\*").
Proof. vm_compute. split; reflexivity. Qed.

(** C02. *)
Theorem C02_escaped_has_no_separator : forall extra s c,
  In c (escape extra s) -> ~ is_separator c.
Proof. exact escape_no_sep. Qed.
Print Assumptions C02_escaped_has_no_separator.

Theorem C02_special_always_quoted : forall extra s i c,
  nth_error (escape extra s) i = Some c ->
  c = "*"%char \/ (In c extra /\ c <> "_"%char /\ c <> "\"%char) ->
  quoted_at (escape extra s) i.
Proof.
  intros extra s i c Hn Hs. apply quoted_at_scan.
  eapply escape_special_quoted; eassumption.
Qed.
Print Assumptions C02_special_always_quoted.

Example C02_example :
  let e := escape ["#"%char] (list_ascii_of_string "\#*") in
  nth_error e 3 = Some "#"%char /\ quoted_at e 3 /\ ~ quoted_at e 2.
Proof.
  cbn. repeat split.
  - exists 1. reflexivity.
  - intros H. apply Nat.odd_spec in H. vm_compute in H. discriminate.
Qed.

(** C03. *)
Theorem C03_isEscaped_parity : forall s pos,
  pos <= List.length s -> (isEscaped s pos = true <-> quoted_at s pos).
Proof. exact isEscaped_spec. Qed.
Print Assumptions C03_isEscaped_parity.

Example C03_example :
  isEscaped (list_ascii_of_string "a\\\x") 4 = true /\
  isEscaped (list_ascii_of_string "a\\x") 3 = false /\
  isEscaped (list_ascii_of_string "\\\x") 3 = true.
Proof. vm_compute. repeat split. Qed.

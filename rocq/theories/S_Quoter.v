(** Specification vocabulary for quoting, independent of the model. *)
From Coq Require Import List Ascii Arith Bool.
Import ListNotations.

(** Number of backslashes in the maximal run at the end of a string. *)
Fixpoint leading_backslashes (l : list ascii) : nat :=
  match l with
  | c :: l' => if Ascii.eqb c "\"%char then S (leading_backslashes l') else 0
  | [] => 0
  end.
Definition trailing_backslashes (l : list ascii) : nat :=
  leading_backslashes (rev l).

(** The character at [i] is quoted: an odd number of backslashes directly
    precedes it. *)
Definition quoted_at (l : list ascii) (i : nat) : Prop :=
  Nat.Odd (trailing_backslashes (firstn i l)).

Definition is_separator (c : ascii) : Prop :=
  c = " "%char \/ c = "009"%char \/ c = "010"%char \/ c = "013"%char.

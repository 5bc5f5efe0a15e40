(** Model of common/utt_like_quoter.cpp (UTTLikeQuoter) and
    common/escaping.cpp (Escaping::isEscaped).

    A std::string is a list of bytes ([ascii]).  Exceptions are [None]. *)
From Coq Require Import List Ascii Arith Bool.
Import ListNotations.

Definition str := list ascii.

Definition ch_space : ascii := " "%char.
Definition ch_nl : ascii := "010"%char.
Definition ch_tab : ascii := "009"%char.
Definition ch_cr : ascii := "013"%char.
Definition ch_under : ascii := "_"%char.
Definition ch_star : ascii := "*"%char.
Definition ch_bs : ascii := "\"%char.

(** common/utt_like_quoter.cpp lines 17-25: the [while (j)] loop leaves [j]
    non-zero iff the character occurs in [additionalQuotations_]. *)
Definition is_additional (extra : str) (c : ascii) : bool :=
  existsb (Ascii.eqb c) extra.

(** common/utt_like_quoter.cpp lines 8-28: the [switch] for one character;
    the result is what is appended to [result]. *)
Definition escape_char (extra : str) (c : ascii) : str :=
  if Ascii.eqb c ch_space then [ch_under]
  else if Ascii.eqb c ch_nl then [ch_bs; "n"%char]
  else if Ascii.eqb c ch_tab then [ch_bs; "t"%char]
  else if Ascii.eqb c ch_cr then [ch_bs; "r"%char]
  else if Ascii.eqb c ch_under then [ch_bs; ch_under]
  else if Ascii.eqb c ch_star then [ch_bs; ch_star]
  else if Ascii.eqb c ch_bs then [ch_bs; ch_bs]
  else if is_additional extra c then [ch_bs; c]
  else [c].

(** common/utt_like_quoter.cpp lines 5-31: UTTLikeQuoter::doEscape. *)
Fixpoint escape (extra : str) (s : str) : str :=
  match s with
  | [] => []
  | c :: s' => escape_char extra c ++ escape extra s'
  end.

(** common/utt_like_quoter.cpp lines 40-59: the inner [switch], the character
    after a backslash; [None] is the QuoterException. *)
Definition unescape_quoted (extra : str) (c : ascii) : option ascii :=
  if Ascii.eqb c "n"%char then Some ch_nl
  else if Ascii.eqb c "t"%char then Some ch_tab
  else if Ascii.eqb c "r"%char then Some ch_cr
  else if Ascii.eqb c ch_under then Some ch_under
  else if Ascii.eqb c ch_star then Some ch_star
  else if Ascii.eqb c ch_bs then Some ch_bs
  else if is_additional extra c then Some c
  else None.

(** common/utt_like_quoter.cpp lines 33-68: UTTLikeQuoter::doUnescape. *)
Fixpoint unescape (extra : str) (s : str) : option str :=
  match s with
  | [] => Some []
  | c :: s' =>
      if Ascii.eqb c ch_under then
        option_map (cons ch_space) (unescape extra s')
      else if Ascii.eqb c ch_bs then
        match s' with
        | [] => None
        | d :: s'' =>
            match unescape_quoted extra d with
            | None => None
            | Some x => option_map (cons x) (unescape extra s'')
            end
        end
      else option_map (cons c) (unescape extra s')
  end.

(** std::string::find_last_not_of(c, pos): greatest index [<= pos] (and inside
    the string) of a character different from [c].  Recursion from [pos] down. *)
Fixpoint find_last_not_of (s : str) (c : ascii) (pos : nat) : option nat :=
  match nth_error s pos with
  | Some d => if Ascii.eqb d c then
                match pos with
                | 0 => None
                | S p => find_last_not_of s c p
                end
              else Some pos
  | None => match pos with
            | 0 => None
            | S p => find_last_not_of s c p
            end
  end.

(** common/escaping.cpp lines 4-12: Escaping::isEscaped. *)
Definition isEscaped (s : str) (pos : nat) : bool :=
  match pos with
  | 0 => false
  | S p =>
      match find_last_not_of s ch_bs p with
      | None => Nat.eqb (pos mod 2) 1
      | Some last => Nat.eqb ((pos - last) mod 2) 0
      end
  end.

(** Model of the sentence string of the puddle parser and of what is read from
    it: tools/parsers/puddle/rule_matcher.cpp, lines 111-187
    (generateSentenceString), tools/parsers/puddle/lattice_wrapper.cpp, lines
    1076-1121 (getPartitionString), tools/parsers/puddle/rule.cpp, lines 150-253
    (matchPattern, countTokensMatched) and 332-385 (getPatternStart,
    getPatternEnd, requiredTokensMatched).

    Simplifications: what is written for a vertex is given as a record (C81 says
    which edges these are); numbers are printed in decimal and do not overflow;
    the three regular expressions that take the string apart are written out as
    functions (no character but ">" ends [[^>]+], which always stops at the
    first one); the pattern of a rule is any function that gives the place and
    the length of a match; matchPattern without the named groups of RE2
    (lines 190-218). *)
From Coq Require Import String Ascii.
From Coq Require Import List Arith Bool Lia.
From Coq Require Import DecimalString DecimalNat.
From Verif Require Import M_PuddleText.
Import ListNotations.
Local Open Scope nat_scope.

(** operator<< for numbers. *)
Definition dec (n : nat) : text := lit (NilZero.string_of_uint (Nat.to_uint n)).

(** What is written for one vertex: the letter of the kind (t, g or s), the
    ends, the category (TOKEN for edges that are not groups), the text and the
    base form and morphology of every edge. *)
Record token := Tok {
  kind : ascii;
  from : nat;
  upto : nat;
  cat : text;
  orth : text;
  readings : list (text * text)
}.

(** rule_matcher.cpp, lines 131-183. *)
Definition token_text (t : token) : text :=
  lit "<<" ++ [kind t] ++ lit "<" ++ dec (from t) ++ lit "<" ++ dec (upto t)
  ++ lit "<" ++ cat t ++ lit "<" ++ escape (orth t)
  ++ flat_map (fun r => lit "<" ++ escape (fst r) ++ lit "<" ++ escape (snd r))
              (readings t)
  ++ lit ">".

(** The marks of the beginning and of the end of the sentence (lines 114-115 and
    186). *)
Definition begin_mark : text := lit "<<s<0<0<sb<>".
Definition end_mark (v : nat) : text :=
  lit "<<s<" ++ dec v ++ lit "<" ++ dec v ++ lit "<se<>".

Definition sentence_text (start : nat) (ts : list token) (v : nat) : text :=
  (if start =? 0 then begin_mark else []) ++ flat_map token_text ts ++ end_mark v.

(** A digit, and the digits at the beginning of a text. *)
Definition is_digit (c : ascii) : bool :=
  (48 <=? nat_of_ascii c) && (nat_of_ascii c <=? 57).
Fixpoint span (f : ascii -> bool) (s : text) : text * text :=
  match s with
  | [] => ([], [])
  | c :: s' => if f c then let (a, b) := span f s' in (c :: a, b) else ([], s)
  end.

(** The value of digits (the capture into an int). *)
Definition value (s : text) : nat :=
  fold_left (fun n c => 10 * n + (nat_of_ascii c - 48)) s 0.

(** [<<[tsg]<(\d+)<(\d+)[^>]+>] at the beginning of a text: the digits of the
    first and of the second number and what is behind the match.  The second
    [\d+] takes all digits if something is left for [[^>]+], otherwise it gives
    one back. *)
Definition token_at (s : text) : option (text * text * text) :=
  match s with
  | a :: b :: k :: c :: s1 =>
      if Ascii.eqb a "<" && Ascii.eqb b "<" && existsb (Ascii.eqb k) (lit "tsg")
         && Ascii.eqb c "<"
      then
        let (d1, s2) := span is_digit s1 in
        match d1, s2 with
        | _ :: _, e :: s3 =>
            if Ascii.eqb e "<" then
              let (body, s4) := span (fun c => negb (Ascii.eqb c ">")) s3 in
              let (d2, rest) := span is_digit body in
              match s4 with
              | [] => None
              | _ :: s5 =>
                  match d2, rest with
                  | [], _ => None
                  | [_], [] => None
                  | _ :: _ :: _, [] => Some (d1, removelast d2, s5)
                  | _, _ :: _ => Some (d1, d2, s5)
                  end
              end
            else None
        | _, _ => None
        end
      else None
  | _ => None
  end.

(** countTokensMatched (rule.cpp, lines 245-253). *)
Fixpoint count_loop (fuel : nat) (s : text) : nat :=
  match fuel with
  | 0 => 0
  | S f => match token_at s with
           | None => 0
           | Some (_, _, s') => S (count_loop f s')
           end
  end.
Definition count_tokens (s : text) : nat := count_loop (length s) s.

(** getPatternStart (lines 332-343); None is -1. *)
Definition pattern_start (s : text) : option nat :=
  match token_at s with
  | None => None
  | Some (d1, _, _) => Some (value d1)
  end.

(** getPatternEnd (lines 345-356): the leftmost place at which the expression
    matches up to the end of the text. *)
Fixpoint pattern_end (s : text) : option nat :=
  match token_at s with
  | Some (_, d2, []) => Some (value d2)
  | _ => match s with [] => None | _ :: s' => pattern_end s' end
  end.

(** requiredTokensMatched (lines 358-381): the parts of the match for the tokens
    of the rule and which of them are required; None is false, otherwise the
    sizes. *)
Fixpoint sizes_loop (parts : list (text * bool)) : option (list nat) :=
  match parts with
  | [] => Some []
  | (p, req) :: parts' =>
      if match p with [] => req | _ => false end then None
      else let n := count_tokens p in
           if req && (n =? 0) then None
           else match sizes_loop parts' with
                | None => None
                | Some ns => Some (n :: ns)
                end
  end.
Definition required_tokens (parts : list (text * bool)) : option (list nat) :=
  match sizes_loop parts with
  | None => None
  | Some ns => if fold_right Nat.add 0 ns =? 0 then None else Some ns
  end.

(** matchPattern (lines 150-243): [find] gives the place and the length of the
    first match of the pattern; the result is the index of the match and the
    one to go on with.  None stands for -1, in the result of the whole and of
    its parts. *)
Definition match_pattern (find : text -> option (nat * nat)) (s : text)
    : option (option nat * option nat) :=
  match find s with
  | None => None
  | Some (p, n) =>
      let before := firstn p s in
      let matching := firstn n (skipn p s) in
      let suffix := skipn (p + n) s in
      match matching with
      | [] => None
      | _ =>
          let r := match before with
                   | [] => pattern_start matching
                   | _ => pattern_end before
                   end in
          Some (r, pattern_start suffix)
      end
  end.

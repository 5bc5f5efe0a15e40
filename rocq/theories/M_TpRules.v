(** Model of the rule files and the cutter of the tp tokenizer:
    tools/tokenizers/tp/tp_basic_tokenizer_rule_set.cpp, lines 34-53
    (loadWholeElement), 68-108 (removeComments, trim), 395-434 (the value of a
    definition), 437-513 with 515-557 and 668-672 (conditions), 271-318 with 826
    and 879-886 (the order of the rules), and tp_token_cutter.hpp, lines 40-67.

    Simplifications: applyDefinitions, here documents and the regular expressions
    of readRule are not modelled: a command is what parseLine makes of it.
    includes are commands like rules.  isEscaped is that of M_Srx. *)
From Coq Require Import String Ascii.
From Coq Require Import List Arith Bool Lia.
From Verif Require Import M_Srx.
Import ListNotations.
Local Open Scope nat_scope.

(** * Texts *)

Definition newline : ascii := "010".

(** std::string::find_first_of from a place on. *)
Fixpoint find_char (P : ascii -> bool) (s : text) (i pos : nat) : option nat :=
  match s with
  | [] => None
  | c :: s' => if (pos <=? i) && P c then Some i else find_char P s' (S i) pos
  end.

(** removeComments (lines 68-89): what is left and whatFollowsWouldBeCommentedOut. *)
Fixpoint comments_loop (fuel : nat) (s : text) (pos : nat) (flag : bool) : text * bool :=
  match fuel with
  | 0 => (s, flag)
  | S f =>
      match find_char (Ascii.eqb "#") s 0 pos with
      | None => (s, flag)
      | Some p =>
          if negb (is_escaped s p) then
            match find_char (Ascii.eqb newline) s 0 p with
            | Some l => comments_loop f (firstn p s ++ skipn (l + 1) s) p flag
            | None => comments_loop f (firstn p s) p true
            end
          else comments_loop f s (p + 1) flag
      end
  end.
Definition remove_comments (s : text) : text * bool := comments_loop (S (length s)) s 0 false.

(** std::getline up to an at sign: the line and what is left, None at the end of
    the stream. *)
Fixpoint get_line (s : text) : text * option text :=
  match s with
  | [] => ([], None)
  | c :: s' => if Ascii.eqb c "@" then ([], Some s')
               else let (l, r) := get_line s' in (c :: l, r)
  end.
(** The loop of loadWholeElement (lines 43-52). *)
Fixpoint load_loop (fuel : nat) (line buff : text) (rest : option text) : text * option text :=
  match fuel with
  | 0 => (buff, rest)
  | S f =>
      if is_escaped line (length line) || snd (remove_comments buff) then
        match rest with
        | None => (buff, None)
        | Some r => let (line', rest') := get_line r in
                    load_loop f line' (buff ++ "@"%char :: line') rest'
        end
      else (buff, rest)
  end.
(** loadWholeElement (lines 34-53). *)
Definition load_whole (s : text) : text * option text :=
  let (line, rest) := get_line s in load_loop (S (length s)) line line rest.
(** The loop over the file (lines 726-729). *)
Fixpoint elements (fuel : nat) (s : text) : list text :=
  match fuel with
  | 0 => []
  | S f => match load_whole s with
           | (e, None) => [e]
           | (e, Some r) => e :: elements f r
           end
  end.

Definition is_white (c : ascii) : bool :=
  Ascii.eqb c "010" || Ascii.eqb c "013" || Ascii.eqb c "009" || Ascii.eqb c " ".

(** std::string::find_last_not_of white space, in the first [k] characters. *)
Fixpoint last_black (s : text) (k : nat) : option nat :=
  match k with
  | 0 => None
  | S j => match nth_error s j with
           | Some c => if is_white c then last_black s j else Some j
           | None => last_black s j
           end
  end.
(** trim (lines 91-108). *)
Definition trim (s : text) : text :=
  match s with
  | [] => []
  | _ =>
      let s1 :=
        match last_black s (length s) with
        | None => []
        | Some pos =>
            if negb (pos =? length s - 1) then
              let pos' := if is_escaped s (pos + 1)
                             && match nth_error s (pos + 1) with Some c => Ascii.eqb c " " | None => false end
                          then pos + 1 else pos in
              if negb (pos' =? length s - 1) then firstn (pos' + 1) s else s
            else s
        end in
      match find_char (fun c => negb (is_white c)) s1 0 0 with
      | None => []
      | Some p => skipn p s1
      end
  end.

(** The value of a definition (lines 405-423): the signs # and @ lose the
    backslash that escapes them. *)
Fixpoint unescape_loop (fuel : nat) (v : text) (pos : nat) : text :=
  match fuel with
  | 0 => v
  | S f =>
      match find_char (fun c => Ascii.eqb c "#" || Ascii.eqb c "@") v 0 pos with
      | None => v
      | Some p =>
          (* pos - last, where last is -1 if there is nothing but backslashes *)
          let d := match last_other v p with Some l => p - l | None => p + 1 end in
          if d mod 2 =? 0 then
            if 2 <? d then unescape_loop f (firstn (p - 3) v ++ "\"%char :: skipn p v) (p - 2 + 1)
            else unescape_loop f (firstn (p - 1) v ++ skipn p v) (p + 1)
          else unescape_loop f v (p + 1)
      end
  end.
Definition unescape (v : text) : text := unescape_loop (S (length v)) v 0.

(** * Conditions *)

Section Conditions.
Context {X : Type}.

(** The commands (parseLine, lines 515-557): definitions of names, conditions that
    ask for a name to be defined (true) or not (false), and all others. *)
Inductive command :=
| Define (name value : text)
| If (expected : bool) (name : text)
| Else
| EndIf
| Do (x : X).

(** IfElem: value and whether the else has been read. *)
Record if_elem := IfElem { value : bool; is_else : bool }.

Record rules_state := St { opened : bool; stack : list if_elem; defs : list (text * text); done : list X }.

Inductive outcome :=
| Running (st : rules_state)
| TooManyElse
| NotClosed
| EmptyStack. (* ifstack.back() of an empty list *)

Definition text_eqb (a b : text) : bool := if list_eq_dec ascii_dec a b then true else false.
Definition defined (ds : list (text * text)) (name : text) : bool :=
  existsb (fun d => text_eqb (fst d) name) ds.

(** readDefinition, readIf, readElse, readEndIf (lines 425-434, 454-513): std::map::insert does
    not change what is there. *)
Definition obey (c : command) (st : rules_state) : outcome :=
  match c with
  | Do x => Running (if opened st then St true (stack st) (defs st) (done st ++ [x]) else st)
  | Define name v =>
      Running (if opened st
               then St true (stack st) (if defined (defs st) name then defs st else defs st ++ [(name, v)]) (done st)
               else st)
  | If expected name =>
      Running (if opened st && Bool.eqb (negb (defined (defs st) name)) expected
               then St false (IfElem true false :: stack st) (defs st) (done st)
               else St (opened st) (IfElem false false :: stack st) (defs st) (done st))
  | Else =>
      match stack st with
      | [] => EmptyStack
      | e :: es =>
          if negb (opened st) && value e then
            if is_else e then TooManyElse
            else Running (St true (IfElem (value e) true :: es) (defs st) (done st))
          else Running (St false (IfElem true true :: es) (defs st) (done st))
      end
  | EndIf =>
      match stack st with
      | [] => EmptyStack
      | e :: es => Running (St (if negb (opened st) && value e then true else opened st) es (defs st) (done st))
      end
  end.
Fixpoint obey_all (cs : list command) (st : rules_state) : outcome :=
  match cs with
  | [] => Running st
  | c :: cs' => match obey c st with
                | Running st' => obey_all cs' st'
                | o => o
                end
  end.
(** A file, read with what was defined before: lines 799-803 (and 668-672). *)
Definition obey_file (cs : list command) (ds : list (text * text)) : outcome :=
  match obey_all cs (St true [] ds []) with
  | Running st => match stack st with [] => Running st | _ => NotClosed end
  | o => o
  end.
End Conditions.
Arguments command : clear implicits.
Arguments outcome : clear implicits.

(** * Cutting *)

(** A rule: its name, its category and what its expression consumes of a text. *)
Record token_rule := Rule { name : text; category : text; consumes : text -> option nat }.

(** readRule (lines 313-316) and load (line 826): the rules in the order of the
    file are turned round, the main rule is kept aside. *)
Definition main_name : text := list_ascii_of_string "main_regex".
Definition regs (file : list token_rule) : list token_rule :=
  rev (filter (fun r => negb (text_eqb (name r) main_name)) file).

(** performCutOff and defaultToken (tp_token_cutter.hpp 40-67), on the text from
    the position on; the length of the first symbol is a parameter. *)
Fixpoint cut_token (symbol : nat) (rs : list token_rule) (s : text) : text * nat :=
  match rs with
  | [] => (list_ascii_of_string "X", symbol)
  | r :: rs' => match consumes r s with
                | Some k => (category r, k)
                | None => cut_token symbol rs' s
                end
  end.

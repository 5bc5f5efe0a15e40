(** Model of the LamerLemma lemmatizer:
    tools/lemmatizers/lamerlemma/utility_functions.cpp (all of it),
    utility_functions.hpp, lines 29-53 (the reading of lines), dictionary.cpp,
    lines 9-19 and 47-53, and lamerlemma.cpp, lines 46-105 (lemmatize).
    The separators are those of common/config.hpp.in, lines 24-30.

    Simplifications: bytes are integers from 0 to 255 and char is signed, as on
    x86; a text is shorter than 2^63 bytes; a std::map is a list of pairs in the
    order of the keys; loading and saving, logging and the options are left out.
    None is a thrown exception. *)
From Coq Require Import List ZArith Bool Lia.
From Verif Require Import M_OrdSet M_Fsa M_MultiStore.
Import ListNotations.
Local Open Scope nat_scope.

Notation word := (list Z).
Definition SPACE : Z := 32%Z.
Definition COMMA : Z := 44%Z.
Definition EQUALS : Z := 61%Z.
Definition COLON : Z := 58%Z.
Definition PLUS : Z := 43%Z.
(** "pos" and "1", lines 73 and 89. *)
Definition POS : word := [112; 111; 115]%Z.
Definition ONE : word := [49]%Z.

(** * The code of a lemma *)

(** Lines 103-107: how far the lemma runs along the form from one place on.  The
    first characters are compared even for an empty lemma, whose first character is
    then the zero behind its end. *)
Fixpoint run (s l : word) : nat :=
  match s, l with
  | c :: s', d :: l' => if (c =? d)%Z then S (run s' l') else 0
  | _, _ => 0
  end.
Definition run_at (s l : word) : nat :=
  match l with
  | [] => match s with c :: _ => if (c =? 0)%Z then 1 else 0 | [] => 0 end
  | _ => run s l
  end.
(** Lines 100-116; [s] is the form from place [i] on. *)
Fixpoint scan (s l : word) (i best at_ : nat) : nat * nat :=
  match s with
  | [] => (best, at_)
  | _ :: s' =>
      let n := run_at s l in
      let '(best, at_) := if best <? n then (n, i) else (best, at_) in
      if length s <? best then (best, at_) else scan s' l (S i) best at_
  end.
(** The conversion to char, and the value of a char. *)
Definition to_char (n : nat) : Z := (Z.of_nat n mod 256)%Z.
Definition of_char (c : Z) : Z := (if c <? 128 then c else c - 256)%Z.
(** KLEndEncode, lines 95-125. *)
Definition encode (form lemma : word) : option word :=
  let '(best, at_) := scan form lemma 0 0 0 in
  if length lemma <? best then None
  else Some (to_char (65 + at_) :: to_char (65 + length form - (at_ + best)) :: skipn best lemma).
(** KLEndDecode, lines 127-143.  A negative place is one far beyond the end, and a
    negative length takes all the rest. *)
Definition decode (form code : word) : option word :=
  match code with
  | k :: l :: ending =>
      let front := (of_char k - 65)%Z in
      let back := (of_char l - 65)%Z in
      let size := Z.of_nat (length form) in
      if (front <? 0)%Z || (size <? front)%Z then None
      else
        let rest := skipn (Z.to_nat front) form in
        let n := (size - front - back)%Z in
        Some ((if (n <? 0)%Z then rest else firstn (Z.to_nat n) rest) ++ ending)
  | _ => None
  end.

(** * Lines *)

(** boost::split with is_any_of. *)
Fixpoint split_any (f : Z -> bool) (s : word) : list word :=
  match s with
  | [] => [[]]
  | c :: s' => if f c then [] :: split_any f s'
               else match split_any f s' with
                    | [] => [[c]]
                    | w :: ws => (c :: w) :: ws
                    end
  end.
Definition is_tab (c : Z) : bool := (c =? TAB)%Z.
Definition is_tab_space (c : Z) : bool := (c =? TAB)%Z || (c =? SPACE)%Z.
Definition is_comma (c : Z) : bool := (c =? COMMA)%Z.
(** parseInput, lines 10-38. *)
Definition parse_input (line : word) : option word :=
  match split_any is_tab_space line with
  | form :: lemma :: rest =>
      match encode form lemma with
      | None => None
      | Some code =>
          Some (form ++ [TAB] ++ code ++
                match rest with
                | [] => []
                | pos :: [] => [TAB] ++ pos
                | pos :: morpho :: _ => [TAB] ++ pos ++ [TAB] ++ morpho
                end)
      end
  | _ => None
  end.
(** operator>> of Line, utility_functions.hpp lines 31-42: an empty line stays. *)
Definition read_line (line : word) : option word :=
  match line with [] => Some [] | _ => parse_input line end.

(** * Maps *)

Section Map.
Context {V : Type}.
(** m[k] = f(m[k]), where a missing entry is made from [d]. *)
Fixpoint alter (k : word) (d : V) (f : V -> V) (m : list (word * V)) : list (word * V) :=
  match m with
  | [] => [(k, f d)]
  | (k', v) :: m' =>
      if str_ltb k k' then (k, f d) :: m
      else if str_ltb k' k then (k', v) :: alter k d f m'
      else (k', f v) :: m'
  end.
(** find *)
Fixpoint look_up (k : word) (m : list (word * V)) : option V :=
  match m with
  | [] => None
  | (k', v) :: m' => if word_eqb k' k then Some v else look_up k m'
  end.
End Map.
Definition feature_map := list (word * word).
Definition tag_map := list (word * (feature_map * list feature_map)).
Definition lemma_map := list (word * tag_map).

(** * Answers *)

(** std::string::find of one character. *)
Fixpoint find_byte (c : Z) (s : word) : option nat :=
  match s with
  | [] => None
  | d :: s' => if (d =? c)%Z then Some 0 else option_map S (find_byte c s')
  end.
(** One field with a key and a value, lines 66-73 and 82-89; [bare] is what a field
    without the equals sign puts in. *)
Definition put_field (bare : word -> word * word) (m : feature_map) (s : word) : feature_map :=
  let '(k, v) := match find_byte EQUALS s with
                 | Some p => (firstn p s, skipn (p + 1) s)
                 | None => bare s
                 end in
  alter k [] (fun _ => v) m.
Definition put_pos : feature_map -> word -> feature_map := put_field (fun s => (POS, s)).
Definition put_morpho : feature_map -> word -> feature_map := put_field (fun s => (s, ONE)).
(** parseResult, lines 40-93. *)
Definition parse_result (key result : word) (m : lemma_map) : option lemma_map :=
  match split_any is_tab result with
  | [] => None
  | code :: rest =>
      match decode key code with
      | None => None
      | Some lemma =>
          let m := alter lemma [] (fun t => t) m in
          match rest with
          | [] => Some m
          | tag :: rest' =>
              let morpho := match rest' with
                            | [s] => fold_left put_morpho (split_any is_comma s) []
                            | _ => []
                            end in
              Some (alter lemma []
                      (alter tag ([], []) (fun e => (fold_left put_pos (split_any is_comma tag) (fst e), snd e ++ [morpho]))) m)
          end
      end
  end.

(** * The dictionary *)

Fixpoint all_some {A} (l : list (option A)) : option (list A) :=
  match l with
  | [] => Some []
  | Some a :: l' => option_map (cons a) (all_some l')
  | None :: _ => None
  end.
(** readDictionary, dictionary.cpp lines 9-19. *)
Definition read_dictionary (lines : list word) : option M_BinFsa.bin :=
  match all_some (map read_line lines) with Some ls => create ls | None => None end.
(** Dictionary::get, lines 47-53. *)
Fixpoint parse_results (key : word) (l : list word) (m : lemma_map) : option lemma_map :=
  match l with
  | [] => Some m
  | r :: l' => match parse_result key r m with Some m' => parse_results key l' m' | None => None end
  end.
Definition dict_get (store : M_BinFsa.bin) (token : word) : option lemma_map :=
  match M_MultiStore.get store token with Some l => parse_results token l [] | None => None end.

(** * lemmatize *)

(** What is given to the output iterator; an annotation item is its category, its
    text and its values. *)
Inductive event :=
| ENorm (s : word)
| ELemma (s : word)
| ELexeme (pos lexeme : word) (values : feature_map)
| EForm (pos token : word) (values : feature_map).
Definition value_of (k : word) (m : feature_map) : word :=
  match look_up k m with Some v => v | None => [] end.
(** Lines 66-69: without lexeme_ids_ the lemma ends before the first colon. *)
Definition shown (ids : bool) (lemma : word) : word :=
  if ids then lemma else match find_byte COLON lemma with Some p => firstn p lemma | None => lemma end.
(** Lines 73-99. *)
Definition tag_events (level : nat) (token lemma : word) (e : word * (feature_map * list feature_map)) : list event :=
  let '(attrs, forms) := snd e in
  let pos := value_of POS attrs in
  ELexeme pos (lemma ++ [PLUS] ++ pos) (filter (fun f => negb (word_eqb (fst f) POS)) attrs)
  :: (if 2 <? level then map (EForm pos token) forms else []).
(** Lines 63-101. *)
Definition lemma_events (level : nat) (ids : bool) (token : word) (e : word * tag_map) : list event :=
  let lemma := shown ids (fst e) in
  ELemma lemma :: (if 1 <? level then flat_map (tag_events level token lemma) (snd e) else []).
(** Lines 46-105, given what the dictionary answers: what is returned and the events. *)
Definition lemmatize (level : nat) (ids : bool) (token : word) (m : lemma_map) : bool * list event :=
  match level, m with
  | 0, _ => (false, [])
  | _, [] => (false, [])
  | _, _ => (true, ENorm token :: flat_map (lemma_events level ids token) m)
  end.

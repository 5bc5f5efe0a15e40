(** Model of the language guesser: tools/recognizers/langguesser/lang_guesser.cpp,
    lines 96-221 (guessLanguage, guessLanguageByBigramModel, guessLanguageByLetters,
    isOneOfTheLanguageSpecificLetters, distance), and bigram_language_model.cpp, lines
    23-28 and 46-95.

    Simplifications: a text is a list of code points of valid UTF-8 with the length in
    bytes that UTF-8 gives it (utf8::next on invalid text throws); counts and frequencies
    are exact (int does not overflow, double is Q); the tables of the languages, read from
    files, are given; the answer "unknown" is its own constructor, and no language has this
    name.  An exception is Throw. *)
From Coq Require Import String.
From Coq Require Import List ZArith QArith Bool Lia.
Import ListNotations.
Local Open Scope Z_scope.

Notation text := (list Z).
(** The bytes of a code point in UTF-8. *)
Definition width (c : Z) : Z :=
  if c <? 128 then 1 else if c <? 2048 then 2 else if c <? 65536 then 3 else 4.
Definition byte_length (t : text) : Z := fold_right (fun c n => width c + n) 0 t.
(** LOWER_LETTER, bigram_language_model.cpp line 21. *)
Definition lower (i : Z) : Z := if (90 <? i) || (i <? 65) then i else i + 32.
(** bigram_language_model.hpp lines 20 and 29; the index of line 61 in 32 unsigned bits. *)
Definition TABLE_SIZE : Z := 512.
Definition FACTOR : Z := 509.
Definition index (a b : Z) : Z := ((a * FACTOR + b * (FACTOR * FACTOR)) mod 2 ^ 32) mod TABLE_SIZE.

Inductive outcome (A : Type) := Done (a : A) | Throw.
Arguments Done {A} a.
Arguments Throw {A}.

(** A count table, as a function of the index. *)
Definition add_one (i : Z) (t : Z -> Z) : Z -> Z := fun j => if j =? i then t j + 1 else t j.
(** The loop of lines 60-65: the pair is counted if there is something left to read. *)
Fixpoint count_loop (a b : Z) (rest : text) (t : Z -> Z) : Z -> Z :=
  match rest with
  | [] => t
  | c :: rest' => count_loop b (lower c) rest' (add_one (index a b) t)
  end.
(** countBigramsInText, lines 46-66. *)
Definition count_bigrams (s : text) : outcome (Z -> Z) :=
  if byte_length s <? 2 then Done (fun _ => 0)
  else match s with
       | a :: b :: rest => Done (count_loop (lower a) (lower b) rest (fun _ => 0))
       | _ => Throw
       end.
(** The places of a table. *)
Definition places : list Z := map Z.of_nat (seq 0 (Z.to_nat TABLE_SIZE)).
(** sumOfCounts, lines 81-89. *)
Definition sum_counts (t : Z -> Z) : Z := fold_right (fun i n => t i + n) 0 places.
(** createFrequencyTableFromCountTable, lines 68-79. *)
Definition frequencies (t : Z -> Z) : Z -> Q :=
  let sum := sum_counts t in
  if sum =? 0 then fun _ => 0%Q else fun i => (inject_Z (t i) / inject_Z sum)%Q.

Record language := Language { name : string; letters : text; table : Z -> Q }.
(** distance, lang_guesser.cpp lines 213-221. *)
Definition distance (f g : Z -> Q) : Q := fold_left (fun d i => (d + (f i - g i) * (f i - g i))%Q) places 0%Q.
Definition Qltb (x y : Q) : bool := negb (Qle_bool y x).
(** guessLanguageByBigramModel, lines 122-148; None is UNKNOWN_LANGUAGE. *)
Fixpoint best_loop (f : Z -> Q) (ls : list language) (best : option string) (min : Q) : option string :=
  match ls with
  | [] => best
  | l :: ls' => let d := distance f (table l) in
                if Qltb d min then best_loop f ls' (Some (name l)) d else best_loop f ls' best min
  end.
Definition MAX_DIST : Q := inject_Z 100000000000.
Definition by_bigrams (ls : list language) (s : text) : outcome (option string) :=
  match s with
  | [] => Done None
  | _ => match count_bigrams s with
         | Throw => Throw
         | Done t => Done (best_loop (frequencies t) ls None MAX_DIST)
         end
  end.

(** The four flags of guessLanguageByLetters, lines 155-158. *)
Record flags := Flags { found : bool; all_words : bool; in_word : bool; is_word : bool }.
Definition SPACE : Z := 32.
(** isOneOfTheLanguageSpecificLetters, lines 199-211. *)
Definition specific (ls : text) (c : Z) : bool := existsb (Z.eqb c) ls.
(** One letter, lines 163-182. *)
Definition letter_step (ls : text) (f : flags) (c : Z) : flags :=
  let f := if specific ls c then Flags true (all_words f) true (is_word f) else f in
  if c =? SPACE then
    let f := if is_word f && negb (in_word f) then Flags false false (in_word f) (is_word f) else f in
    Flags (found f) (all_words f) false false
  else Flags (found f) (all_words f) (in_word f) true.
(** Lines 154-191. *)
Definition speaks (ls : text) (s : text) : bool :=
  match ls with
  | [] => false
  | _ => let f := fold_left (letter_step ls) s (Flags false true false false) in
         let found' := if is_word f && negb (in_word f) then false else found f in
         found' && all_words f
  end.
(** guessLanguageByLetters, lines 150-197. *)
Fixpoint by_letters (ls : list language) (s : text) : option string :=
  match ls with
  | [] => None
  | l :: ls' => if speaks (letters l) s then Some (name l) else by_letters ls' s
  end.

(** lang_guesser.hpp line 71. *)
Definition MIN_LENGTH : Z := 24.
(** The settings: forcedLanguage_ (None if empty), forceMode_, defaultLanguage_ (None if
    it is "none"). *)
Record settings := Settings { forced : option string; force : bool; default : option string }.
(** languages_.front(): with no language the behaviour is undefined, here Throw. *)
Definition front (ls : list language) : outcome (option string) :=
  match ls with l :: _ => Done (Some (name l)) | [] => Throw end.
(** Lines 103-114. *)
Definition force_guess (S : settings) (ls : list language) (s : text) (g : option string) : outcome (option string) :=
  match g with
  | Some _ => Done g
  | None =>
      if force S then
        match ls with
        | [l] => Done (Some (name l))
        | _ => if byte_length s <? MIN_LENGTH then
                 match by_bigrams ls s with
                 | Done None => front ls
                 | r => r
                 end
               else Done None
        end
      else Done None
  end.
(** guessLanguage, lines 96-120; None is the answer "unknown". *)
Definition guess (S : settings) (ls : list language) (s : text) : outcome (option string) :=
  match forced S with
  | Some f => Done (Some f)
  | None =>
      match (if byte_length s <? MIN_LENGTH then Done (by_letters ls s) else by_bigrams ls s) with
      | Throw => Throw
      | Done g =>
          match force_guess S ls s g with
          | Throw => Throw
          | Done None => Done (default S)
          | Done (Some l) => Done (Some l)
          end
      end
  end.

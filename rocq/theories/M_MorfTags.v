(** Model of the parsers of tags: common/morfologik_tags_parser.cpp (all of it) and
    tools/lemmatizers/sfst/sfst_tags_parser.cpp (all of it), and of the levels of the
    Morfologik lemmatizer, tools/lemmatizers/morfologik/morfologik.cpp, lines 94-114 and
    144-346.  The two parsers differ in the tables, in the choice of the part of speech
    and in the counting when attributes are removed; everything else is written twice in
    the source.  Cited lines are of morfologik_tags_parser.cpp unless said otherwise.
    Simplifications: texts are lists of bytes; a std::map is a list of pairs in the order
    of the keys; warnings are left out; what the Java library answers (the stems with
    their tags, after breakForms_) is given. *)
From Coq Require Import String Ascii.
From Coq Require Import List ZArith Bool Lia.
From Verif Require Import M_OrdSet M_MultiStore M_Lamer.
Import ListNotations.
Local Open Scope nat_scope.

Definition w (s : string) : word := map (fun c => Z.of_nat (nat_of_ascii c)) (list_ascii_of_string s).
Definition DOT : Z := 46%Z.
Definition MINUS : Z := 45%Z.
Definition is_dot (c : Z) : bool := (c =? DOT)%Z.
Definition is_colon (c : Z) : bool := (c =? COLON)%Z.
Definition has_dot (s : word) : bool := existsb is_dot s.

(** std::map::insert: what is there stays. *)
Definition insert (k v : word) (m : feature_map) : feature_map := alter k v (fun x => x) m.
(** erase *)
Definition erase (k : word) (m : feature_map) : feature_map := filter (fun e : word * word => negb (word_eqb (fst e) k)) m.
(** m[k], as far as its value goes. *)
Definition at_key (k : word) (m : feature_map) : word := match look_up k m with Some v => v | None => [] end.

(** LEXEME_TAGS, lines 14-17, in the order of a multimap. *)
Definition LEXEME_TAGS : list (word * word) := [(w "subst", w "gender"); (w "verb", w "aspect")].
(** equal_range *)
Definition lexeme_keys (pos : word) : list word := map snd (filter (fun e : word * word => word_eqb (fst e) pos) LEXEME_TAGS).

(** PREDEFINED_TAGS, lines 19-104, and predefinedTags, sfst_tags_parser.cpp lines 18-78; the
    first of two equal keys stays. *)
Definition PREDEFINED_TAGS : list (word * word) :=
  [(w "adj", w "pos"); (w "adja", w "pos"); (w "adjp", w "pos"); (w "adv", w "pos"); (w "num", w "pos");
   (w "ppron12", w "pos"); (w "ppron3", w "pos"); (w "pred", w "pos"); (w "prep", w "pos"); (w "siebie", w "pos");
   (w "subst", w "pos"); (w "verb", w "pos"); (w "conj", w "pos"); (w "qub", w "pos"); (w "burk", w "pos");
   (w "interj", w "pos"); (w "interp", w "pos"); (w "xxx", w "pos"); (w "brev", w "pos"); (w "nie", w "pos");
   (w "ign", w "pos"); (w "sg", w "number"); (w "pl", w "number"); (w "pltant", w "number"); (w "nom", w "case");
   (w "gen", w "case"); (w "acc", w "case"); (w "dat", w "case"); (w "inst", w "case"); (w "loc", w "case");
   (w "voc", w "case"); (w "pos", w "degree"); (w "comp", w "degree"); (w "sup", w "degree"); (w "m", w "gender");
   (w "m1", w "gender"); (w "m2", w "gender"); (w "m3", w "gender"); (w "m4", w "gender"); (w "n", w "gender");
   (w "f", w "gender"); (w "n1", w "gender"); (w "n2", w "gender"); (w "p1", w "gender"); (w "p2", w "gender");
   (w "p3", w "gender"); (w "pri", w "person"); (w "sec", w "person"); (w "ter", w "person");
   (w "depr", w "depreciativity"); (w "winien", w "winien-like"); (w "aff", w "negation"); (w "neg", w "negation");
   (w "perf", w "aspect"); (w "imperf", w "aspect"); (w "?perf", w "aspect"); (w "nakc", w "accentability");
   (w "akc", w "accentability"); (w "praep", w "post-prepositionality"); (w "npraep", w "post-prepositionality");
   (w "ger", w "tense"); (w "imps", w "tense"); (w "inf", w "tense"); (w "fin", w "tense"); (w "bedzie", w "tense");
   (w "praet", w "tense"); (w "refl", w "tense"); (w "pact", w "tense"); (w "pant", w "tense");
   (w "pcon", w "tense"); (w "ppas", w "tense"); (w "impt", w "mode"); (w "pot", w "mode");
   (w "indecl", w "uninflected"); (w "irreg", w "irregularity"); (w "pun", w "fullstoppedness");
   (w "npun", w "fullstoppedness"); (w "wok", w "vocalicity"); (w "nwok", w "vocalicity");
   (w "agl", w "agglutination"); (w "nagl", w "agglutination"); (w "congr", w "accommodability");
   (w "rec", w "accommodability"); (w "_", w "unknown")].
Definition SFST_TAGS : list (word * word) :=
  [(w "adj", w "pos"); (w "adjp", w "pos"); (w "adv", w "pos"); (w "conj", w "pos"); (w "ign", w "pos");
   (w "indecl", w "pos"); (w "num", w "pos"); (w "pact", w "pos"); (w "pant", w "pos"); (w "pcon", w "pos");
   (w "ppas", w "pos"); (w "ppron12", w "pos"); (w "ppron3", w "pos"); (w "pred", w "pos"); (w "prep", w "pos");
   (w "siebie", w "pos"); (w "subst", w "pos"); (w "verb", w "pos"); (w "sg", w "number"); (w "pl", w "number");
   (w "nom", w "case"); (w "gen", w "case"); (w "acc", w "case"); (w "dat", w "case"); (w "inst", w "case");
   (w "loc", w "case"); (w "voc", w "case"); (w "pos", w "degree"); (w "comp", w "degree"); (w "sup", w "degree");
   (w "m", w "gender"); (w "m1", w "gender"); (w "m2", w "gender"); (w "m3", w "gender"); (w "m4", w "gender");
   (w "n", w "gender"); (w "f", w "gender"); (w "pri", w "person"); (w "sec", w "person"); (w "ter", w "person");
   (w "depr", w "depreciativity"); (w "aff", w "negation"); (w "neg", w "negation"); (w "perf", w "aspect");
   (w "imperf", w "aspect"); (w "?perf", w "aspect"); (w "nakc", w "accentability"); (w "akc", w "accentability");
   (w "praep", w "post-prepositionality"); (w "npraep", w "post-prepositionality"); (w "ger", w "tense");
   (w "imps", w "tense"); (w "inf", w "tense"); (w "fin", w "tense"); (w "bedzie", w "tense");
   (w "praet", w "tense"); (w "refl", w "tense"); (w "impt", w "mode"); (w "pot", w "mode");
   (w "indecl", w "uninflected"); (w "qub", w "uninflected"); (w "irreg", w "irregularity")].

(** TAGS_ALLOWED_AS_POS and POS_GENERALIZATIONS, lines 106-118. *)
Definition ALLOWED_AS_POS : list word := [w "pos"; w "depreciativity"; w "tense"; w "mode"].
Definition GENERALIZATIONS : list (word * word) :=
  [(w "pact", w "verb"); (w "pant", w "verb"); (w "pcon", w "verb"); (w "ppas", w "verb")].

Section Parser.
(** The table of tags, those allowed as the part of speech (only "pos" for sfst), the
    generalizations (none for sfst), and whether the removal of attributes counts (not for
    sfst). *)
Variable table : list (word * word).
Variable allowed : list word.
Variable general : list (word * word).
Variable counted : bool.

(** getAttributeToSeek_, lines 291-301: the part before the first dot. *)
Fixpoint head (s : word) : word :=
  match s with
  | [] => []
  | c :: s' => if is_dot c then [] else c :: head s'
  end.
(** parseSimple, lines 226-249: the description and the counter. *)
Definition parse_simple (tag : word) : feature_map * nat :=
  fold_left (fun (acc : feature_map * nat) (a : word) =>
      let '(m, n) := acc in
      (match look_up (head a) table with Some k => insert k a m | None => m end, if has_dot a then S n else n))
    (split_any is_colon tag) ([], 0).

(** getLengthOfFirstComplexAttribute_, lines 303-317. *)
Definition count_dots (s : word) : nat := length (filter is_dot s).
Fixpoint first_length (m : feature_map) : nat :=
  match m with
  | [] => 0
  | (_, v) :: m' => if has_dot v then count_dots v + 1 else first_length m'
  end.
(** The loop of expandSingleDescription_, lines 202-222; [first] is firstComplexAttribute. *)
Fixpoint put_each (k : word) (vs : list word) (result : list feature_map) : list feature_map :=
  match vs, result with
  | v :: vs', m :: result' => insert k v m :: put_each k vs' result'
  | _, _ => result
  end.
Fixpoint expand_loop (m : feature_map) (first : bool) (result : list feature_map) : list feature_map :=
  match m with
  | [] => result
  | (k, v) :: m' =>
      if first && has_dot v then expand_loop m' false (put_each k (split_any is_dot v) result)
      else expand_loop m' first (map (insert k v) result)
  end.
(** expandSingleDescription_, lines 190-224. *)
Definition expand_single (m : feature_map) : list feature_map := expand_loop m true (repeat [] (first_length m)).
(** expandDescriptions_, lines 169-188. *)
Fixpoint expand (n : nat) (ms : list feature_map) : list feature_map :=
  match n with
  | 0 => ms
  | S n' => expand n' (flat_map expand_single ms)
  end.
(** Lines 132-137 and 161-166. *)
Definition expand_all (m : feature_map) (n : nat) : list feature_map :=
  if n =? 0 then [m] else expand n [m].

(** parse, lines 154-167. *)
Definition parse (tag : word) : list feature_map := let '(m, n) := parse_simple tag in expand_all m n.

(** removeLexemeAttributes_, lines 140-152; for sfst lines 101-112.  The counter is an int. *)
Definition remove_lexeme (acc : feature_map * Z) : feature_map * Z :=
  let pos := at_key (w "pos") (fst acc) in
  let '(m, n) :=
    fold_left (fun (acc : feature_map * Z) (k : word) =>
        let '(m, n) := acc in
        (erase k m, if counted && has_dot (at_key k m) then (n - 1)%Z else n))
      (lexeme_keys pos) acc in
  (erase (w "pos") m, n).
(** getFormAttributes, lines 120-138; for a negative counter expandDescriptions_ would do nothing. *)
Definition form_attributes (tag : word) : list feature_map :=
  let '(m, n) := parse_simple tag in
  let '(m', n') := remove_lexeme (m, Z.of_nat n) in
  expand_all m' (Z.to_nat n').

(** getPartOfSpeechTag_, lines 274-289. *)
Fixpoint select_pos (ks : list word) (m : feature_map) : word :=
  match ks with
  | [] => []
  | k :: ks' => match at_key k m with [] => select_pos ks' m | v => v end
  end.
Definition part_of_speech (m : feature_map) : word :=
  let p := select_pos allowed m in
  match look_up p general with Some g => g | None => p end.
(** std::replace *)
Definition dashes (s : word) : word := map (fun c => if is_dot c then MINUS else c) s.
(** getLexemeAttributes, lines 251-272. *)
Definition lexeme_attributes (tag : word) : feature_map :=
  let m := fst (parse_simple tag) in
  let pos := part_of_speech m in
  fold_left (fun r k => insert k (dashes (at_key k m)) r) (lexeme_keys pos) [(w "pos", pos)].

(** * The levels (morfologik.cpp) *)

(** std::multimap::insert, line 344: behind those with the same key. *)
Fixpoint multi_insert (k : word) (v : list word) (m : list (word * list word)) : list (word * list word) :=
  match m with
  | [] => [(k, v)]
  | (k', v') :: m' => if str_ltb k k' then (k, v) :: m else (k', v') :: multi_insert k v m'
  end.
(** stem, lines 320-350, given the answers of the library: stems with their tags between "+", "," and "|". *)
Definition is_tag_separator (c : Z) : bool := (c =? 43)%Z || (c =? 44)%Z || (c =? 124)%Z.
Definition stems_of (answers : list (word * word)) : list (word * list word) :=
  fold_left (fun m a => multi_insert (fst a) (split_any is_tag_separator (snd a)) m) answers [].
(** getLemmasFromStems_, lines 192-203: a set, in the order of the multimap. *)
Fixpoint distinct (l : list word) : list word :=
  match l with
  | a :: (b :: _) as r => if word_eqb a b then distinct r else a :: distinct r
  | _ => l
  end.
(** createLexemeAnnotation_, lines 224-240. *)
Definition lexeme_event (lemma tag : word) : event :=
  let attrs := lexeme_attributes tag in
  let pos := at_key (w "pos") attrs in
  ELexeme pos (lemma ++ [PLUS] ++ pos) (erase (w "pos") attrs).
(** createFormAnnotation_, lines 285-295: the values of the lexeme, and on top those of the form. *)
Definition form_event (word_ : word) (tag : word) (form : feature_map) : event :=
  let attrs := lexeme_attributes tag in
  EForm (at_key (w "pos") attrs) word_
    (fold_left (fun r e => alter (fst e) [] (fun _ => snd e) r) form (erase (w "pos") attrs)).
(** stemsOnFormLevel_, lines 242-283, for one lemma.  The vector of tags is never empty. *)
Definition entry_events (word_ lemma : word) (tags : list word) : list event :=
  match tags with
  | [] => []
  | tag :: _ => lexeme_event lemma tag :: flat_map (fun t => map (form_event word_ tag) (form_attributes t)) tags
  end.
Definition of_lemma (lemma : word) (m : list (word * list word)) : list (list word) :=
  map snd (filter (fun e : word * list word => word_eqb (fst e) lemma) m).
(** Lines 94-114: what is given out on level 3, and the levels 1 (lines 144-164) and 2 (lines 166-190). *)
Definition all_events (word_ : word) (per_lemma : word -> list event) (lemmas : list word) : list event :=
  match lemmas with
  | [] => []
  | _ => ENorm word_ :: flat_map (fun l => ELemma l :: per_lemma l) lemmas
  end.
Definition morfologik (level : nat) (word_ : word) (answers : list (word * word)) : bool * list event :=
  let m := stems_of answers in
  let lemmas := distinct (map fst m) in
  let evs :=
    match level with
    | 0 => []
    | 1 => all_events word_ (fun _ => []) (distinct (rev (map fst answers)))
    | 2 => all_events word_ (fun l => map (lexeme_event l) (rev (map (hd []) (of_lemma l m)))) lemmas
    | _ => all_events word_ (fun l => flat_map (entry_events word_ l) (of_lemma l m)) lemmas
    end in
  (match evs with [] => false | _ => true end, evs).
End Parser.

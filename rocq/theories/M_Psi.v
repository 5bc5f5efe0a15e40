(** Model of one line of the PSI format: formats/psi/psi_writer/psi_lattice_writer.cpp (W),
    common/aligning_writer_worker.cpp (A), formats/psi/psi_reader/psi_lattice_reader.hpp (G)
    and psi_lattice_reader.cpp (R).
    A std::string is a list of bytes ([ascii]).  A score (a double) is of a type [Sc];
    [show] is operator<< and [scan] is qi::double_ (the number and the rest).
    A Boost.Spirit parser gives the attribute and the rest, or [None].  What an optional
    part that fails has put into a container stays there; only the parts of the grammars
    that can fail in this way show it.  The lattice is not modelled here: an edge is the
    data the writer asks the lattice for. *)
From Coq Require Import String Ascii List NArith ZArith Bool Arith.
From Verif Require Import M_Quoter.
From Verif Require M_Utf8.
Import ListNotations.
Local Open Scope char_scope.
Local Open Scope nat_scope.

Definition lit (s : string) : str := list_ascii_of_string s.
(** "∅" in UTF-8. *)
Definition NONE : str := ["226"; "136"; "133"].
(** PsiQuoter: UTTLikeQuoter("#"). *)
Definition quote (s : str) : str := escape ["#"] s.
Definition unquote (s : str) : option str := unescape ["#"] s.
Definition bytes (s : str) : list Z := map (fun c => Z.of_N (N_of_ascii c)) s.

(** * Numbers *)
Definition digit (n : N) : ascii := ascii_of_N (48 + n).
Fixpoint digits (fuel : nat) (n : N) : str :=
  match fuel with
  | O => []
  | S f => (if N.ltb n 10 then [] else digits f (N.div n 10)) ++ [digit (N.modulo n 10)]
  end.
(** operator<< of a non-negative int. *)
Definition decimal (n : N) : str := digits (S (N.size_nat n)) n.
(** The same with setfill('0') and setw. *)
Definition decimal_wide (w : nat) (n : N) : str := let d := decimal n in repeat "0" (w - List.length d) ++ d.

(** * The writer *)
Inductive vertex := At (p : N) | Free (k : N).
Section Scores.
Context {Sc : Type}.
Variable same_score : Sc -> Sc -> bool.
Variable zero : Sc.
Variable show : Sc -> str.
Variable scan : str -> option (Sc * str).

(** An edge of a partition: the number it has got (if it has one), the role as a string
    ([None]: NULL) and whether it is hidden. *)
Record link := Link { l_number : option N; l_role : option str; l_hidden : bool }.
Record part := Part { pt_links : list link; pt_tags : list str; pt_score : Sc }.
Record edge := Edge {
  ordinal : N; source : vertex; target : vertex; edge_length : N;
  (** the text of the item of an edge with a loose end, else the text of the edge *)
  edge_text : str;
  whole : bool (** writeWholeText *);
  tag_names : list str; item_text : str; category : str; score : Sc; values : list (str * str);
  parts : list part
}.

Definition join (sep : str) (l : list str) : str :=
  match l with [] => [] | x :: r => x ++ concat (map (fun y => sep ++ y) r) end.
(** W lines 191-200. *)
Definition beginning_cell (e : edge) : str :=
  match source e with Free k => "@" :: decimal k | At p => decimal_wide 4 p end.
(** W lines 202-214. *)
Definition length_cell (e : edge) : str :=
  match target e with
  | Free k => lit "*@" ++ decimal k
  | At q => match source e with Free _ => "*" :: decimal_wide 4 q | At _ => decimal_wide 2 (edge_length e) end
  end.
(** utf8::unchecked::advance and three times utf8::unchecked::prior: the bytes of the
    first [n] and of the last [n] characters (the text is known to be valid). *)
Fixpoint first_chars (n : nat) (s : list Z) : nat :=
  match n with
  | O => O
  | S n' => match M_Utf8.unchecked_next s with
            | Some (_, r) => (List.length s - List.length r) + first_chars n' r
            | None => O
            end
  end.
Fixpoint last_chars (n : nat) (s : list Z) : nat :=
  match n with
  | O => O
  | S n' => match M_Utf8.unchecked_prior s with
            | Some (_, r) => (List.length s - List.length r) + last_chars n' r
            | None => O
            end
  end.
(** W lines 218-265: the text; [None]: utf8::distance throws.  Column 3 has the width 13. *)
Definition text_cell (e : edge) : option str :=
  let t := quote (edge_text e) in
  match M_Utf8.distance (bytes t) with
  | None => None
  | Some n =>
      Some (if n =? 0 then NONE
            else if (13 <? n) && negb (whole e) then
              firstn (first_chars 6 (bytes t)) t ++ lit "..." ++ skipn (List.length t - last_chars 3 (bytes t)) t
            else t)
  end.
(** W lines 267-278. *)
Definition tags_cell (e : edge) : str := quote (join [","] (tag_names e)).
(** W lines 315-383: a partition. *)
Definition link_text (l : link) : str :=
  match l_number l with
  | None => []
  | Some n => decimal n ++ match l_role l with None => [] | Some r => "$" :: quote r ++ ["$"] end
  end.
Definition names_eqb (a b : list str) : bool := if list_eq_dec (list_eq_dec ascii_dec) a b then true else false.
Definition part_text (e : edge) (p : part) : str :=
  join ["-"] (map link_text (pt_links p)) ++
  (if names_eqb (pt_tags p) (tag_names e) then [] else "(" :: join [","] (pt_tags p) ++ [")"]) ++
  (if same_score (pt_score p) (score e) then [] else "<" :: show (pt_score p) ++ [">"]).
(** W lines 307-310, 324-339: isDefaultPartition. *)
Definition default_after (d : bool) (p : part) : bool :=
  match pt_links p with
  | [] => d
  | l :: ls => fold_left (fun d l => if l_hidden l then d else false) ls (if l_hidden l then true else d)
  end.
Definition is_default (e : edge) : bool :=
  fold_left default_after (parts e) (names_eqb (tag_names e) [lit "symbol"]).
(** W lines 286-305, 384-388. *)
Definition values_text (l : list (str * str)) : str := concat (map (fun av => "," :: fst av ++ "=" :: snd av) l).
Definition annotation_cell (e : edge) : str :=
  quote (category e) ++
  (if same_score (score e) zero then [] else "<" :: show (score e) ++ [">"]) ++
  quote (values_text (values e)) ++
  (if is_default e then [] else "[" :: join [","] (map (part_text e) (parts e)) ++ ["]"]).
Definition cells (e : edge) : option (list str) :=
  match text_cell e with
  | None => None
  | Some t => Some [decimal_wide 2 (ordinal e); beginning_cell e; length_cell e; t; tags_cell e; quote (item_text e); annotation_cell e]
  end.
(** W line 61. *)
Definition ALIGNMENTS : list nat := [2; 7; 13; 26; 48; 60].
(** A lines 27-36, 56-77: all cells but the last one are filled up to the alignment;
    [pos] is currentPos_. *)
Fixpoint row (pos : nat) (als : list nat) (cs : list str) : option str :=
  match cs with
  | [] => Some []
  | [c] => match M_Utf8.distance (bytes c) with Some _ => Some c | None => None end
  | c :: cs' =>
      match M_Utf8.distance (bytes c) with
      | None => None
      | Some n =>
          let fill := hd 0 als - (pos + n) in
          option_map (fun r => c ++ repeat " " fill ++ " " :: r) (row (pos + n + fill + 1) (tl als) cs')
      end
  end.
(** The line without its end. *)
Definition write (e : edge) : option str :=
  match cells e with Some cs => row 0 ALIGNMENTS cs | None => None end.

(** * The reader *)
(** G: the parsers the grammars are made of. *)
Definition parser (A : Type) : Type := str -> option (A * str).
Fixpoint span (f : ascii -> bool) (s : str) : str * str :=
  match s with
  | c :: s' => if f c then let '(a, r) := span f s' in (c :: a, r) else ([], s)
  | [] => ([], [])
  end.
(** +(qi::char_ - ...): [l] are the characters that are left out. *)
Definition other (l : list ascii) (c : ascii) : bool := negb (existsb (Ascii.eqb c) l).
Definition plus (l : list ascii) : parser str :=
  fun s => match span (other l) s with ([], _) => None | (a, r) => Some (a, r) end.
(** std::isspace in the C locale. *)
Definition is_space (c : ascii) : bool := let n := nat_of_ascii c in ((9 <=? n) && (n <=? 13)) || (n =? 32).
Definition whitespaces : parser unit :=
  fun s => match span is_space s with ([], _) => None | (_, r) => Some (tt, r) end.
Definition char_ (c : ascii) : parser unit :=
  fun s => match s with d :: r => if Ascii.eqb d c then Some (tt, r) else None | [] => None end.
Definition is_digit (c : ascii) : bool := let n := nat_of_ascii c in (48 <=? n) && (n <=? 57).
Definition number (s : str) : Z := fold_left (fun a c => 10 * a + (Z.of_nat (nat_of_ascii c) - 48))%Z s 0%Z.
(** qi::int_: a sign, digits; a number that is no int is a failure. *)
Definition int_ : parser Z :=
  fun s =>
    let '(neg, s1) := match s with
                      | c :: r => if Ascii.eqb c "-" then (true, r) else if Ascii.eqb c "+" then (false, r) else (false, s)
                      | [] => (false, s)
                      end in
    match span is_digit s1 with
    | ([], _) => None
    | (ds, r) =>
        let v := (if neg : bool then - number ds else number ds)%Z in
        if ((- 2 ^ 31 <=? v) && (v <? 2 ^ 31))%Z then Some (v, r) else None
    end.
(** -lit(c), with a flag. *)
Definition flag (c : ascii) : parser bool :=
  fun s => match char_ c s with Some (_, r) => Some (true, r) | None => Some (false, s) end.
Notation "'get' x <- p ; s => f" := (match p s with Some (x, s) => f | None => None end)
  (at level 200, x pattern, p at level 100, s name, f at level 200).
(** a % sep: [n] rounds are enough if n is at least the length. *)
Fixpoint more {A} (n : nat) (sep : ascii) (p : parser A) (s : str) : list A * str :=
  match n with
  | O => ([], s)
  | S n' =>
      match char_ sep s with
      | Some (_, s1) => match p s1 with Some (x, s2) => let '(l, r) := more n' sep p s2 in (x :: l, r) | None => ([], s) end
      | None => ([], s)
      end
  end.
Definition list_of {A} (sep : ascii) (p : parser A) : parser (list A) :=
  fun s => match p s with Some (x, s1) => let '(l, r) := more (List.length s1) sep p s1 in Some (x :: l, r) | None => None end.

(** G lines 51-108: PsiLRAnnotation and PsiLRItem. *)
Record annotation := Annotation { an_category : str; an_score : Sc; an_values : str; an_parts : str }.
Record item := Item {
  i_ordinal : Z; i_loose : bool; i_beginning : Z; i_point : bool; i_length_loose : bool; i_length : Z;
  i_text : str; i_tags : list str; i_item_text : str; i_annotation : annotation
}.
(** G lines 154-156. *)
Definition score_ : parser Sc :=
  fun s => match (get _ <- char_ "<"; s => get x <- scan; s => get _ <- char_ ">"; s => Some (x, s)) with
           | Some x => Some x
           | None => Some (zero, s)
           end.
(** G lines 148-152. *)
Definition values_ : parser str :=
  fun s => match (get _ <- char_ ","; s => plus ["["] s) with Some x => Some x | None => Some ([], s) end.
Definition parts_ : parser str :=
  fun s => match char_ "[" s with
           | Some (_, s1) =>
               let '(a, s2) := span (other ["]"]) s1 in
               match char_ "]" s2 with
               | Some (_, s3) => Some ("[" :: a ++ ["]"], s3)
               | None => Some ("[" :: a, s)
               end
           | None => Some ([], s)
           end.
Definition annotation_ : parser annotation :=
  fun s => get c <- plus [" "; ","; "["; "<"]; s => get x <- score_; s => get v <- values_; s => get p <- parts_; s =>
           Some (Annotation c x v p, s).
(** G lines 118-146: the text of the item may be missing. *)
Definition item_text_ : parser str :=
  fun s => match plus [" "] s with
           | Some (a, s1) => match whitespaces s1 with Some (_, s2) => Some (a, s2) | None => Some (a, s) end
           | None => Some ([], s)
           end.
Definition line_ : parser item :=
  fun s =>
    get o <- int_; s => get _ <- whitespaces; s =>
    get bl <- flag "@"; s => get b <- int_; s => get _ <- whitespaces; s =>
    get lp <- flag "*"; s => get ll <- flag "@"; s => get l <- int_; s => get _ <- whitespaces; s =>
    get t <- plus [" "]; s => get _ <- whitespaces; s =>
    get tg <- list_of "," (plus [" "; ","]); s => get _ <- whitespaces; s =>
    get it <- item_text_; s => get an <- annotation_; s =>
    Some (Item o bl b lp ll l t tg it an, s).
(** G lines 32-49: StringSequenceGrammar, the number of the words. *)
Fixpoint more_words (n : nat) (s : str) : nat :=
  match n with
  | O => O
  | S n' =>
      match whitespaces s with
      | Some (_, s1) => match plus [" "] s1 with Some (_, s2) => S (more_words n' s2) | None => O end
      | None => O
      end
  end.
Definition words (s : str) : option nat :=
  match plus [" "] s with Some (_, s1) => Some (S (more_words (List.length s1) s1)) | None => None end.

(** G lines 171-185 and 201-217: the attributes and values. *)
Definition pair_ : parser (str * str) :=
  fun s => get a <- plus [","; "="]; s => get _ <- char_ "="; s => get v <- plus [","; "="]; s => Some ((a, v), s).
Definition read_values (s : str) : list (str * str) :=
  match list_of "," (plus [","]) s with
  | Some (avs, _) => flat_map (fun av => match pair_ av with Some (x, _) => [x] | None => [] end) avs
  | None => []
  end.
(** G lines 220-248: the partitions. *)
Definition enclosed (a b : ascii) (s : str) : str * str :=
  match (get _ <- char_ a; s => get x <- plus [b]; s => get _ <- char_ b; s => Some (a :: x ++ [b], s)) with
  | Some x => x
  | None => ([], s)
  end.
Definition partition_ : parser str :=
  fun s => get a <- plus ["("; "<"; "]"; ","]; s =>
           let '(b, s1) := enclosed "(" ")" s in
           let '(c, s2) := enclosed "<" ">" s1 in Some (a ++ b ++ c, s2).
Definition partitions_ : parser (list str) :=
  fun s => get _ <- char_ "["; s => get l <- list_of "," partition_; s => get _ <- char_ "]"; s => Some (l, s).
(** G lines 282-311: a partition. *)
Definition edge_number : parser Z :=
  fun s => match int_ s with Some x => Some x | None => Some (0%Z, s) end.
Definition role : parser str :=
  fun s => match char_ "$" s with
           | Some (_, s1) =>
               let '(v, s2) := span (other ["$"]) s1 in
               match v, char_ "$" s2 with
               | _ :: _, Some (_, s3) => Some (v, s3)
               | _, _ => Some (v, s)
               end
           | None => Some ([], s)
           end.
Definition edge_ : parser (Z * str) := fun s => get n <- edge_number; s => get r <- role; s => Some ((n, r), s).
Definition part_tags : parser (list str) :=
  fun s => match char_ "(" s with
           | Some (_, s1) =>
               match list_of "," (plus [")"; " "; ","]) s1 with
               | Some (l, s2) => match char_ ")" s2 with Some (_, s3) => Some (l, s3) | None => Some (l, s) end
               | None => Some ([], s)
               end
           | None => Some ([], s)
           end.
Definition part_score : parser (option Sc) :=
  fun s => match (get _ <- char_ "<"; s => get x <- scan; s => get _ <- char_ ">"; s => Some (Some x, s)) with
           | Some x => Some x
           | None => Some (None, s)
           end.
Definition part_ : parser (list (Z * str) * list str * option Sc) :=
  fun s => get l <- list_of "-" edge_; s => get t <- part_tags; s => get x <- part_score; s => Some ((l, t, x), s).

(** What the reader makes of a line (R lines 52-303): the numbers and roles of the edges of a
    partition, its tags and its score; [from_symbols]: the edge is over symbols. *)
Record read_part := ReadPart { rp_edges : list (Z * str); rp_tags : list str; rp_score : Sc }.
Inductive content := from_symbols | of_parts (l : list read_part).
Record line := Line {
  n_ordinal : Z; n_loose : bool; n_beginning : Z; n_point : bool; n_length_loose : bool; n_length : Z;
  n_text : str; n_tags : list str; n_item_text : str; n_category : str; n_score : Sc;
  n_values : list (str * str); n_content : content
}.
(** R lines 210-301. *)
Definition read_one_part (tg : list str) (sc : Sc) (s : str) : read_part :=
  match part_ s with
  | Some ((l, t, x), _) =>
      ReadPart l (match t with [] => tg | _ => t end) (match x with Some x => x | None => sc end)
  | None => ReadPart [] tg sc
  end.
Definition read_content (tg : list str) (sc : Sc) (s : str) : content :=
  match s with
  | [] => from_symbols
  | _ => match partitions_ s with
         | Some (l, _) => of_parts (map (read_one_part tg sc) l)
         | None => of_parts [ReadPart [] tg sc]
         end
  end.
Inductive outcome := Skipped | SyntaxError | WrongEscape | Got (l : line).
(** R lines 54-60: boost::trim_copy(line).empty() or a comment. *)
Definition skipped (s : str) : bool :=
  match snd (span is_space s) with [] => true | c :: _ => Ascii.eqb c "#" end.
(** R lines 61-82, 179-203; PsiLRItem::unescape (G lines 84-91) leaves the tags as they are,
    because it changes copies of them. *)
Definition read (s : str) : outcome :=
  if skipped s then Skipped
  else match line_ s with
       | None => SyntaxError
       | Some (i, _) =>
           let it := match words s with Some 7 => i_item_text i | Some _ => [] | None => i_item_text i end in
           let an := i_annotation i in
           match unquote (i_text i), unquote it, unquote (an_category an), unquote (an_values an), unquote (an_parts an) with
           | Some t, Some it, Some c, Some v, Some p =>
               Got (Line (i_ordinal i) (i_loose i) (i_beginning i) (i_point i) (i_length_loose i) (i_length i)
                      t (i_tags i) it c (an_score an) (read_values v) (read_content (i_tags i) (an_score an) p))
           | _, _, _, _, _ => WrongEscape
           end
       end.
End Scores.
Arguments edge : clear implicits.
Arguments part : clear implicits.
Arguments line : clear implicits.
Arguments outcome : clear implicits.
Arguments annotation : clear implicits.
Arguments item : clear implicits.
Arguments read_part : clear implicits.
Arguments content : clear implicits.

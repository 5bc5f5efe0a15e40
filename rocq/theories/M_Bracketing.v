(** Model of the bracketing writer: formats/bracketing/bracketing-writer/bracketing_quoter.cpp
    lines 8-45, edge_data.hpp, edge_print_data.hpp, bracket_printer.hpp lines 84-270,
    bracketing_lattice_writer.cpp lines 134-174 and 218-247, bracketing_lattice_writer.hpp
    lines 112-243 (without the branch for --disambig).
    A std::string is a list of bytes, a std::set or std::map of strings a list in the order of keys.
    Scores are of any type; [show] is operator<< of the stream, [zero] is 0.0.
    [None]: no end within [fuel], a throw, or an access to an empty boost::optional.
    The container of --no-collapse is std::vector, a list here; of std::set (without --no-collapse)
    only the order of its elements is modelled.  Left out: print_ counts the characters of what
    it puts out (and throws if that is not UTF-8). *)
From Coq Require Import String Ascii List ZArith NArith Bool Arith.
From Verif Require Import M_Quoter M_Cutter.
Import ListNotations.
Local Open Scope nat_scope.
Local Open Scope char_scope.

(** bracketing_quoter.cpp lines 8-20. *)
Definition quote_char (c : ascii) : str :=
  if c =? ch_nl then [ch_bs; "n"] else if c =? ch_tab then [ch_bs; "t"] else if c =? ch_cr then [ch_bs; "r"]
  else if c =? ch_bs then [ch_bs; ch_bs] else [c].
Definition quote (s : str) : str := flat_map quote_char s.
(** bracketing_quoter.cpp lines 23-45: an unknown escape is nothing. *)
Definition unquote_char (c : ascii) : str :=
  if c =? "n" then [ch_nl] else if c =? "t" then [ch_tab] else if c =? "r" then [ch_cr] else if c =? ch_bs then [ch_bs] else [].
Fixpoint unquote (s : str) : option str :=
  match s with
  | [] => Some []
  | c :: s' =>
      if c =? ch_bs then
        match s' with [] => None | d :: s'' => option_map (fun t => unquote_char d ++ t) (unquote s'') end
      else option_map (cons c) (unquote s')
  end.

(** std::string's operator< and std::map<std::string, std::string>. *)
Fixpoint str_less (a b : str) : bool :=
  match a, b with
  | _, [] => false
  | [], _ :: _ => true
  | x :: a', y :: b' => (N_of_ascii x <? N_of_ascii y)%N || ((x =? y) && str_less a' b')
  end.
Fixpoint str_same (a b : str) : bool :=
  match a, b with [], [] => true | x :: a', y :: b' => (x =? y) && str_same a' b' | _, _ => false end.
Definition str_empty (s : str) : bool := match s with [] => true | _ => false end.
Definition av_map := list (str * str).
Fixpoint av_get (m : av_map) (k : str) : option str :=
  match m with [] => None | (x, v) :: m' => if str_same x k then Some v else av_get m' k end.
(** The value that operator[] gives, and the map that it leaves. *)
Definition av_value (m : av_map) (k : str) : str := match av_get m k with Some v => v | None => [] end.
Fixpoint av_insert (k v : str) (m : av_map) : av_map :=
  match m with
  | [] => [(k, v)]
  | (x, w) :: m' => if str_same x k then (x, v) :: m' else if str_less k x then (k, v) :: m else (x, w) :: av_insert k v m'
  end.
Definition av_touch (m : av_map) (k : str) : av_map := match av_get m k with Some _ => m | None => av_insert k [] m end.

(** bracketing_lattice_writer.cpp lines 134-140, 143-156, 159-173: without an option everything passes. *)
Definition some_in_filter (filter : list str) (tags : list str) : bool :=
  match filter with [] => true | _ => existsb (fun t => existsb (str_same t) filter) tags end.
Definition only_tags (only tags : list str) : list str :=
  match only with [] => tags | _ => List.filter (fun t => existsb (str_same t) tags) only end.
Definition only_attributes (only : list str) (m : av_map) : av_map :=
  match only with [] => m | _ => List.filter (fun p => existsb (str_same (fst p)) only) m end.
(** bracketing_lattice_writer.cpp lines 227-247: shouldBeSkipped_. *)
Definition SYMBOL : str := ["s"; "y"; "m"; "b"; "o"; "l"].
Definition skipped (discarded blank : bool) (tags : list str) (show_symbols skip_blank : bool) (filter : list str) : bool :=
  discarded || (skip_blank && blank) ||
  (match tags with [t] => str_same t SYMBOL && negb show_symbols | _ => false end) || negb (some_in_filter filter tags).

Section Score.
Variable score : Type.
Variable edge : Type.
(** edge_data.hpp lines 15-26. *)
Record edge_data := {
  source : option edge; parent : option edge; tags : list str; category : str; text : str; avs : av_map; points : score; role : str;
  begin : option nat; end_ : option nat }.
(** edge_data.hpp lines 57-82: an end at a loose vertex is that of the parent; if there is
    none, both ends (the beginning only if it failed) stay empty.  [at_begin], [at_end]: getEdgeBeginIndex, getEdgeEndIndex. *)
Definition ends (at_begin at_end : edge -> option nat) (e : edge) (up : option edge) : option nat * option nat :=
  let above f := match up with Some p => f p | None => None end in
  match (match at_begin e with Some b => Some b | None => above at_begin end) with
  | None => (None, None)
  | Some b => (Some b, match at_end e with Some n => Some n | None => above at_end end)
  end.

Variable show : score -> str.
Variable zero : score.
Variable same : score -> score -> bool.
Variable score_less : score -> score -> bool.
Variable tag_separator pair_separator av_separator : str.

(** Lists and pairs, as std::set and std::map compare them. *)
Section Lists.
Context {A : Type} (less eq : A -> A -> bool).
Fixpoint list_less (a b : list A) : bool :=
  match a, b with _, [] => false | [], _ :: _ => true | x :: a', y :: b' => less x y || (negb (less y x) && list_less a' b') end.
End Lists.
Definition pair_less (a b : str * str) : bool := str_less (fst a) (fst b) || (negb (str_less (fst b) (fst a)) && str_less (snd a) (snd b)).
Definition place_less (a b : option nat) : bool :=
  match a, b with _, None => false | None, Some _ => true | Some x, Some y => (x <? y)%nat end.
(** edge_data.hpp lines 84-93: operator<. *)
Definition data_less (a b : edge_data) : bool :=
  str_less (category a) (category b) || str_less (text a) (text b) || score_less (points a) (points b) ||
  list_less str_less (tags a) (tags b) || list_less pair_less (avs a) (avs b) || str_less (role a) (role b) ||
  place_less (begin a) (begin b) || place_less (end_ a) (end_ b).

(** bracket_printer.hpp lines 68-80. *)
Definition close (c : ascii) : ascii :=
  if c =? "(" then ")" else if c =? ")" then "(" else if c =? "[" then "]" else if c =? "]" then "["
  else if c =? "{" then "}" else if c =? "}" then "{" else if c =? "<" then ">" else if c =? ">" then "<" else c.
(** std::string::find of a byte, std::string::operator[], substr. *)
Fixpoint find_in (c : ascii) (s : str) : option nat :=
  match s with [] => None | x :: s' => if x =? c then Some 0 else option_map S (find_in c s') end.
Definition find_from (c : ascii) (p : str) (from : nat) : option nat := option_map (Nat.add from) (find_in c (skipn from p)).
Definition char_at (p : str) (i : nat) : ascii := nth i p "000".
Definition sub_str (p : str) (from to : nat) : str := firstn (to - from) (skipn from p).

(** The joining of lines 101-106, 152-157 and 249-255: a separator is put out if something is there already. *)
Definition joined (sep : str) (xs : list str) : str :=
  fold_left (fun s x => s ++ (if str_empty s then [] else sep) ++ x) xs [].
Definition pair_text (p : str * str) : str := fst p ++ av_separator ++ snd p.

(** The variables of print_: edgeData.avMap, thisEdgeData (tags, category, text, attributes, score), separator, subpattern, resSs. *)
Record printing := {
  map_ : av_map; this_tags : list str; this_category : str; this_text : str; this_avs : av_map; this_points : score;
  separator : str; subpattern : str; out : str }.
Definition put (s : str) (st : printing) : printing :=
  {| map_ := map_ st; this_tags := this_tags st; this_category := this_category st; this_text := this_text st; this_avs := this_avs st;
     this_points := this_points st; separator := separator st; subpattern := subpattern st; out := out st ++ s |}.
Definition new_out (st : printing) : printing :=
  {| map_ := map_ st; this_tags := this_tags st; this_category := this_category st; this_text := this_text st; this_avs := this_avs st;
     this_points := this_points st; separator := separator st; subpattern := subpattern st; out := [] |}.
Definition fresh (e : edge_data) : printing :=
  {| map_ := avs e; this_tags := []; this_category := []; this_text := []; this_avs := []; this_points := zero; separator := []; subpattern := []; out := [] |}.
Definition with_tags (t : list str) (st : printing) : printing :=
  {| map_ := map_ st; this_tags := t; this_category := this_category st; this_text := this_text st; this_avs := this_avs st;
     this_points := this_points st; separator := separator st; subpattern := subpattern st; out := out st |}.
Definition with_category (c : str) (st : printing) : printing :=
  {| map_ := map_ st; this_tags := this_tags st; this_category := c; this_text := this_text st; this_avs := this_avs st;
     this_points := this_points st; separator := separator st; subpattern := subpattern st; out := out st |}.
Definition with_text (t : str) (st : printing) : printing :=
  {| map_ := map_ st; this_tags := this_tags st; this_category := this_category st; this_text := t; this_avs := this_avs st;
     this_points := this_points st; separator := separator st; subpattern := subpattern st; out := out st |}.
Definition with_points (p : score) (st : printing) : printing :=
  {| map_ := map_ st; this_tags := this_tags st; this_category := this_category st; this_text := this_text st; this_avs := this_avs st;
     this_points := p; separator := separator st; subpattern := subpattern st; out := out st |}.
Definition with_maps (m t : av_map) (st : printing) : printing :=
  {| map_ := m; this_tags := this_tags st; this_category := this_category st; this_text := this_text st; this_avs := t;
     this_points := this_points st; separator := separator st; subpattern := subpattern st; out := out st |}.
Definition with_sub (sep sub : str) (st : printing) : printing :=
  {| map_ := map_ st; this_tags := this_tags st; this_category := this_category st; this_text := this_text st; this_avs := this_avs st;
     this_points := this_points st; separator := sep; subpattern := sub; out := out st |}.
Definition STAR : str := ["%"; "*"; "*"; "*"; "*"; "*"].

(** bracket_printer.hpp lines 95-217: the while loop over a pattern. *)
Fixpoint scan (fuel : nat) (e : edge_data) (p : str) (i : nat) (st : printing) : option printing :=
  match fuel with
  | 0 => None
  | S f =>
    if (i <? length p)%nat then
      if (char_at p i =? "%") && (i + 1 <? length p)%nat then
        let d := char_at p (i + 1) in
        let literally := scan f e p (i + 2) (put ["%"; d] st) in
        if d =? "T" then scan f e p (i + 2) (with_tags (tags e) (put (joined tag_separator (tags e)) st))
        else if d =? "c" then scan f e p (i + 2) (with_category (category e) (put (category e) st))
        else if d =? "t" then scan f e p (i + 2) (with_text (text e) (put (text e) st))
        else if d =? "a" then
          if (i + 2 <? length p)%nat then
            let from := i + 3 in
            match find_from (close (char_at p (i + 2))) p from with
            | Some to =>
                let a := sub_str p from to in
                let m := av_touch (map_ st) a in
                scan f e p (to + 1) (with_maps m (av_insert a (av_value m a) (this_avs st)) (put (av_value m a) st))
            | None => literally
            end
          else literally
        else if d =? "A" then
          scan f e p (i + 2) (with_maps (map_ st) (map_ st) (put (joined pair_separator (List.map pair_text (map_ st))) st))
        else if d =? "s" then scan f e p (i + 2) (with_points (points e) (put (show (points e)) st))
        else if d =? "*" then
          if (i + 2 <? length p)%nat then
            let from := i + 3 in
            let o := char_at p (i + 2) in
            match find_from (close o) p from with
            | Some to =>
                if char_at p (to + 1) =? o then
                  match find_from (close o) p (to + 2) with
                  | Some to2 => scan f e p (to2 + 1) (with_sub (sub_str p from to) (sub_str p (to + 2) to2) (put STAR st))
                  | None => literally
                  end
                else literally
            | None =>
                (* to is npos: to + 1 is 0 and to + 2 is 1. *)
                if char_at p 0 =? o then
                  match find_from (close o) p 1 with
                  | Some to2 => scan f e p (to2 + 1) (with_sub (skipn from p) (sub_str p 1 to2) (put STAR st))
                  | None => literally
                  end
                else literally
            end
          else literally
        else if d =? "r" then scan f e p (i + 2) (put (role e) st)
        else scan f e p (i + 1) (put ["%"] st)
      else scan f e p (i + 1) (put [char_at p i] st)
    else Some st
  end.

(** Lines 94 and 218. *)
Fixpoint scan_all (fuel : nat) (e : edge_data) (ps : list str) (st : printing) : option (list str * printing) :=
  match ps with
  | [] => Some ([], st)
  | p :: ps' =>
      match scan fuel e p 0 (new_out st) with
      | None => None
      | Some st1 =>
          match scan_all fuel e ps' st1 with None => None | Some (r, st2) => Some (out st1 :: r, st2) end
      end
  end.

(** Lines 221-247: the edges that agree with what was printed; operator[] fills up their attributes. *)
Fixpoint av_agree (keys : av_map) (mine theirs : av_map) : option av_map :=
  match keys with
  | [] => Some theirs
  | (k, _) :: keys' =>
      let t := av_touch theirs k in
      if str_same (av_value t k) (av_value mine k) then av_agree keys' mine t else None
  end.
Definition with_avs (m : av_map) (e : edge_data) : edge_data :=
  {| source := source e; parent := parent e; tags := tags e; category := category e; text := text e; avs := m; points := points e; role := role e;
     begin := begin e; end_ := end_ e |}.
Fixpoint strs_same (a b : list str) : bool :=
  match a, b with [], [] => true | x :: a', y :: b' => str_same x y && strs_same a' b' | _, _ => false end.
Definition agreeing (st : printing) (e : edge_data) : list edge_data :=
  if negb (str_empty (this_category st)) && negb (str_same (category e) (this_category st)) then []
  else if negb (str_empty (this_text st)) && negb (str_same (text e) (this_text st)) then []
  else if negb (match this_tags st with [] => true | _ => false end) && negb (strs_same (tags e) (this_tags st)) then []
  else if negb (same (this_points st) zero) && negb (same (points e) (this_points st)) then []
  else match av_agree (this_avs st) (this_avs st) (avs e) with Some m => [with_avs m e] | None => [] end.

(** Lines 257-262: the first occurrence is replaced. *)
Fixpoint prefix_of (a b : str) : bool :=
  match a, b with [], _ => true | x :: a', y :: b' => (x =? y) && prefix_of a' b' | _ :: _, [] => false end.
Fixpoint replace_star (by_ s : str) : str :=
  match s with [] => [] | c :: s' => if prefix_of STAR s then by_ ++ skipn 6 s else c :: replace_star by_ s' end.

(** edge_print_data.hpp. *)
Record printed := { p_source : option edge; p_parent : option edge; elements : list str }.

(** bracket_printer.hpp lines 84-267: print_.  [depth] bounds the printers within printers. *)
Fixpoint print (depth fuel : nat) (ps : list str) (es : list edge_data) : option (list printed) :=
  match depth with
  | 0 => None
  | S d =>
    (fix each (l : list edge_data) : option (list printed) :=
      match l with
      | [] => Some []
      | e :: l' =>
        match scan_all fuel e ps (fresh e) with
        | None => None
        | Some (r, st) =>
          match (if str_empty (subpattern st) then Some r
                 else match print d fuel [subpattern st] (flat_map (agreeing st) es) with
                      | None => None
                      | Some sub => Some (List.map (replace_star (joined (separator st) (List.map (fun x => hd [] (elements x)) sub))) r)
                      end) with
          | None => None
          | Some r' =>
              match each l' with None => None | Some rest => Some ({| p_source := source e; p_parent := parent e; elements := r' |} :: rest) end
          end
        end
      end) es
  end.

(** bracketing_lattice_writer.hpp lines 201-212: edges of the same place are ordered; after a swap the loops go on with a = 0, b = 2. *)
Variable same_edge : edge -> edge -> bool.
Definition linked (x y : printed) : bool :=
  match p_source x, p_parent y with Some s, Some p => same_edge s p | _, _ => false end.
Definition set_at {A} (l : list A) (i : nat) (x : A) : list A := firstn i l ++ x :: skipn (S i) l.
Definition swap_at (l : list printed) (a b : nat) (x y : printed) : list printed := set_at (set_at l a y) b x.
Fixpoint order (fuel a b : nat) (v : list printed) : option (list printed) :=
  match fuel with
  | 0 => None
  | S f =>
    if (a <? length v)%nat then
      if (b <? length v)%nat then
        match nth_error v a, nth_error v b with
        | Some x, Some y => if linked x y then order f 0 2 (swap_at v a b x y) else order f a (b + 1) v
        | _, _ => None
        end
      else order f (a + 1) (a + 2) v
    else Some v
  end.

(** edgeStore, lines 136-139 and 184-192: the edges of a place.  [placed]: lines 189-191 do not look into an empty
    boost::optional nor beyond the end of the array. *)
Definition placed (n : nat) (e : edge_data) : bool :=
  match begin e, end_ e with Some b, Some t => (b <=? n)%nat && (t <=? n)%nat | _, _ => false end.
Definition at_place (i j : nat) (e : edge_data) : bool :=
  match begin e, end_ e with Some b, Some t => (b =? i)%nat && (t =? j)%nat | _, _ => false end.
(** Lines 196, 197, 222: the places where a symbol begins, and the end. *)
Fixpoint places (fuel : nat) (T : list Z) (i : nat) : list nat :=
  match fuel with 0 => [] | S f => if (i <? length T + 1)%nat then i :: places f T (i + symbol_length T i) else [] end.
End Score.

Arguments p_source {_}. Arguments p_parent {_}. Arguments elements {_}.

(** What is put out: an opening bracket, a closing bracket, or bytes of the text. *)
Inductive piece (X : Type) := Open (x : X) | Close (x : X) | Bytes (s : list Z).
Arguments Open {_}. Arguments Close {_}. Arguments Bytes {_}.
Section Output.
Context {X : Type}.
Variable T : list Z.
(** What is printed at a place, in order: printedBrackets[i][j] for i < j; printedBrackets[j][i] has the closing brackets. *)
Variable cell : nat -> nat -> list X.
Definition marks : list nat := places (length T + 1) T 0.
Definition is_mark (i : nat) : bool := existsb (Nat.eqb i) marks.
(** Lines 196-219: printedBrackets. *)
Definition bracket (i j : nat) : list (piece X) :=
  if negb (is_mark i && is_mark j) then []
  else if (i <? j)%nat then List.map Open (cell i j) else if (j <? i)%nat then List.map Close (rev (cell j i)) else [].
(** Lines 223-229: j runs down from i - 1, and from the end to i + 1 after 0. *)
Fixpoint around (n size i j : nat) : list nat :=
  match n with 0 => [] | S n' => if (j =? i)%nat then [] else j :: around n' size i ((j + size - 1) mod size) end.
Definition at_mark (i : nat) : list (piece X) :=
  let size := length T + 1 in
  flat_map (bracket i) (around size size i ((i + size - 1) mod size)) ++ [Bytes (firstn (symbol_length T i) (skipn i T))].
(** Lines 222-231. *)
Definition pieces : list (piece X) := flat_map at_mark marks.
End Output.

Section Run.
Variables score edge : Type.
Variable show : score -> str.
Variable zero : score.
Variable same : score -> score -> bool.
Variable same_edge : edge -> edge -> bool.
Variables tag_separator pair_separator av_separator opening closing : str.
(** Lines 198-212: the brackets of a place. *)
Definition place_brackets (depth fuel : nat) (es : list (edge_data score edge)) (i j : nat) : option (list (printed edge)) :=
  match print score edge show zero same tag_separator pair_separator av_separator depth fuel [opening; closing] (List.filter (at_place score edge i j) es) with
  | None => None
  | Some v => order edge same_edge fuel 0 1 v
  end.
(** A table of all places; [None] if one of them fails. *)
Fixpoint row_of {A} (f : nat -> option A) (js : list nat) : option (list A) :=
  match js with [] => Some [] | j :: js' => match f j, row_of f js' with Some x, Some r => Some (x :: r) | _, _ => None end end.
Definition piece_text (x : piece (printed edge)) : list Z :=
  match x with
  | Open p => List.map (fun c => Z.of_N (N_of_ascii c)) (nth 0 (elements p) [])
  | Close p => List.map (fun c => Z.of_N (N_of_ascii c)) (nth 1 (elements p) [])
  | Bytes s => s
  end.
(** Lines 112-231: doRun_ of the edges [es] that are not skipped, in the order of the iterator. *)
Definition write (depth fuel : nat) (T : list Z) (es : list (edge_data score edge)) : option (list (piece (printed edge))) :=
  let all := seq 0 (length T + 1) in
  if negb (forallb (placed score edge (length T)) es) then None else
  match row_of (fun i => row_of (fun j => if (i <? j)%nat && is_mark T i && is_mark T j then place_brackets depth fuel es i j else Some []) all) all with
  | None => None
  | Some table => Some (pieces T (fun i j => nth j (nth i table []) []))
  end.
Definition written (depth fuel : nat) (T : list Z) (es : list (edge_data score edge)) : option (list Z) :=
  option_map (flat_map piece_text) (write depth fuel T es).
End Run.

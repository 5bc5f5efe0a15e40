(** Model of the text and position helpers of the puddle parser:
    tools/parsers/puddle/puddle_util.cpp (whole file) and
    tools/parsers/puddle/rule_modifier.cpp, lines 25-38 (moveRule),
    tools/parsers/puddle/group_action.cpp, lines 95-110 (init).

    Simplifications: a std::string is a list of ascii characters; the regular
    expressions of escapeSpecialChars each match exactly one character, so
    RegExp::GlobalReplace with them is modelled as the replacement of every
    such character (lines 18-36); int arithmetic is on Z and does not
    overflow; unsigned arithmetic is modulo 2^32. *)
From Coq Require Import String Ascii.
From Coq Require Import List Arith ZArith Bool Lia.
Import ListNotations.
Local Open Scope nat_scope.

Notation text := (list ascii).

Definition lit (s : string) : text := list_ascii_of_string s.

(** RegExp::GlobalReplace(&r, p, w) with a pattern p that matches one
    character c (puddle_util.cpp, lines 28-36). *)
Fixpoint global_replace (c : ascii) (w : text) (r : text) : text :=
  match r with
  | [] => []
  | x :: r' => if Ascii.eqb x c then w ++ global_replace c w r'
               else x :: global_replace c w r'
  end.

(** escapeSpecialChars (puddle_util.cpp, lines 13-37), one replacement after
    the other, with the codes as they stand in the source. *)
Definition escape (s : text) : text :=
  let r := global_replace "&" (lit "&amp;") s in
  let r := global_replace "<" (lit "&lt;") r in
  let r := global_replace ">" (lit "&gt;") r in
  let r := global_replace "(" (lit "&#40;") r in
  let r := global_replace ")" (lit "&#41;") r in
  let r := global_replace "|" (lit "&#124;") r in
  let r := global_replace "+" (lit "&#42;") r in
  let r := global_replace "*" (lit "&#43;") r in
  global_replace "?" (lit "&#63;") r.

(** Is [p] at the beginning of [s]? *)
Fixpoint starts (p s : text) : bool :=
  match p, s with
  | [], _ => true
  | _, [] => false
  | x :: p', y :: s' => Ascii.eqb x y && starts p' s'
  end.

(** std::string::find on the rest of a text, with the position [i] of that
    rest. *)
Fixpoint find_at (p s : text) (i : nat) : option nat :=
  if starts p s then Some i
  else match s with
       | [] => None
       | _ :: s' => find_at p s' (S i)
       end.

(** r.find(p, from): npos when [from] is beyond the end. *)
Definition find (p r : text) (from : nat) : option nat :=
  if Nat.ltb (length r) from then None else find_at p (skipn from r) from.

(** One of the while loops of unescapeSpecialChars (lines 49-102): while the
    code is found, put the character in its place and go on searching one
    position further.  Every round takes at least one character away, so that
    [length r] rounds are enough. *)
Fixpoint put_back_loop (fuel : nat) (p : text) (c : ascii) (r : text)
    (pos : option nat) : text :=
  match fuel with
  | 0 => r
  | S k =>
      match pos with
      | None => r
      | Some q =>
          let r' := firstn q r ++ [c] ++ skipn (q + length p) r in
          put_back_loop k p c r' (find p r' (q + 1))
      end
  end.

Definition put_back (p : text) (c : ascii) (r : text) : text :=
  put_back_loop (S (length r)) p c r (find p r 0).

(** unescapeSpecialChars (lines 45-105). *)
Definition unescape (s : text) : text :=
  let r := put_back (lit "&#40;") "(" s in
  let r := put_back (lit "&#41;") ")" r in
  let r := put_back (lit "&#42;") "*" r in
  let r := put_back (lit "&#43;") "+" r in
  let r := put_back (lit "&amp;") "&" r in
  let r := put_back (lit "&lt;") "<" r in
  let r := put_back (lit "&gt;") ">" r in
  let r := put_back (lit "&#63;") "?" r in
  put_back (lit "&#124;") "|" r.

(** getMorphologyString (lines 107-122); a Morphology is a
    std::map<string, string>, here its pairs in the order of the map;
    morphology["pos"] puts an empty value in when there is none, which the
    loop then skips. *)
Definition text_eqb (a b : text) : bool :=
  if list_eq_dec ascii_dec a b then true else false.

Fixpoint lookup (k : text) (m : list (text * text)) : text :=
  match m with
  | [] => []
  | (k', v) :: m' => if text_eqb k' k then v else lookup k m'
  end.

Fixpoint morpho_loop (m : list (text * text)) (s : text) : text :=
  match m with
  | [] => s
  | (a, v) :: m' =>
      if text_eqb a (lit "pos") then morpho_loop m' s
      else morpho_loop m' ((match s with [] => [] | _ => s ++ lit ":" end) ++ v)
  end.

Definition morphology_string (m : list (text * text)) : text :=
  morpho_loop m (lookup (lit "pos") m).

Local Open Scope Z_scope.

(** unsigned int subtraction of one. *)
Definition pred32 (n : Z) : Z := (n - 1) mod 2 ^ 32.

(** The loop of getGroupActionParams (lines 124-156): [i] is the index, the
    list what is left of ruleTokenSizes.  None is "return false" in the
    middle. *)
Fixpoint group_loop (start head end_ i : Z) (sizes : list Z) (rs rh re : Z)
    : option (Z * Z * Z) :=
  match sizes with
  | [] => Some (rs, rh, re)
  | n :: sizes' =>
      let rs' := if i <? start then rs + n else rs in
      let rh' := if (start <=? i) && (i <? pred32 head) then rh + n else rh in
      if (i =? pred32 head) && (n =? 0) then None
      else if i <=? end_
           then group_loop start head end_ (i + 1) sizes' rs' rh' (re + n)
           else Some (rs', rh', re)
  end.

Definition group_params (sizes : list Z) (start head end_ : Z)
    : option (Z * Z * Z) :=
  match group_loop start head end_ 0 sizes 0 0 0 with
  | None => None
  | Some (rs, rh, re) =>
      if re - 1 <? rs then None else Some (rs, rh, re - 1)
  end.

(** The loop of getSyntokActionParams (lines 159-176) and of
    getRuleBoundaries (lines 226-243), which are the same. *)
Fixpoint bounds_loop (start end_ i : Z) (sizes : list Z) (rs re : Z) : Z * Z :=
  match sizes with
  | [] => (rs, re)
  | n :: sizes' =>
      let rs' := if i <? start then rs + n else rs in
      if i <=? end_ then bounds_loop start end_ (i + 1) sizes' rs' (re + n)
      else (rs', re)
  end.

Definition bounds (sizes : list Z) (start end_ : Z) : Z * Z :=
  let (rs, re) := bounds_loop start end_ 0 sizes 0 0 in (rs, re - 1).

(** getDeleteActionParams, getAddActionParams, getTransformActionParams
    (lines 178-209) and the same loop inside getUnifyActionTokenParams: the
    indices run from 0 to [index] - 2; None when the vector is read beyond
    its end. *)
Fixpoint before_loop (k : nat) (sizes : list Z) (acc : Z) : option Z :=
  match k with
  | O => Some acc
  | S k' => match sizes with
            | [] => None
            | n :: sizes' => before_loop k' sizes' (acc + n)
            end
  end.

Definition before (sizes : list Z) (index : Z) : option Z :=
  before_loop (Z.to_nat (index - 1)) sizes 0.

(** getUnifyActionTokenParams (lines 211-224): [Some None] is "return false";
    the outer None when ruleTokenSizes[index - 1] is beyond the vector. *)
Definition unify_params (sizes : list Z) (index : Z) : option (option (Z * Z)) :=
  if index - 1 <? 0 then None
  else match nth_error sizes (Z.to_nat (index - 1)) with
       | None => None
       | Some count =>
           if count =? 0 then Some None
           else match before sizes index with
                | None => None
                | Some b => Some (Some (count, b))
                end
       end.

(** GroupAction::init (group_action.cpp, lines 95-110): the head as the
    action keeps it (unsigned arithmetic). *)
Definition init_head (start end_ head : Z) : Z :=
  if ((end_ + 1) mod 2 ^ 32 <? head) || (head <=? start) then
    if start =? end_ then 0
    else ((head mod ((end_ + 1) mod 2 ^ 32)) - start) mod 2 ^ 32
  else head.

Local Open Scope nat_scope.

(** RuleModifier::moveRule (rule_modifier.cpp, lines 25-38); None when
    rules->at(from) throws or insert gets an iterator beyond the end. *)
Definition insert_at {A} (k : nat) (x : A) (l : list A) : list A :=
  firstn k l ++ x :: skipn k l.
Definition erase_at {A} (k : nat) (l : list A) : list A :=
  firstn k l ++ skipn (S k) l.

Definition move_rule {A} (from to : nat) (l : list A) : option (list A) :=
  match nth_error l from with
  | None => None
  | Some tmp =>
      let from_ := if to <? from then 1 else 0 in
      let to_ := if from <? to then 1 else 0 in
      if length l <? to + to_ then None
      else Some (erase_at (from + from_) (insert_at (to + to_) tmp l))
  end.

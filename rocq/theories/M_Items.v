(** Model of common/annotation_item.hpp, annotation_item.cpp and
    annotation_item_manager.cpp, with the zvalue macros of common/zvalue.hpp.
    A symbol stands for its string: C50_symbols shows that the symbol table gives one
    object for one string.  Only the values the manager makes occur: NULL, DEFAULT,
    integers and symbols.  [None]: the assertion in resize_ fails (129th attribute).
    The symbol table and memory are not modelled here. *)
From Coq Require Import List ZArith NArith Bool Arith.
Import ListNotations.
Open Scope Z_scope.

Definition str := list Z.
Definition str_eqb (a b : str) : bool := if list_eq_dec Z.eq_dec a b then true else false.

(** zvalue.hpp lines 23-46. *)
Inductive zvalue := ZNull | ZDefault | ZInt (i : Z) | ZSym (s : str).
Definition zvalue_eqb (a b : zvalue) : bool :=
  match a, b with
  | ZNull, ZNull => true
  | ZDefault, ZDefault => true
  | ZInt i, ZInt j => i =? j
  | ZSym s, ZSym t => str_eqb s t
  | _, _ => false
  end.
(** INTEGER_TO_ZVALUE of an [int]: the shift is done in 32 bits; ZVALUE_TO_INTEGER
    shifts back (arithmetically). *)
Definition int32 (x : Z) : Z := (x + 2 ^ 31) mod 2 ^ 32 - 2 ^ 31.
Definition integer_to_zvalue (i : Z) : zvalue := ZInt (int32 (2 * i) / 2).

(** zvalue.cpp lines 356-374: itoa (the digits from the right). *)
Fixpoint digits (fuel : nat) (i : Z) : str :=
  match fuel with
  | O => []
  | S f => if i =? 0 then [] else digits f (i / 10) ++ [48 + i mod 10]
  end.
Definition itoa (i : Z) : str :=
  let a := Z.abs i in
  (if i <? 0 then [45] else []) ++ (if a =? 0 then [48] else digits 16 a).

(** zvalue.cpp lines 962-987; "NULL_ZVALUE" and "UNKNOWN_ZVALUE". *)
Definition NULL_TEXT : str := [78; 85; 76; 76; 95; 90; 86; 65; 76; 85; 69].
Definition UNKNOWN_TEXT : str := [85; 78; 75; 78; 79; 87; 78; 95; 90; 86; 65; 76; 85; 69].
Definition zvalue_to_string (z : zvalue) : str :=
  match z with
  | ZNull => NULL_TEXT
  | ZDefault => UNKNOWN_TEXT
  | ZInt i => itoa i
  | ZSym s => s
  end.

(** annotation_item_manager.cpp lines 325-329. *)
Definition FAIL : str := [102; 97; 105; 108].
Definition FALSE : str := [102; 97; 108; 115; 101].
Definition EMPTY : str := [101; 109; 112; 116; 121].
Definition ANY : str := [97; 110; 121].
Definition NIL : str := [110; 105; 108].
(** Lines 231-239: to_string. *)
Definition to_string (z : zvalue) : str :=
  match z with ZDefault => NIL | ZNull => FAIL | _ => zvalue_to_string z end.
(** c_str(): up to the first NUL. *)
Fixpoint c_str (s : str) : str := match s with [] => [] | c :: s' => if c =? 0 then [] else c :: c_str s' end.
(** Lines 252-260: from_string, with stringToZvalue (196-198). *)
Definition from_string (s : str) : zvalue :=
  if str_eqb s ANY || str_eqb s NIL then ZDefault
  else if str_eqb s FAIL || str_eqb s FALSE || str_eqb s EMPTY then ZNull
  else ZSym (c_str s).

(** std::stringstream >> int followed by eof(): white space, a sign, digits up to the
    end; a number that does not fit in an int is an error. *)
Definition is_space (c : Z) : bool := ((9 <=? c) && (c <=? 13)) || (c =? 32).
Definition is_digit (c : Z) : bool := (48 <=? c) && (c <=? 57).
Fixpoint skip_space (s : str) : str := match s with [] => [] | c :: s' => if is_space c then skip_space s' else s end.
Fixpoint number (acc : Z) (s : str) : Z := match s with [] => acc | c :: s' => number (10 * acc + (c - 48)) s' end.
Definition whole_int (s : str) : option Z :=
  let s1 := skip_space s in
  let '(neg, ds) := match s1 with
                    | c :: s' => if c =? 45 then (true, s') else if c =? 43 then (false, s') else (false, s1)
                    | [] => (false, [])
                    end in
  if match ds with [] => false | _ => true end && forallb is_digit ds then
    let v := if neg then - number 0 ds else number 0 ds in
    if (- 2 ^ 31 <=? v) && (v <? 2 ^ 31) then Some v else None
  else None.

(** annotation_item.hpp: the text is the string of the fragment. *)
Record item := Item { category : str; text : str; values_ : list zvalue; attributes_ : N }.
Definition ATTRIBUTES : nat := 128.
(** annotation_item.hpp lines 18-69: the constructors. *)
Definition new_item (cat txt : str) : item := Item cat txt [] 0.
Definition with_category (it : item) (cat : str) : item := Item cat (text it) (values_ it) (attributes_ it).
Definition with_text (it : item) (txt : str) : item := Item (category it) txt (values_ it) (attributes_ it).
(** annotation_item.cpp lines 40-46: resize_ (vector::resize fills with NULL). *)
Definition resize (vs : list zvalue) (n : nat) : list zvalue := vs ++ repeat ZNull (n - length vs).
Fixpoint set_nth (vs : list zvalue) (n : nat) (v : zvalue) : list zvalue :=
  match vs, n with
  | [], _ => []
  | _ :: vs', O => v :: vs'
  | x :: vs', S n' => x :: set_nth vs' n' v
  end.

(** The bimap m_: the name with number i is the i-th. *)
Definition manager := list str.
Fixpoint index (ns : manager) (n : str) : option nat :=
  match ns with
  | [] => None
  | x :: ns' => if str_eqb x n then Some O else option_map S (index ns' n)
  end.
Definition register (ns : manager) (n : str) : manager :=
  match index ns n with Some _ => ns | None => ns ++ [n] end.

(** annotation_item_manager.cpp lines 70-82: setValue of a zvalue. *)
Definition set_zvalue (m : manager) (it : item) (attr : str) (v : zvalue) : option (manager * item) :=
  let m' := register m attr in
  match index m' attr with
  | None => None
  | Some ix =>
      if (ix <? length (values_ it))%nat then
        Some (m', Item (category it) (text it) (set_nth (values_ it) ix v) (N.setbit (attributes_ it) (N.of_nat ix)))
      else if (ATTRIBUTES <? ix + 1)%nat then None
      else Some (m', Item (category it) (text it) (set_nth (resize (values_ it) (ix + 1)) ix v)
                          (N.setbit (attributes_ it) (N.of_nat ix)))
  end.
(** Lines 62-68, 46-59 and 37-43. *)
Definition set_int (m : manager) (it : item) (attr : str) (i : Z) := set_zvalue m it attr (integer_to_zvalue i).
Definition set_value (m : manager) (it : item) (attr : str) (s : str) :=
  match whole_int s with
  | Some i => set_int m it attr i
  | None => set_zvalue m it attr (from_string s)
  end.
Definition set_string_value (m : manager) (it : item) (attr : str) (s : str) := set_zvalue m it attr (ZSym (c_str s)).

(** Lines 85-107: getValue and getValueAsString. *)
Definition get_value (m : manager) (it : item) (attr : str) : zvalue :=
  match index m attr with
  | None => ZNull
  | Some ix => if N.testbit (attributes_ it) (N.of_nat ix) then nth ix (values_ it) ZNull else ZNull
  end.
Definition get_value_as_string (m : manager) (it : item) (attr : str) : str := to_string (get_value m it attr).
(** Lines 110-147: getValuesAsZvalues and getValues. *)
Fixpoint collect (m : manager) (i : nat) (it : item) : list (str * zvalue) :=
  match m with
  | [] => []
  | n :: m' =>
      if N.testbit (attributes_ it) (N.of_nat i) then (n, nth i (values_ it) ZNull) :: collect m' (S i) it
      else collect m' (S i) it
  end.
Definition get_zvalues (m : manager) (it : item) : list (str * zvalue) := collect m 0 it.
Definition get_values (m : manager) (it : item) : list (str * str) :=
  map (fun p => (fst p, to_string (snd p))) (get_zvalues m it).
(** Lines 158-170: addValues. *)
Fixpoint set_all (m : manager) (it : item) (avs : list (str * zvalue)) : option (manager * item) :=
  match avs with
  | [] => Some (m, it)
  | (a, v) :: avs' => match set_zvalue m it a v with Some (m', it') => set_all m' it' avs' | None => None end
  end.
Definition add_values (m : manager) (target source : item) : option (manager * item) :=
  set_all m target (get_zvalues m source).

(** annotation_item.cpp lines 48-75 and 3-7: operator==. *)
Fixpoint same_values (a b : list zvalue) : bool :=
  match a, b with
  | [], _ => forallb (fun z => str_eqb (zvalue_to_string z) []) b
  | _, [] => forallb (fun z => str_eqb (zvalue_to_string z) []) a
  | x :: a', y :: b' => zvalue_eqb x y && same_values a' b'
  end.
Definition item_eqb (a b : item) : bool :=
  str_eqb (category a) (category b) && str_eqb (text a) (text b) && same_values (values_ a) (values_ b).
(** Lines 27-37: the string that is hashed. *)
Definition hashed (it : item) : str := category it ++ text it ++ concat (map zvalue_to_string (values_ it)).

(** A history on any number of items with one manager. *)
Inductive op :=
  | New (cat txt : str)
  | Copy (i : nat)
  | Set_ (i : nat) (attr : str) (v : zvalue)
  | SetInt (i : nat) (attr : str) (v : Z)
  | SetValue (i : nat) (attr : str) (s : str)
  | SetString (i : nat) (attr : str) (s : str)
  | SetCategory (i : nat) (cat : str)
  | AddValues (target source : nat).
Record state := State { names : manager; items : list item }.
Fixpoint put_item (l : list item) (n : nat) (it : item) : list item :=
  match l, n with
  | [], _ => []
  | _ :: l', O => it :: l'
  | x :: l', S n' => x :: put_item l' n' it
  end.
Definition changed (s : state) (i : nat) (r : option (manager * item)) : option state :=
  match r with Some (m, it) => Some (State m (put_item (items s) i it)) | None => None end.
Definition on_item (s : state) (i : nat) (f : item -> option (manager * item)) : option state :=
  match nth_error (items s) i with Some it => changed s i (f it) | None => None end.
Definition step (s : state) (o : op) : option state :=
  match o with
  | New c t => Some (State (names s) (items s ++ [new_item c t]))
  | Copy i => match nth_error (items s) i with Some it => Some (State (names s) (items s ++ [it])) | None => None end
  | Set_ i a v => on_item s i (fun it => set_zvalue (names s) it a v)
  | SetInt i a v => on_item s i (fun it => set_int (names s) it a v)
  | SetValue i a v => on_item s i (fun it => set_value (names s) it a v)
  | SetString i a v => on_item s i (fun it => set_string_value (names s) it a v)
  | SetCategory i c => on_item s i (fun it => Some (names s, with_category it c))
  | AddValues i j =>
      match nth_error (items s) j with
      | Some src => on_item s i (fun it => add_values (names s) it src)
      | None => None
      end
  end.
Fixpoint run (s : state) (os : list op) : option state :=
  match os with [] => Some s | o :: os' => match step s o with Some s' => run s' os' | None => None end end.

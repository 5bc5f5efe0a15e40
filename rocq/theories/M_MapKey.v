(** Model of the mapper, continued: the key of an edge and the attributes of a new edge (tools/lexica/mapper/mapper.cpp lines
    248-277 and 306-321).
    Simplifications: items are a text, a category and a list of attributes with values, in the order of getValues;
    setValue puts a value in place (both are modelled in M_Items). *)
From Coq Require Import String Ascii.
From Coq Require Import List Arith Bool.
From Verif Require Import M_LexBase.
Import ListNotations.
Local Open Scope nat_scope.

(** operator< of strings *)
Fixpoint before (a b : str) : bool :=
  match a, b with
  | _, [] => false
  | [], _ :: _ => true
  | x :: a', y :: b' => if nat_of_ascii x <? nat_of_ascii y then true else if nat_of_ascii y <? nat_of_ascii x then false else before a' b'
  end.
(** std::sort, any sorting gives the same list of strings; lines 261-262 *)
Fixpoint insert (x : str) (l : list str) : list str :=
  match l with
  | [] => [x]
  | y :: l' => if before y x then y :: insert x l' else x :: l
  end.
Definition sort (l : list str) : list str := fold_right insert [] l.
(** lines 250-266 *)
Definition map_key (with_text with_category with_attributes : bool) (text category : str) (attributes : list (str * str)) : str :=
  join (lit ",")
    ((if with_text then [text] else []) ++ (if with_category then [category] else [])
     ++ (if with_attributes then sort (map (fun kv => fst kv ++ lit "=" ++ snd kv) attributes) else [])).

(** setValue on the attributes of an item *)
Fixpoint set_value (a v : str) (l : list (str * str)) : list (str * str) :=
  match l with
  | [] => [(a, v)]
  | (b, w) :: l' => if str_dec b a then (a, v) :: l' else (b, w) :: set_value a v l'
  end.
Definition set_all (l new : list (str * str)) : list (str * str) := fold_left (fun l kv => set_value (fst kv) (snd kv) l) new l.
(** lines 306-321; for unknown keys (lines 360-370) nothing is added *)
Definition entry_attributes (clone add : bool) (set : option (list (str * str))) (old parsed : list (str * str)) : list (str * str) :=
  let l := if clone then set_all [] old else [] in
  let l := match set with Some s => set_all l s | None => l end in
  if add then set_all l parsed else l.
(** lines 267-276: the records of the key, else the one for unknown keys if one of its options is given *)
Inductive made := FromRecord (r : str) | Unknown.
Definition process_edge (records : list str) (unknown_options : bool) : list made :=
  match records with
  | [] => if unknown_options then [Unknown] else []
  | _ => map FromRecord records
  end.

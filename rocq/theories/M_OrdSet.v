(** std::set and the strings it holds: a set is the strictly increasing list of its
    elements, which is the order of iteration. *)
From Coq Require Import List ZArith Bool.
Import ListNotations.
Local Open Scope Z_scope.

Section OrdSet.
Context {A : Type} (ltb : A -> A -> bool).
(** std::set::insert (C++ standard, [set]): nothing happens if an equivalent element is there. *)
Fixpoint set_insert (x : A) (s : list A) : list A :=
  match s with
  | [] => [x]
  | y :: s' => if ltb x y then x :: s else if ltb y x then y :: set_insert x s' else s
  end.
End OrdSet.

(** std::string::operator<: char_traits<char> compares bytes as unsigned numbers. *)
Fixpoint str_ltb (a b : list Z) : bool :=
  match a, b with
  | _, [] => false
  | [], _ :: _ => true
  | x :: a', y :: b' => if x <? y then true else if y <? x then false else str_ltb a' b'
  end.

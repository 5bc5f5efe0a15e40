(** Model of framework/aliaser.cpp.  Names are std::strings; a std::map is an
    association list. *)
From Coq Require Import List ZArith Bool.
From Verif Require Import M_OrdSet.
Import ListNotations.

Definition name := list Z.
Definition name_eqb (a b : name) : bool := if list_eq_dec Z.eq_dec a b then true else false.
Definition table := list (name * list name).

Fixpoint lookup (t : table) (n : name) : option (list name) :=
  match t with [] => None | (k, v) :: t' => if name_eqb k n then Some v else lookup t' n end.
(** Inserting a name into the set stored under a key that is there. *)
Fixpoint insert_at (t : table) (k x : name) : table :=
  match t with
  | [] => []
  | (k', v) :: t' => if name_eqb k' k then (k', set_insert str_ltb x v) :: t' else (k', v) :: insert_at t' k x
  end.
(** A key with the empty set, unless the key is there. *)
Definition ensure (t : table) (k : name) : table := match lookup t k with Some _ => t | None => (k, []) :: t end.

(** aliaser.hpp lines 37-38. *)
Record aliaser := Aliaser { destinations : table; aliases : table }.
Definition empty : aliaser := Aliaser [] [].

(** Lines 8-26 and 63-68. *)
Definition add_alias (a : aliaser) (alias destination : name) : aliaser :=
  Aliaser (insert_at (ensure (destinations a) alias) alias destination)
          (insert_at (ensure (aliases a) destination) destination alias).
(** Lines 28-31. *)
Definition add_void_alias (a : aliaser) (alias : name) : aliaser :=
  Aliaser (ensure (destinations a) alias) (aliases a).
(** Lines 33-35. *)
Definition is_alias (a : aliaser) (n : name) : bool :=
  match lookup (destinations a) n with Some _ => true | None => false end.
(** Lines 37-45. *)
Definition alias_names (a : aliaser) : list name :=
  fold_left (fun s kv => set_insert str_ltb (fst kv) s) (destinations a) [].

(** Lines 70-85. *)
Fixpoint find_destinations (a : aliaser) (depth : nat) (n : name) (acc : list name) : list name :=
  match lookup (destinations a) n with
  | Some ds =>
      match depth with
      | O => acc
      | S d => fold_left (fun acc m => find_destinations a d m acc) ds acc
      end
  | None => set_insert str_ltb n acc
  end.
(** Lines 47-53 and 107. *)
Definition all_destinations (a : aliaser) (n : name) : list name := find_destinations a 5 n [].

(** Lines 87-105: the limit is only reported, the recursion goes on; [None]: more than
    [fuel] nested calls. *)
Fixpoint find_aliases (a : aliaser) (fuel : nat) (n : name) (acc : list name) : option (list name) :=
  match fuel with
  | O => None
  | S f =>
      let acc := if is_alias a n then set_insert str_ltb n acc else acc in
      match lookup (aliases a) n with
      | None => Some acc
      | Some ns =>
          fold_left (fun o m => match o with Some acc => find_aliases a f m acc | None => None end) ns (Some acc)
      end
  end.

(** A history of definitions. *)
Inductive op := Add (alias destination : name) | Void (alias : name).
Definition apply (a : aliaser) (o : op) : aliaser :=
  match o with Add x y => add_alias a x y | Void x => add_void_alias a x end.
Definition run (os : list op) : aliaser := fold_left apply os empty.

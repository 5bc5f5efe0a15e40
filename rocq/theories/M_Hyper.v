(** Sets of transformations and hyperedges: tools/translators/bonsai/translator/Transformation.hpp, Transformation.cpp,
    tools/translators/bonsai/rules/RuleSet.cpp and RuleLoader.cpp.  Costs are integers instead of doubles. *)
From Coq Require Import String List ZArith Bool PeanoNat.
Import ListNotations.
Local Open Scope nat_scope.

(** A Transformation: its cost and its str(), with whatever else it is made of; the heuristic is always 0
    (Transformation.cpp 5-13). *)
Record transf := Transf { t_cost : Z; t_str : string }.
(** TransformationSorter, Transformation.hpp 68-77. *)
Definition sorter (a b : transf) : bool := (t_cost a <? t_cost b)%Z || (t_str a <? t_str b)%string.

Section Sets.
(** insert of a std::set with that comparison, which is no strict weak order: a parameter. *)
Context (add : list transf -> transf -> list transf).
(** HyperEdge, Transformation.hpp 83-106: str() of its nonterminals and its transformations in order. *)
Record edge := Edge { h_nts : string; h_ts : list transf }.
(** HyperEdge::get_cost, Transformation.cpp 117-124. *)
Definition edge_cost (h : edge) : Z := match h_ts h with t :: _ => t_cost t | [] => 0%Z end.

(** RuleSet.cpp 137-152: taking a transformation into a hyperedge; the set made for one transformation holds just it. *)
Definition take (max : nat) (eps : Z) (ts : list transf) (t : transf) : list transf :=
  if length ts <? max then
    match ts with
    | best :: _ => if (0 <? eps)%Z then (if (t_cost t <=? t_cost best + eps)%Z then add ts t else ts) else add ts t
    | [] => add ts t
    end
  else ts.
Definition fill (max : nat) (eps : Z) (nts : string) (l : list transf) : edge := Edge nts (fold_left (take max eps) l []).

(** HyperEdgeSorter, Transformation.hpp 110-114, and insert: a set by cost. *)
Fixpoint insert_edge (h : edge) (s : list edge) : list edge :=
  match s with
  | [] => [h]
  | g :: s' =>
      if (edge_cost h <? edge_cost g)%Z then h :: s
      else if (edge_cost g <? edge_cost h)%Z then g :: insert_edge h s'
      else s
  end.
(** RuleSet.cpp 155-161: the last ones are erased. *)
Definition keep (max : nat) (s : list edge) (h : edge) : list edge := firstn max (insert_edge h s).
(** EdgeTransformations: a map from symbols; lines 121-122 and 155-161. *)
Definition table := list (string * list edge).
Fixpoint update (sym : string) (f : list edge -> list edge) (t : table) : table :=
  match t with
  | [] => [(sym, f [])]
  | (s, e) :: t => if (s =? sym)%string then (s, f e) :: t else (s, e) :: update sym f t
  end.
Definition lookup (sym : string) (t : table) : option (list edge) :=
  option_map snd (List.find (fun x => (fst x =? sym)%string) t).
(** get_edge_transformations, lines 111-169, for the left sides and hyperedges that word_to_slist gives. *)
Definition collect (max : nat) (l : list (string * edge)) : table :=
  fold_left (fun t x => update (fst x) (fun s => keep max s (snd x)) t) l [].

(** merge_hyper_edge, RuleLoader.cpp 179-189. *)
Definition merge_edge (h g : edge) : edge := Edge (h_nts h) (fold_left add (h_ts g) (h_ts h)).
(** RuleLoader.cpp 150-156: the last hyperedge with the same nonterminals. *)
Fixpoint found (nts : string) (s : list edge) : option nat :=
  match s with
  | [] => None
  | h :: s => match found nts s with Some i => Some (S i) | None => if (h_nts h =? nts)%string then Some 0 else None end
  end.
(** Lines 149-169 for one hyperedge, and for all. *)
Definition merge_one (s : list edge) (g : edge) : list edge :=
  match found (h_nts g) s with
  | Some i =>
      match nth_error s i with
      | Some h => insert_edge (merge_edge h g) (firstn i s ++ skipn (S i) s)
      | None => s
      end
  | None => insert_edge g s
  end.
Definition merge_sets (s next : list edge) : list edge := fold_left merge_one next s.
(** merge_edge_transformations, lines 137-177: a symbol that is not there yet gets a copy. *)
Definition merge_tables (result next : table) : table :=
  fold_left (fun t x => match lookup (fst x) t with
    | Some _ => update (fst x) (fun s => merge_sets s (snd x)) t
    | None => update (fst x) (fun _ => fold_left (fun s h => insert_edge h s) (snd x) []) t
    end) next result.
End Sets.

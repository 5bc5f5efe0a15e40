(** Merging the translations of hyperedges: tools/translators/bonsai/translator/Translator.cpp.  Costs are integers instead of
    doubles. *)
From Coq Require Import List ZArith Bool PeanoNat.
Import ListNotations.
Local Open Scope nat_scope.

Section Cube.
(** Transformations and translations; [build] is the constructor of Translation, [cost] its get_cost. *)
Context {T R : Type} (build : T -> list R -> R) (cost : R -> Z).
(** TranslationQueue, Translation.hpp 97: a std::set whose comparison (lines 90-94) is no strict weak order.  What find and
    insert do then depends on the tree; they are parameters. *)
Context (find : list R -> R -> option R) (add : list R -> R -> list R).
(** HyperEdge, Transformation.hpp 83-106: its transformations in order, and for each of its nonterminals what
    translate_recursive gives, in order.  The nonterminals are distinct. *)
Record hyper := Hyper { e_ts : list T; e_kids : list (list R) }.
(** Candidate, Translator.hpp 31-49; iterators are indexes. *)
Record cand := Cand { d_edge : hyper; d_r0 : nat; d_r : list nat; d_trans : R }.
Fixpoint pick (r : list nat) (kids : list (list R)) : option (list R) :=
  match r, kids with
  | [], [] => Some []
  | i :: r, q :: kids => match nth_error q i, pick r kids with Some t, Some l => Some (t :: l) | _, _ => None end
  | _, _ => None
  end.
(** The candidate with given iterators, or None if one is end(). *)
Definition cand_at (h : hyper) (r0 : nat) (r : list nat) : option cand :=
  match nth_error (e_ts h) r0, pick r (e_kids h) with
  | Some t, Some l => Some (Cand h r0 r (build t l))
  | _, _ => None
  end.
(** CandidateSorter, Translator.hpp 53-57, and insert: a set by cost. *)
Fixpoint insert_cand (c : cand) (cs : list cand) : list cand :=
  match cs with
  | [] => [c]
  | d :: cs' =>
      if (cost (d_trans c) <? cost (d_trans d))%Z then c :: cs
      else if (cost (d_trans d) <? cost (d_trans c))%Z then d :: insert_cand c cs'
      else cs
  end.
(** Lines 85-110.  None: the end() of an empty set is read. *)
Fixpoint corners (hs : list hyper) (cs : list cand) : option (list cand) :=
  match hs with
  | [] => Some cs
  | h :: hs => match cand_at h 0 (repeat 0 (length (e_kids h))) with Some c => corners hs (insert_cand c cs) | None => None end
  end.
Fixpoint bump (i : nat) (r : list nat) : list nat :=
  match r, i with
  | [], _ => []
  | x :: r, 0 => S x :: r
  | x :: r, S i => x :: bump i r
  end.
(** Lines 118-142. *)
Definition next (c : cand) : list cand :=
  flat_map (fun i =>
    match (if i <? length (d_r c) then cand_at (d_edge c) (d_r0 c) (bump i (d_r c)) else cand_at (d_edge c) (S (d_r0 c)) (d_r c)) with
    | Some d => [d]
    | None => []
    end) (seq 0 (S (length (d_r c)))).
(** Lines 153-160. *)
Definition put (q : list R) (t : R) : list R :=
  match find q t with
  | None => add q t
  | Some u => if (cost t <? cost u)%Z then add q t else q
  end.
(** Lines 116-165; [last] stands for L, r0 and r.  The outer None: more turns than allowed. *)
Fixpoint loop (fuel k : nat) (q : list R) (cs : list cand) (last : option cand) : option (list R) :=
  if k <=? length q then Some q else
  match fuel with
  | 0 => None
  | S fuel =>
      match (match last with Some c => fold_left (fun cs d => insert_cand d cs) (next c) cs | None => cs end) with
      | [] => Some q
      | c :: cs => loop fuel k (put q (d_trans c)) cs (Some c)
      end
  end.
(** merge, lines 80-168. *)
Definition merge (fuel k : nat) (hs : list hyper) : option (list R) :=
  match corners hs [] with Some cs => loop fuel k [] cs None | None => None end.
End Cube.
Arguments hyper : clear implicits.
Arguments cand : clear implicits.

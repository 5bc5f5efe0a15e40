(** Model of two actions of the puddle parser:
    tools/parsers/puddle/unify_action.cpp (isUnifyingPossible, lines 241-328;
    generateInterpretationsVector, 70-130; generateUnifiedEdgesList, 145-239;
    discardUnunifiedEdges, 330-400; apply, 14-47) and
    tools/parsers/puddle/delete_action.cpp (test, lines 43-86;
    foundEdgesToDelete, 94-148) with deleteEdges of
    tools/parsers/puddle/lattice_wrapper.cpp, lines 987-1027.

    Simplifications: the elements of the rule to which an action is applied are
    given by what they matched: None if nothing (getUnifyActionTokenParams is
    false), otherwise for every token the top edges of its vertex (C81); regular
    expressions are parameters (the value that a pattern takes out of the
    morphology of an edge, whether an edge has the values of an interpretation);
    sets are lists of which only the members matter; nullAgreement is true, as
    it always is (line 61).  A partition that contains the edges is a parameter
    (sequenceContainsEdge is not modelled). *)
From Coq Require Import List Arith Bool Lia.
Import ListNotations.
Local Open Scope nat_scope.

Section Actions.
Context {E V M P : Type}.
Variable disc : E -> bool.
Variable morph : E -> M.
Variable M_eqb : M -> M -> bool.
Variable V_eqb : V -> V -> bool.
(** RegExp::FullMatch(morphology, pattern, &slot, &value) *)
Variable value : P -> E -> option V.

Notation column := (list E).
Notation element := (option (list column)).

(** The tokens that the loops over the elements and vertices visit. *)
Definition columns (els : list element) : list column :=
  flat_map (fun o => match o with Some cs => cs | None => [] end) els.

(** isUnifyingPossible, lines 277-293: the values at one token. *)
Definition values (p : P) (c : column) : list V :=
  flat_map (fun e => if disc e then []
                     else match value p e with Some v => [v] | None => [] end) c.
(** Lines 294-307. *)
Definition step (p : P) (ref : list V) (c : column) : list V :=
  let vs := values p c in
  match vs with
  | [] => ref
  | _ => match ref with
         | [] => vs
         | _ => filter (fun v => existsb (V_eqb v) vs) ref
         end
  end.
Definition ref_values (p : P) (cs : list column) : list V :=
  fold_left (step p) cs [].
(** The answer (lines 243-327). *)
Fixpoint possible (ps : list P) (els : list element) : bool :=
  match ps with
  | [] => true
  | p :: ps' => match ref_values p (columns els) with
                | [] => false
                | _ => possible ps' els
                end
  end.

(** generateInterpretationsVector: the values of an edge, None for a missing
    one; of a discarded edge none at all. *)
Definition interpretation (ps : list P) (e : E) : list (option V) :=
  if disc e then [] else map (fun p => value p e) ps.
Definition interpretations (ps : list P) (els : list element) : list (list (option V)) :=
  map (interpretation ps) (concat (columns els)).

(** RegExp::PartialMatch(morphologyString, unified string) *)
Variable fits : list (option V) -> E -> bool.

(** generateUnifiedEdgesList for one string, lines 154-236. *)
Fixpoint sequences (i : list (option V)) (cs : list column) (acc : list (list E))
    : list (list E) :=
  match cs with
  | [] => acc
  | c :: cs' =>
      let m := filter (fun e => negb (disc e) && fits i e) c in
      match m with
      | [] => []
      | _ =>
          sequences i cs'
            match acc with
            | [] => map (fun e => [e]) m
            | _ => flat_map (fun l => map (fun e => l ++ [e]) m) acc
            end
      end
  end.
Definition to_keep (is : list (list (option V))) (els : list element) : list (list E) :=
  flat_map (fun i => sequences i (columns els) []) is.

(** discardUnunifiedEdges, lines 334-353: the morphologies at the places of the
    sequences; None if a sequence has more places than there are elements. *)
Definition kept_at (keep : list (list E)) (n : nat) : option (list (list M)) :=
  if forallb (fun l => length l <=? n) keep
  then Some (map (fun k => flat_map (fun l => match nth_error l k with
                                              | Some e => [morph e]
                                              | None => []
                                              end) keep)
                 (seq 0 n))
  else None.
(** Lines 355-398: the edges that are discarded. *)
Fixpoint discard_loop (els : list element) (sets : list (list M)) : list E :=
  match els, sets with
  | el :: els', s :: sets' =>
      match el with
      | None => []
      | Some cs => filter (fun e => negb (existsb (M_eqb (morph e)) s)) (concat cs)
      end ++ discard_loop els' sets'
  | _, _ => []
  end.
Definition discarded (els : list element) (keep : list (list E)) : option (list E) :=
  match kept_at keep (length els) with
  | None => None
  | Some sets => Some (discard_loop els sets)
  end.

(** apply, lines 14-47: [in_partition] tells whether a partition of the rule
    contains the edges of a sequence.  The edges that are discarded. *)
Definition unify (ps : list P) (in_partition : list E -> bool) (els : list element)
    : option (list E) :=
  let keep := to_keep (interpretations ps els) els in
  if existsb in_partition keep then discarded els keep else Some [].

(** * Delete *)

Variable B : Type.
(** RegExp::FullMatch(base, pattern) and RegExp::FullMatch(morphology, pattern) *)
Variable base_match : B -> E -> bool.
Variable morph_match : B -> E -> bool.

Inductive condition := Base (negation : bool) (b : B) | Morph (b : B).

(** deleteEdges (lattice_wrapper.cpp, lines 1003-1023). *)
Definition hit (c : condition) (e : E) : bool :=
  match c with
  | Base true b => base_match b e
  | Base false b => negb (base_match b e)
  | Morph b => morph_match b e
  end.
Definition deleted (cs : list condition) (edges : list E) : list E :=
  filter (fun e => negb (disc e) && existsb (fun c => hit c e) cs) edges.

(** foundEdgesToDelete, lines 105-139: the loop over the conditions.  A break
    leaves it before conditionsSatisfied is set. *)
Fixpoint satisfied_loop (cs : list condition) (e : E) (satisfied_all : bool) : bool :=
  match cs with
  | [] => satisfied_all
  | c :: cs' =>
      match c with
      | Base true b => if base_match b e then satisfied_all
                       else satisfied_loop cs' e satisfied_all
      | Base false b => if negb (base_match b e) then satisfied_all
                        else satisfied_loop cs' e satisfied_all
      | Morph b => if negb (morph_match b e) then satisfied_all
                   else satisfied_loop cs' e satisfied_all
      end
  end.
Fixpoint found_loop (cs : list condition) (edges : list E) (found : bool) : bool :=
  match edges with
  | [] => found
  | e :: edges' =>
      if disc e then found_loop cs edges' found
      else found_loop cs edges' (if satisfied_loop cs e true then true else found)
  end.
Definition found (cs : list condition) (edges : list E) : bool := found_loop cs edges false.

(** test, lines 43-86. *)
Definition delete_test (count : nat) (cs : list condition) (edges : list E) : bool :=
  if count =? 0 then true else let _ := found cs edges in true.
End Actions.

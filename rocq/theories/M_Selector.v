(** Model of tools/converters/selector/selector.cpp lines 108-275 and tools/converters/antiselector/antiselector.cpp lines
    102-133.  The lattice is known by what is asked of it and by addEdge; annotations are those of M_Unumsunt.  Cited
    lines are of selector.cpp unless said otherwise. *)
From Coq Require Import ZArith List Bool.
From Verif Require Import M_Items M_Unumsunt.
Import ListNotations.
Local Open Scope nat_scope.

(** boost::split at one character. *)
Fixpoint split_at (d : Z) (s : str) : list str :=
  match s with
  | [] => [[]]
  | c :: s => if Z.eqb c d then [] :: split_at d s
              else match split_at d s with p :: ps => (c :: p) :: ps | [] => [] end
  end.
Definition CONDITION : str := [99; 111; 110; 100; 105; 116; 105; 111; 110]%Z.
Definition ALWAYS : str := [42]%Z.
Definition BLANK : str := [66]%Z.
(** Lines 249-264: one condition against a test edge. *)
Definition atom_holds (t : annotation) (j : str) : bool :=
  str_eqb (cat t) j || existsb (fun av => str_eqb (fst av ++ [61%Z] ++ M_Items.to_string (snd av)) j) (vals t).
(** Lines 236-270. *)
Definition condition_met (t : annotation) (c : str) : bool :=
  existsb (fun alt => forallb (atom_holds t) (split_at 38%Z alt)) (split_at 124%Z c).

Section Select.
(** The lattice, its vertices and edges.  first_fallback and first_in are firstOutEdge with the masks of the tags, None is
    NoEdgeException; ins and tests are outEdges; with_text is lines 182-199: what is added for the fallback edge. *)
Context {L V E : Type} (veqb : V -> V -> bool).
Context (first_fallback : L -> V -> option E) (first_in : L -> V -> option E) (ins tests : L -> V -> list E).
Context (from to : L -> E -> V) (item_of : L -> E -> annotation) (with_text : L -> E -> annotation).
Context (add : L -> V -> V -> annotation -> L) (with_blank : bool).

(** isConditionSatisfied_, lines 206-275. *)
Definition satisfied (l : L) (e : E) : bool :=
  match get (item_of l e) CONDITION with
  | ZNull => true
  | z =>
      let c := M_Items.to_string z in
      str_eqb c ALWAYS || existsb (fun t => veqb (to l t) (to l e) && condition_met (item_of l t) c) (tests l (from l e))
  end.
(** Lines 128-155: the edges of a sequence; the outer None: longer than fuel, the inner one: a condition is not satisfied. *)
Fixpoint sequence (fuel : nat) (l : L) (target : V) (e : E) : option (option (list E)) :=
  match fuel with
  | 0 => None
  | S fuel =>
      if negb (satisfied l e) then Some None
      else if veqb (to l e) target then Some (Some [e])
      else
        match first_in l (to l e) with
        | None => Some (Some [e])
        | Some e' => option_map (option_map (cons e)) (sequence fuel l target e')
        end
  end.
(** Lines 126-163: edgesToAdd. *)
Fixpoint sequences (fuel : nat) (l : L) (target : V) (es : list E) : option (list E) :=
  match es with
  | [] => Some []
  | e :: es =>
      match sequence fuel l target e, sequences fuel l target es with
      | Some (Some s), Some r => Some (s ++ r)
      | Some None, Some r => Some r
      | _, _ => None
      end
  end.
(** Lines 119-125 and 165-201: the calls of addEdge for one vertex. *)
Definition shown (a : annotation) : bool := with_blank || negb (str_eqb (cat a) BLANK).
Definition calls (fuel : nat) (l : L) (v : V) : option (list (V * V * annotation)) :=
  match first_fallback l v with
  | None => Some []
  | Some f =>
      match sequences fuel l (to l f) (ins l v) with
      | None => None
      | Some [] => Some (if shown (item_of l f) then [(v, to l f, with_text l f)] else [])
      | Some es => Some (map (fun e => (from l e, to l e, item_of l e)) (filter (fun e => shown (item_of l e)) es))
      end
  end.
Definition add_all (l : L) (cs : list (V * V * annotation)) : L :=
  fold_left (fun l c => add l (fst (fst c)) (snd (fst c)) (snd c)) cs l.
(** doRun, lines 108-203; the iterator over vertices is the list of what it gives. *)
Fixpoint run (fuel : nat) (vs : list V) (l : L) : option L :=
  match vs with
  | [] => Some l
  | v :: vs => match calls fuel l v with Some cs => run fuel vs (add_all l cs) | None => None end
  end.

(** antiselector.cpp lines 108-132; the iterator over fallback edges is the list of what it gives. *)
Definition anti_calls (l : L) (e : E) : list (V * V * annotation) :=
  if negb (existsb (fun i => veqb (to l i) (to l e)) (ins l (from l e))) && shown (item_of l e)
  then [(from l e, to l e, item_of l e)] else [].
Definition anti_run (es : list E) (l : L) : L := fold_left (fun l e => add_all l (anti_calls l e)) es l.
End Select.

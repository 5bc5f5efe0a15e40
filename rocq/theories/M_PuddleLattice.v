(** Model of the way in which the puddle parser reads the lattice:
    tools/parsers/puddle/lattice_wrapper.cpp, lines 190-350 (getVertex,
    getTopEdges, getEdgesRange) with the predicates of
    tools/parsers/puddle/lattice_wrapper.hpp, lines 132-210, and the loop over
    vertices of RuleMatcher::generateSentenceString
    (tools/parsers/puddle/rule_matcher.cpp, lines 119-187).

    Simplifications: the lattice is given by the answers to the questions that
    are asked: the edges that go out of a vertex under the mask of the calls
    (in the order of the iterator), whether an edge is discarded, a token,
    blank, its partitions, its begin and its length, its annotation and whether
    two annotations are equal.  Vertices are natural numbers.  Beyond the last
    vertex there are no edges.  A sequence of edges is a list. *)
From Coq Require Import List Arith Bool Lia.
Import ListNotations.
Local Open Scope nat_scope.

Section Lattice.
Context {E A : Type}.
Variable out : nat -> list E.
Variables disc tok blank : E -> bool.
Variable parts : E -> list (list E).
Variables beg len : E -> nat.
Variable ann : E -> A.
Variable item_eqb : A -> A -> bool.
Variable edge_eqb : E -> E -> bool.
Variable last : nat.

(** std::list::unique (lattice_wrapper.cpp, line 301): of neighbours that are
    equal only the first stays. *)
Fixpoint unique_from (x : E) (l : list E) : list E :=
  match l with
  | [] => []
  | y :: l' => if edge_eqb x y then unique_from x l' else y :: unique_from y l'
  end.
Definition unique (l : list E) : list E :=
  match l with [] => [] | x :: l' => x :: unique_from x l' end.

(** The constructor of EdgeNonTop (lattice_wrapper.hpp, lines 138-154): the
    smallest begin and the greatest end. *)
Fixpoint extent (l : list E) (max_start max_end : nat) : nat * nat :=
  match l with
  | [] => (max_start, max_end)
  | e :: l' =>
      extent l' (if beg e <? max_start then beg e else max_start)
                (if max_end <? beg e + len e then beg e + len e else max_end)
  end.

(** EdgeNonTop::operator() (lines 155-177). *)
Definition non_top (nontop : list E) (e : E) : bool :=
  let (max_start, max_end) := extent nontop last 0 in
  if max_start <? beg e then true
  else if beg e + len e <? max_end then true
  else existsb (fun x => (beg e =? beg x) && (len e =? len x)
                         && item_eqb (ann e) (ann x)) nontop.

(** The loop of getTopEdges (lattice_wrapper.cpp, lines 271-299). *)
Fixpoint top_loop (es : list E) (edges nontop : list E) (nontoken : bool)
    : list E * list E * bool :=
  match es with
  | [] => (edges, nontop, nontoken)
  | e :: es' =>
      if disc e then top_loop es' edges nontop nontoken
      else if tok e && blank e then top_loop es' edges nontop nontoken
      else top_loop es' (edges ++ [e])
                    (nontop ++ concat (parts e))
                    (if negb (tok e) then true else nontoken)
  end.

(** getTopEdges (lines 263-307). *)
Definition top_edges (v : nat) : list E :=
  let '(edges, nontop, nontoken) := top_loop (out v) [] [] false in
  let edges := filter (fun e => negb (non_top (unique nontop) e)) edges in
  if nontoken then filter (fun e => negb (tok e)) edges else edges.

(** The last edge that an iterator gives. *)
Fixpoint last_edge (e : E) (es : list E) : E :=
  match es with [] => e | e' :: es' => last_edge e' es' end.

(** What getVertex does first (lines 206-235): [inl v] when it returns, [inr v]
    when it goes on; None when the fuel is not enough. *)
Fixpoint jump (fuel k v : nat) : option (nat + nat) :=
  match k with
  | 0 => Some (inr v)
  | S k' =>
      match fuel with
      | 0 => None
      | S f =>
          match out v with
          | [] => if S v =? last then Some (inl last) else jump f k (S v)
          | e :: es =>
              if blank (last_edge e es) then
                if S v =? last then Some (inl last) else jump f k (S v)
              else
                let w := beg (last_edge e es) + len (last_edge e es) in
                if w =? last then Some (inl last) else jump f k' w
          end
      end
  end.

(** While there is no edge, go on (lines 236-243); [inl] as above. *)
Fixpoint skip (fuel v : nat) : option (nat + nat) :=
  match fuel with
  | 0 => None
  | S f => match out v with
           | [] => if last <=? S v then Some (inl last) else skip f (S v)
           | _ :: _ => Some (inr v)
           end
  end.

(** getVertex (lines 203-253). *)
Definition get_vertex (fuel k offset : nat) : option nat :=
  match jump fuel k offset with
  | None => None
  | Some (inl v) => Some v
  | Some (inr v) =>
      match skip fuel v with
      | None => None
      | Some (inl w) => Some w
      | Some (inr w) =>
          match out w with
          | [] => Some w
          | e :: _ => if blank e then Some (if S w =? last then last else S w)
                      else Some w
          end
      end
  end.

(** getEdgesRange (lines 309-350). *)
Fixpoint range_loop (fuel v stop : nat) (ranges : list (list E))
    : option (list (list E)) :=
  match fuel with
  | 0 => None
  | S f =>
      if stop <? v then Some ranges
      else match top_edges v with
           | [] => range_loop f (S v) stop ranges
           | e :: es =>
               let ranges' :=
                 match ranges with
                 | [] => map (fun x => [x]) (e :: es)
                 | _ => flat_map (fun x => map (fun s => s ++ [x]) ranges) (e :: es)
                 end in
               range_loop f (v + len e) stop ranges'
           end
  end.

Definition edges_range (fuel start stop : nat) : option (list (list E)) :=
  range_loop fuel start stop [].

(** The vertices at which generateSentenceString writes something, with the
    edges it writes there (rule_matcher.cpp, lines 119-185). *)
Fixpoint sentence (fuel v : nat) : list (nat * list E) :=
  match fuel with
  | 0 => []
  | S f =>
      if v <? last then
        match top_edges v with
        | [] => sentence f (S v)
        | e :: es => (v, e :: es) :: sentence f (beg e + len e)
        end
      else []
  end.

End Lattice.

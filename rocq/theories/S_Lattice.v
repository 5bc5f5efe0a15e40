(** What the theorems on the lattice are about: the lattices that a program can build
    by the public operations. *)
From Coq Require Import ZArith List Bool Lia.
From Verif Require Import M_Utf8 M_Tags M_Items M_Cutter M_Lattice P_Tags S_Utf8 P_Cutter.
Import ListNotations.
Local Open Scope nat_scope.

(** The public operations.  [TagCall] stands for the calls of the tag manager
    (createTagCollection and the like). *)
Inductive op :=
  | AppendString (t : list Z)
  | AddSymbols (a b : vertex)
  | AddLooseVertex
  | AddEdge (from to : vertex) (it : item) (t : collection) (s : sequence) (sc : score) (rule choice : Z)
  | AddPartition (d : desc) (t : collection) (s : sequence) (sc : score) (rule choice : Z)
  | Discard (d : desc)
  | OutEdges (v : vertex) (m : mask)
  | InEdges (v : vertex) (m : mask)
  | FirstOutEdge (v : vertex) (m : mask)
  | FirstInEdge (v : vertex) (m : mask)
  | ReadSequence (s : sequence)
  | TagCall (c : M_Tags.call).
Definition drop {A} (m : act A) : act unit := do _ <- m; ret tt.
(** A tag call that fails changes nothing. *)
Definition tag_call (c : M_Tags.call) : act unit :=
  change (fun L => match M_Tags.step (tags L) c with Some m => set_tags m L | None => L end).
Definition exec (o : op) : act unit :=
  match o with
  | AppendString t => append_string t
  | AddSymbols a b => add_symbols a b
  | AddLooseVertex => drop add_loose_vertex
  | AddEdge from to it t s sc rule choice => drop (add_edge from to it t s sc rule choice)
  | AddPartition d t s sc rule choice => drop (add_partition_to_edge d t s sc rule choice)
  | Discard d => discard d
  | OutEdges v m => drop (out_edges v m)
  | InEdges v m => drop (in_edges v m)
  | FirstOutEdge v m => drop (first_out_edge v m)
  | FirstInEdge v m => drop (first_in_edge v m)
  | ReadSequence s => drop (usages s)
  | TagCall c => tag_call c
  end.
(** A tag collection comes from the tag manager of the lattice. *)
Definition known_tags (L : lattice) (t : collection) : Prop := exists S, P_Tags.denotes (tags L) t S.
Definition allowed (L : lattice) (o : op) : Prop :=
  match o with
  | AddEdge _ _ _ t _ _ _ _ | AddPartition _ t _ _ _ _ => known_tags L t
  | OutEdges _ m | InEdges _ m | FirstOutEdge _ m | FirstInEdge _ m => P_Tags.made m
  | _ => True
  end.
(** Any sequence of calls with results in [P]. *)
Inductive reach (P : res unit -> Prop) : lattice -> lattice -> Prop :=
  | R_start L : reach P L L
  | R_call L1 L2 L3 o r : reach P L1 L2 -> allowed L2 o -> exec o L2 = (L3, r) -> P r -> reach P L1 L3.
(** Calls may throw; those that access memory out of bounds are excluded. *)
Definition defined (r : res unit) : Prop := r <> Undefined.
Definition lattice_of_program (L : lattice) : Prop := reach defined new_lattice L.

(** The edges of a lattice. *)
Definition is_edge (L : lattice) (d : desc) : Prop :=
  match d with Implicit p => bit (implicit L) p = true | Explicit e => e < length (edges L) end.

(** Programs that work on well-formed texts, with vertices between characters. *)
Definition place (L : lattice) (v : vertex) : Prop := match v with Text p => boundary (text L) p | Loose _ => True end.
Definition tidy_op (L : lattice) (o : op) : Prop :=
  match o with
  | AppendString t => well_formed t
  | AddSymbols a b => place L a /\ place L b
  | AddEdge a b _ _ _ _ _ _ => place L a /\ place L b
  | AddPartition d _ _ _ _ _ | Discard d => is_edge L d
  | OutEdges v _ | InEdges v _ | FirstOutEdge v _ | FirstInEdge v _ => place L v
  | AddLooseVertex | ReadSequence _ | TagCall _ => True
  end.
Inductive careful_program : lattice -> Prop :=
  | C_start : careful_program new_lattice
  | C_call L L' o r : careful_program L -> allowed L o -> tidy_op L o -> exec o L = (L', r) -> r <> Undefined ->
      careful_program L'.

(** What a caller can read of an edge. *)
Record kept (L L' : lattice) (d : desc) : Prop := {
  k_source : source L' d = source L d;
  k_target : target L' d = target L d;
  k_item : annotation_item L' d = annotation_item L d;
  k_tags : forall i, N.testbit (edge_tags L d) i = true -> N.testbit (edge_tags L' d) i = true;
  k_score : (edge_score L d <= edge_score L' d)%Z;
  k_partitions : exists ps, edge_partitions L' d = edge_partitions L d ++ ps
}.

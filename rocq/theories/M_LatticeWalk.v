(** Model of common/lattice.hpp and common/lattice.cpp, continued: the texts of edges and
    sequences, the builder of sequences, paths, the iteration over vertices and edges,
    and the appending of texts with symbols.  Cited lines are of lattice.cpp.
    An iteration is the list of what it gives; a change of the lattice other than a new
    index of a mask while it is in use is not modelled. *)
From Coq Require Import List ZArith NArith Bool Arith.
From Verif Require M_Tags M_Items.
From Verif Require Import M_Utf8 M_Cutter M_Lattice.
Import ListNotations.
Local Open Scope nat_scope.

(** Lines 595-604. *)
Definition edge_length (L : lattice) (d : desc) : res nat :=
  match d with
  | Implicit p => Ok (symbol_len L p)
  | Explicit _ =>
      match source L d, target L d with
      | Ok (Text p), Ok (Text q) => Ok (q - p)
      | Ok _, Ok _ => Throw WrongVertex
      | _, _ => Undefined
      end
  end.
(** Lines 632-637: getEdgeText; "@" for edges with loose vertices. *)
Definition edge_text (L : lattice) (d : desc) : res (list Z) :=
  match source L d, target L d with
  | Ok (Text p), Ok (Text _) =>
      match edge_length L d with
      | Ok n => if p <=? length (text L) then Ok (sub (text L) p n) else Undefined
      | Throw e => Throw e
      | Undefined => Undefined
      end
  | Ok _, Ok _ => Ok [64%Z]
  | _, _ => Undefined
  end.
Fixpoint edge_texts (L : lattice) (ds : list desc) : res (list Z) :=
  match ds with
  | [] => Ok []
  | d :: ds' =>
      match edge_text L d, edge_texts L ds' with
      | Ok a, Ok b => Ok (a ++ b)
      | Ok _, x => x
      | x, _ => x
      end
  end.
(** Lines 646-653: getSequenceText. *)
Definition sequence_text (s : sequence) : act (list Z) :=
  do us <- usages s; ask (fun L => edge_texts L (map fst us)).

(** Lines 606-610. *)
Definition edge_hidden (L : lattice) (d : desc) : bool :=
  match d with Implicit p => bit (hidden L) p && negb (bit (visible L) p) | Explicit _ => false end.

(** lattice.hpp lines 141-151 and lattice.cpp lines 1142-1169: Builder.  The positions of
    a hidden edge are those of its symbol. *)
Record builder := Builder { b_links : list usage; b_begin : nat; b_end : nat }.
Definition new_builder : builder := Builder [] 0 0.
Definition build_add (L : lattice) (b : builder) (u : usage) : builder :=
  let links' := b_links b ++ [u] in
  match fst u with
  | Implicit p =>
      if (b_begin b <=? b_end b) && edge_hidden L (fst u) then
        match b_links b with
        | [] => Builder links' p (p + symbol_len L p)
        | _ :: _ =>
            if p =? b_end b then Builder links' (b_begin b) (p + symbol_len L p)
            else Builder links' (b_begin b) 0
        end
      else Builder links' 1 0
  | Explicit _ => Builder links' 1 0
  end.
Definition build (b : builder) : sequence :=
  if b_begin b <? b_end b then Sequence [] (b_begin b) (b_end b) else Sequence (b_links b) 0 0.
Definition build_all (L : lattice) (us : list usage) : sequence := build (fold_left (build_add L) us new_builder).

(** Lines 1127-1129. *)
Definition sequence_empty (s : sequence) : bool :=
  match links s with [] => s_end s <=? s_begin s | _ => false end.
(** Lines 1131-1140: size. *)
Definition sequence_size (L : lattice) (s : sequence) : res nat :=
  match links s with
  | [] => match distance (sub (text L) (s_begin s) (s_end s - s_begin s)) with Some n => Ok n | None => Throw NotUtf8 end
  | us => Ok (length us)
  end.
(** Lines 1075-1091: nthEdge.  utf8::advance throws at the end. *)
Fixpoint advance (n : nat) (s : list Z) : option (list Z) :=
  match n with
  | O => Some s
  | S n' => match next s with Some (_, s') => advance n' s' | None => None end
  end.
Definition nth_edge (s : sequence) (i : nat) : act desc :=
  match links s with
  | [] =>
      fun L => let part := sub (text L) (s_begin s) (s_end s - s_begin s) in
               match advance i part with
               | None => (L, Throw NotUtf8)
               | Some rest => packed_edge (s_begin s + (length part - length rest)) L
               end
  | us => fun L => match nth_error us i with Some u => (L, Ok (fst u)) | None => (L, Undefined) end
  end.
(** Lines 1053-1073: firstEdge and lastEdge. *)
Definition first_edge (s : sequence) : act desc :=
  match links s with [] => packed_edge (s_begin s) | u :: _ => ret (fst u) end.
Definition last_edge (s : sequence) : act desc :=
  match links s with
  | [] => fun L => if length (text L) <? s_end s then (L, Throw NoVertex) else first_in_edge (Text (s_end s)) symbol_mask L
  | u :: us => ret (fst (last us u))
  end.

(** Lines 783-805: getPath; the last of the edges is taken.  [Undefined] also: no end
    within [n] rounds. *)
Fixpoint path_from (n : nat) (v : vertex) (m : mask) (b : builder) : act (builder * vertex) :=
  match n with
  | O => undefined
  | S n' =>
      do l <- out_edges v m;
      match l with
      | [] => ret (b, v)
      | d :: ds =>
          let best := last ds d in
          do b' <- ask (fun L => Ok (build_add L b (best, M_Items.ZNull)));
          do v' <- ask (fun L => target L best);
          path_from n' v' m b'
      end
  end.
Definition get_path (n : nat) (v : vertex) (m : mask) : act (sequence * vertex) :=
  do x <- path_from n v m new_builder; ret (build (fst x), snd x).

(** ** The iteration over vertices, lines 1296-1385 *)
(** Lines 1365-1370. *)
Definition should_be_skipped (skip : bool) (L : lattice) (p : nat) : res bool :=
  if negb skip then Ok false
  else match find_node L (Text p) with
       | Some _ => Ok false
       | None =>
           if bit (implicit L) p then Ok false
           else if p =? 0 then Ok true
           else match prior_vertex L p with
                | Ok q => Ok (negb (bit (implicit L) q))
                | Throw e => Throw e
                | Undefined => Undefined
                end
       end.
(** Lines 1328-1363 without loose vertices; [n] rounds are enough if n is greater than
    the number of bytes from p on. *)
Fixpoint text_vertices (n : nat) (skip : bool) (L : lattice) (p : nat) : res (list vertex) :=
  match n with
  | O => Ok []
  | S n' =>
      if p <=? length (text L) then
        match should_be_skipped skip L p with
        | Ok s =>
            match text_vertices n' skip L (if p <? length (text L) then p + symbol_len L p else S p) with
            | Ok l => Ok (if s then l else Text p :: l)
            | x => x
            end
        | Throw e => Throw e
        | Undefined => Undefined
        end
      else Ok []
  end.
(** Lines 1372-1385: the place of a vertex; [None]: no end within [n] rounds. *)
Definition max_place (a b : option Z) : option Z :=
  match a, b with Some x, Some y => Some (if Z.ltb x y then y else x) | _, _ => None end.
Fixpoint place_of (n : nat) (L : lattice) (v : vertex) : option Z :=
  match v with
  | Text p => Some (Z.of_nat p)
  | Loose _ =>
      match n with
      | O => None
      | S n' =>
          fold_left (fun m e => match nth_error (edges L) e with
                                | Some ed => max_place m (place_of n' L (e_from ed))
                                | None => None
                                end) (graph_in L v) (Some (-1)%Z)
      end
  end.
(** Lines 1313-1322: the text vertices without a vertex of the graph.  The last one is
    taken without asking. *)
Fixpoint other_vertices (n : nat) (skip : bool) (L : lattice) (p : nat) : res (list nat) :=
  match n with
  | O => Ok []
  | S n' =>
      if p <? length (text L) then
        match match find_node L (Text p) with Some _ => Ok true | None => should_be_skipped skip L p end with
        | Ok s =>
            match other_vertices n' skip L (p + symbol_len L p) with
            | Ok l => Ok (if s then l else p :: l)
            | x => x
            end
        | Throw e => Throw e
        | Undefined => Undefined
        end
      else Ok (match find_node L (Text p) with Some _ => [] | None => [p] end)
  end.
(** std::stable_sort by the second component. *)
Fixpoint insert_stable (x : vertex * Z) (l : list (vertex * Z)) : list (vertex * Z) :=
  match l with
  | [] => [x]
  | y :: l' => if Z.ltb (snd y) (snd x) then y :: insert_stable x l' else x :: l
  end.
Fixpoint stable_sort (l : list (vertex * Z)) : list (vertex * Z) :=
  match l with [] => [] | x :: l' => insert_stable x (stable_sort l') end.
Fixpoint with_places (n : nat) (L : lattice) (vs : list vertex) : option (list (vertex * Z)) :=
  match vs with
  | [] => Some []
  | v :: vs' =>
      match place_of n L v, with_places n L vs' with Some z, Some l => Some ((v, z) :: l) | _, _ => None end
  end.

Section Vertices.
(** boost::topological_sort (with a front_inserter) of the vertices and edges; [None]
    stands for the exception not_a_dag. *)
Variable topological_sort : list vertex -> list (vertex * vertex) -> option (list vertex).

(** Lines 1296-1326 and the enumeration. *)
Definition vertices (skip : bool) (L : lattice) : res (list vertex) :=
  if n_loose L =? 0 then text_vertices (S (S (length (text L)))) skip L 0
  else
    match topological_sort (map n_name (nodes L)) (map (fun e => (e_from e, e_to e)) (edges L)) with
    | None => Throw NotADag
    | Some order =>
        match with_places (S (length (nodes L))) L order with
        | None => Undefined
        | Some c1 =>
            match other_vertices (S (S (length (text L)))) skip L 0 with
            | Ok ps => Ok (map fst (stable_sort (c1 ++ map (fun p => (Text p, Z.of_nat p)) ps)))
            | Throw e => Throw e
            | Undefined => Undefined
            end
        end
    end.

(** Lines 98-104, 106-116. *)
Definition get_first_vertex : act vertex :=
  do l <- ask (fun L => all_in_edges L (Text 0));
  match l with
  | [] => ret (Text 0)
  | _ => do vs <- ask (vertices true); match vs with v :: _ => ret v | [] => throw NoVertex end
  end.
Definition get_last_vertex : act vertex :=
  do l <- ask (fun L => all_out_edges L (Text (length (text L))));
  match l with
  | [] => ask (fun L => Ok (Text (length (text L))))
  | _ => do vs <- ask (vertices true); match vs with v :: vs' => ret (last vs' v) | [] => undefined end
  end.
(** Lines 67-71: appendStringWithSymbols. *)
Definition append_with_symbols (t : list Z) : act unit :=
  do j <- get_last_vertex;
  do _ <- append_string t;
  do e <- get_last_vertex;
  add_symbols j e.

(** Lines 1433-1493: the edges in the order of their source (target); the list of edges of
    a vertex is asked for when the iteration gets there. *)
Fixpoint edges_of (get : vertex -> mask -> act (list desc)) (vs : list vertex) (m : mask) : act (list desc) :=
  match vs with
  | [] => ret []
  | v :: vs' => do l <- get v m; do ls <- edges_of get vs' m; ret (l ++ ls)
  end.
Definition edges_by_source (m : mask) : act (list desc) :=
  do vs <- ask (vertices true);
  do l <- out_edges (Text 0) m;
  match vs with [] => ret l | _ => edges_of out_edges vs m end.
Definition edges_by_target (m : mask) : act (list desc) :=
  do vs <- ask (vertices true);
  do l <- in_edges (Text 0) m;
  match vs with [] => ret l | _ => edges_of in_edges vs m end.
End Vertices.

(** ** Parents, lines 680-759 *)
(** getParent: the first edge of a partition that matches the mask.  The search stops
    there; the edges behind it are not looked at. *)
Fixpoint first_matching (L : lattice) (m : mask) (us : list usage) : option desc :=
  match us with
  | [] => None
  | u :: us' => if M_Tags.matches (edge_tags L (fst u)) m then Some (fst u) else first_matching L m us'
  end.
Fixpoint parent_in (ps : list partition) (m : mask) : act (option desc) :=
  match ps with
  | [] => ret None
  | p :: ps' =>
      do us <- usages (p_sequence p);
      do x <- ask (fun L => Ok (first_matching L m us));
      match x with Some d => ret (Some d) | None => parent_in ps' m end
  end.
Definition get_parent (d : desc) (m : mask) : act (option desc) :=
  do ps <- ask (fun L => Ok (edge_partitions L d)); parent_in ps m.

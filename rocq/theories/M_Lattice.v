(** Model of common/lattice.hpp and common/lattice.cpp.

    Representation.  A VertexDescriptor (an int) is [Text p] for p >= 0 and [Loose k]
    for -1-k.  A boost vertex is named by its field [index]; the map vertices_ is then
    the search for that name among the vertices of the graph.  A boost edge descriptor is
    the number of the edge in the order of insertion; out_edges and in_edges of an
    adjacency_list<vecS, vecS, bidirectionalS> are in this order too.  A dynamic_bitset is
    a list of bool.  A hash map is an association list; C11_hash and C09_mask_equal show
    that equal keys have equal hashes.  An iterator over edges is the list it gives; a
    change of the lattice while it is in use is not modelled.  A Score (a double) is its
    rank among the doubles, an integer; NaN is not modelled, nor texts of 2^31 bytes.
    An operation gives the new lattice and a result, because a call that throws may have
    changed the lattice already.  [Undefined]: behaviour outside of the C++ language (an
    index out of range) or a vertex which is not one of the lattice. *)
From Coq Require Import List ZArith NArith Bool Arith.
From Verif Require M_Tags M_Items.
From Verif Require Import M_Utf8 M_Cutter.
Import ListNotations.
Local Open Scope nat_scope.

Notation item := M_Items.item.
Notation zvalue := M_Items.zvalue.
Notation collection := M_Tags.collection.
Notation mask := M_Tags.mask.
Definition score := Z.

Inductive vertex := Text (p : nat) | Loose (k : nat).
Definition vertex_eqb (a b : vertex) : bool :=
  match a, b with Text p, Text q => p =? q | Loose k, Loose l => k =? l | _, _ => false end.
(** lattice.cpp lines 814-816. *)
Definition is_loose (v : vertex) : bool := match v with Text _ => false | Loose _ => true end.

(** lattice.hpp lines 199-231: EdgeDescriptor. *)
Inductive desc := Implicit (p : nat) | Explicit (e : nat).
Definition desc_eqb (a b : desc) : bool :=
  match a, b with Implicit p, Implicit q => p =? q | Explicit d, Explicit e => d =? e | _, _ => false end.

(** lattice.hpp lines 107-155, 246-256: EdgeUsage and EdgeSequence. *)
Definition usage : Type := desc * zvalue.
Record sequence := Sequence { links : list usage; s_begin : nat; s_end : nat }.
Definition empty_sequence : sequence := Sequence [] 0 0.
(** lattice.hpp lines 157-197. *)
Record partition := Partition { p_tags : collection; p_sequence : sequence; p_score : score; p_rule : Z; p_choice : Z }.
(** lattice.hpp lines 85-105, with the ends of the edge. *)
Record edge := Edge { e_from : vertex; e_to : vertex; e_item : item; e_tags : collection; e_score : score;
                      e_partitions : list partition }.
(** lattice.hpp lines 67-79. *)
Record node := Node { n_name : vertex; n_out : list (list nat); n_in : list (list nat) }.
Definition key : Type := vertex * vertex * item.
Definition key_eqb (a b : key) : bool :=
  vertex_eqb (fst (fst a)) (fst (fst b)) && vertex_eqb (snd (fst a)) (snd (fst b)) && M_Items.item_eqb (snd a) (snd b).
Definition pair_eqb (a b : vertex * vertex) : bool := vertex_eqb (fst a) (fst b) && vertex_eqb (snd a) (snd b).

(** lattice.hpp lines 684-736, 853-872. *)
Record lattice := Lattice {
  text : list Z;
  nodes : list node;
  edges : list edge;
  implicit : list bool;
  hidden : list bool;
  visible : list bool;
  n_loose : nat;
  vvc : list (key * list desc);
  counter : list (vertex * vertex * nat);
  masks : list mask;
  tags : M_Tags.manager
}.
Definition set_text x (L : lattice) : lattice :=
  Lattice x (nodes L) (edges L) (implicit L) (hidden L) (visible L) (n_loose L) (vvc L) (counter L) (masks L) (tags L).
Definition set_nodes x (L : lattice) : lattice :=
  Lattice (text L) x (edges L) (implicit L) (hidden L) (visible L) (n_loose L) (vvc L) (counter L) (masks L) (tags L).
Definition set_edges x (L : lattice) : lattice :=
  Lattice (text L) (nodes L) x (implicit L) (hidden L) (visible L) (n_loose L) (vvc L) (counter L) (masks L) (tags L).
Definition set_implicit x (L : lattice) : lattice :=
  Lattice (text L) (nodes L) (edges L) x (hidden L) (visible L) (n_loose L) (vvc L) (counter L) (masks L) (tags L).
Definition set_hidden x (L : lattice) : lattice :=
  Lattice (text L) (nodes L) (edges L) (implicit L) x (visible L) (n_loose L) (vvc L) (counter L) (masks L) (tags L).
Definition set_visible x (L : lattice) : lattice :=
  Lattice (text L) (nodes L) (edges L) (implicit L) (hidden L) x (n_loose L) (vvc L) (counter L) (masks L) (tags L).
Definition set_loose x (L : lattice) : lattice :=
  Lattice (text L) (nodes L) (edges L) (implicit L) (hidden L) (visible L) x (vvc L) (counter L) (masks L) (tags L).
Definition set_vvc x (L : lattice) : lattice :=
  Lattice (text L) (nodes L) (edges L) (implicit L) (hidden L) (visible L) (n_loose L) x (counter L) (masks L) (tags L).
Definition set_counter x (L : lattice) : lattice :=
  Lattice (text L) (nodes L) (edges L) (implicit L) (hidden L) (visible L) (n_loose L) (vvc L) x (masks L) (tags L).
Definition set_masks x (L : lattice) : lattice :=
  Lattice (text L) (nodes L) (edges L) (implicit L) (hidden L) (visible L) (n_loose L) (vvc L) (counter L) x (tags L).
Definition set_tags x (L : lattice) : lattice :=
  Lattice (text L) (nodes L) (edges L) (implicit L) (hidden L) (visible L) (n_loose L) (vvc L) (counter L) (masks L) x.

Inductive error :=
  | LoopEdge | ReversedEdge | SelfReference | NoEdge | NoVertex | WrongVertex | NotUtf8
  | NotADag (** boost::not_a_dag *).
Inductive res (A : Type) := Ok (a : A) | Throw (e : error) | Undefined.
Arguments Ok {A}. Arguments Throw {A}. Arguments Undefined {A}.
Definition act (A : Type) : Type := lattice -> lattice * res A.
Definition ret {A} (a : A) : act A := fun L => (L, Ok a).
Definition bind {A B} (m : act A) (f : A -> act B) : act B :=
  fun L => match m L with
           | (L', Ok a) => f a L'
           | (L', Throw e) => (L', Throw e)
           | (L', Undefined) => (L', Undefined)
           end.
Notation "'do' x <- m ; f" := (bind m (fun x => f)) (at level 200, x pattern, m at level 100, f at level 200).
(** A query that changes nothing. *)
Definition ask {A} (f : lattice -> res A) : act A := fun L => (L, f L).
Definition change (f : lattice -> lattice) : act unit := fun L => (f L, Ok tt).
Definition throw {A} (e : error) : act A := fun L => (L, Throw e).
Definition undefined {A} : act A := fun L => (L, Undefined).
(** try m catch (NoEdgeException) { } *)
Definition catch_no_edge (m : act unit) : act unit :=
  fun L => match m L with (L', Throw NoEdge) => (L', Ok tt) | r => r end.

Definition bit (l : list bool) (p : nat) : bool := nth p l false.
Fixpoint set_bit (l : list bool) (p : nat) (b : bool) : list bool :=
  match l, p with
  | [], _ => []
  | _ :: l', O => b :: l'
  | x :: l', S p' => x :: set_bit l' p' b
  end.
(** dynamic_bitset::resize, new bits are 0. *)
Definition resize (l : list bool) (n : nat) : list bool := l ++ repeat false (n - length l).

(** Lines 12-15 and layer_tag_manager.cpp line 7: the tags "symbol", "discarded" and
    "token" are registered by the constructor, in this order. *)
Definition DISCARDED : M_Tags.str := [100; 105; 115; 99; 97; 114; 100; 101; 100]%Z.
Definition TOKEN : M_Tags.str := [116; 111; 107; 101; 110]%Z.
Definition symbol_tag : collection := 1%N.
Definition discarded_tag : collection := 2%N.
Definition symbol_mask : mask := M_Tags.mask_of [1%N].
Definition token_mask : mask := M_Tags.mask_of [4%N].
(** Lines 12-22: the constructor. *)
Definition new_lattice : lattice :=
  Lattice [] [] [] [false] [false] [false] 0 [] [] []
    (M_Tags.Manager [M_Tags.SYMBOL; DISCARDED; TOKEN] 0%N).

(** Lines 945-949, 38-46. *)
Definition resize_structures (L : lattice) : lattice :=
  let n := length (text L) + 1 in
  set_implicit (resize (implicit L) n) (set_hidden (resize (hidden L) n) (set_visible (resize (visible L) n) L)).
Definition append_string (t : list Z) : act unit :=
  change (fun L => resize_structures (set_text (text L ++ t) L)).

Definition no_index (n : nat) : list (list nat) := repeat [] n.
(** Lines 73-86. *)
Definition add_loose_vertex : act vertex :=
  fun L => let v := Loose (n_loose L) in
           let n := length (masks L) in
           (set_loose (S (n_loose L)) (set_nodes (nodes L ++ [Node v (no_index n) (no_index n)]) L), Ok v).

(** vertices_.find. *)
Definition find_node (L : lattice) (v : vertex) : option node := find (fun n => vertex_eqb (n_name n) v) (nodes L).
Definition valid (L : lattice) (v : vertex) : bool :=
  match v with Text p => p <=? length (text L) | Loose k => k <? n_loose L end.

(** Lines 965-967. *)
Definition symbol_len (L : lattice) (p : nat) : nat := symbol_length (text L) p.
(** Lines 571-577, 977-989. *)
Definition source (L : lattice) (d : desc) : res vertex :=
  match d with
  | Implicit p => Ok (Text p)
  | Explicit e => match nth_error (edges L) e with Some ed => Ok (e_from ed) | None => Undefined end
  end.
Definition target (L : lattice) (d : desc) : res vertex :=
  match d with
  | Implicit p => Ok (Text (p + symbol_len L p))
  | Explicit e => match nth_error (edges L) e with Some ed => Ok (e_to ed) | None => Undefined end
  end.
(** Lines 564-569. *)
Definition edge_tags (L : lattice) (d : desc) : collection :=
  match d with
  | Implicit _ => symbol_tag
  | Explicit e => match nth_error (edges L) e with Some ed => e_tags ed | None => 0%N end
  end.
(** Lines 621-626, 612-619. *)
Definition edge_score (L : lattice) (d : desc) : score :=
  match d with
  | Implicit _ => 0%Z
  | Explicit e => match nth_error (edges L) e with Some ed => e_score ed | None => 0%Z end
  end.
Definition edge_partitions (L : lattice) (d : desc) : list partition :=
  match d with
  | Implicit _ => []
  | Explicit e => match nth_error (edges L) e with Some ed => e_partitions ed | None => [] end
  end.
(** Lines 550-562: the character is decoded and encoded again. *)
Definition annotation_item (L : lattice) (d : desc) : res item :=
  match d with
  | Implicit p =>
      match next (skipn p (text L)) with
      | Some (cp, _) =>
          match append cp with
          | Some s => Ok (M_Items.new_item (39%Z :: s) (sub (text L) p (symbol_len L p)))
          | None => Throw NotUtf8
          end
      | None => Throw NotUtf8
      end
  | Explicit e => match nth_error (edges L) e with Some ed => Ok (e_item ed) | None => Undefined end
  end.
(** Lines 951-963; [Throw NoVertex] at the beginning. *)
Definition prior_vertex (L : lattice) (p : nat) : res nat :=
  if p =? 0 then Throw NoVertex
  else match prior (firstn p (text L)) with
       | Some (cp, _) => match append cp with Some s => Ok (p - length s) | None => Throw NotUtf8 end
       | None => Throw NotUtf8
       end.

(** boost::out_edges and boost::in_edges. *)
Fixpoint numbers (f : edge -> bool) (i : nat) (es : list edge) : list nat :=
  match es with [] => [] | e :: es' => (if f e then [i] else []) ++ numbers f (S i) es' end.
Definition graph_out (L : lattice) (v : vertex) : list nat := numbers (fun e => vertex_eqb (e_from e) v) 0 (edges L).
Definition graph_in (L : lattice) (v : vertex) : list nat := numbers (fun e => vertex_eqb (e_to e) v) 0 (edges L).

(** Lines 916-943: addTagMaskIndex_. *)
Fixpoint mask_index (ms : list mask) (m : mask) : option nat :=
  match ms with
  | [] => None
  | x :: ms' => if M_Tags.mask_eqb x m then Some 0 else option_map S (mask_index ms' m)
  end.
Definition add_tag_mask_index (m : mask) : act nat :=
  fun L =>
    match mask_index (masks L) m with
    | Some i => (L, Ok i)
    | None =>
        let sel := filter (fun e => M_Tags.matches (edge_tags L (Explicit e)) m) in
        let up n := Node (n_name n) (n_out n ++ [sel (graph_out L (n_name n))]) (n_in n ++ [sel (graph_in L (n_name n))]) in
        (set_masks (masks L ++ [m]) (set_nodes (map up (nodes L)) L), Ok (length (masks L)))
    end.

Definition when (b : bool) (p : nat) : list desc := if b then [Implicit p] else [].
(** Lines 447-466: allOutEdges. *)
Definition all_out_edges (L : lattice) (v : vertex) : res (list desc) :=
  if valid L v then
    Ok (match v with
        | Loose _ => map Explicit (graph_out L v)
        | Text p =>
            when (bit (implicit L) p) p ++
            match find_node L v with Some _ => map Explicit (graph_out L v) | None => [] end
        end)
  else Undefined.
(** The implicit edge into a vertex (lines 418-425 and 477-484); only NoVertexException
    is caught. *)
Definition implicit_in (L : lattice) (p : nat) : res (list desc) :=
  match prior_vertex L p with
  | Ok q => Ok (when (bit (implicit L) q) q)
  | Throw NoVertex => Ok []
  | Throw e => Throw e
  | Undefined => Undefined
  end.
(** Lines 468-495: allInEdges. *)
Definition all_in_edges (L : lattice) (v : vertex) : res (list desc) :=
  if valid L v then
    match v with
    | Loose _ => Ok (map Explicit (graph_in L v))
    | Text p =>
        match implicit_in L p with
        | Ok i => Ok (i ++ match find_node L v with Some _ => map Explicit (graph_in L v) | None => [] end)
        | Throw e => Throw e
        | Undefined => Undefined
        end
    end
  else Undefined.
(** Lines 371-403: outEdges. *)
Definition indexed (get : node -> list (list nat)) (L : lattice) (v : vertex) (ix : nat) : list desc :=
  match find_node L v with Some n => map Explicit (nth ix (get n) []) | None => [] end.
Definition out_edges (v : vertex) (m : mask) : act (list desc) :=
  fun L0 =>
  if negb (valid L0 v) then (L0, Undefined)
  else if M_Tags.any m then ask (fun L => all_out_edges L v) L0
  else (do ix <- add_tag_mask_index m;
        ask (fun L =>
          Ok (match v with
              | Loose _ => []
              | Text p => when (M_Tags.can_be_applied_to_implicit_symbol m && bit (implicit L) p) p
              end ++ indexed n_out L v ix))) L0.
(** Lines 405-445: inEdges. *)
Definition in_edges (v : vertex) (m : mask) : act (list desc) :=
  fun L0 =>
  if negb (valid L0 v) then (L0, Undefined)
  else if M_Tags.any m then ask (fun L => all_in_edges L v) L0
  else (do ix <- add_tag_mask_index m;
        ask (fun L =>
          match v with
          | Loose _ => Ok (indexed n_in L v ix)
          | Text p =>
              match implicit_in L p with
              | Ok i => Ok ((if M_Tags.can_be_applied_to_implicit_symbol m then i else []) ++ indexed n_in L v ix)
              | Throw e => Throw e
              | Undefined => Undefined
              end
          end)) L0.
(** Lines 497-524. *)
Definition first {A} (l : list A) : act A := match l with x :: _ => ret x | [] => throw NoEdge end.
Definition first_out_edge (v : vertex) (m : mask) : act desc := do l <- out_edges v m; first l.
Definition first_in_edge (v : vertex) (m : mask) : act desc := do l <- in_edges v m; first l.

(** Lines 1090-1114: gatherPlaneTags. *)
Definition gather_plane_tags (L : lattice) (s : sequence) : collection :=
  match links s with
  | [] => 0%N
  | u :: us =>
      fold_left (fun c w => M_Tags.union c (M_Tags.only_planes (tags L) (edge_tags L (fst w)))) us
        (M_Tags.only_planes (tags L) (edge_tags L (fst u)))
  end.

(** Lines 1012-1050: the iteration over a sequence; the edge of a packed sequence at
    position [si] and the next position. *)
Definition packed_edge (si : nat) : act desc :=
  fun L => if length (text L) <? si then (L, Throw NoVertex) else first_out_edge (Text si) symbol_mask L.
(** [n] rounds are enough if n is at least end - si: a symbol has a length. *)
Fixpoint packed_edges (n si end_ : nat) : act (list usage) :=
  match n with
  | O => ret []
  | S n' =>
      if si <? end_ then
        fun L => (do d <- packed_edge si;
                  do ds <- packed_edges n' (si + symbol_len L si) end_;
                  ret ((d, M_Items.ZNull) :: ds)) L
      else ret []
  end.
Definition usages (s : sequence) : act (list usage) :=
  match links s with [] => packed_edges (s_end s - s_begin s) (s_begin s) (s_end s) | us => ret us end.
(** Lines 192-200: the search for the edge itself; it ends when it is found. *)
Fixpoint packed_search (n si end_ : nat) (d : desc) : act bool :=
  match n with
  | O => ret false
  | S n' =>
      if si <? end_ then
        fun L => (do x <- packed_edge si;
                  if desc_eqb x d then ret true else packed_search n' (si + symbol_len L si) end_ d) L
      else ret false
  end.
Definition refers_to (s : sequence) (d : desc) : act bool :=
  match links s with
  | [] => packed_search (s_end s - s_begin s) (s_begin s) (s_end s) d
  | us => ret (existsb (fun u => desc_eqb (fst u) d) us)
  end.

(** The hash maps. *)
Fixpoint lookup {K V} (eqb : K -> K -> bool) (m : list (K * V)) (k : K) : option V :=
  match m with [] => None | (x, v) :: m' => if eqb x k then Some v else lookup eqb m' k end.
Fixpoint adjust {K V} (eqb : K -> K -> bool) (m : list (K * V)) (k : K) (f : V -> V) : list (K * V) :=
  match m with [] => [] | (x, v) :: m' => if eqb x k then (x, f v) :: m' else (x, v) :: adjust eqb m' k f end.
(** insert: an existing entry stays. *)
Definition insert_new {K V} (eqb : K -> K -> bool) (m : list (K * V)) (k : K) (v : V) : list (K * V) :=
  match lookup eqb m k with Some _ => m | None => m ++ [(k, v)] end.

Definition push_vvc (k : key) (d : desc) (L : lattice) : lattice :=
  set_vvc (adjust key_eqb (vvc L) k (fun ds => ds ++ [d])) L.
(** Lines 222-228. *)
Definition count_edge (pr : vertex * vertex) (L : lattice) : lattice :=
  set_counter (adjust pair_eqb (insert_new pair_eqb (counter L) pr 0) pr S) L.

(** Lines 230-239: hidden edges become visible. *)
Definition make_visible (v : vertex) : act unit :=
  match v with
  | Text p => change (fun L => set_visible (set_bit (visible L) p true) L)
  | Loose _ => undefined
  end.
Definition update_visible (from to : vertex) (t : collection) : act unit :=
  if M_Tags.coll_eqb t symbol_tag then
    catch_no_edge (
      do _ <- first_out_edge from symbol_mask;
      do _ <- make_visible from;
      do ed <- first_in_edge to symbol_mask;
      do v <- ask (fun L => source L ed);
      make_visible v)
  else ret tt.

(** Lines 255-293: the vertex of the graph, added if it is not there. *)
Definition ensure_node (v : vertex) (L : lattice) : lattice :=
  match find_node L v with
  | Some _ => L
  | None => let n := length (masks L) in set_nodes (nodes L ++ [Node v (no_index n) (no_index n)]) L
  end.
(** Lines 307-315: the new edge [e] is put into the lists of the masks it matches. *)
Fixpoint push_index (t : collection) (e : nat) (ms : list mask) (ix : list (list nat)) : list (list nat) :=
  match ms, ix with
  | m :: ms', l :: ix' => (if M_Tags.matches t m then l ++ [e] else l) :: push_index t e ms' ix'
  | _, _ => ix
  end.
Definition index_edge (from to : vertex) (t : collection) (e : nat) (L : lattice) : lattice :=
  set_nodes
    (map (fun n =>
            let o := if vertex_eqb (n_name n) from then push_index t e (masks L) (n_out n) else n_out n in
            let i := if vertex_eqb (n_name n) to then push_index t e (masks L) (n_in n) else n_in n in
            Node (n_name n) o i) (nodes L)) L.
(** Lines 316-320. *)
Definition hide_between (from to : vertex) (L : lattice) : lattice :=
  match from, to with
  | Text p, Text q => set_hidden (fold_left (fun h i => set_bit h i true) (seq p (q - p)) (hidden L)) L
  | _, _ => L
  end.

(** Lines 241-324: the addition. *)
Definition insert_explicit (from to : vertex) (it : item) (t : collection) (s : sequence) (sc : score) (rule choice : Z)
  : act desc :=
  fun L0 =>
  let L := ensure_node to (ensure_node from L0) in
  let e := length (edges L) in
  let L1 := set_edges (edges L ++ [Edge from to it t sc [Partition t s sc rule choice]]) L in
  (push_vvc (from, to, it) (Explicit e) (hide_between from to (index_edge from to t e L1)), Ok (Explicit e)).
Definition is_implicit_symbol (L : lattice) (from to : vertex) (t : collection) : option nat :=
  match from, to with
  | Text p, Text q =>
      if M_Tags.coll_eqb t symbol_tag && (p + symbol_len L p =? q) && negb (bit (implicit L) p) then Some p else None
  | _, _ => None
  end.
Definition insert_edge (from to : vertex) (it : item) (t : collection) (s : sequence) (sc : score) (rule choice : Z)
  : act desc :=
  do _ <- change (count_edge (from, to));
  do _ <- update_visible from to t;
  fun L =>
    match is_implicit_symbol L from to t with
    | Some p => (push_vvc (from, to, it) (Implicit p) (set_implicit (set_bit (implicit L) p true) L), Ok (Implicit p))
    | None => insert_explicit from to it t s sc rule choice L
    end.

(** Lines 207-213. *)
Fixpoint update_edge (es : list edge) (n : nat) (f : edge -> edge) : list edge :=
  match es, n with
  | [], _ => []
  | e :: es', O => f e :: es'
  | e :: es', S n' => e :: update_edge es' n' f
  end.
Definition merge_into (t : collection) (s : sequence) (sc : score) (rule choice : Z) (ed : edge) : edge :=
  let t' := if M_Tags.coll_eqb t (e_tags ed) then t else M_Tags.union (e_tags ed) t in
  Edge (e_from ed) (e_to ed) (e_item ed) t' (if Z.ltb (e_score ed) sc then sc else e_score ed)
       (e_partitions ed ++ [Partition t' s sc rule choice]).

Definition reversed (from to : vertex) : bool := match from, to with Text p, Text q => q <? p | _, _ => false end.
(** Lines 125-339: addEdge. *)
Definition add_edge (from to : vertex) (it : item) (tags0 : collection) (s : sequence) (sc : score) (rule choice : Z)
  : act desc :=
  fun L =>
  let t := if M_Tags.is_empty (M_Tags.only_planes (tags L) tags0)
           then M_Tags.union tags0 (gather_plane_tags L s) else tags0 in
  if vertex_eqb from to then (L, Throw LoopEdge)
  else if reversed from to then (L, Throw ReversedEdge)
  else if negb (valid L from && valid L to) then (L, Undefined)
  else
    let k := (from, to, it) in
    let L1 := set_vvc (insert_new key_eqb (vvc L) k []) L in
    let ds := match lookup key_eqb (vvc L1) k with Some ds => ds | None => [] end in
    match find (fun d => M_Tags.same_plane (tags L) t (edge_tags L d)) ds with
    | None => insert_edge from to it t s sc rule choice L1
    | Some d =>
        (do self <- refers_to s d;
         if self then throw SelfReference
         else match d with
              | Explicit e =>
                  do _ <- change (fun L => set_edges (update_edge (edges L) e (merge_into t s sc rule choice)) L);
                  ret d
              | Implicit _ =>
                  do _ <- change (fun L => match from with
                                           | Text p => set_implicit (set_bit (implicit L) p false) L
                                           | Loose _ => L end);
                  insert_edge from to it (if M_Tags.coll_eqb t symbol_tag then t else M_Tags.union symbol_tag t)
                              s sc rule choice
              end) L1
    end.

(** Lines 341-361: addPartitionToEdge. *)
Definition add_partition_to_edge (d : desc) (t : collection) (s : sequence) (sc : score) (rule choice : Z) : act desc :=
  do pt <- ask (fun L => Ok (M_Tags.only_planes (tags L) (edge_tags L d)));
  do from <- ask (fun L => source L d);
  do to <- ask (fun L => target L d);
  do it <- ask (fun L => annotation_item L d);
  add_edge from to it (M_Tags.union t pt) s sc rule choice.
(** Lines 363-369; the lowest score. *)
Definition LOWEST : score := (- 2 ^ 63)%Z.
Definition discard (d : desc) : act unit :=
  do _ <- add_partition_to_edge d discarded_tag empty_sequence LOWEST (-1) (-1); ret tt.
Definition is_discarded (L : lattice) (d : desc) : bool := N.testbit (edge_tags L d) 1.

(** Lines 48-65: addSymbols; [n] rounds are enough if n is at least the number of bytes. *)
Fixpoint add_symbols_loop (n p : nat) (rest : list Z) : act unit :=
  match rest, n with
  | [], _ => ret tt
  | _ :: _, O => undefined
  | _ :: _, S n' =>
      match next rest with
      | None => throw NotUtf8
      | Some (cp, rest') =>
          match append cp with
          | None => throw NotUtf8
          | Some s =>
              do _ <- add_edge (Text p) (Text (p + length s)) (M_Items.new_item (39%Z :: s) []) symbol_tag
                               empty_sequence 0%Z (-1) (-1);
              add_symbols_loop n' (p + length s) rest'
          end
      end
  end.
Definition add_symbols (a b : vertex) : act unit :=
  match a, b with
  | Text p, Text q =>
      fun L => if (p <=? q) && (q <=? length (text L))
               then add_symbols_loop (q - p) p (sub (text L) p (q - p)) L
               else (L, Undefined)
  | _, _ => throw WrongVertex
  end.

(** Model of formats/psi/psi_reader/psi_lattice_reader.cpp lines 44-326: the lattice that is read
    from the lines of a PSI file.  What a line says is M_Psi.read; the lattice is that of M_Lattice.
    [None]: an exception leaves doRun (a wrong line, a wrong vertex, an unknown edge, too many tags,
    a failed call of the lattice), or memory is accessed out of bounds, or [fuel] is not enough for
    a walk over symbols.
    createTagCollection is called again for a partition that has the tags of the edge, which gives
    the same tags.  Simplifications: a score is a number of M_Lattice; ints have no bounds here; the warnings are
    left out.  Cited lines are of psi_lattice_reader.cpp. *)
From Coq Require Import String Ascii List ZArith NArith Bool Arith.
From Verif Require M_Tags M_Items.
From Verif Require Import M_Quoter M_Cutter M_Lattice M_LatticeWalk.
From Verif Require M_Psi M_PsiFile.
Import ListNotations.
Local Open Scope nat_scope.

Notation line := (M_Psi.line score).
(** std::string as the bytes of M_Lattice. *)
Definition raw (s : str) : list Z := M_Psi.bytes s.

(** A call that must not throw. *)
Definition run {A} (m : act A) (L : lattice) : option (lattice * A) :=
  match m L with (L', Ok a) => Some (L', a) | _ => None end.
Notation "'get' x <- m ; f" := (match m with Some x => f | None => None end) (at level 200, x pattern, m at level 100, f at level 200).

(** createTagCollection and isThere of the tag manager of the lattice. *)
Definition make_tags (ns : list str) (L : lattice) : option (lattice * collection) :=
  get (m, c) <- M_Tags.create (tags L) (map raw ns); Some (set_tags m L, c).
Definition there (n : M_Tags.str) (c : collection) (L : lattice) : option (lattice * bool) :=
  get (m, b) <- M_Tags.is_there (tags L) n c; Some (set_tags m L, b).
(** The tag of a byte that is in no edge: U+2205 in UTF-8. *)
Definition NO_EDGE : M_Tags.str := [226; 136; 133]%Z.
(** psi_lattice_reader.hpp line 376. *)
Definition PLACEHOLDER : Z := 63.

(** Lines 85-87: the text, filled up with blanks in front. *)
Definition form (l : line) : list Z :=
  let t := raw (M_Psi.n_text l) in repeat 32%Z (Z.to_nat (M_Psi.n_length l) - length t) ++ t.
(** std::string::substr to the end; [None]: std::out_of_range.  A negative number is a great one. *)
Definition tail (n : Z) (s : list Z) : option (list Z) :=
  if (n <? 0)%Z || (Z.of_nat (length s) <? n)%Z then None else Some (skipn (Z.to_nat n) s).
(** lattice.cpp lines 88-96. *)
Definition vertex_at (L : lattice) (i : Z) : option vertex :=
  if (i <? 0)%Z || (Z.of_nat (length (text L)) <? i)%Z then None else Some (Text (Z.to_nat i)).
(** std::map<int, ...>: the newest entry first. *)
Fixpoint at_key {V} (m : list (Z * V)) (k : Z) : option V :=
  match m with [] => None | (x, v) :: m' => if Z.eqb x k then Some v else at_key m' k end.

Section Reader.
Variable topological_sort : list vertex -> list (vertex * vertex) -> option (list vertex).
Notation append_with_symbols := (append_with_symbols topological_sort).

(** getVertexRawCharIndex(getLastVertex()): a loose vertex has no index. *)
Definition end_index (L : lattice) : option (lattice * nat) :=
  get (L', v) <- run (get_last_vertex topological_sort) L;
  match v with Text p => Some (L', p) | Loose _ => None end.
(** Lines 94-114. *)
Definition fill_up (b : Z) (L0 : lattice) : option lattice :=
  get (L, p) <- end_index L0;
  if (Z.of_nat p <? b)%Z then
    get (L1, q) <- end_index L;
    get (L2, _) <- run (append_with_symbols (repeat PLACEHOLDER (Z.to_nat (b - Z.of_nat q)))) L1;
    Some L2
  else Some L.
(** Lines 92-133; [bare]: the partitions are "[]". *)
Definition append_line (bare : bool) (tg : collection) (l : line) (L : lattice) : option lattice :=
  if M_Psi.n_loose l then Some L
  else
    get L1 <- fill_up (M_Psi.n_beginning l) L;
    get (L2, s) <- there M_Tags.SYMBOL tg L1;
    get (L3, e) <- (if s then Some (L2, false) else there NO_EDGE tg L2);
    get (L4, p) <- end_index L3;
    match tail (Z.of_nat p - M_Psi.n_beginning l) (form l) with
    | None => Some L4
    | Some t => get (L5, _) <- run (if s || e || bare then append_string t else append_with_symbols t) L4; Some L5
    end.

(** What is kept from line to line: the lattice, the names of the attributes, looseVertices and
    edgeOrdinalMap. *)
Record state := State { lat : lattice; attrs : M_Items.manager; loose : list (Z * vertex); known : list (Z * desc) }.

(** Lines 142-147. *)
Definition loose_vertex (k : Z) (m : list (Z * vertex)) (L : lattice) : option (lattice * list (Z * vertex) * vertex) :=
  match at_key m k with
  | Some v => Some (L, m, v)
  | None => get (L', v) <- run add_loose_vertex L; Some (L', (k, v) :: m, v)
  end.
(** Lines 140-150. *)
Definition source_of (l : line) (m : list (Z * vertex)) (L : lattice) : option (lattice * list (Z * vertex) * vertex) :=
  if M_Psi.n_loose l then loose_vertex (M_Psi.n_beginning l) m L
  else get v <- vertex_at L (M_Psi.n_beginning l); Some (L, m, v).
(** Lines 155-176. *)
Definition target_of (l : line) (m : list (Z * vertex)) (L : lattice) : option (lattice * list (Z * vertex) * vertex) :=
  if M_Psi.n_point l then
    if M_Psi.n_length_loose l then loose_vertex (M_Psi.n_length l) m L
    else get v <- vertex_at L (M_Psi.n_length l); Some (L, m, v)
  else if M_Psi.n_length_loose l then None
  else get v <- vertex_at L (M_Psi.n_beginning l + M_Psi.n_length l); Some (L, m, v).

(** Lines 181-202. *)
Fixpoint with_values (m : M_Items.manager) (it : item) (vs : list (str * str)) : option (M_Items.manager * item) :=
  match vs with
  | [] => Some (m, it)
  | (a, v) :: vs' => get (m', it') <- M_Items.set_value m it (raw a) (raw v); with_values m' it' vs'
  end.
Definition item_of (m : M_Items.manager) (l : line) : option (M_Items.manager * item) :=
  with_values m (M_Items.new_item (raw (M_Psi.n_category l)) (raw (M_Psi.n_item_text l))) (M_Psi.n_values l).

(** Lines 216-225. *)
Fixpoint over_symbols (fuel : nat) (v to : vertex) (b : builder) (L : lattice) : option (lattice * builder) :=
  if vertex_eqb v to then Some (L, b)
  else match fuel with
       | O => None
       | S f =>
           match first_out_edge v symbol_mask L with
           | (L1, Ok d) =>
               match target L1 d with
               | Ok w => over_symbols f w to (build_add L1 b (d, M_Items.ZNull)) L1
               | _ => None
               end
           | (L1, Throw NoEdge) => get (L2, _) <- run (add_symbols v to) L1; over_symbols f v to b L2
           | _ => None
           end
       end.
(** Lines 250-276. *)
Definition sub_edge (kn : list (Z * desc)) (to : vertex) (n : Z) (v : vertex) (L : lattice) : option (lattice * desc) :=
  if (n <? 1)%Z then if vertex_eqb v to then None else run (first_out_edge v symbol_mask) L
  else get d <- at_key kn n; Some (L, d).
Definition role_of (r : str) : M_Items.zvalue := match r with [] => M_Items.ZNull | _ => M_Items.from_string (raw r) end.
(** Lines 246-279; the vertex is that where the edges end. *)
Fixpoint sub_edges (kn : list (Z * desc)) (to : vertex) (us : list (Z * str)) (v : vertex) (b : builder) (L : lattice)
  : option (lattice * vertex * builder) :=
  match us with
  | [] => Some (L, v, b)
  | (n, r) :: us' =>
      get (L1, d) <- sub_edge kn to n v L;
      match target L1 d with
      | Ok w => sub_edges kn to us' w (build_add L1 b (d, role_of r)) L1
      | _ => None
      end
  end.
(** psi_lattice_reader.hpp, PsiLRPartitionElements: a sequence, tags and a score. *)
Record element := Element { el_sequence : sequence; el_tags : collection; el_score : score }.
(** Lines 240-290: the vertex is not set back in front of the next partition. *)
Fixpoint elements (kn : list (Z * desc)) (to : vertex) (ps : list (M_Psi.read_part score)) (v : vertex) (L : lattice)
  : option (lattice * list element) :=
  match ps with
  | [] => Some (L, [])
  | p :: ps' =>
      get (L1, w, b) <- sub_edges kn to (M_Psi.rp_edges p) v new_builder L;
      get (L2, c) <- make_tags (M_Psi.rp_tags p) L1;
      get (L3, es) <- elements kn to ps' w L2;
      Some (L3, Element (build b) c (M_Psi.rp_score p) :: es)
  end.
(** Lines 207-302. *)
Definition content_of (fuel : nat) (kn : list (Z * desc)) (from to : vertex) (tg : collection) (l : line) (L : lattice)
  : option (lattice * list element) :=
  match M_Psi.n_content l with
  | M_Psi.from_symbols =>
      get (L1, s) <- there M_Tags.SYMBOL tg L;
      get (L2, b) <- (if s then Some (L1, new_builder) else over_symbols fuel from to new_builder L1);
      Some (L2, [Element (build b) tg (M_Psi.n_score l)])
  | M_Psi.of_parts ps => elements kn to ps from L
  end.
(** Lines 306-315. *)
Fixpoint add_elements (from to : vertex) (it : item) (n : Z) (es : list element) (kn : list (Z * desc)) (L : lattice)
  : option (lattice * list (Z * desc)) :=
  match es with
  | [] => Some (L, kn)
  | e :: es' =>
      get (L1, d) <- run (add_edge from to it (el_tags e) (el_sequence e) (el_score e) (-1) (-1)) L;
      add_elements from to it n es' ((n, d) :: kn) L1
  end.

(** Lines 80-315: a line. *)
Definition read_line (fuel : nat) (bare : bool) (l : line) (st : state) : option state :=
  get (L1, tg) <- make_tags (M_Psi.n_tags l) (lat st);
  get L2 <- append_line bare tg l L1;
  get (L3, e) <- there NO_EDGE tg L2;
  if e then Some (State L3 (attrs st) (loose st) (known st))
  else
    get (L4, m1, from) <- source_of l (loose st) L3;
    get (L5, m2, to) <- target_of l m1 L4;
    get (at', it) <- item_of (attrs st) l;
    get (L6, es) <- content_of fuel (known st) from to tg l L5;
    get (L7, kn) <- add_elements from to it (M_Psi.n_ordinal l) es (known st) L6;
    Some (State L7 at' m2 kn).
Fixpoint read_lines (fuel : nat) (ls : list (bool * line)) (st : state) : option state :=
  match ls with
  | [] => Some st
  | (b, l) :: ls' => get st' <- read_line fuel b l st; read_lines fuel ls' st'
  end.

(** ** The file *)
Variable scan : M_Psi.parser score.
(** Line 118: item.annotationItem.partitions == "[]", with the quotes taken away. *)
Definition is_bare (s : str) : bool :=
  match M_Psi.line_ 0%Z scan s with
  | Some (i, _) =>
      match M_Psi.unquote (M_Psi.an_parts (M_Psi.i_annotation i)) with
      | Some p => if list_eq_dec ascii_dec p (M_Psi.lit "[]") then true else false
      | None => false
      end
  | None => false
  end.
(** Lines 56-324. *)
Fixpoint read_file (fuel : nat) (ss : list str) (st : state) : option state :=
  match ss with
  | [] => Some st
  | s :: ss' =>
      match M_Psi.read 0%Z scan s with
      | M_Psi.Skipped => read_file fuel ss' st
      | M_Psi.Got l => get st' <- read_line fuel (is_bare s) l st; read_file fuel ss' st'
      | _ => None
      end
  end.
End Reader.
(** An empty lattice; the attributes it begins with are [a]. *)
Definition start (a : M_Items.manager) : state := State new_lattice a [] [].

(** ** The lines of M_PsiFile *)
(** psi_lattice_writer.cpp lines 145-175: the line of a byte without an edge has the cells of such an
    edge; it has no partitions in brackets. *)
Definition bare_cells (n i : N) (c : ascii) : list str :=
  [M_Psi.decimal_wide 2 n; M_Psi.decimal_wide 4 i; M_Psi.lit "01"; M_Psi.quote [c]; M_Psi.NONE; M_Psi.NONE; M_Psi.NONE].
(** The line; [None]: utf8::distance throws. *)
Definition row_text {E} (same : score -> score -> bool) (show : score -> str) (r : M_PsiFile.row score E) : option str :=
  match r with
  | M_PsiFile.RowOf _ l => M_Psi.write same 0%Z show l
  | M_PsiFile.Bare n i c => M_Psi.row 0 M_Psi.ALIGNMENTS (bare_cells n i c)
  end.
Fixpoint file_text {E} (same : score -> score -> bool) (show : score -> str) (rs : list (M_PsiFile.row score E)) : option (list str) :=
  match rs with
  | [] => Some []
  | r :: rs' => get s <- row_text same show r; get ss <- file_text same show rs'; Some (s :: ss)
  end.

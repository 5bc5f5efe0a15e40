(** Model of common/lattice.cpp, continued: the run of a cutter (a tokenizer or a
    segmenter) over the lattice.  Cited lines are of lattice.cpp.
    A cutter is its state and the functions reset and cutOff; cutOff gives the new state,
    the item and the new position ([None]: std::string::npos), or [None] for an exception.
    The result [Ok None] of an action: the cutter or the tag manager has thrown.
    A StringFrag is the text it stands for. *)
From Coq Require Import List ZArith NArith Bool Arith.
From Verif Require M_Tags M_Items.
From Verif Require Import M_Utf8 M_Cutter M_Lattice M_LatticeWalk.
Import ListNotations.
Local Open Scope nat_scope.

(** Lines 1007-1050: EdgeSequence::Iterator between two calls: what is left of the links, or
    the position in the text and the end of a packed sequence. *)
Inductive cursor := AtLinks (us : list usage) | AtText (si end_ : nat).
Definition cursor_of (s : sequence) : cursor :=
  match links s with [] => AtText (s_begin s) (s_end s) | us => AtLinks us end.
(** hasNext and next; [None]: there is no next edge. *)
Definition next_edge (c : cursor) : act (option (desc * cursor)) :=
  match c with
  | AtLinks [] => ret None
  | AtLinks (u :: us) => ret (Some (fst u, AtLinks us))
  | AtText si e =>
      if si <? e then fun L => (do d <- packed_edge si; ret (Some (d, AtText (si + symbol_len L si) e))) L
      else ret None
  end.

(** Lines 1270-1285: cutSequenceByTextLength_.  [n] rounds are enough if n is greater than
    the length: the text of an edge of the sequence has a length. *)
Fixpoint take_length (n : nat) (c : cursor) (gathered len : nat) (b : builder) : act (builder * cursor) :=
  match n with
  | O => undefined
  | S n' =>
      if gathered <? len then
        do x <- next_edge c;
        match x with
        | None => ret (b, c)
        | Some (d, c') =>
            do b' <- ask (fun L => Ok (build_add L b (d, M_Items.ZNull)));
            do t <- ask (fun L => edge_text L d);
            take_length n' c' (gathered + length t) len b'
        end
      else ret (b, c)
  end.
Definition cut_sequence (c : cursor) (len : nat) : act (sequence * cursor) :=
  do x <- take_length (S len) c 0 len new_builder; ret (build (fst x), snd x).

(** Lines 1229-1235. *)
Definition first_sequence_vertex (s : sequence) : act vertex := do d <- first_edge s; ask (fun L => source L d).
Definition last_sequence_vertex (s : sequence) : act vertex := do d <- last_edge s; ask (fun L => target L d).

Section Cut.
Context {St : Type}.
Variable cut : St -> list Z -> nat -> option (St * item * option nat).
Variable reset : St -> St.
(** Cutter::layerTags. *)
Variable layer_tags : list M_Tags.str.

(** Lines 1251-1267: the loop.  [n] rounds are enough if n is at least the length of the
    text and the cutter advances. *)
Fixpoint cut_loop (n : nat) (st : St) (t : list Z) (pos : nat) (c : cursor) (tg : collection) : act (option St) :=
  match n with
  | O => undefined
  | S n' =>
      match cut st t pos with
      | None => ret None
      | Some (st', it, pos') =>
          let end_ := match pos' with Some p => p | None => length t end in
          do x <- cut_sequence c (end_ - pos);
          let '(s, c') := x in
          do a <- first_sequence_vertex s;
          do b <- last_sequence_vertex s;
          do _ <- add_edge a b it tg s 0%Z (-1) (-1);
          match pos' with
          | Some p => if p <? length t then cut_loop n' st' t p c' tg else ret (Some st')
          | None => ret (Some st')
          end
      end
  end.

(** Line 1249: createTagCollection. *)
Definition create_tags : act (option collection) :=
  fun L => match M_Tags.create (tags L) layer_tags with
           | Some (m, c) => (set_tags m L, Ok (Some c))
           | None => (L, Ok None)
           end.
(** Lines 1237-1268: runCutterOnEdge_; [n] rounds for the path. *)
Definition run_on_edge (n : nat) (st : St) (d : desc) (m : mask) : act (option St) :=
  do v <- ask (fun L => source L d);
  do x <- get_path n v m;
  let s := fst x in
  if sequence_empty s then ret (Some st)
  else
    do t <- sequence_text s;
    do tg <- create_tags;
    match tg with
    | None => ret None
    | Some tg => cut_loop (length t) st t 0 (cursor_of s) tg
    end.
(** Lines 763-770: runCutter over the edges [ds]. *)
Fixpoint run_on_edges (n : nat) (st : St) (ds : list desc) (m : mask) : act (option St) :=
  match ds with
  | [] => ret (Some st)
  | d :: ds' =>
      do x <- run_on_edge n (reset st) d m;
      match x with None => ret None | Some st' => run_on_edges n st' ds' m end
  end.
(** The edges that match superMask are taken before the cutter runs; with a cutter whose
    tags match superMask the code goes on over lists that change. *)
Definition run_cutter (topo : list vertex -> list (vertex * vertex) -> option (list vertex))
  (n : nat) (st : St) (m super_mask : mask) : act (option St) :=
  do ds <- edges_by_source topo super_mask; run_on_edges n st ds m.
End Cut.

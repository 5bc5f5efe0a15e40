(** Model of the run of formats/psi/psi_writer/psi_lattice_writer.cpp over a lattice: which
    lines it writes.  The lines themselves are those of M_Psi.
    The lattice is a set of queries that do not change it (an index of a mask may be added,
    which changes no answer, C17).  Cited lines are of psi_lattice_writer.cpp. *)
From Coq Require Import String Ascii List NArith ZArith Bool Arith.
From Verif Require Import M_Quoter M_Psi.
From Verif Require M_Utf8.
Import ListNotations.
Local Open Scope N_scope.

Section Writer.
Context {Sc E : Type}.
Variable zero : Sc.
Variable eqb : E -> E -> bool.
(** edgesSortedByTarget(anyTag()), isEdgeHidden, getEdgeSource, getEdgeTarget. *)
Variable order : list E.
Variable is_hidden : E -> bool.
Variables from to : E -> vertex.
(** firstOutEdge(getVertexForRawCharIndex(i), getSymbolMask()); [None]: NoEdgeException. *)
Variable raw : N -> option E.
(** getAllText; getEdgeText of an edge between vertices of the text. *)
Variable all_text : str.
Variable text_of : E -> str.
(** isThere("symbol", getEdgeLayerTags(e)). *)
Variable is_symbol : E -> bool.
(** getTagNames, the text and the category of the item, getEdgeScore, getValues. *)
Record info := Info { in_tags : list str; in_text : str; in_category : str; in_score : Sc; in_values : list (str * str) }.
Variable info_of : E -> info.
(** getEdgePartitions: the edges with their roles, the tags and the score. *)
Record division := Division { dv_links : list (E * option str); dv_tags : list str; dv_score : Sc }.
Variable divisions : E -> list division.

(** A line for an edge (which one is noted for the theorems), or for a byte of the text
    without a symbol (lines 145-175). *)
Inductive row := RowOf (e : E) (l : edge Sc) | Bare (n : N) (i : N) (c : ascii).
(** edgeOrdinalMap (the newest entry first), ordinal, latticeTextCovered, the lines so far. *)
Record state := State { numbers : list (E * N); last_number : N; covered : str; rows : list row }.
Definition start : state := State [] 0 [] [].
Fixpoint number_of (m : list (E * N)) (e : E) : option N :=
  match m with [] => None | (d, n) :: m' => if eqb d e then Some n else number_of m' e end.
Definition size {A} (s : list A) : N := N.of_nat (List.length s).

(** Lines 107-142: the line of a symbol in a gap. *)
Definition symbol_row (n i : N) (r : E) : row :=
  RowOf r (Edge n (At i) (to r) (match to r with At q => q - i | Free _ => 0 end) (text_of r) true [lit "symbol"]
             (in_text (info_of r)) (in_category (info_of r)) zero [] []).
(** Lines 103-178: the gap in front of the edge; [fuel] is enough if it is greater than limit - i.
    [None]: the symbol ends at a loose vertex (WrongVertexException). *)
Fixpoint fill (fuel : nat) (i limit : N) (st : state) : option state :=
  match fuel with
  | O => None
  | S f =>
      if i <? limit then
        let n := last_number st + 1 in
        match raw i with
        | Some r =>
            match to r with
            | At q => fill f q limit (State ((r, n) :: numbers st) n (covered st ++ quote (text_of r)) (rows st ++ [symbol_row n i r]))
            | Free _ => None
            end
        | None =>
            let c := nth (N.to_nat i) all_text Ascii.zero in
            fill f (i + 1) limit (State (numbers st) n (covered st ++ [c]) (rows st ++ [Bare n i c]))
        end
      else Some st
  end.

(** Lines 222-257: what is put behind "..." or the whole text; [None]: utf8::distance throws. *)
Definition printed (t : str) (whole : bool) : option str :=
  let q := quote t in
  match M_Utf8.distance (bytes q) with
  | None => None
  | Some n =>
      Some (if (n =? 0)%nat then []
            else if (13 <? n)%nat && negb whole then skipn (List.length q - last_chars 3 (bytes q)) q
            else q)
  end.
(** Lines 258-264: std::out_of_range is caught; a negative difference is a great number. *)
Definition cover (e : E) (p : str) (c : str) : str :=
  match from e, to e with
  | At s, At _ => if (s <=? size c) && (size c - s <=? size p) then c ++ skipn (N.to_nat (size c - s)) p else c
  | _, _ => c
  end.
(** Lines 216-220. *)
Definition shown_text (e : E) : str :=
  match from e, to e with At _, At _ => text_of e | _, _ => in_text (info_of e) end.
(** Lines 227-234. *)
Definition write_whole (e : E) (c : str) : bool :=
  match from e, to e with At _, At q => size c <? q | _, _ => false end.

(** Lines 315-383: the edges of the partitions; [pr] is the recursive call. *)
Section Links.
Variable pr : E -> state -> option state.
Definition link_of (u : E * option str) (n : option N) : link := Link n (snd u) (is_hidden (fst u)).
Definition one_link (u : E * option str) (st : state) : option (link * state) :=
  match number_of (numbers st) (fst u) with
  | Some n => Some (link_of u (Some n), st)
  | None =>
      if is_symbol (fst u) then Some (link_of u None, st)
      else match pr (fst u) st with
           | Some st' => Some (link_of u (number_of (numbers st') (fst u)), st')
           | None => None
           end
  end.
Fixpoint all_links (us : list (E * option str)) (st : state) : option (list link * state) :=
  match us with
  | [] => Some ([], st)
  | u :: us' =>
      match one_link u st with
      | None => None
      | Some (l, st1) => match all_links us' st1 with Some (ls, st2) => Some (l :: ls, st2) | None => None end
      end
  end.
Fixpoint all_parts (ds : list division) (st : state) : option (list (part Sc) * state) :=
  match ds with
  | [] => Some ([], st)
  | d :: ds' =>
      match all_links (dv_links d) st with
      | None => None
      | Some (ls, st1) =>
          match all_parts ds' st1 with
          | Some (ps, st2) => Some (Part ls (dv_tags d) (dv_score d) :: ps, st2)
          | None => None
          end
      end
  end.
End Links.
Definition edge_row (e : E) (n : N) (whole : bool) (ps : list (part Sc)) : edge Sc :=
  let i := info_of e in
  Edge n (from e) (to e) (match from e, to e with At s, At q => q - s | _, _ => 0 end) (shown_text e) whole
    (in_tags i) (in_text i) (in_category i) (in_score i) (in_values i) ps.
(** Lines 93-399: printEdge; [None]: an exception, or the recursion is deeper than [fuel]. *)
Fixpoint print_edge (fuel : nat) (e : E) (st : state) : option state :=
  match fuel with
  | O => None
  | S f =>
      match match from e, to e with
            | At s, At _ => fill (S (N.to_nat s)) (size (covered st)) s st
            | _, _ => Some st
            end with
      | None => None
      | Some st1 =>
          let whole := write_whole e (covered st1) in
          match printed (shown_text e) whole with
          | None => None
          | Some p =>
              match all_parts (print_edge f) (divisions e) (State (numbers st1) (last_number st1) (cover e p (covered st1)) (rows st1)) with
              | None => None
              | Some (ps, st2) =>
                  let n := last_number st2 + 1 in
                  Some (State ((e, n) :: numbers st2) n (covered st2) (rows st2 ++ [RowOf e (edge_row e n whole ps)]))
              end
          end
      end
  end.
(** Lines 74-87. *)
Fixpoint print_all (fuel : nat) (es : list E) (st : state) : option state :=
  match es with
  | [] => Some st
  | e :: es' =>
      match number_of (numbers st) e with
      | Some _ => print_all fuel es' st
      | None =>
          if is_hidden e then print_all fuel es' st
          else match print_edge fuel e st with Some st' => print_all fuel es' st' | None => None end
      end
  end.
(** doRun without the header: the lines. *)
Definition written (fuel : nat) : option (list row) := option_map rows (print_all fuel order start).
End Writer.
Arguments info : clear implicits.
Arguments division : clear implicits.
Arguments row : clear implicits.
Arguments state : clear implicits.

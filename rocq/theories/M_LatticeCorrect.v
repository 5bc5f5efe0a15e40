(** Model of common/lattice.cpp, continued: the corrections of the text of a lattice.
    Cited lines are of lattice.cpp.  A local variable without a value is [None]; reading
    it is [Undefined]. *)
From Coq Require Import List ZArith NArith Bool Arith.
From Verif Require M_Tags M_Items.
From Verif Require Import M_Utf8 M_Cutter M_Lattice.
Import ListNotations.
Local Open Scope nat_scope.

(** AnnotationItem("'" + symbol, StringFrag(symbol)). *)
Definition symbol_item (s : list Z) : item := M_Items.new_item (39%Z :: s) s.
(** addEdge with the symbol tag and the defaults of lattice.hpp lines 460-467. *)
Definition add_symbol_edge (from to : vertex) (it : item) : act desc :=
  add_edge from to it symbol_tag empty_sequence 0%Z (-1) (-1).
(** try m catch (NoEdgeException) h *)
Definition on_no_edge (m h : act unit) : act unit :=
  fun L => match m L with (L', Throw NoEdge) => h L' | r => r end.

(** Lines 825-848: correctionInsert.  [n] rounds are enough if n is at least the number
    of bytes. *)
Fixpoint insert_chain (n : nat) (from : vertex) (to : option vertex) (rest : list Z) : act (option vertex) :=
  match rest, n with
  | [], _ => ret to
  | _ :: _, O => undefined
  | _ :: _, S n' =>
      do v <- add_loose_vertex;
      match next rest with
      | None => throw NotUtf8
      | Some (cp, rest') =>
          match append cp with
          | None => throw NotUtf8
          | Some s => do _ <- add_symbol_edge from v (symbol_item s); insert_chain n' v (Some v) rest'
          end
      end
  end.
Definition correction_insert (here : vertex) (t : list Z) : act unit :=
  do to <- insert_chain (length t) here None t;
  on_no_edge
    (do d <- first_out_edge here symbol_mask;
     do b <- ask (fun L => target L d);
     do it <- ask (fun L => annotation_item L d);
     match to with Some v => do _ <- add_symbol_edge v b it; ret tt | None => undefined end)
    (ret tt).

(** Lines 850-876: correctionErase. *)
Definition correction_erase (from to : vertex) : act unit :=
  if vertex_eqb from to then ret tt
  else
    on_no_edge
      (do d <- first_out_edge to symbol_mask;
       do b <- ask (fun L => target L d);
       do it <- ask (fun L => annotation_item L d);
       do _ <- add_symbol_edge from b it; ret tt)
      (on_no_edge
         (do d <- first_out_edge to symbol_mask;
          do a <- ask (fun L => source L d);
          do it <- ask (fun L => annotation_item L d);
          do _ <- add_symbol_edge a to it; ret tt)
         (throw WrongVertex)).

(** Lines 878-905: correctionReplace. *)
Fixpoint replace_loop (n : nat) (from to : vertex) (whole rest : list Z) : act unit :=
  match rest, n with
  | [], _ => correction_erase from to
  | _ :: _, O => undefined
  | _ :: _, S n' =>
      if vertex_eqb from to then correction_insert from whole
      else
        match next rest with
        | None => throw NotUtf8
        | Some (cp, rest') =>
            match append cp with
            | None => throw NotUtf8
            | Some s =>
                do d <- first_out_edge from symbol_mask;
                do v <- ask (fun L => target L d);
                do it <- ask (fun L => annotation_item L d);
                do _ <- (if M_Items.str_eqb s (M_Items.text it) then ret tt
                         else do _ <- add_symbol_edge from v (symbol_item s); ret tt);
                replace_loop n' v to whole rest'
            end
        end
  end.
Definition correction_replace (from to : vertex) (t : list Z) : act unit :=
  on_no_edge (replace_loop (length t) from to t t) (throw WrongVertex).

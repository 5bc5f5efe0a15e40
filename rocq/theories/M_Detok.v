(** Model of the detokenizer: tools/tokenizers/detok/detok.cpp, lines 53-149.

    Simplifications: a token is given with its SurfacePosition (lines 70-73) in the order
    of the iterator; adding the edge with the text is left out. *)
From Coq Require Import String Ascii.
From Coq Require Import List ZArith Bool Lia.
Import ListNotations.

Notation text := (list ascii).
Definition lit (s : string) : text := list_ascii_of_string s.
(** orderMap[position] = edge, lines 63-76: a map in the order of the positions. *)
Fixpoint put {V} (k : Z) (v : V) (m : list (Z * V)) : list (Z * V) :=
  match m with
  | [] => [(k, v)]
  | (k', v') :: m' =>
      if (k <? k')%Z then (k, v) :: m
      else if (k' <? k)%Z then (k', v') :: put k v m'
      else (k, v) :: m'
  end.
Definition order_map (tokens : list (Z * text)) : list (Z * text) :=
  fold_left (fun m t => put (fst t) (snd t) m) tokens [].
Definition one_of (s : string) (c : ascii) : bool := existsb (Ascii.eqb c) (lit s).
(** shouldBePrecededBySpace_, lines 117-135. *)
Definition preceded (t : text) : bool :=
  match t with [] => false | c :: _ => negb (one_of ".,;:)]}!?" c) end.
(** shouldBeFollowedBySpace_, lines 137-149; the last character. *)
Definition followed (t : text) : bool :=
  match rev t with [] => false | c :: _ => negb (one_of "([{" c) end.
(** Lines 78-100. *)
Definition join_step (acc : text * bool) (t : text) : text * bool :=
  let '(final, first) := acc in
  ((if first then final else if preceded t && followed final then final ++ lit " " else final) ++ t, false).
Definition detok (tokens : list (Z * text)) : text :=
  fst (fold_left join_step (map snd (order_map tokens)) ([], true)).

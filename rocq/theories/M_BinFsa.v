(** Model of tools/datastructures/psi_query/fsa_bindfsa.hpp, the packed deterministic automaton
    BinDFSA, with 32-bit positions (StringBinFSA, MemBinDFSA, lines 383-386), and of the incremental
    minimisation in fsa_algorithms.hpp lines 645-722 and 890-974.
    A state is a 32-bit number: bit 31 tells whether it is an end state, the other bits are
    the position of its first arc.  Reading beyond a vector is undefined behaviour in the
    code; the theorems show that it does not happen.  Loading and saving are not modelled. *)
From Coq Require Import List ZArith Bool.
From Verif Require Import M_OrdSet M_Fsa.
Import ListNotations.
Local Open Scope nat_scope.

(** Lines 26-27, 36-37. *)
Record bin := Bin { b_states : list Z; b_arcs : list arc }.
Definition b_empty : bin := Bin [] [].
Definition TOP : Z := (2 ^ 31)%Z.
Definition u32 (z : Z) : Z := (z mod 2 ^ 32)%Z.
(** setLastBit, unsetLastBit, isEndState, lines 209-223. *)
Definition set_last_bit (z : Z) : Z := Z.lor z TOP.
Definition unset_last_bit (z : Z) : Z := Z.land z (TOP - 1).
Definition b_state (b : bin) (p : nat) : Z := nth p (b_states b) 0%Z.
Definition b_is_end (b : bin) (p : nat) : bool := Z.testbit (b_state b p) 31.
Definition b_size (b : bin) : nat := length (b_states b).
(** The position of a state as an index. *)
Definition b_pos (b : bin) (p : nat) : nat := Z.to_nat (unset_last_bit (b_state b p)).
(** setEndState and unsetEndState, lines 123-131. *)
Definition b_set_end (p : nat) (b : bin) : bin := Bin (update p set_last_bit (b_states b)) (b_arcs b).
Definition b_unset_end (p : nat) (b : bin) : bin := Bin (update p unset_last_bit (b_states b)) (b_arcs b).
(** addState, lines 133-141. *)
Definition b_add_state (b : bin) : nat * bin :=
  (b_size b, Bin (b_states b ++ [u32 (Z.of_nat (length (b_arcs b)))]) (b_arcs b)).
(** addArc, lines 143-169.  The loop of lines 155-156: *)
Fixpoint advance (arcs : list arc) (a : arc) (pos : nat) (n : nat) : nat :=
  match n with
  | O => pos
  | S n => if arc_ltb Nat.ltb (nth pos arcs (0%Z, 0)) a then advance arcs a (S pos) n else pos
  end.
Definition insert_at {A} (n : nat) (x : A) (l : list A) : list A := firstn n l ++ x :: skipn n l.
(** Lines 163-167. *)
Definition shift_state (z : Z) : Z :=
  if Z.testbit z 31 then set_last_bit (u32 (unset_last_bit z + 1)) else u32 (z + 1).
Definition b_add_arc (p : nat) (a : arc) (b : bin) : bin :=
  if p <? b_size b then
    let pos := b_pos b p in
    let last := if S p <? b_size b then b_pos b (S p) else Z.to_nat (u32 (Z.of_nat (length (b_arcs b)))) in
    let pos := advance (b_arcs b) a pos (last - pos) in
    Bin (firstn (S p) (b_states b) ++ map shift_state (skipn (S p) (b_states b)))
        (insert_at pos a (b_arcs b))
  else b.
(** deleteLastState, lines 171-179. *)
Definition b_delete_last (b : bin) : bin :=
  Bin (removelast (b_states b)) (firstn (Z.to_nat (unset_last_bit (last (b_states b) 0%Z))) (b_arcs b)).
(** getArcs, lines 236-270: the positions of the first arc and behind the last. *)
Definition b_range (b : bin) (p : nat) : nat * nat :=
  if S p <? b_size b then (b_pos b p, b_pos b (S p))
  else if S p =? b_size b then (b_pos b p, length (b_arcs b))
  else (length (b_arcs b), length (b_arcs b)).
Definition b_arcs_of (b : bin) (p : nat) : list arc :=
  let (i, j) := b_range b p in firstn (j - i) (skipn i (b_arcs b)).
(** find, lines 181-192, and delta, lines 48-57. *)
Definition b_delta (b : bin) (p : nat) (a : symbol) : option nat :=
  if b_size b <? p then None else
  match find_arc (b_arcs_of b p) a with
  | x :: _ => Some (snd x)
  | [] => None
  end.
(** in, lines 194-207. *)
Fixpoint b_in_from (b : bin) (p : nat) (w : list symbol) : bool :=
  match w with
  | [] => b_is_end b p
  | a :: w' => match b_delta b p a with Some q => b_in_from b q w' | None => false end
  end.
Definition b_in (b : bin) (w : list symbol) : bool := b_in_from b 0 w.
(** getStartStates, isStartState, getEndStates, lines 105-115, 225-234. *)
Definition b_view (b : bin) : view :=
  View (b_size b) [0] (filter (b_is_end b) (seq 0 (b_size b))) (fun p => p =? 0) (b_is_end b) (b_arcs_of b).

(** const_cast<Arc&>( *last_arc).setDest( *q), fsa_algorithms.hpp line 717. *)
Definition b_set_dest (i q : nat) (b : bin) : bin :=
  Bin (b_states b) (update i (fun x => (fst x, q)) (b_arcs b)).

(** std::lexicographical_compare with ArcSorter. *)
Fixpoint lex_ltb (x y : list arc) : bool :=
  match x, y with
  | _, [] => false
  | [], _ :: _ => true
  | a :: x', b :: y' => if arc_ltb Nat.ltb a b then true
                        else if arc_ltb Nat.ltb b a then false else lex_ltb x' y'
  end.
(** StateEquiv, lines 917-959. *)
Definition state_equiv (b : bin) (s1 s2 : nat) : bool :=
  if eqb (b_is_end b s1) (b_is_end b s2)
  then negb (lex_ltb (b_arcs_of b s1) (b_arcs_of b s2)) && negb (lex_ltb (b_arcs_of b s2) (b_arcs_of b s1))
  else false.
(** Register, lines 961-974, an unordered_set of states with StateEquiv; the hash value of a state
    depends only on what StateEquiv compares, lines 898-910. *)
Definition register := list nat.
Definition reg_find (b : bin) (reg : register) (s : nat) : option nat := find (fun r => state_equiv b s r) reg.

(** replace_or_register, lines 695-722: the iterator [last_arc] is kept as the position it points
    to.  [None]: the turns ran out, or the state has no arcs and line 706 goes before the range. *)
Fixpoint replace_or_register (fuel : nat) (b : bin) (reg : register) (s : nat) : option (bin * register) :=
  match fuel with
  | O => None
  | S fuel =>
      let (i, j) := b_range b s in
      if i =? j then None else
      let last_arc := j - 1 in
      let child := snd (nth last_arc (b_arcs b) (0%Z, 0)) in
      let (ci, cj) := b_range b child in
      let next := if ci =? cj then Some (b, reg) else replace_or_register fuel b reg child in
      match next with
      | None => None
      | Some (b, reg) =>
          match reg_find b reg child with
          | Some q => Some (b_delete_last (b_set_dest last_arc q b), reg)
          | None => Some (b, child :: reg)
          end
      end
  end.
(** minimize_incremental, lines 644-693.  Lines 661-670: *)
Fixpoint walk_prefix (b : bin) (p : nat) (w : list symbol) : nat * list symbol :=
  match w with
  | [] => (p, [])
  | a :: w' => match b_delta b p a with Some q => walk_prefix b q w' | None => (p, w) end
  end.
(** Lines 677-682. *)
Fixpoint add_suffix (b : bin) (p : nat) (w : list symbol) : nat * bin :=
  match w with
  | [] => (p, b)
  | a :: w' => let (q, b) := b_add_state b in add_suffix (b_add_arc p (a, q) b) q w'
  end.
(** Lines 660-688. *)
Definition add_word (b : bin) (reg : register) (w : list symbol) : option (bin * register) :=
  let (p, rest) := walk_prefix b 0 w in
  let (i, j) := b_range b p in
  match (if i =? j then Some (b, reg) else replace_or_register (S (b_size b)) b reg p) with
  | None => None
  | Some (b, reg) => let (q, b) := add_suffix b p rest in Some (b_set_end q b, reg)
  end.
Fixpoint add_words (b : bin) (reg : register) (ws : list (list symbol)) : option (bin * register) :=
  match ws with
  | [] => Some (b, reg)
  | w :: ws' => match add_word b reg w with Some (b, reg) => add_words b reg ws' | None => None end
  end.
Definition minimize_incremental (ws : list (list symbol)) : option bin :=
  let (_, b) := b_add_state b_empty in
  match add_words b [] ws with
  | None => None
  | Some (b, reg) => match replace_or_register (S (b_size b)) b reg 0 with Some (b, _) => Some b | None => None end
  end.

(** Model of tools/translators/bonsai/rules/SimpleDAG.cpp: small automata that are built while translating, not
    necessarily deterministic, with their reversal, determinization, minimization and union.
    [states] is a list of rows; the bitset [starts], always as long as [states], is a number whose bit [i] says
    whether state [i] is a start state; boost compares bitsets of one length as numbers.  [end_states], a set, is
    a list.  std::sort is a parameter [asort]: equal symbols may come in any order.  Indices outside of [states]
    are undefined behaviour in C++; the theorems ask for arcs that lead to states.
    Not modelled, as nothing calls them: hash, wordlist, common_prefix, delete_state, print, print_with_weights. *)
From Coq Require Import List ZArith NArith Bool.
From Verif Require Import M_Fsa M_BinFsa M_HashFsa M_Minfsa M_Dag.
Import ListNotations.
Local Open Scope nat_scope.

(** SimpleDAG.hpp lines 38-42. *)
Record sdag := Sdag { s_rows : list (list warc); s_starts : N; s_ends : list nat }.
(** The constructor, SimpleDAG.cpp line 14. *)
Definition s_empty : sdag := Sdag [] 0%N [].
(** size, SimpleDAG.hpp lines 64-66; row, lines 142-148. *)
Definition s_size (d : sdag) : nat := length (s_rows d).
Definition s_row (d : sdag) (p : nat) : list warc := nth p (s_rows d) [].
(** An element of a bitset, [starts[i] == 1]. *)
Definition has (s : N) (i : nat) : bool := N.testbit s (N.of_nat i).
Definition with_bit (s : N) (i : nat) : N := N.setbit s (N.of_nat i).
(** find_first and find_next of a bitset of [n] bits, one after another. *)
Definition bits (n : nat) (s : N) : list nat := filter (has s) (seq 0 n).
(** is_end_state, lines 180-182. *)
Definition s_is_end (d : sdag) (p : nat) : bool := existsb (Nat.eqb p) (s_ends d).
(** set_end_state, lines 176-178. *)
Definition s_set_end (p : nat) (d : sdag) : sdag := Sdag (s_rows d) (s_starts d) (p :: s_ends d).
(** [starts[p] = 1]. *)
Definition s_set_start (p : nat) (d : sdag) : sdag := Sdag (s_rows d) (with_bit (s_starts d) p) (s_ends d).
(** new_state, lines 184-192; the state is the old size. *)
Definition new_state (start : bool) (d : sdag) : sdag :=
  let d' := Sdag (s_rows d ++ [[]]) (s_starts d) (s_ends d) in
  if start then s_set_start (s_size d) d' else d'.

(** ** Looking up *)
(** find, lines 128-140, with linsearch and binsearch, lines 150-172, which are the text of CompressedDAG.cpp:
    the index of an arc in its row. *)
Definition s_find (d : sdag) (p : nat) (a : Z) : option warc :=
  let row := s_row d p in
  let g := Dag [] row in
  match (if 10 <? length row then binsearch (S (length row)) g a 0 (Z.of_nat (length row) - 1)
         else linsearch g (length row) 0 a) with
  | Some i => Some (g_arc g i)
  | None => None
  end.
(** delta, lines 118-126; the symbol is converted from int to unsigned int. *)
Definition s_delta (d : sdag) (p : nat) (a : Z) : option nat :=
  match s_rows d with
  | [] => None
  | _ => match s_find d p (u32 a) with Some x => Some (x_dest x) | None => None end
  end.
(** in and prefix, lines 19-31 and 87-99. *)
Fixpoint s_in_from (d : sdag) (p : nat) (w : list Z) : bool :=
  match w with
  | [] => s_is_end d p
  | a :: w' => match s_delta d p a with Some q => s_in_from d q w' | None => false end
  end.
Definition s_in (d : sdag) (w : list Z) : bool := s_in_from d 0 w.
Fixpoint s_prefix_from (d : sdag) (p : nat) (w : list Z) : bool :=
  match w with
  | [] => true
  | a :: w' => match s_delta d p a with Some q => s_prefix_from d q w' | None => false end
  end.
Definition s_prefix (d : sdag) (w : list Z) : bool := s_prefix_from d 0 w.

Section Sort.
Context (asort : list warc -> list warc).
(** new_arc, lines 198-206. *)
Definition new_arc (p q : nat) (a w : Z) (d : sdag) : sdag :=
  Sdag (update p (fun row => asort (row ++ [Warc a q w])) (s_rows d)) (s_starts d) (s_ends d).

(** reverse, lines 237-260. *)
Definition reverse (d : sdag) : sdag :=
  let n := fold_left (fun n i =>
      let n := new_state false n in
      let n := if s_is_end d i then s_set_start i n else n in
      if has (s_starts d) i then s_set_end i n else n) (seq 0 (s_size d)) s_empty in
  fold_left (fun n i => fold_left (fun n x => new_arc (x_dest x) i (x_sym x) (x_wt x) n) (s_row d i) n)
    (seq 0 (s_size d)) n.

(** Copying states one by one into another automaton under new numbers, which are given when a state is first
    met: lines 310-343 of determinize and 366-394 of nd_union.  A state to be copied comes with its key,
    whether it is a start and an end state, and its arcs. *)
Section Copy.
Context {K : Type} (eqb : K -> K -> bool).
Definition mapper := list (K * nat).
Fixpoint lookup (k : K) (m : mapper) : option nat :=
  match m with
  | [] => None
  | (k', s) :: m' => if eqb k k' then Some s else lookup k m'
  end.
Definition number (start : bool) (k : K) (x : sdag * mapper) : nat * (sdag * mapper) :=
  match lookup k (snd x) with
  | Some s => (s, x)
  | None => (s_size (fst x), (new_state start (fst x), (k, s_size (fst x)) :: snd x))
  end.
Record entry := Entry { e_key : K; e_start : bool; e_end : bool; e_arcs : list (Z * K * Z) }.
Definition copy_arc (s : nat) (x : sdag * mapper) (a : Z * K * Z) : sdag * mapper :=
  let '(b, k, w) := a in
  let '(t, (d, m)) := number false k x in (new_arc s t b w d, m).
Definition copy (x : sdag * mapper) (e : entry) : sdag * mapper :=
  let '(s, (d, m)) := number (e_start e) (e_key e) x in
  let d := if e_end e then s_set_end s d else d in
  let d := if e_start e then s_set_start s d else d in
  fold_left (copy_arc s) (e_arcs e) (d, m).
End Copy.

(** determinize, lines 262-348.  ArcSet is a map, in the order of the symbols.  Lines 290-295: *)
Definition arcset := list (Z * N).
Fixpoint put (a : Z) (q : nat) (l : arcset) : arcset :=
  match l with
  | [] => [(a, with_bit 0 q)]
  | (b, s) :: l' =>
      if (a =? b)%Z then (b, with_bit s q) :: l'
      else if (a <? b)%Z then (a, with_bit 0 q) :: l
      else (b, s) :: put a q l'
  end.
(** Lines 285-298. *)
Definition steps (d : sdag) (ns : N) : arcset :=
  fold_left (fun narcs s => fold_left (fun narcs x => put (x_sym x) (x_dest x) narcs) (s_row d s) narcs)
    (bits (s_size d) ns) [].
(** Lines 300-305; [nstates] is a set, the back of [queue] is the head of the list. *)
Definition enqueue (x : list N * list N) (t : N) : list N * list N :=
  if existsb (N.eqb t) (fst x) then x else (t :: fst x, t :: snd x).
(** [newfsa[ns] = narcs], line 307. *)
Fixpoint put_state (k : N) (v : arcset) (l : list (N * arcset)) : list (N * arcset) :=
  match l with
  | [] => [(k, v)]
  | (k', v') :: l' =>
      if (k =? k')%N then (k, v) :: l'
      else if (k <? k')%N then (k, v) :: l
      else (k', v') :: put_state k v l'
  end.
(** Lines 281-308. *)
Fixpoint subsets (fuel : nat) (d : sdag) (nstates queue : list N) (newfsa : list (N * arcset)) : option (list (N * arcset)) :=
  match queue with
  | [] => Some newfsa
  | ns :: queue =>
      match fuel with
      | O => None
      | S fuel =>
          let narcs := steps d ns in
          let '(nstates, queue) := fold_left enqueue (map snd narcs) (nstates, queue) in
          subsets fuel d nstates queue (put_state ns narcs newfsa)
      end
  end.
(** The new state is an end state if one of its states is, lines 321-330; the weights of arcs are 0. *)
Definition subset_entry (d : sdag) (e : N * arcset) : entry :=
  Entry (fst e) false (existsb (s_is_end d) (bits (s_size d) (fst e))) (map (fun a => (fst a, snd a, 0%Z)) (snd e)).
Definition determinize (fuel : nat) (d : sdag) : option sdag :=
  let start := s_starts d in
  match subsets fuel d [] [start] [] with
  | None => None
  | Some newfsa =>
      Some (fst (fold_left (copy N.eqb) (map (subset_entry d) newfsa) (new_state true s_empty, [(start, 0)])))
  end.
(** minimize, lines 350-355. *)
Definition minimize (fuel : nat) (d : sdag) : option sdag :=
  match determinize fuel (reverse d) with
  | None => None
  | Some d => determinize fuel (reverse d)
  end.
(** nd_union, lines 362-395. *)
Definition state_entry (d : sdag) (i : nat) : entry :=
  Entry i (has (s_starts d) i) (s_is_end d i) (map (fun x => (x_sym x, x_dest x, x_wt x)) (s_row d i)).
Definition nd_union (d sdu : sdag) : sdag :=
  fst (fold_left (copy Nat.eqb) (map (state_entry sdu) (seq 0 (s_size sdu))) (d, [])).
(** det_union, lines 357-360. *)
Definition det_union (fuel : nat) (d sdu : sdag) : option sdag := minimize fuel (nd_union d sdu).
End Sort.

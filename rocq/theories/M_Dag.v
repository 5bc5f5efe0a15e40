(** Model of tools/translators/bonsai/utils/binaries/CompressedDAGBuilder.hpp (binfsa) and of the looking up
    in tools/translators/bonsai/rules/CompressedDAG.cpp: the index of the source sides of translation rules.
    binfsa reads the lines that minfsa writes once they are sorted, packs the automaton, numbers its words,
    renumbers its states by how often they are used and saves them.
    A state is a 32-bit number: bit 31 tells whether it is an end state, the other bits are the position of
    its first arc.  A pointer into [arcs] is an index; the pointer behind the last arc, which means "not
    found", is [None].  Weights are 32-bit unsigned, the hash index is an int; wrap-around is explicit, and
    signed overflow is modelled as wrap-around.  A line is a record with its numbers (M_Minfsa); signs would be
    lost in reading, lines 225-229.
    Not modelled: the files (what is written is what is read); mapped files (modes 1 to 3 give the same
    arrays); the counting of accesses (binfsa does not turn it on); multiunhash, which nothing calls. *)
From Coq Require Import List ZArith Bool.
From Verif Require Import M_Fsa M_BinFsa M_HashFsa M_Minfsa.
Import ListNotations.
Local Open Scope nat_scope.

(** struct Arc of RuleTypes.hpp: symbol, destination, weight. *)
Record warc := Warc { x_sym : Z; x_dest : nat; x_wt : Z }.
(** CompressedDAG.hpp lines 38-39 with [sn] and [an] as the lengths. *)
Record dag := Dag { g_states : list Z; g_arcs : list warc }.
Definition g_state (g : dag) (p : nat) : Z := nth p (g_states g) 0%Z.
Definition g_arc (g : dag) (i : nat) : warc := nth i (g_arcs g) (Warc 0 0 0).
(** is_end_state and arc_no, CompressedDAG.cpp lines 313-320. *)
Definition g_is_end (g : dag) (p : nat) : bool := Z.testbit (g_state g p) 31.
Definition g_pos (g : dag) (p : nat) : nat := Z.to_nat (unset_last_bit (g_state g p)).
(** row, lines 227-256, where [da_start] is the number of arcs (line 56) and so no position is above it. *)
Definition g_row (g : dag) (p : nat) : nat * nat :=
  if S p <? length (g_states g) then (g_pos g p, g_pos g (S p))
  else if S p =? length (g_states g) then (g_pos g p, length (g_arcs g))
  else (length (g_arcs g), length (g_arcs g)).

(** ** Building *)
(** build_from_text, CompressedDAGBuilder.hpp lines 213-264: the two streams and [state_c]; [arc_c] is the
    number of arcs written. *)
Definition read_line (x : nat * dag) (l : line) : nat * dag :=
  let '(state_c, g) := x in
  let arc_c := u32 (Z.of_nat (length (g_arcs g))) in
  match l with
  | End p => if state_c =? p then (S state_c, Dag (g_states g ++ [set_last_bit arc_c]) (g_arcs g)) else x
  | Arc p q a =>
      let '(state_c, states) := if state_c =? p then (S state_c, g_states g ++ [arc_c]) else (state_c, g_states g) in
      (state_c, Dag states (g_arcs g ++ [Warc a q 0]))
  end.
Definition build_from_text (ls : list line) : dag := snd (fold_left read_line ls (0, Dag [] [])).

(** rec_compute_word_numbers, lines 79-93: the arcs with their weights and [tn].  The loop over the arcs
    from position [i] on; [n] of them are left. *)
Definition set_weight (i : nat) (w : Z) (arcs : list warc) : list warc :=
  update i (fun x => Warc (x_sym x) (x_dest x) w) arcs.
Section Rec.
Context (rec : nat -> list warc * list Z -> option (list warc * list Z)) (start : nat).
Fixpoint count_arcs (n i : nat) (x : list warc * list Z) : option (list warc * list Z) :=
  match n with
  | O => Some x
  | S n =>
      let '(arcs, tn) := x in
      let q := x_dest (nth i arcs (Warc 0 0 0)) in
      match rec q (set_weight i (u32 (nth start tn 0%Z)) arcs, tn) with
      | None => None
      | Some (arcs, tn) => count_arcs n (S i) (arcs, update start (fun _ => u32 (nth start tn 0 + nth q tn 0)%Z) tn)
      end
  end.
End Rec.
Fixpoint count_words (fuel : nat) (g : dag) (start : nat) (x : list warc * list Z) : option (list warc * list Z) :=
  match fuel with
  | O => None
  | S fuel =>
      if (nth start (snd x) 0 =? 0)%Z then
        let '(i, j) := g_row g start in
        match count_arcs (count_words fuel g) start (j - i) i x with
        | None => None
        | Some (arcs, tn) => Some (arcs, if g_is_end g start then update start (fun _ => u32 (nth start tn 0 + 1)%Z) tn else tn)
        end
      else Some x
  end.
(** sort_by_access_count, lines 96-172.  The branching factors, lines 115-121: *)
Definition row_dests (g : dag) (p : nat) : list nat :=
  let '(i, j) := g_row g p in map (fun k => x_dest (g_arc g k)) (seq i (j - i)).
Definition branching (g : dag) : list Z :=
  fold_left (fun cbf i => fold_left (fun cbf q => update q (fun z => u32 (z + nth i cbf 0)%Z) cbf) (row_dests g i) cbf)
    (seq 0 (length (g_states g))) (update 0 (fun _ => 1%Z) (repeat 0%Z (length (g_states g)))).
(** The access counts, lines 125-132. *)
Definition accesses (g : dag) (wno cbf : list Z) : list Z :=
  fold_left (fun acc i => fold_left (fun acc q => update q (fun z => u32 (z + nth q wno 0 * nth i cbf 0)%Z) acc) (row_dests g i) acc)
    (seq 0 (length (g_states g))) (update 0 (fun _ => nth 0 wno 0%Z) (repeat 0%Z (length (g_states g)))).
(** sort_pred, lines 17-19. *)
Definition sort_pred (l r : nat * Z) : bool := (snd r <? snd l)%Z || (fst l <? fst r).
(** std::list::merge, which takes the head of the second list only if it compares less. *)
Fixpoint merge (l : list (nat * Z)) : list (nat * Z) -> list (nat * Z) :=
  fix merge_l (k : list (nat * Z)) : list (nat * Z) :=
    match l, k with
    | [], _ => k
    | _, [] => l
    | x :: l', y :: k' => if sort_pred y x then y :: merge_l k' else x :: merge l' k
    end.
(** std::list::sort: the list is cut into pieces, which are merged with pieces behind them.  As sort_pred is
    no strict weak ordering the standard says nothing about the outcome; whatever the pieces are, it is
    one of these. *)
Inductive merged : list (nat * Z) -> list (nat * Z) -> Prop :=
  | merged_nil : merged [] []
  | merged_one x : merged [x] [x]
  | merged_join l1 l2 k1 k2 : merged l1 k1 -> merged l2 k2 -> merged (l1 ++ l2) (merge k1 k2).
(** One way of sorting: each element is merged with what is behind it. *)
Fixpoint sort_list (l : list (nat * Z)) : list (nat * Z) :=
  match l with
  | [] => []
  | x :: l' => merge [x] (sort_list l')
  end.
(** The arrays [map] and [pri], lines 155-164. *)
Fixpoint place (l : list (nat * Z)) (i : nat) (m : list nat) : list nat :=
  match l with
  | [] => m
  | x :: l' => place l' (S i) (update (fst x) (fun _ => i) m)
  end.
(** sort_and_save, lines 174-210; [c] is the number of arcs written. *)
Definition save_state (g : dag) (arcs : list warc) (m : list nat) (h : dag) (p : nat) : dag :=
  let c := u32 (Z.of_nat (length (g_arcs h))) in
  let '(i, j) := g_row g p in
  Dag (g_states h ++ [if g_is_end g p then set_last_bit c else c])
      (g_arcs h ++ map (fun x => Warc (x_sym x) (nth (x_dest x) m 0) (x_wt x)) (firstn (j - i) (skipn i arcs))).
Definition sort_and_save (g : dag) (arcs : list warc) (m pri : list nat) : dag :=
  fold_left (save_state g arcs m) pri (Dag [] []).
(** compile, lines 53-70; [sort] is std::list::sort.  [None]: the recursion does not end. *)
Definition compile (sort : list (nat * Z) -> list (nat * Z)) (ls : list line) : option dag :=
  let g := build_from_text ls in
  let sn := length (g_states g) in
  match count_words (S sn) g 0 (g_arcs g, repeat 0%Z sn) with
  | None => None
  | Some (arcs, wno) =>
      let acc := accesses g wno (branching g) in
      let sorted := sort (combine (seq 0 sn) acc) in
      Some (sort_and_save g arcs (place sorted 0 (repeat 0 sn)) (map fst sorted))
  end.

(** ** Looking up: CompressedDAG.cpp *)
(** linsearch, lines 259-266, over [n] arcs from [i] on. *)
Fixpoint linsearch (g : dag) (n i : nat) (value : Z) : option nat :=
  match n with
  | O => None
  | S n => if (x_sym (g_arc g i) =? value)%Z then Some i else linsearch g n (S i) value
  end.
(** binsearch, lines 268-281. *)
Fixpoint binsearch (fuel : nat) (g : dag) (value : Z) (l r : Z) : option nat :=
  match fuel with
  | O => None
  | S fuel =>
      if (l <=? r)%Z then
        let m := (l + (r - l) / 2)%Z in
        let a := x_sym (g_arc g (Z.to_nat m)) in
        if (a <? value)%Z then binsearch fuel g value (m + 1) r
        else if (value <? a)%Z then binsearch fuel g value l (m - 1)
        else Some (Z.to_nat m)
      else None
  end.
(** find, lines 200-212. *)
Definition g_find (g : dag) (p : nat) (a : Z) : option nat :=
  let '(i, j) := g_row g p in
  let dist := j - i in
  if 10 <? dist then binsearch (S dist) g a (Z.of_nat i) (Z.of_nat j - 1)
  else linsearch g dist i a.
(** delta, lines 190-198; the symbol is converted from int to unsigned int. *)
Definition g_delta (g : dag) (p : nat) (a : Z) : option nat :=
  match g_find g p (u32 a) with Some i => Some (x_dest (g_arc g i)) | None => None end.
(** in and prefix, lines 110-140. *)
Fixpoint g_in_from (g : dag) (p : nat) (w : list Z) : bool :=
  match w with
  | [] => g_is_end g p
  | a :: w' => match g_delta g p a with Some q => g_in_from g q w' | None => false end
  end.
Definition g_in (g : dag) (w : list Z) : bool := g_in_from g 0 w.
Fixpoint g_prefix_from (g : dag) (p : nat) (w : list Z) : bool :=
  match w with
  | [] => true
  | a :: w' => match g_delta g p a with Some q => g_prefix_from g q w' | None => false end
  end.
Definition g_prefix (g : dag) (w : list Z) : bool := g_prefix_from g 0 w.
(** hash, lines 142-163. *)
Fixpoint g_hash_from (g : dag) (index : Z) (p : nat) (w : list Z) : Z :=
  match w with
  | [] => if g_is_end g p then index else (-1)%Z
  | a :: w' =>
      match g_find g p (u32 a) with
      | None => (-1)%Z
      | Some i =>
          let index := s32 (index + x_wt (g_arc g i)) in
          let q := x_dest (g_arc g i) in
          g_hash_from g (if g_is_end g q then s32 (index + 1) else index) q w'
      end
  end.
Definition g_hash (g : dag) (w : list Z) : Z := g_hash_from g 0 0 w.
(** linsearch_num and binsearch_num, lines 283-305; [last] is the position of the last arc. *)
Definition num_here (g : dag) (last : Z) (value m : Z) : bool :=
  (x_wt (g_arc g (Z.to_nat m)) <? value)%Z && ((m =? last)%Z || (value <=? x_wt (g_arc g (Z.to_nat (m + 1))))%Z).
Fixpoint linsearch_num (g : dag) (n : nat) (last value m : Z) : option nat :=
  match n with
  | O => None
  | S n => if num_here g last value m then Some (Z.to_nat m) else linsearch_num g n last value (m + 1)
  end.
Fixpoint binsearch_num (fuel : nat) (g : dag) (last value l r : Z) : option nat :=
  match fuel with
  | O => None
  | S fuel =>
      if (l <=? r)%Z then
        let m := (l + (r - l) / 2)%Z in
        if num_here g last value m then Some (Z.to_nat m)
        else if (x_wt (g_arc g (Z.to_nat m)) <? value)%Z then binsearch_num fuel g last value (m + 1) r
        else binsearch_num fuel g last value l (m - 1)
      else None
  end.
(** find_num, lines 214-225. *)
Definition g_find_num (g : dag) (p : nat) (count : Z) : option nat :=
  let '(i, j) := g_row g p in
  let dist := j - i in
  if 10 <? dist then binsearch_num (S dist) g (Z.of_nat j - 1) (u32 count) (Z.of_nat i) (Z.of_nat j - 1)
  else linsearch_num g dist (Z.of_nat j - 1) (u32 count) (Z.of_nat i).
(** unhash, lines 165-186.  [None]: the loop does not end within the number of states. *)
Fixpoint g_unhash_from (fuel : nat) (g : dag) (index : Z) (p : nat) (w : list Z) : option (list Z) :=
  if (index <=? 0)%Z then Some w else
  match fuel with
  | O => None
  | S fuel =>
      match g_find_num g p index with
      | None => Some []
      | Some i =>
          let q := x_dest (g_arc g i) in
          let index := s32 (index - x_wt (g_arc g i)) in
          g_unhash_from fuel g (if g_is_end g q then s32 (index - 1) else index) q (w ++ [x_sym (g_arc g i)])
      end
  end.
Definition g_unhash (g : dag) (index : Z) : option (list Z) := g_unhash_from (length (g_states g)) g index 0 [].

(** ** Mode 4: lines 94-105 and 227-256.  Only the arcs before [da_start] are read into memory, and rows that
    start behind it are mapped.  [row_memory g p] tells which arcs of the array in memory are looked at; the
    comparison with [an*0.4] is exact unless this is a whole number. *)
Fixpoint first_after (g : dag) (n p : nat) : nat :=
  match n with
  | O => p
  | S n => if 10 * g_pos g p <? 4 * length (g_arcs g) then first_after g n (S p) else p
  end.
Definition da_start (g : dag) : nat := g_pos g (first_after g (length (g_states g)) 0).
Definition row_memory (g : dag) (p : nat) : option (nat * nat) :=
  if da_start g <? g_pos g p then None else Some (g_row g p).

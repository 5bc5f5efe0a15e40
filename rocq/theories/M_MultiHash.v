(** Model of multihash in tools/translators/bonsai/rules/CompressedDAG.cpp: the rules of an index whose source
    side is in an automaton, with their numbers.  Pairs of states are gone through from a queue that is served
    in the order of entering; the words that lead to a pair are kept with it.
    [mapper] numbers pairs in the order in which they are first met, so it is the list of the pairs in that order;
    [sl] has a list of words with their numbers for each pair.  ndag, to which states and arcs are added, is not
    used otherwise and left out.
    If an arc led from a pair to itself, the loop over the words of the pair would add to the list it goes
    through; an index has no such arcs. *)
From Coq Require Import List ZArith Bool.
From Verif Require Import M_Fsa M_BinFsa M_HashFsa M_Minfsa M_Dag M_SimpleDag.
Import ListNotations.
Local Open Scope nat_scope.

(** The arcs from ait1 to r1.second, lines 516 and 519. *)
Definition g_arcs_at (g : dag) (p : nat) : list warc := let '(i, j) := g_row g p in map (g_arc g) (seq i (j - i)).
(** The loop of lines 522-553: the pairs of arcs with the same symbol, in the order of the symbols. *)
Fixpoint common (r1 : list warc) : list warc -> list (warc * warc) :=
  fix common2 (r2 : list warc) : list (warc * warc) :=
    match r1, r2 with
    | x :: r1', y :: r2' =>
        if (x_sym x =? x_sym y)%Z then (x, y) :: common r1' r2'
        else if (x_sym x <? x_sym y)%Z then common r1' r2
        else common2 r2'
    | _, _ => []
    end.
Definition pair_eqb (s t : nat * nat) : bool := (fst s =? fst t) && (snd s =? snd t).
(** mapper.count and mapper[t]. *)
Fixpoint place_of (t : nat * nat) (keys : list (nat * nat)) : option nat :=
  match keys with
  | [] => None
  | k :: keys' => if pair_eqb t k then Some 0 else match place_of t keys' with Some i => Some (S i) | None => None end
  end.
Record multi := Multi { h_queue : list (nat * nat); h_keys : list (nat * nat); h_sl : list (list (list Z * Z)) }.
(** Lines 535-539: a word with one more symbol. *)
Definition grow (g : dag) (x : warc) (wi : list Z * Z) : list Z * Z :=
  (fst wi ++ [s32 (x_sym x)],
   let i := s32 (snd wi + x_wt x) in if g_is_end g (x_dest x) then s32 (i + 1) else i).
(** Lines 524-529: a new pair enters the queue, where it is served last. *)
Definition meet (t : nat * nat) (h : multi) : multi :=
  match place_of t (h_keys h) with
  | Some _ => h
  | None => Multi (h_queue h ++ [t]) (h_keys h ++ [t]) (h_sl h ++ [[]])
  end.
(** Lines 523-542; [s] is mapper[ns]. *)
Definition pass (g : dag) (s : nat) (h : multi) (xy : warc * warc) : multi :=
  let t := (x_dest (fst xy), x_dest (snd xy)) in
  let h := meet t h in
  let e := match place_of t (h_keys h) with Some e => e | None => 0 end in
  Multi (h_queue h) (h_keys h) (update e (fun l => l ++ map (grow g (fst xy)) (nth s (h_sl h) [])) (h_sl h)).
(** A std::set of states. *)
Fixpoint set_insert (s : nat) (l : list nat) : list nat :=
  match l with
  | [] => [s]
  | e :: l' => if s <? e then s :: l else if s =? e then l else e :: set_insert s l'
  end.
(** Lines 506-554. *)
Fixpoint multi_loop (fuel : nat) (g : dag) (d : sdag) (h : multi) (ends : list nat) : option (list (list (list Z * Z)) * list nat) :=
  match h_queue h with
  | [] => Some (h_sl h, ends)
  | ns :: queue =>
      match fuel with
      | O => None
      | S fuel =>
          let s := match place_of ns (h_keys h) with Some s => s | None => 0 end in
          let ends := if g_is_end g (fst ns) && s_is_end d (snd ns) then set_insert s ends else ends in
          multi_loop fuel g d
            (fold_left (pass g s) (common (g_arcs_at g (fst ns)) (s_row d (snd ns))) (Multi queue (h_keys h) (h_sl h))) ends
      end
  end.
(** multihash, lines 485-562. *)
Definition multihash (fuel : nat) (g : dag) (d : sdag) : option (list (list Z * Z)) :=
  match multi_loop fuel g d (Multi [(0, 0)] [(0, 0)] [[([], 0%Z)]]) [] with
  | Some (sl, ends) => Some (flat_map (fun e => nth e sl []) ends)
  | None => None
  end.

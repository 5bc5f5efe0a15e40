(** Model of tools/datastructures/psi_query: the non-deterministic automaton NDFSA
    (fsa_ndfsa_impl.hpp) and the algorithms of fsa_algorithms.hpp that work through
    [traverse].
    States are natural numbers, symbols are unsigned characters written as integers.
    The symbols are Z, the arcs carry no weights (Arc, not ArcWeighted).  A state number
    that the class does not know is undefined behaviour in the code; the model ignores the
    call or takes the state to be without arcs, and the theorems are about automata
    whose arcs lead to known states. *)
From Coq Require Import List ZArith Bool.
From Verif Require Import M_OrdSet.
Import ListNotations.
Local Open Scope nat_scope.

(** fsa_types.hpp lines 8, 11-13: [Symbol] is unsigned char. *)
Definition symbol := Z.
Definition EPS : symbol := 255%Z.
Definition ANY : symbol := 254%Z.
Definition arc := (symbol * nat)%type.

(** ArcSorter, fsa_types.hpp lines 53-60, for destinations of any ordered type. *)
Definition arc_ltb {S} (ltb : S -> S -> bool) (x y : symbol * S) : bool :=
  (fst x <? fst y)%Z || ((fst x =? fst y)%Z && ltb (snd x) (snd y)).

(** std::set::count and erase by value. *)
Definition equivalent {A} (ltb : A -> A -> bool) (x y : A) : bool := negb (ltb x y) && negb (ltb y x).
Definition set_count {A} (ltb : A -> A -> bool) (x : A) (s : list A) : bool := existsb (equivalent ltb x) s.
Definition set_erase {A} (ltb : A -> A -> bool) (x : A) (s : list A) : list A :=
  filter (fun y => negb (equivalent ltb x y)) s.

(** fsa_ndfsa.hpp lines 29-32. *)
Record ndfsa := Ndfsa { n_states : list (list arc); n_starts : list nat; n_ends : list nat }.

(** NDFSA(), line 7. *)
Definition empty : ndfsa := Ndfsa [] [] [].
Definition n_size (f : ndfsa) : nat := length (n_states f).
(** addState, lines 122-129. *)
Definition add_state (start : bool) (f : ndfsa) : nat * ndfsa :=
  let n := length (n_states f) in
  (n, Ndfsa (n_states f ++ [[]]) (if start then set_insert Nat.ltb n (n_starts f) else n_starts f) (n_ends f)).
(** setStartState ... unsetEndState, lines 150-177. *)
Definition set_start (p : nat) (f : ndfsa) := Ndfsa (n_states f) (set_insert Nat.ltb p (n_starts f)) (n_ends f).
Definition unset_start (p : nat) (f : ndfsa) := Ndfsa (n_states f) (set_erase Nat.ltb p (n_starts f)) (n_ends f).
Definition set_end (p : nat) (f : ndfsa) := Ndfsa (n_states f) (n_starts f) (set_insert Nat.ltb p (n_ends f)).
Definition unset_end (p : nat) (f : ndfsa) := Ndfsa (n_states f) (n_starts f) (set_erase Nat.ltb p (n_ends f)).

(** std::sort with ArcSorter, which is a total order on unweighted arcs. *)
Fixpoint insert_arc (a : arc) (l : list arc) : list arc :=
  match l with
  | [] => [a]
  | b :: l' => if arc_ltb Nat.ltb a b then a :: l else b :: insert_arc a l'
  end.
Fixpoint sort_arcs (l : list arc) : list arc :=
  match l with
  | [] => []
  | a :: l' => insert_arc a (sort_arcs l')
  end.
Fixpoint update {A} (n : nat) (g : A -> A) (l : list A) : list A :=
  match l, n with
  | [], _ => []
  | x :: l', O => g x :: l'
  | x :: l', S n' => x :: update n' g l'
  end.
(** addArc, lines 179-184. *)
Definition add_arc (p : nat) (a : arc) (f : ndfsa) : ndfsa :=
  Ndfsa (update p (fun l => sort_arcs (l ++ [a])) (n_states f)) (n_starts f) (n_ends f).
(** getArcs, lines 186-193. *)
Definition n_arcs (f : ndfsa) (p : nat) : list arc := nth p (n_states f) [].

(** The constructors NDFSA(symbol) and NDFSA(string), lines 10-17 and 36-47; the
    iterator constructor, lines 20-33, does the same as the latter. *)
Definition of_symbol (s : symbol) : ndfsa :=
  let (q0, f) := add_state true empty in
  let (q1, f) := add_state false f in
  set_end q1 (add_arc q0 (s, q1) f).
Fixpoint add_chain (p : nat) (w : list symbol) (f : ndfsa) : nat * ndfsa :=
  match w with
  | [] => (p, f)
  | a :: w' => let (q, f) := add_state false f in add_chain q w' (add_arc p (a, q) f)
  end.
Definition of_word (w : list symbol) : ndfsa :=
  let (q0, f) := add_state true empty in
  let (q, f) := add_chain q0 w f in
  set_end q f.

(** std::lower_bound on a range sorted by ArcSorter: the rest of the range from the first
    element that is not smaller; find, lines 83-94, gives the end if the symbol differs. *)
Fixpoint lower_bound {S} (ltb : S -> S -> bool) (test : symbol * S) (l : list (symbol * S)) : list (symbol * S) :=
  match l with
  | [] => []
  | x :: l' => if arc_ltb ltb x test then lower_bound ltb test l' else l
  end.
Definition find_arc (l : list arc) (a : symbol) : list arc :=
  match lower_bound Nat.ltb (a, 0) l with
  | x :: l' => if (a =? fst x)%Z then x :: l' else []
  | [] => []
  end.
(** deltaPrime, lines 55-69. *)
Fixpoint same_symbol (a : symbol) (l : list arc) (acc : list nat) : list nat :=
  match l with
  | x :: l' => if (fst x =? a)%Z then same_symbol a l' (set_insert Nat.ltb (snd x) acc) else acc
  | [] => acc
  end.
Definition delta_prime (f : ndfsa) (p : nat) (a : symbol) : list nat :=
  if n_size f <? p then [] else same_symbol a (find_arc (n_arcs f p) a) [].
(** delta, lines 71-81. *)
Definition insert_all {A} (ltb : A -> A -> bool) (xs s : list A) : list A :=
  fold_left (fun s x => set_insert ltb x s) xs s.
Definition delta (f : ndfsa) (ps : list nat) (a : symbol) : list nat :=
  fold_left (fun s p => insert_all Nat.ltb (delta_prime f p a) s) ps [].
(** in, lines 96-113. *)
Fixpoint in_from (f : ndfsa) (ps : list nat) (w : list symbol) : bool :=
  match w with
  | [] => existsb (fun p => set_count Nat.ltb p (n_ends f)) ps
  | a :: w' => match delta f ps a with [] => false | qs => in_from f qs w' end
  end.
Definition in_ (f : ndfsa) (w : list symbol) : bool := in_from f (n_starts f) w.

(** DFSA::delta and DFSA::in, fsa_dfsa.hpp lines 46-59 and 67-77: reading starts in state 0, and of
    several arcs with the symbol the first is taken.  The bound of line 68 lets state m_states.size()
    through, which no arc of an automaton made by the class leads to. *)
Definition dfsa_delta (f : ndfsa) (p : nat) (a : symbol) : option nat :=
  if n_size f <? p then None else
  match find_arc (n_arcs f p) a with x :: _ => Some (snd x) | [] => None end.
Fixpoint dfsa_in_from (f : ndfsa) (p : nat) (w : list symbol) : bool :=
  match w with
  | [] => set_count Nat.ltb p (n_ends f)
  | a :: w' => match dfsa_delta f p a with Some q => dfsa_in_from f q w' | None => false end
  end.
Definition dfsa_in (f : ndfsa) (w : list symbol) : bool := dfsa_in_from f 0 w.

(** What the algorithms ask of an automaton, NDFSA or BinDFSA. *)
Record view := View { v_size : nat; v_starts : list nat; v_ends : list nat;
                      v_is_start : nat -> bool; v_is_end : nat -> bool; v_arcs : nat -> list arc }.
Definition n_view (f : ndfsa) : view :=
  View (n_size f) (n_starts f) (n_ends f)
    (fun p => set_count Nat.ltb p (n_starts f)) (fun p => set_count Nat.ltb p (n_ends f)) (n_arcs f).

(** epsClosure, lines 226-247 (the same text in fsa_bindfsa.hpp).  The queue is a stack.  Every
    turn of the loop takes a state off the queue, and a state enters it once, so the number of
    states bounds the number of turns. *)
Fixpoint eps_arcs (l : list arc) (cl queue : list nat) : list nat * list nat :=
  match l with
  | [] => (cl, queue)
  | x :: l' => if (fst x =? EPS)%Z && negb (set_count Nat.ltb (snd x) cl)
      then eps_arcs l' (set_insert Nat.ltb (snd x) cl) (snd x :: queue) else eps_arcs l' cl queue
  end.
Fixpoint eps_loop (v : view) (fuel : nat) (cl queue : list nat) : list nat :=
  match fuel, queue with
  | _, [] => cl
  | O, _ => cl
  | S fuel, s :: queue => let (cl, queue) := eps_arcs (v_arcs v s) cl queue in eps_loop v fuel cl queue
  end.
Definition eps_closure (v : view) (p : nat) : list nat := eps_loop v (S (v_size v)) [p] [p].

(** A wrapper, fsa_algorithms.hpp lines 116-126: its states are of an ordered type. *)
Record wrapper (S : Type) := Wrapper { w_ltb : S -> S -> bool; w_start : list S;
                                       w_final : S -> bool; w_arcs : S -> list (symbol * S) }.
Arguments Wrapper {S}. Arguments w_ltb {S}. Arguments w_start {S}. Arguments w_final {S}. Arguments w_arcs {S}.

(** traverse, lines 74-114.  [mapper] is the map from the states of the wrapper. *)
Section Traverse.
Context {S : Type} (w : wrapper S).
Fixpoint map_find (m : list (S * nat)) (s : S) : option nat :=
  match m with
  | [] => None
  | (t, n) :: m' => if equivalent (w_ltb w) s t then Some n else map_find m' s
  end.
(** Lines 85-89. *)
Fixpoint traverse_starts (ss : list S) (m : list (S * nat)) (queue : list S) (f : ndfsa) :=
  match ss with
  | [] => (m, queue, f)
  | s :: ss' => let (n, f) := add_state true f in traverse_starts ss' ((s, n) :: m) (s :: queue) f
  end.
(** Lines 103-112; [n] is mapper[s]. *)
Fixpoint traverse_arcs (n : nat) (l : list (symbol * S)) (m : list (S * nat)) (queue : list S) (f : ndfsa) :=
  match l with
  | [] => (m, queue, f)
  | (a, t) :: l' =>
      match map_find m t with
      | Some k => traverse_arcs n l' m queue (add_arc n (a, k) f)
      | None => let (k, f) := add_state false f in
                traverse_arcs n l' ((t, k) :: m) (t :: queue) (add_arc n (a, k) f)
      end
  end.
(** Lines 91-113; [None] if the turns of the loop run out. *)
Fixpoint traverse_loop (fuel : nat) (m : list (S * nat)) (queue : list S) (f : ndfsa) : option ndfsa :=
  match queue with
  | [] => Some f
  | s :: queue =>
    match fuel with
    | O => None
    | Datatypes.S fuel =>
      let '(n, m, f) := match map_find m s with
                        | Some n => (n, m, f)
                        | None => let (n, f) := add_state false f in (n, (s, n) :: m, f)
                        end in
      let f := if w_final w s then set_end n f else f in
      let '(m, queue, f) := traverse_arcs n (w_arcs w s) m queue f in
      traverse_loop fuel m queue f
    end
  end.
Definition traverse (fuel : nat) (f : ndfsa) : option ndfsa :=
  let '(m, queue, f) := traverse_starts (w_start w) [] [] f in traverse_loop fuel m queue f.
End Traverse.

Definition arc_set {S} (ltb : S -> S -> bool) (l : list (symbol * S)) : list (symbol * S) :=
  insert_all (arc_ltb ltb) l [].

(** Reverser, lines 127-168: [reversedArcs]\[p\] holds the arcs into p turned round. *)
Definition reversed_arcs (v : view) (p : nat) : list arc :=
  arc_set Nat.ltb (flat_map (fun q => map (fun x => (fst x, q))
    (filter (fun x : arc => snd x =? p) (v_arcs v q))) (seq 0 (v_size v))).
Definition reverser (v : view) : wrapper nat := Wrapper Nat.ltb (v_ends v) (v_is_start v) (reversed_arcs v).
(** Copier, lines 180-207. *)
Definition copier (v : view) : wrapper nat :=
  Wrapper Nat.ltb (v_starts v) (v_is_end v) (fun p => arc_set Nat.ltb (v_arcs v p)).
(** EpsRemover, lines 303-336. *)
Definition eps_remover (v : view) : wrapper nat :=
  Wrapper Nat.ltb (v_starts v) (fun p => existsb (v_is_end v) (eps_closure v p))
    (fun p => arc_set Nat.ltb (flat_map (fun q => filter (fun x : arc => negb (fst x =? EPS)%Z) (v_arcs v q))
                                 (eps_closure v p))).
(** std::set::operator<: lexicographical comparison. *)
Fixpoint set_ltb (x y : list nat) : bool :=
  match x, y with
  | _, [] => false
  | [], _ :: _ => true
  | a :: x', b :: y' => if a <? b then true else if b <? a then false else set_ltb x' y'
  end.
(** Determinizer, lines 348-393: [arcsMap] is a std::map from symbols. *)
Fixpoint arcs_map_insert (x : arc) (m : list (symbol * list nat)) : list (symbol * list nat) :=
  match m with
  | [] => [(fst x, [snd x])]
  | (a, s) :: m' => if (fst x <? a)%Z then (fst x, [snd x]) :: m
                    else if (a <? fst x)%Z then (a, s) :: arcs_map_insert x m'
                    else (a, set_insert Nat.ltb (snd x) s) :: m'
  end.
Definition arcs_map (v : view) (ps : list nat) : list (symbol * list nat) :=
  fold_left (fun m x => arcs_map_insert x m) (flat_map (v_arcs v) ps) [].
Definition determinizer (v : view) : wrapper (list nat) :=
  Wrapper set_ltb [v_starts v] (existsb (v_is_end v)) (fun ps => arc_set set_ltb (arcs_map v ps)).
(** Intersector, lines 219-291: lines 230-231 both ask the first automaton for its start states. *)
Definition pair_ltb (x y : nat * nat) : bool :=
  (fst x <? fst y) || ((fst x =? fst y) && (snd x <? snd y)).
Definition joined (any : bool) (x y : arc) : list (symbol * (nat * nat)) :=
  (if (fst x =? fst y)%Z then [(fst x, (snd x, snd y))] else []) ++
  (if any then if (fst x =? ANY)%Z then [(fst y, (snd x, snd y))]
               else if (fst y =? ANY)%Z then [(fst x, (snd x, snd y))] else [] else []).
Definition intersector (v1 v2 : view) (any : bool) : wrapper (nat * nat) :=
  Wrapper pair_ltb
    (insert_all pair_ltb (flat_map (fun p1 => map (fun p2 => (p1, p2)) (v_starts v1)) (v_starts v1)) [])
    (fun p => v_is_end v1 (fst p) && v_is_end v2 (snd p))
    (fun p => arc_set pair_ltb
      (flat_map (fun p1 => flat_map (fun p2 =>
         flat_map (fun x => flat_map (fun y => joined any x y) (v_arcs v2 p2)) (v_arcs v1 p1))
         (eps_closure v2 (snd p))) (eps_closure v1 (fst p)))).

(** reverse, reachable, prune, epsRemove, determinize, minimize, lines 404-494. *)
Definition reverse (fuel : nat) (f : ndfsa) : option ndfsa := traverse (reverser (n_view f)) fuel empty.
Definition reachable (fuel : nat) (f : ndfsa) : option ndfsa := traverse (copier (n_view f)) fuel empty.
Definition bind {A B} (x : option A) (g : A -> option B) : option B :=
  match x with Some a => g a | None => None end.
Definition prune (fuel : nat) (f : ndfsa) : option ndfsa :=
  bind (reverse fuel f) (fun f => bind (reachable fuel f) (reverse fuel)).
Definition eps_remove (fuel : nat) (f : ndfsa) : option ndfsa := traverse (eps_remover (n_view f)) fuel empty.
Definition determinize (fuel : nat) (f : ndfsa) : option ndfsa := traverse (determinizer (n_view f)) fuel empty.
Definition minimize (fuel : nat) (f : ndfsa) : option ndfsa :=
  bind (eps_remove fuel f) (fun f => bind (reverse fuel f) (fun f => bind (determinize fuel f)
    (fun f => bind (reverse fuel f) (determinize fuel)))).
(** unify, lines 506-510, and intersect, lines 522-528; [src] is another automaton. *)
Definition unify (fuel : nat) (dst : ndfsa) (src : view) : option ndfsa := traverse (copier src) fuel dst.
Definition intersect (fuel : nat) (dst : ndfsa) (src : view) (any : bool) : option ndfsa :=
  traverse (intersector (n_view dst) src any) fuel empty.
(** concatenate, lines 540-559. *)
Definition join_ends (first_start second_start first_end : list nat) (f : ndfsa) : ndfsa :=
  fold_left (fun f p =>
    unset_end p (fold_left (fun f q => if set_count Nat.ltb q first_start then f
                                       else unset_start q (add_arc p (EPS, q) f)) second_start f)) first_end f.
Definition concatenate (fuel : nat) (dst : ndfsa) (src : view) : option ndfsa :=
  bind (traverse (copier src) fuel dst)
    (fun f => Some (join_ends (n_starts dst) (n_starts f) (n_ends dst) f)).
(** kleene_option, lines 572-592. *)
Definition kleene_option (f : ndfsa) : ndfsa :=
  let start := n_starts f in
  let ends := n_ends f in
  let (ns, f) := add_state false f in
  let f := set_start ns f in
  let (ne, f) := add_state false f in
  let f := set_end ne f in
  let f := fold_left (fun f p => add_arc ns (EPS, p) (unset_start p f)) start f in
  fold_left (fun f p => add_arc p (EPS, ne) (unset_end p f)) ends f.
(** kleene_plus and kleene_star, lines 605-629. *)
Definition kleene_plus (f : ndfsa) : ndfsa :=
  fold_left (fun f p => fold_left (fun f q => add_arc p (EPS, q) f) (n_starts f) f) (n_ends f) f.
Definition kleene_star (f : ndfsa) : ndfsa := kleene_plus (kleene_option f).

(** language_rec and language, lines 977-1000: the words are appended to the output in the
    order in which they are found; [room] is maxDepth + 1 - word.size(). *)
Fixpoint language_rec (v : view) (room : nat) (s : nat) (word : list symbol) : list (list symbol) :=
  match room with
  | O => []
  | S room => (if v_is_end v s then [word] else []) ++
      flat_map (fun x => language_rec v room (snd x) (word ++ [fst x])) (v_arcs v s)
  end.
Definition language (v : view) (max_depth : nat) : list (list symbol) :=
  flat_map (fun s => language_rec v (S max_depth) s []) (v_starts v).

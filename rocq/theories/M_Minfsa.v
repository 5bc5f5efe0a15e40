(** Model of tools/translators/bonsai/utils/binaries/IncrementalFSA.hpp, IncrementalFSA.cpp and
    Register.hpp lines 22-86, the building of a minimal automaton from sorted words by minfsa.cpp,
    which writes a state out and forgets it as soon as it cannot change any more.
    States are numbers from 0 and symbols are ints.  A std::map is a list sorted by its keys, a
    std::set a sorted list.  [None] is undefined behaviour (the end of delta_prefix without a result,
    the last child of a state without children) or the exit of add_new_transition.
    Not modelled: the wrap-around of ints, the messages of the verbose mode, the reading of the words
    from a line; the class Register itself, which is not used (IncrementalFSA.hpp line 29). *)
From Coq Require Import List ZArith Bool.
Import ListNotations.
Local Open Scope nat_scope.

Definition symbol := Z.
(** Transitions, IncrementalFSA.hpp line 19: symbol and destination. *)
Definition row := list (Z * nat).
(** TransitionTable, line 20. *)
Definition table := list (nat * row).

(** ** Maps and sets *)
Fixpoint t_get (p : nat) (t : table) : option row :=
  match t with
  | [] => None
  | (k, r) :: t' => if p =? k then Some r else t_get p t'
  end.
Fixpoint t_put (p : nat) (r : row) (t : table) : table :=
  match t with
  | [] => [(p, r)]
  | (k, s) :: t' => if p <? k then (p, r) :: t else if p =? k then (p, r) :: t' else (k, s) :: t_put p r t'
  end.
Definition t_erase (p : nat) (t : table) : table := filter (fun x => negb (p =? fst x)) t.
(** operator[] of a std::map: a missing entry is made. *)
Definition t_touch (p : nat) (t : table) : table := match t_get p t with Some _ => t | None => t_put p [] t end.
Definition t_row (p : nat) (t : table) : row := match t_get p t with Some r => r | None => [] end.
Fixpoint r_get (a : symbol) (r : row) : option nat :=
  match r with
  | [] => None
  | (b, q) :: r' => if (a =? b)%Z then Some q else r_get a r'
  end.
Fixpoint r_put (a : symbol) (q : nat) (r : row) : row :=
  match r with
  | [] => [(a, q)]
  | (b, p) :: r' => if (a <? b)%Z then (a, q) :: r else if (a =? b)%Z then (a, q) :: r' else (b, p) :: r_put a q r'
  end.
Fixpoint s_put (p : nat) (s : list nat) : list nat :=
  match s with
  | [] => [p]
  | k :: s' => if p <? k then p :: s else if p =? k then s else k :: s_put p s'
  end.
Definition s_has (p : nat) (s : list nat) : bool := existsb (Nat.eqb p) s.
Definition s_erase (p : nat) (s : list nat) : list nat := filter (fun k => negb (p =? k)) s.

(** A line of the output: an arc with source, destination and symbol, or an end state. *)
Inductive line := Arc (p q : nat) (a : symbol) | End (p : nat).

(** Register.hpp lines 22-86: two signatures are the same when their lengths and all their numbers
    are; the set keeps the state of each. *)
Definition signature := (bool * row)%type.
Definition row_eqb (x y : row) : bool :=
  (length x =? length y) && forallb (fun z : (Z * nat) * (Z * nat) =>
     (fst (fst z) =? fst (snd z))%Z && (snd (fst z) =? snd (snd z))) (combine x y).
Definition sig_eqb (x y : signature) : bool := eqb (fst x) (fst y) && row_eqb (snd x) (snd y).

(** IncrementalFSA.hpp lines 25-33, with what has been put out. *)
Record fsa := Fsa { f_table : table; f_ends : list nat; f_sigs : list (signature * nat); f_states : nat;
                    f_traversed : list nat; f_added : list nat; f_out : list line }.
Definition with_table (t : table) (f : fsa) : fsa :=
  Fsa t (f_ends f) (f_sigs f) (f_states f) (f_traversed f) (f_added f) (f_out f).

(** ** IncrementalFSA.cpp *)
(** add_new_state, lines 107-112. *)
Definition add_new_state (f : fsa) : nat * fsa :=
  (f_states f, Fsa (t_put (f_states f) [] (f_table f)) (f_ends f) (f_sigs f) (S (f_states f)) (f_traversed f) (f_added f) (f_out f)).
(** The constructors, lines 9-15. *)
Definition start : fsa := snd (add_new_state (Fsa [] [] [] 0 [] [] [])).
(** add_new_transition, lines 114-125. *)
Definition add_new_transition (from to : nat) (a : symbol) (f : fsa) : option fsa :=
  match t_get from (f_table f), t_get to (f_table f) with
  | Some r, Some _ => Some (with_table (t_put from (r_put a to r) (f_table f)) f)
  | _, _ => None
  end.
(** set_end_state, lines 190-193. *)
Definition set_end_state (p : nat) (f : fsa) : fsa :=
  Fsa (f_table f) (s_put p (f_ends f)) (f_sigs f) (f_states f) (f_traversed f) (f_added f) (f_out f).
(** add_branch, lines 127-138. *)
Fixpoint branch (current : nat) (w : list symbol) (f : fsa) : option fsa :=
  match w with
  | [] => Some (set_end_state current f)
  | a :: w' =>
      let (next, f) := add_new_state f in
      let f := Fsa (f_table f) (f_ends f) (f_sigs f) (f_states f) (f_traversed f) (s_put next (f_added f)) (f_out f) in
      match add_new_transition current next a f with
      | None => None
      | Some f => branch next w' f
      end
  end.
Definition add_branch (p : nat) (w : list symbol) (f : fsa) : option fsa :=
  branch p w (Fsa (f_table f) (f_ends f) (f_sigs f) (f_states f) (f_traversed f) [] (f_out f)).
(** delete_state, lines 140-146. *)
Definition delete_state (p : nat) (f : fsa) : fsa :=
  match t_get p (f_table f) with
  | None => f
  | Some _ => Fsa (t_erase p (f_table f)) (s_erase p (f_ends f)) (f_sigs f) (f_states f - 1) (f_traversed f) (f_added f) (f_out f)
  end.
(** has_children, lines 100-105. *)
Definition has_children (p : nat) (f : fsa) : bool * fsa :=
  (negb (length (t_row p (f_table f)) =? 0), with_table (t_touch p (f_table f)) f).
(** last_child, lines 93-98: the number, and the assignment to the reference. *)
Definition last_child (p : nat) (f : fsa) : option (nat * fsa) :=
  match rev (t_row p (f_table f)) with
  | [] => None
  | (_, q) :: _ => Some (q, with_table (t_touch p (f_table f)) f)
  end.
Definition set_last_child (p q : nat) (f : fsa) : option fsa :=
  match rev (t_row p (f_table f)) with
  | [] => None
  | (a, _) :: r => Some (with_table (t_put p (rev r ++ [(a, q)]) (f_table f)) f)
  end.
(** make_sig, lines 71-91. *)
Definition make_sig (p : nat) (f : fsa) : signature * fsa :=
  ((s_has p (f_ends f), t_row p (f_table f)), with_table (t_touch p (f_table f)) f).
(** replace_or_register, lines 43-69. *)
Fixpoint replace_or_register (fuel : nat) (state : nat) (f : fsa) : option fsa :=
  match fuel with
  | O => None
  | S fuel =>
      match last_child state f with
      | None => None
      | Some (child, f) =>
          let (deeper, f) := has_children child f in
          match (if deeper then replace_or_register fuel child f else Some f) with
          | None => None
          | Some f =>
              let (s, f) := make_sig child f in
              match find (fun x => sig_eqb s (fst x)) (f_sigs f) with
              | Some (_, equiv) =>
                  match set_last_child state equiv f with
                  | None => None
                  | Some f => Some (delete_state child f)
                  end
              | None => Some (Fsa (f_table f) (f_ends f) ((s, child) :: f_sigs f) (f_states f) (f_traversed f) (f_added f) (f_out f))
              end
          end
      end
  end.
(** delta_prefix, lines 168-183: the state and what is left of the word.  When the whole word has been
    read the function ends without a result. *)
Fixpoint delta_prefix (current : nat) (w : list symbol) (f : fsa) : option (nat * list symbol * fsa) :=
  match w with
  | [] => None
  | a :: w' =>
      let f := Fsa (f_table f) (f_ends f) (f_sigs f) (f_states f) (s_put current (f_traversed f)) (f_added f) (f_out f) in
      match t_get current (f_table f) with
      | None => Some (current, w, f)
      | Some r => match r_get a r with
                  | None => Some (current, w, f)
                  | Some next => delta_prefix next w' f
                  end
      end
  end.
(** purge, lines 195-220: the entries before [min], then those of them that were not passed. *)
Fixpoint before (min : nat) (t : table) : table :=
  match t with
  | [] => []
  | x :: t' => if fst x <? min then x :: before min t' else []
  end.
Definition arc_lines (x : nat * row) : list line := map (fun y => Arc (fst x) (snd y) (fst y)) (snd x).
Fixpoint purge_each (l : list nat) (f : fsa) : fsa :=
  match l with
  | [] => f
  | p :: l' =>
      let f := with_table (t_erase p (f_table f)) f in
      purge_each l' (if s_has p (f_ends f)
                     then Fsa (f_table f) (s_erase p (f_ends f)) (f_sigs f) (f_states f) (f_traversed f) (f_added f) (f_out f ++ [End p])
                     else f)
  end.
Definition purge (f : fsa) : fsa :=
  match f_added f with
  | [] => f
  | min :: _ =>
      let gone := filter (fun x => negb (s_has (fst x) (f_traversed f))) (before min (f_table f)) in
      purge_each (map fst gone)
        (Fsa (f_table f) (f_ends f) (f_sigs f) (f_states f) (f_traversed f) (f_added f) (f_out f ++ flat_map arc_lines gone))
  end.
(** add_word, lines 17-41.  The depth of the recursion is at most the number of entries. *)
Definition add_word (w : list symbol) (f : fsa) : option fsa :=
  match delta_prefix 0 w (Fsa (f_table f) (f_ends f) (f_sigs f) (f_states f) [] (f_added f) (f_out f)) with
  | None => None
  | Some (p, rest, f) =>
      let (some, f) := has_children p f in
      match (if some then replace_or_register (S (length (f_table f))) p f else Some f) with
      | None => None
      | Some f =>
          match add_branch p rest f with
          | None => None
          | Some f => Some (purge f)
          end
      end
  end.
Fixpoint add_words (ws : list (list symbol)) (f : fsa) : option fsa :=
  match ws with
  | [] => Some f
  | w :: ws' => match add_word w f with Some f => add_words ws' f | None => None end
  end.
(** print_rest, lines 222-231, and finalize, lines 233-236. *)
Definition finalize (f : fsa) : option (list line) :=
  match replace_or_register (S (length (f_table f))) 0 f with
  | None => None
  | Some f => Some (f_out f ++ flat_map arc_lines (f_table f) ++ map End (f_ends f))
  end.
(** minfsa.cpp lines 38-47. *)
Definition minfsa (ws : list (list symbol)) : option (list line) :=
  match add_words ws start with Some f => finalize f | None => None end.

(** Model of common/lattice_iter_writer.cpp: what a writer that iterates over a lattice
    puts into its output iterator.  Cited lines are of lattice_iter_writer.cpp.
    The warning of lines 121-123 is left out.  An error of the iteration over vertices
    comes before all output. *)
From Coq Require Import List ZArith NArith Bool Arith.
From Verif Require M_Tags M_Items.
From Verif Require Import M_OrdSet M_Lattice M_LatticeWalk.
Import ListNotations.
Local Open Scope nat_scope.

Notation str := (list Z).
(** The calls of LatticeWriterOutputIterator. *)
Inductive event :=
  | OpenGroup (t : str) | CloseGroup (t : str) | OpenAlternative | PutElement (i : item) | CloseAlternative | Flush.
(** lattice_iter_writer.hpp lines 20-44. *)
Record config := Config {
  linear : bool; no_alts : bool; with_blank : bool; basic : mask; handled : list str; fallback : list str
}.

(** What has been put out so far and how it goes on. *)
Definition out (A : Type) : Type := list event * res A.
Definition done {A} (a : A) : out A := ([], Ok a).
Definition put (e : event) : out unit := ([e], Ok tt).
Definition need {A} (r : res A) : out A := ([], r).
Definition next_out {A B} (m : out A) (f : A -> out B) : out B :=
  match m with
  | (es, Ok a) => (es ++ fst (f a), snd (f a))
  | (es, Throw e) => (es, Throw e)
  | (es, Undefined) => (es, Undefined)
  end.
Notation "'run' x <- m ; f" := (next_out m (fun x => f)) (at level 200, x name, m at level 100, f at level 200, only parsing).

(** The variables of run that live through the rounds: targets (a std::map), the tags for
    which groupOpened is true, and fallbackMap. *)
Record state := State { targets : list (str * vertex); opened : list str; queues : list (str * list desc) }.

Definition memb (t : str) (l : list str) : bool := existsb (M_Tags.str_eqb t) l.
Fixpoint find_key {A} (t : str) (l : list (str * A)) : option A :=
  match l with [] => None | (k, a) :: l' => if M_Tags.str_eqb t k then Some a else find_key t l' end.
Fixpoint set_key {A} (t : str) (a : A) (l : list (str * A)) : list (str * A) :=
  match l with
  | [] => [(t, a)]
  | (k, b) :: l' =>
      if M_Tags.str_eqb t k then (k, a) :: l'
      else if str_ltb t k then (t, a) :: l
      else (k, b) :: set_key t a l'
  end.
(** targets[tag]: a new entry has the number 0, which is the first text vertex. *)
Definition target_of (ts : list (str * vertex)) (t : str) : vertex := match find_key t ts with Some v => v | None => Text 0 end.
Definition touch (t : str) (ts : list (str * vertex)) : list (str * vertex) := set_key t (target_of ts t) ts.

(** boost::algorithm::trim_copy(...).empty() in the classic locale. *)
Definition space (b : Z) : bool := (Z.leb 9 b && Z.leb b 13) || Z.eqb b 32.
Definition blank (s : str) : bool := forallb space s.
Definition is_nil {A} (l : list A) : bool := match l with [] => true | _ => false end.

Section Run.
Variable topological_sort : list vertex -> list (vertex * vertex) -> option (list vertex).
Variable L : lattice.
Variable c : config.

(** Lines 46-47. *)
Definition wanted (d : desc) : res bool :=
  if with_blank c then Ok true
  else match edge_text L d with Ok s => Ok (negb (blank s)) | Throw e => Throw e | Undefined => Undefined end.
(** Lines 42-43; [Undefined] for the exception of the bimap. *)
Definition names_of_tags (d : desc) : res (list str) :=
  match M_Tags.get_names (tags L) (edge_tags L d) with Some ns => Ok ns | None => Undefined end.

(** Lines 53-71: one tag of an edge. *)
Definition one_tag (v : vertex) (w : bool) (d : desc) (s : state) (t : str) : out state :=
  let qs := if w && negb (is_nil (fallback c)) then
              match find_key t (queues s) with Some q => set_key t (q ++ [d]) (queues s) | None => queues s end
            else queues s in
  if memb t (handled c) then
    let ts := touch t (targets s) in
    if vertex_eqb (target_of ts t) v then
      run u <- need (target L d);
      run _ <- (if memb t (opened s) then put (CloseGroup t) else done tt);
      run _ <- put (OpenGroup t);
      done (State (set_key t u ts) (t :: opened s) qs)
    else done (State ts (opened s) qs)
  else done (State (targets s) (opened s) qs).
Fixpoint all_tags (v : vertex) (w : bool) (d : desc) (s : state) (ts : list str) : out state :=
  match ts with
  | [] => done s
  | t :: ts' => run s' <- one_tag v w d s t; all_tags v w d s' ts'
  end.
(** Lines 34-73; [q] is basicTagEdges. *)
Fixpoint gather (v : vertex) (ds : list desc) (q : list desc) (s : state) : out (list desc * state) :=
  match ds with
  | [] => done (q, s)
  | d :: ds' =>
      if is_discarded L d then gather v ds' q s
      else
        run ns <- need (names_of_tags d);
        run w <- need (wanted d);
        let q' := if w && M_Tags.matches (edge_tags L d) (basic c) then q ++ [d] else q in
        run s' <- all_tags v w d s ns;
        gather v ds' q' s'
  end.

(** Lines 75-85. *)
Definition print_elements (s : state) : bool :=
  if is_nil (handled c) then true else existsb (fun t => memb t (opened s)) (handled c).

(** Lines 87-109. *)
Definition queue_of (qs : list (str * list desc)) (t : str) : list desc := match find_key t qs with Some q => q | None => [] end.
Fixpoint take_fallback (fs : list str) (q : list desc) (qs : list (str * list desc)) : list desc * list (str * list desc) :=
  match fs with
  | [] => (q, qs)
  | f :: fs' =>
      if is_nil q then take_fallback fs' (queue_of qs f) (set_key f [] qs)
      else take_fallback fs' q (set_key f [] qs)
  end.

(** Lines 111-132; the result tells whether an alternative is open. *)
Fixpoint print_edges (p : bool) (q : list desc) (o : bool) : out bool :=
  match q with
  | [] => done o
  | d :: q' =>
      run o' <-
        (if p then
           run _ <- (if o then done tt else put OpenAlternative);
           run i <- need (annotation_item L d);
           run _ <- put (PutElement i);
           done true
         else done o);
      if no_alts c then done o' else print_edges p q' o'
  end.

(** Lines 25-136: one round of the loop. *)
Definition visit (v : vertex) (s : state) : out state :=
  run ds <- need (snd (out_edges v (M_Tags.mask_const true) L));
  run x <- gather v ds [] s;
  let s' := snd x in
  let '(q, qs) := if is_nil (fallback c) then (fst x, queues s') else take_fallback (fallback c) (fst x) (queues s') in
  run o <- print_edges (print_elements s') q false;
  run _ <- (if o then put CloseAlternative else done tt);
  done (State (targets s') (opened s') qs).
Fixpoint visit_all (vs : list vertex) (s : state) : out state :=
  match vs with
  | [] => done s
  | v :: vs' => run s' <- visit v s; visit_all vs' s'
  end.
(** The loop with lines 138-146; [Undefined] also: no end within [n] rounds. *)
Fixpoint visit_linear (n : nat) (v : vertex) (s : state) : out state :=
  match n with
  | O => need Undefined
  | S n' =>
      run s' <- visit v s;
      match snd (first_out_edge v (M_Tags.mask_const true) L) with
      | Throw NoEdge => done s'
      | Ok d => run u <- need (target L d); visit_linear n' u s'
      | Throw e => need (Throw e)
      | Undefined => need Undefined
      end
  end.
(** Lines 150-153. *)
Fixpoint close_all (ts : list (str * vertex)) : out unit :=
  match ts with [] => put Flush | (t, _) :: ts' => run _ <- put (CloseGroup t); close_all ts' end.

(** Lines 3-157. *)
Definition initial_state : state :=
  State [] [] (fold_left (fun qs f => match find_key f qs with Some _ => qs | None => set_key f [] qs end) (fallback c) []).
Definition write (n : nat) : out unit :=
  run vs <- need (vertices topological_sort true L);
  run v <- need (snd (get_first_vertex topological_sort L));
  run s <- (if linear c then visit_linear n v initial_state else visit_all vs initial_state);
  close_all (targets s).
End Run.

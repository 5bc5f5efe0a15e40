(** Model of how score (tools/translators/bonsai/utils/binaries/score-main.cpp lines 223-279 and 313-357,
    and 878-889) groups the phrase pairs of a sorted file, with PhraseAlignment::equals, match and Compare
    (PhraseAlignment.cpp lines 174-240).  Simplifications: what create makes of a line is a function of
    the line; counts are of any type with an addition (floats in the source; pcfgSum goes the same way
    and is left out); a std::set is a list in its order; a vocabulary is the list of its words. *)
From Coq Require Import String Ascii.
From Coq Require Import List Arith Bool Lia.
Import ListNotations.
Local Open Scope nat_scope.

(** score.h lines 30-33, isNonTerminal *)
Definition non_terminal (word : list ascii) : bool :=
  (3 <=? length word) && Ascii.eqb (hd "000"%char word) "[" && Ascii.eqb (last word "000"%char) "]".

Section Score.
  Variable num : Type.
  Variable add : num -> num -> num.

  (** PhraseAlignment.h lines 20-60; a std::set is a sorted list *)
  Record pair_t := mkPair { p_src : list nat; p_tgt : list nat; p_toT : list (list nat); p_toS : list (list nat);
                            p_sentence : nat; p_count : num }.

  Definition list_eqb {A} (eqb : A -> A -> bool) : list A -> list A -> bool :=
    fix go l1 l2 := match l1, l2 with
                    | [], [] => true
                    | a :: l1', b :: l2' => eqb a b && go l1' l2'
                    | _, _ => false
                    end.
  (** operator< of vectors *)
  Fixpoint lex_ltb (l1 l2 : list nat) : bool :=
    match l1, l2 with
    | _, [] => false
    | [], _ :: _ => true
    | a :: l1', b :: l2' => (a <? b) || (negb (b <? a) && lex_ltb l1' l2')
    end.

  (** the domain of a sentence, what DomainFeature::equals compares; one value if there is no such feature *)
  Variable domain : nat -> nat.
  Variable words : nat -> list ascii.
  Variable hierarchical : bool.

  (** PhraseAlignment.cpp lines 174-183, equals *)
  Definition equals (a b : pair_t) : bool :=
    list_eqb Nat.eqb (p_tgt b) (p_tgt a) && list_eqb Nat.eqb (p_src b) (p_src a)
    && list_eqb (list_eqb Nat.eqb) (p_toT b) (p_toT a) && list_eqb (list_eqb Nat.eqb) (p_toS b) (p_toS a).
  (** domain.cpp lines 167-171 *)
  Definition feature_equals (a b : pair_t) : bool := domain (p_sentence a) =? domain (p_sentence b).

  (** the words of the target but the last one, with what they are aligned to *)
  Definition at_ (l : list (list nat)) (i : nat) : list nat := nth i l [].
  Definition places (a : pair_t) : list nat := filter (fun i => non_terminal (words (nth i (p_tgt a) 0))) (seq 0 (length (p_tgt a) - 1)).

  (** lines 187-207, match *)
  Definition matches (a b : pair_t) : bool :=
    if negb (list_eqb Nat.eqb (p_tgt b) (p_tgt a)) then false
    else if negb (list_eqb Nat.eqb (p_src b) (p_src a)) then false
    else if negb hierarchical then true
    else forallb (fun i => negb (negb (length (at_ (p_toT a) i) =? 1) || negb (length (at_ (p_toT b) i) =? 1)
                                 || negb (hd 0 (at_ (p_toT a) i) =? hd 0 (at_ (p_toT b) i)))) (places a).

  (** lines 209-240, Compare; what begin() of an empty set shows is taken as 0 *)
  Fixpoint compare_places (a b : pair_t) (l : list nat) : comparison :=
    match l with
    | [] => Eq
    | i :: l' =>
      let x := hd 0 (at_ (p_toT a) i) in let y := hd 0 (at_ (p_toT b) i) in
      if negb (length (at_ (p_toT a) i) =? 1) || negb (length (at_ (p_toT b) i) =? 1) || negb (x =? y)
      then if x <? y then Lt else Gt
      else compare_places a b l'
    end.
  Definition compare (a b : pair_t) : comparison :=
    if negb (list_eqb Nat.eqb (p_tgt a) (p_tgt b)) then (if lex_ltb (p_tgt a) (p_tgt b) then Lt else Gt)
    else if negb (list_eqb Nat.eqb (p_src a) (p_src b)) then (if lex_ltb (p_src a) (p_src b) then Lt else Gt)
    else if negb hierarchical then Eq
    else compare_places a b (places a).
  (** PhraseAlignment.h lines 45-48, operator< *)
  Definition less (a b : pair_t) : bool := match compare a b with Lt => true | _ => false end.

  (** lines 66-80, the order of the collections, by their first pairs, and std::set::insert: the place,
      and a collection that is there already.  The number of a collection is that of its coming, which is its place
      in m_sortedColl (score-main.cpp lines 878-889). *)
  Definition coll := (nat * list pair_t)%type.
  Definition first_less (c : coll) (p : pair_t) : bool := match snd c with q :: _ => less q p | [] => false end.
  Definition less_first (p : pair_t) (c : coll) : bool := match snd c with q :: _ => less p q | [] => false end.
  Fixpoint insert (n : nat) (p : pair_t) (s : list coll) : list coll :=
    match s with
    | [] => [(n, [p])]
    | c :: s' =>
      if first_less c p then c :: insert n p s'
      else if less_first p c then (n, [p]) :: s
      else (fst c, snd c ++ [p]) :: s'
    end.
  (** score-main.cpp lines 313-345: the collections *)
  Definition group (pairs : list pair_t) : list coll := fold_left (fun s p => insert (length s) p s) pairs [].
  (** lines 347-355: in the order of their coming *)
  Definition sorted_groups (pairs : list pair_t) : list (list pair_t) :=
    let s := group pairs in
    flat_map (fun n => map snd (filter (fun c : coll => fst c =? n) s)) (seq 0 (length s)).

  Variable line : Type.
  Variable line_eqb : line -> line -> bool.
  Variable empty_line : line.
  Variable create : line -> pair_t.

  Definition more (p : pair_t) (c : num) : pair_t := mkPair (p_src p) (p_tgt p) (p_toT p) (p_toS p) (p_sentence p) (add (p_count p) c).
  (** lines 223-279: a batch is given to processPhrasePairs with isSingleton; the batch that is being
      made is kept with the last pair apart.  None is the use of lastPhrasePair that is NULL. *)
  Fixpoint score_loop (lines : list line) (last_line : line) (last_count : option num) (done : list pair_t) (last : option pair_t)
      (single : bool) (out : list (list pair_t * bool)) : option (list (list pair_t * bool)) :=
    match lines with
    | [] => Some (out ++ match last with Some p => [(done ++ [p], single)] | None => [] end)
    | l :: lines' =>
      if line_eqb l last_line then
        match last, last_count with
        | Some p, Some c => score_loop lines' last_line last_count done (Some (more p c)) single out
        | _, _ => None
        end
      else
        let p := create l in
        match last with
        | None => score_loop lines' l (Some (p_count p)) done (Some p) true out
        | Some q =>
          if equals q p && feature_equals q p then score_loop lines' l (Some (p_count p)) done (Some (more q (p_count p))) single out
          else if negb (list_eqb Nat.eqb (p_src q) (p_src p))
          then score_loop lines' l (Some (p_count p)) [] (Some p) false (out ++ [(done ++ [q], single)])
          else score_loop lines' l (Some (p_count p)) (done ++ [q]) (Some p) true out
        end
    end.
  Definition score (lines : list line) : option (list (list pair_t * bool)) := score_loop lines empty_line None [] None true [].
End Score.

(** Model of common/layer_tag_collection.cpp, layer_tag_mask.cpp and
    layer_tag_manager.cpp (with the headers).  A std::bitset<64> is an [N] below 2^64.
    [None]: the assertion in resize_ fails (the 65th tag). *)
From Coq Require Import List ZArith NArith Bool Arith.
From Verif Require Import M_OrdSet.
Import ListNotations.

(** ** layer_tag_collection.cpp *)
Definition collection := N.
Definition CAPACITY : nat := 64.
(** Lines 6-12. *)
Definition is_empty (c : collection) : bool := N.eqb c 0.
Definition is_nonempty (c : collection) : bool := negb (N.eqb c 0).
(** Lines 14-16: sizes are equal, so this is "subset". *)
Definition coll_less (a b : collection) : bool := N.eqb (N.land a b) a.
(** Lines 18-24. *)
Definition coll_eqb (a b : collection) : bool := N.eqb a b.
(** Lines 40-69. *)
Definition union (a b : collection) : collection := N.lor (N.lor 0 a) b.
Definition intersection (a b : collection) : collection := N.land (N.lor 0 a) b.
Definition subset (a b : collection) : bool := N.eqb (N.land a b) a.
(** Lines 26-28. *)
Definition coll_hash (c : collection) : N := c.

(** ** layer_tag_mask.hpp and layer_tag_mask.cpp *)
Record mask := Mask { alts : list collection; any : bool; none : bool; hash : N }.
(** layer_tag_mask.cpp lines 90-99: computeHash_ (unsigned long). *)
Definition compute_hash (alts : list collection) (any none : bool) : N :=
  if any then 1%N
  else if none then 0%N
  else ((fold_left (fun h a => N.lxor h (coll_hash a)) alts 0 + 2) mod 2 ^ 64)%N.
(** layer_tag_mask.hpp lines 40-66: the constructors. *)
Definition mask_of (cs : list collection) : mask := Mask cs false false (compute_hash cs false false).
Definition mask_const (val : bool) : mask := Mask [] val (negb val) (compute_hash [] val (negb val)).

(** Lines 5-19: isNone, which may change the mask. *)
Definition is_none (m : mask) : bool * mask :=
  if none m then (true, m)
  else if any m then (false, m)
  else if existsb is_nonempty (alts m) then (false, m)
  else (true, Mask (alts m) (any m) true (hash m)).
(** Lines 21-31. *)
Definition is_some (m : mask) : bool := if any m then true else existsb is_nonempty (alts m).
(** Lines 63-86. *)
Fixpoint alts_eqb (a b : list collection) : bool :=
  match a, b with
  | [], [] => true
  | x :: a', y :: b' => coll_eqb x y && alts_eqb a' b'
  | _, _ => false
  end.
Definition mask_eqb (a b : mask) : bool :=
  if any a && any b then true
  else if none a && none b then true
  else if negb (eqb (any a) (any b)) then false
  else if negb (eqb (none a) (none b)) then false
  else alts_eqb (alts a) (alts b).
(** Lines 101-117. *)
Definition matches (tags : collection) (m : mask) : bool :=
  if none m then false
  else if any m then true
  else existsb (fun a => subset a tags) (alts m).

(** ** layer_tag_manager.cpp *)
Definition str := list Z.
Definition str_eqb (a b : str) : bool := if list_eq_dec Z.eq_dec a b then true else false.

(** The bimap: the name with number i is the i-th of the list. *)
Record manager := Manager { names : list str; planes : collection }.

Fixpoint index (ns : list str) (n : str) : option nat :=
  match ns with
  | [] => None
  | x :: ns' => if str_eqb x n then Some 0 else option_map S (index ns' n)
  end.
(** m_.insert(StringBimapItem(tagName, m_.size())): a name that is there keeps its number. *)
Definition register (ns : list str) (n : str) : list str :=
  match index ns n with Some _ => ns | None => ns ++ [n] end.

Definition set_bit (c : collection) (i : nat) : collection := N.setbit c (N.of_nat i).

(** Lines 26-43 (and 9-24, 45-62): one round of the loop, then the loop. *)
Definition add_tag (st : manager * collection) (n : str) : option (manager * collection) :=
  let '(m, c) := st in
  let ns := register (names m) n in
  match index ns n with
  | None => None
  | Some i =>
      if CAPACITY <=? i then None
      else Some (Manager ns (if Z.eqb (hd 0%Z n) 33 then set_bit (planes m) i else planes m), set_bit c i)
  end.
Fixpoint add_tags (st : manager * collection) (ns : list str) : option (manager * collection) :=
  match ns with
  | [] => Some st
  | n :: ns' => match add_tag st n with Some st' => add_tags st' ns' | None => None end
  end.
Definition create (m : manager) (ns : list str) : option (manager * collection) := add_tags (m, 0%N) ns.

(** "symbol". *)
Definition SYMBOL : str := [115; 121; 109; 98; 111; 108]%Z.
(** Line 7: the constructor; symbolTag_ is the collection made here. *)
Definition initial : manager := Manager [SYMBOL] 0%N.
Definition symbol_tag : collection := 1%N.

(** std::list::sort, stable. *)
Fixpoint insert_sorted (x : str) (l : list str) : list str :=
  match l with
  | [] => [x]
  | y :: l' => if str_ltb y x then y :: insert_sorted x l' else x :: l
  end.
Fixpoint sort (l : list str) : list str := match l with [] => [] | x :: l' => insert_sorted x (sort l') end.

(** Lines 64-78: getTagNames; [None]: m_.right.at throws. *)
Fixpoint collect (ns : list str) (c : collection) (is : list nat) : option (list str) :=
  match is with
  | [] => Some []
  | i :: is' =>
      if N.testbit c (N.of_nat i) then
        match nth_error ns i, collect ns c is' with
        | Some n, Some r => Some (n :: r)
        | _, _ => None
        end
      else collect ns c is'
  end.
Definition get_names (m : manager) (c : collection) : option (list str) :=
  option_map sort (collect (names m) c (seq 0 CAPACITY)).

(** Lines 112-120: onlyPlaneTags and areInTheSamePlane. *)
Definition only_planes (m : manager) (c : collection) : collection := intersection (planes m) c.
Definition same_plane (m : manager) (a b : collection) : bool := coll_eqb (only_planes m a) (only_planes m b).
(** Lines 122-126: isThere, which registers the name. *)
Definition is_there (m : manager) (n : str) (c : collection) : option (manager * bool) :=
  let ns := register (names m) n in
  match index ns n with
  | None => None
  | Some i => if CAPACITY <=? i then None else Some (Manager ns (planes m), N.testbit c (N.of_nat i))
  end.
(** Lines 128-138. *)
Definition can_be_applied_to_implicit_symbol (m : mask) : bool :=
  any m || existsb (fun a => coll_eqb a symbol_tag) (alts m).

(** Lines 102-110: getAlternativeMaskFromTagNames. *)
Fixpoint create_all (m : manager) (alts : list (list str)) : option (manager * list collection) :=
  match alts with
  | [] => Some (m, [])
  | ns :: alts' =>
      match create m ns with
      | None => None
      | Some (m1, c) => match create_all m1 alts' with None => None | Some (m2, cs) => Some (m2, c :: cs) end
      end
  end.

(** Lines 140-145: boost::split at commas; the parts may be empty. *)
Fixpoint split_commas (s : str) : list str :=
  match s with
  | [] => [[]]
  | c :: s' =>
      if Z.eqb c 44 then [] :: split_commas s'
      else match split_commas s' with [] => [[c]] | p :: ps => (c :: p) :: ps end
  end.

(** layer_tag_manager.hpp lines 22-43: the grammar of a mask; boost::spirit's list
    parser [p % sep] takes a [p] and then as many [sep p] as there are.
    [word s]: the longest non-empty run without comma and semicolon. *)
Fixpoint run_of (s : str) : str * str :=
  match s with
  | [] => ([], [])
  | c :: s' => if Z.eqb c 44 || Z.eqb c 59 then ([], s) else let '(w, r) := run_of s' in (c :: w, r)
  end.
Definition word (s : str) : option (str * str) :=
  match run_of s with ([], _) => None | r => Some r end.
(** [fuel]: the length of the rest is enough. *)
Fixpoint more_words (fuel : nat) (s : str) : list str * str :=
  match fuel, s with
  | S f, c :: s' =>
      if Z.eqb c 44 then
        match word s' with
        | Some (w, r) => let '(ws, r') := more_words f r in (w :: ws, r')
        | None => ([], s)
        end
      else ([], s)
  | _, _ => ([], s)
  end.
Definition conjunction (s : str) : option (list str * str) :=
  match word s with
  | Some (w, r) => let '(ws, r') := more_words (length r) r in Some (w :: ws, r')
  | None => None
  end.
Fixpoint more_conjunctions (fuel : nat) (s : str) : list (list str) * str :=
  match fuel, s with
  | S f, c :: s' =>
      if Z.eqb c 59 then
        match conjunction s' with
        | Some (w, r) => let '(ws, r') := more_conjunctions f r in (w :: ws, r')
        | None => ([], s)
        end
      else ([], s)
  | _, _ => ([], s)
  end.
(** Lines 147-154: splitMaskSpecification; a rest is ignored. *)
Definition split_mask (s : str) : list (list str) :=
  match conjunction s with
  | Some (c, r) => c :: fst (more_conjunctions (length r) r)
  | None => []
  end.
(** Lines 84-91: getMask of a specification. *)
Definition get_mask (m : manager) (spec : str) : option (manager * mask) :=
  match split_mask spec with
  | [] => match create m [spec] with Some (m', c) => Some (m', mask_of [c]) | None => None end
  | alts => match create_all m alts with Some (m', cs) => Some (m', mask_of cs) | None => None end
  end.

(** A history of calls on one manager, with the collections and masks made. *)
Inductive call := Create (ns : list str) | MaskOf (spec : str) | IsThere (n : str) (c : collection).
Definition step (m : manager) (c : call) : option manager :=
  match c with
  | Create ns => option_map fst (create m ns)
  | MaskOf spec => option_map fst (get_mask m spec)
  | IsThere n c => option_map fst (is_there m n c)
  end.
Fixpoint run (m : manager) (cs : list call) : option manager :=
  match cs with [] => Some m | c :: cs' => match step m c with Some m' => run m' cs' | None => None end end.

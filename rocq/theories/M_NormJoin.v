(** Model of the normalizer simplenorm (tools/normalizers/simplenorm/simplenorm_normalizer.cpp lines 90-102 and 130-159) and of the
    converter joiner (tools/converters/joiner/joiner.cpp lines 70-103 and 164-263).
    Simplifications: the lattice is given by what is read of it (the edges of a mask, their parents, children, items), and what
    is read does not change by the edges added, that is, the tags given do not match the masks asked for; the added edges
    are the result.  The edges themselves are modelled in M_Lattice, parents and children in M_LatticeKin. *)
From Coq Require Import String Ascii.
From Coq Require Import List Arith Bool.
Import ListNotations.
Local Open Scope nat_scope.

Definition str := list ascii.
Definition lit (s : string) : str := list_ascii_of_string s.
Definition str_eqb (a b : str) : bool := if list_eq_dec ascii_dec a b then true else false.
Definition tab : ascii := "009"%char.
Definition newline : ascii := "010"%char.

(** * simplenorm *)
(** boost::split at one character: the pieces, at least one *)
Fixpoint split (sep : ascii) (s : str) : list str :=
  match s with
  | [] => [[]]
  | c :: s' =>
    if ascii_dec c sep then [] :: split sep s'
    else match split sep s' with p :: ps => (c :: p) :: ps | [] => [[c]] end
  end.
(** line 97, std::getline until it fails: what is after the last newline is a line if it is not empty *)
Fixpoint lines_of (line s : str) : list str :=
  match s with
  | [] => match line with [] => [] | _ => [line] end
  | c :: s' => if ascii_dec c newline then line :: lines_of [] s' else lines_of (line ++ [c]) s'
  end.
(** the map, a list of keys with values; operator[] = *)
Fixpoint put (k v : str) (m : list (str * str)) : list (str * str) :=
  match m with
  | [] => [(k, v)]
  | (k', v') :: m' => if str_eqb k' k then (k, v) :: m' else (k', v') :: put k v m'
  end.
Fixpoint find_key (k : str) (m : list (str * str)) : option str :=
  match m with
  | [] => None
  | (k', v) :: m' => if str_eqb k' k then Some v else find_key k m'
  end.
(** lines 97-101; None is the read of pair[1] in a line without a tab *)
Fixpoint load_lines (ls : list str) (m : list (str * str)) : option (list (str * str)) :=
  match ls with
  | [] => Some m
  | l :: ls' => match split tab l with k :: v :: _ => load_lines ls' (put k v m) | _ => None end
  end.
(** lines 90-102, the constructor *)
Definition load (file : str) : option (list (str * str)) := load_lines (lines_of [] file) [].

(** a token edge: its category, its text, its vertices *)
Record token := mkToken { t_category : str; t_text : str; t_from : nat; t_to : nat }.
(** lines 130-159, normalize: the edges added, of category "T" *)
Definition normalize (m : list (str * str)) (ts : list token) : list token :=
  flat_map (fun t =>
    if str_eqb (lit "T") (t_category t)
    then match find_key (t_text t) m with Some v => [mkToken (lit "T") v (t_from t) (t_to t)] | None => [] end
    else []) ts.

(** * joiner *)
(** lines 70-103, doRequiredLayerTags: for each pair of alternatives both lists together *)
Definition required (left right : list (list str)) : list (list str) :=
  flat_map (fun l => map (fun r => l ++ r) right) left.

Inductive handling := TakeLeft | TakeRight | Merge.
Record item := mkItem { i_category : str; i_text : str; i_attributes : list (str * str) }.
(** What is done with the lattice: an edge over the place of a left edge, made of these edges with this item (lines 219-232 and
    248-259), or a partition for a left edge (lines 243-246). *)
Inductive added := Edge (place : nat) (made_of : list nat) (it : item) | Partition (edge : nat).

Section Join.
  Variable left_text left_category outer extended : bool.
  Variable attributes : handling.
  (** the edges are numbers: those with the left mask, the first parent, the children with the right mask, items, and whether
      the tags of the edge have the plane of the tags given *)
  Variable parent : nat -> option nat.
  Variable children : nat -> list nat.
  Variable item_of : nat -> item.
  Variable same_plane : nat -> bool.

  (** annotation_item_manager.cpp lines 154-165, addValues *)
  Definition add_values (target source : list (str * str)) : list (str * str) :=
    fold_left (fun m av => put (fst av) (snd av) m) source target.
  (** lines 195-217 *)
  Definition joined_item (l r : nat) : item :=
    let a := i_attributes (item_of (match attributes with TakeRight => r | _ => l end)) in
    mkItem (i_category (item_of (if left_category then l else r))) (i_text (item_of (if left_text then l else r)))
      (match attributes with Merge => add_values a (i_attributes (item_of r)) | _ => a end).
  (** lines 181-262, one left edge *)
  Definition join_one (l : nat) : list added :=
    let rights := match parent l with Some p => children p | None => [] end in
    let found := match rights with [] => false | _ => true end in
    map (fun r => Edge l [l; r] (joined_item l r)) rights
    ++ (if extended || (negb found && outer)
        then [if same_plane l then Partition l else Edge l [l] (item_of l)] else []).
  Definition join (lefts : list nat) : list added := flat_map join_one lefts.
End Join.

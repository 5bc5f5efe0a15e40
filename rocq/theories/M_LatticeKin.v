(** Model of common/lattice.cpp, continued: the edges an edge was made of and the edges made
    of it.  getParent is in M_LatticeWalk.  Cited lines are of lattice.cpp. *)
From Coq Require Import List ZArith NArith Bool Arith.
From Verif Require M_Tags M_Items.
From Verif Require Import M_Lattice M_LatticeWalk.
Import ListNotations.
Local Open Scope nat_scope.

(** Lines 680-712: getChildren.  A child is put out once for every time the parent is in one
    of its partitions. *)
Definition desc_count (d : desc) (us : list usage) : nat := length (filter (fun u => desc_eqb (fst u) d) us).
Fixpoint times_in (ps : list partition) (parent : desc) : act nat :=
  match ps with
  | [] => ret 0
  | p :: ps' =>
      do us <- usages (p_sequence p);
      do n <- times_in ps' parent;
      ret (desc_count parent us + n)
  end.
Fixpoint children_among (ds : list desc) (to : vertex) (parent : desc) : act (list desc) :=
  match ds with
  | [] => ret []
  | d :: ds' =>
      do t <- ask (fun L => target L d);
      do cs <- (if vertex_eqb t to then
                  do ps <- ask (fun L => Ok (edge_partitions L d));
                  do n <- times_in ps parent; ret (repeat d n)
                else ret []);
      do rest <- children_among ds' to parent;
      ret (cs ++ rest)
  end.
Definition get_children (parent : desc) (m : mask) : act (list desc) :=
  do from <- ask (fun L => source L parent);
  do to <- ask (fun L => target L parent);
  do ds <- out_edges from m;
  children_among ds to parent.

(** LayerTagManager::isThere on the tags of an edge.  A name that is not known gets a number,
    and the number must be below the size of a collection. *)
Definition has_tag (name : M_Tags.str) (d : desc) : act bool :=
  fun L => match M_Tags.is_there (tags L) name (edge_tags L d) with
           | Some (m, b) => (set_tags m L, Ok b)
           | None => (L, Undefined)
           end.
(** Lines 739-751: getEdgeOrigin.  [n] is the number of rounds; Undefined means that they do not
    suffice. *)
Definition any_tag : mask := M_Tags.mask_const true.
Fixpoint origin_loop (n : nat) (name : M_Tags.str) (x : option desc) : act (option desc) :=
  match x with
  | None => ret None
  | Some d =>
      match n with
      | O => undefined
      | S n' =>
          do b <- has_tag name d;
          if b : bool then ret (Some d) else do y <- get_parent d any_tag; origin_loop n' name y
      end
  end.
Definition edge_origin (n : nat) (name : M_Tags.str) (d : desc) : act (option desc) :=
  do x <- get_parent d any_tag; origin_loop n name x.
(** Lines 10, 754-760: getEdgeLemma. *)
Definition LEMMA : M_Tags.str := [108; 101; 109; 109; 97]%Z.
Definition edge_lemma (n : nat) (d : desc) : act (option M_Items.str) :=
  do x <- edge_origin n LEMMA d;
  match x with
  | None => ret None
  | Some o => do it <- ask (fun L => annotation_item L o); ret (Some (M_Items.text it))
  end.

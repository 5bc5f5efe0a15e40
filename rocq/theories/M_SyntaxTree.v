(** Model of SyntaxTree::ConnectNodes and Parse (tools/translators/bonsai/utils/binaries/SyntaxTree.cpp lines
    56-161), which find the parents of the nodes of a tree and its branchings from the spans.
    Simplifications: the index (a map from starts to maps from ends to vectors) is a list in the order
    in which ConnectNodes goes through it; the lists of children are left out, as a child is added to
    its parent when the parent is set; the assertions are left out; None is the use of a null pointer. *)
From Coq Require Import List Arith Bool Lia.
Import ListNotations.

(** SyntaxTree.h lines 32-76, SyntaxNode; the number is that of its coming *)
Record snode := mkS { s_id : nat; s_start : nat; s_end : nat }.

(** SyntaxTree.cpp lines 48-54, AddNode, and 127-136: starts from lowest to highest, ends from highest
    to lowest, nodes over the same span from the last to the first *)
Fixpoint place (n : snode) (l : list snode) : list snode :=
  match l with
  | [] => [n]
  | m :: l' =>
    if (s_start m <? s_start n) || ((s_start m =? s_start n) && (s_end n <? s_end m)) then m :: place n l' else n :: l
  end.
Definition order (nodes : list snode) : list snode := fold_left (fun l n => place n l) nodes [].

(** the parents that are set, and GetParent *)
Definition links := list (snode * option snode).
Fixpoint parent_of (d : links) (n : snode) : option snode :=
  match d with
  | [] => None
  | (m, p) :: d' => if s_id m =? s_id n then p else parent_of d' n
  end.
(** lines 150-152 *)
Fixpoint climb (fuel : nat) (d : links) (a : snode) (e : nat) : option snode :=
  match fuel with
  | O => None
  | S fuel' =>
    if s_end a <? e then match parent_of d a with Some b => climb fuel' d b e | None => None end else Some a
  end.
(** lines 136-157 *)
Fixpoint connect_loop (prev : option snode) (d : links) (l : list snode) : option links :=
  match l with
  | [] => Some d
  | n :: l' =>
    match prev with
    | None => connect_loop (Some n) (d ++ [(n, None)]) l'
    | Some p =>
      if s_start p =? s_start n then connect_loop (Some n) (d ++ [(n, Some p)]) l'
      else
        match parent_of d p with
        | None => None
        | Some a =>
          match climb (S (length d)) d a (s_end n) with
          | Some q => connect_loop (Some n) (d ++ [(n, Some q)]) l'
          | None => None
          end
        end
    end
  end.
(** lines 121-161, ConnectNodes *)
Definition connect (nodes : list snode) : option links := connect_loop None [] (order nodes).

(** lines 95-111, HasNode *)
Definition has (nodes : list snode) (i j : nat) : bool := existsb (fun n => (s_start n =? i) && (s_end n =? j)) nodes.
(** lines 78-85: from the largest place on; what is found ends the loop *)
Fixpoint find_mid (nodes : list snode) (i covered mid : nat) : option nat :=
  match mid with
  | O => None
  | S mid' => if covered <? mid then (if has nodes (i + covered) (i + mid - 1) then Some mid else find_mid nodes i covered mid') else None
  end.
(** lines 73-86: the while loop; None is a loop that has not ended yet *)
Fixpoint split_loop (fuel : nat) (nodes : list snode) (i len first covered : nat) (points : list nat) : option (list nat) :=
  match fuel with
  | O => None
  | S fuel' =>
    if covered <? len then
      match find_mid nodes i covered (len - first) with
      | Some m => split_loop fuel' nodes i len 0 m (points ++ [i + m])
      | None => split_loop fuel' nodes i len first covered points
      end
    else Some points
  end.
Definition split_points (nodes : list snode) (i len : nat) : option (list nat) := split_loop (S len) nodes i len 1 0 [i].
Fixpoint all_parsed (l : list (option (list nat))) : option (list (list nat)) :=
  match l with
  | [] => Some []
  | Some x :: l' => match all_parsed l' with Some r => Some (x :: r) | None => None end
  | None :: _ => None
  end.
(** lines 56-93, Parse; m_index.size() is the number of starts *)
Definition index_size (nodes : list snode) : nat := length (nodup Nat.eq_dec (map s_start nodes)).
Definition parse (nodes : list snode) : option (list (list nat)) :=
  let size := index_size nodes in
  all_parsed (flat_map (fun len => flat_map (fun i => if has nodes i (i + len - 1) then [split_points nodes i len] else [])
    (seq 0 (S (size - len)))) (seq 2 (size - 1))).

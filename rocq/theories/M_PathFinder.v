(** Model of FstPathFinder of the normalizer iayko (tools/normalizers/iayko/plugin/fst_path_finder.cpp lines 45-91), which lists
    the paths of an automaton without cycles.
    Simplifications: the automaton is given as the tree of its paths (a state that is reached twice stands twice in it); the
    arcs of a final state are left out, they are not looked at; weights are whole numbers with addition for Times. *)
From Coq Require Import List Arith ZArith Bool.
Import ListNotations.
Local Open Scope nat_scope.

Inductive tree := Final (w : Z) | Node (arcs : list (Z * Z * tree)).

(** line 66, std::equal over the path being made; None is a read beyond the end of the path kept *)
Fixpoint same (path kept : list Z) : option bool :=
  match path, kept with
  | [], _ => Some true
  | _ :: _, [] => None
  | x :: path', y :: kept' => if (x =? y)%Z then same path' kept' else Some false
  end.
(** lines 63-74 *)
Fixpoint seen (path : list Z) (paths : list (list Z * Z)) : option bool :=
  match paths with
  | [] => Some false
  | p :: paths' =>
    match same path (fst p), seen path paths' with
    | Some a, Some b => Some (a || b)
    | _, _ => None
    end
  end.

Section Finder.
  Variable skip : Z -> bool.
  Variable band : nat.

  (** lines 57-91, _extract_paths: the path is shared by all calls, and cleared at a final state *)
  Fixpoint extract (t : tree) (path : list Z) (cost : Z) (paths : list (list Z * Z)) {struct t} : option (list Z * list (list Z * Z)) :=
    match t with
    | Final w =>
      match seen path paths with
      | None => None
      | Some b => Some ([], if b then paths else paths ++ [(path, (cost + w)%Z)])
      end
    | Node arcs =>
      (fix go (arcs : list (Z * Z * tree)) (path : list Z) (paths : list (list Z * Z)) {struct arcs} : option (list Z * list (list Z * Z)) :=
         match arcs with
         | [] => Some (path, paths)
         | (l, w, t') :: arcs' =>
           let path := if skip l then path else path ++ [l] in
           if length paths <=? band
           then match extract t' path (cost + w)%Z paths with
                | Some (path, paths) => go arcs' path paths
                | None => None
                end
           else go arcs' path paths
         end) arcs path paths
    end.
  (** lines 45-55, extract_all_paths *)
  Definition all_paths (t : tree) : option (list (list Z * Z)) :=
    match extract t [] 0%Z [] with Some (_, paths) => Some paths | None => None end.
End Finder.

(** Model of common/segment_glob.cpp and common/ant_like_path_glob.cpp.
    Bytes are [Z] (as in [M_Utf8]); a C string is the list of its bytes before the
    terminating zero. *)
From Coq Require Import List ZArith Bool.
From Verif Require Import M_Utf8.
Import ListNotations.
Open Scope Z_scope.

Definition STAR : Z := 42.
Definition QUEST : Z := 63.

Fixpoint bytes_eqb (a b : list Z) : bool :=
  match a, b with
  | [], [] => true
  | x :: a', y :: b' => (x =? y) && bytes_eqb a' b'
  | _, _ => false
  end.

(** segment_glob.cpp lines 65-68: checkIfFixed_. *)
Definition is_fixed (glob : list Z) : bool :=
  negb (existsb (fun c => (c =? STAR) || (c =? QUEST)) glob).

(** Result of a matching loop. *)
Inductive mres := MTrue | MFalse | MUndef | MFuel.

(** segment_glob.cpp lines 20-30, the first loop.  [inl]: decided (or a read
    past the end by utf8::unchecked::next); [inr]: the loop ends with (g, s). *)
Fixpoint glob_loop1 (g s : list Z) : mres + (list Z * list Z) :=
  match s, g with
  | [], _ => inr (g, s)
  | _ :: _, [] => inl MFalse
  | c :: s1, x :: g1 =>
      if x =? STAR then inr (g, s)
      else if negb (x =? c) && negb (x =? QUEST) then inl MFalse
      else if x =? QUEST then
        match unchecked_next s with
        | None => inl MUndef
        | Some (_, s') => glob_loop1 g1 s'
        end
      else glob_loop1 g1 s1
  end.

(** segment_glob.cpp lines 50-53. *)
Fixpoint glob_tail (g : list Z) : mres :=
  match g with
  | [] => MTrue
  | x :: g1 => if x =? STAR then glob_tail g1 else MFalse
  end.

(** segment_glob.cpp lines 32-48, the second loop; [mp] and [cp] are the
    remembered positions. *)
Fixpoint glob_loop2 (fuel : nat) (g s mp cp : list Z) : mres :=
  match fuel with
  | O => MFuel
  | S fuel' =>
    match s with
    | [] => glob_tail g
    | c :: s1 =>
        match g with
        | x :: g1 =>
            if x =? STAR then
              match g1 with
              | [] => MTrue
              | _ => glob_loop2 fuel' g1 s g1 s1
              end
            else if x =? QUEST then
              match unchecked_next s with
              | None => MUndef
              | Some (_, s') => glob_loop2 fuel' g1 s' mp cp
              end
            else if x =? c then glob_loop2 fuel' g1 s1 mp cp
            else glob_loop2 fuel' mp cp mp (tl cp)
        | [] => glob_loop2 fuel' mp cp mp (tl cp)
        end
    end
  end.

(** segment_glob.cpp lines 9-55: matches. *)
Definition glob_matches (glob segment : list Z) : mres :=
  if is_fixed glob then (if bytes_eqb segment glob then MTrue else MFalse)
  else
    match glob_loop1 glob segment with
    | inl r => r
    | inr (g, s) =>
        glob_loop2 ((length segment + 1) * (length glob + 1) + length glob + 2) g s [] []
    end.

(** ** Path globs over a directory tree *)
(** A snapshot of a file system below a directory: regular files, directories
    with named entries, and anything else.  Symbolic links are not modelled. *)
Inductive tree :=
| File : tree
| Dir : list (list Z * tree) -> tree
| Other : tree.

Definition path := list (list Z).

Definition starstar : list Z := [STAR; STAR].
Definition seg_matches (g n : list Z) : bool :=
  match glob_matches g n with MTrue => true | _ => false end.

(** ant_like_path_glob.cpp lines 5-38, the constructor, for a glob that is a
    relative path with the given segments: fixed prefix and segment globs. *)
Fixpoint split_prefix (segs : list (list Z)) : path * list (list Z) :=
  match segs with
  | [] => ([], [])
  | s :: segs' =>
      if is_fixed s then let '(p, r) := split_prefix segs' in (s :: p, r) else ([], segs)
  end.
Definition add_any_file (globs : list (list Z)) : list (list Z) :=
  match rev globs with
  | g :: _ => if bytes_eqb g starstar then globs ++ [[STAR]] else globs
  | [] => globs
  end.

(** recursive_directory_iterator restricted to directories: all the directories
    strictly below a directory with their relative paths. *)
Fixpoint subdirs (t : tree) : list (path * tree) :=
  match t with
  | Dir es =>
      flat_map (fun e => match e with
                 | (n, t') =>
                     match t' with Dir _ => [([n], t')] | _ => [] end
                     ++ map (fun q => (n :: fst q, snd q)) (subdirs t')
                 end) es
  | _ => []
  end.

(** ant_like_path_glob.cpp lines 54-105: findMatchingFiles_.  The set of matched
    files is a list of paths. *)
Fixpoint find_files (here : path) (t : tree) (globs : list (list Z)) : list path :=
  match globs with
  | [] => []
  | g :: gs =>
      if bytes_eqb g starstar then
        find_files here t gs
        ++ flat_map (fun q => find_files (here ++ fst q) (snd q) gs) (subdirs t)
      else
        match t with
        | Dir es =>
            flat_map (fun e =>
              if seg_matches g (fst e) then
                match snd e with
                | Dir es' => find_files (here ++ [fst e]) (Dir es') gs
                | File => match gs with [] => [here ++ [fst e]] | _ => [] end
                | Other => []
                end
              else []) es
        | _ => []
        end
  end.

(** Path lookup. *)
Fixpoint lookup (es : list (list Z * tree)) (n : list Z) : option tree :=
  match es with
  | [] => None
  | (m, t) :: es' => if bytes_eqb m n then Some t else lookup es' n
  end.
Fixpoint walk (t : tree) (p : path) : option tree :=
  match p with
  | [] => Some t
  | n :: p' =>
      match t with
      | Dir es => match lookup es n with Some t' => walk t' p' | None => None end
      | _ => None
      end
  end.

(** ant_like_path_glob.cpp lines 40-52, 107-114: allMatchingFiles for a relative
    glob. *)
Definition all_matching (segs : list (list Z)) (root : tree) : list path :=
  let '(prefix, rest) := split_prefix segs in
  let globs := add_any_file rest in
  match walk root prefix with
  | None => []
  | Some t =>
      match globs with
      | [] => match t with File => [prefix] | _ => [] end
      | _ => match t with Dir _ => find_files prefix t globs | _ => [] end
      end
  end.

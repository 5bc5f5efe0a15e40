(** Model of common/string_frag.hpp and common/string_frag.cpp.

    A source string is referenced, not copied; here the fragment carries the value
    of the source, i.e. the sources are taken not to change or die during the life
    of the fragments (which is what the validation mode checks).  [v] is
    STRING_FRAG_VALIDATION (off by default, CMakeLists.txt line 302).  Results are
    [None] when an exception is thrown.  Positions are [nat], smaller than 2^64;
    [None] as a beginning is npos. *)
From Coq Require Import List ZArith Bool Arith.
Import ListNotations.

Definition ABBR_LENGTH := 4.
Definition NPOS : Z := (2 ^ 64 - 1)%Z.

(** string_frag.hpp lines 106-109.  For a stored fragment [src] is the string its
    src_ referred to when it was made. *)
Record frag := { contents : list Z; src : list Z; begin_ : option nat; len : nat }.

Fixpoint bytes_eqb (a b : list Z) : bool :=
  match a, b with
  | [], [] => true
  | x :: a', y :: b' => Z.eqb x y && bytes_eqb a' b'
  | _, _ => false
  end.

(** std::string::substr. *)
Definition substr (s : list Z) (pos n : nat) : option (list Z) :=
  if Nat.ltb (length s) pos then None else Some (firstn n (skipn pos s)).

Definition stored (f : frag) : bool := match begin_ f with None => true | Some _ => false end.

(** string_frag.hpp lines 78-85: a fragment holding its own text. *)
Definition of_string (s : list Z) : frag := {| contents := s; src := s; begin_ := None; len := 0 |}.

(** string_frag.hpp lines 32-51. *)
Definition of_source (v : bool) (s : list Z) (b l : nat) : option frag :=
  if v then
    match substr s b (Nat.min l ABBR_LENGTH) with
    | None => None
    | Some c => Some {| contents := c; src := s; begin_ := Some b; len := l |}
    end
  else Some {| contents := []; src := s; begin_ := Some b; len := l |}.

(** string_frag.hpp lines 53-76.  For a stored fragment begin_ is npos, so the new
    beginning is npos + begin, i.e. npos or begin - 1. *)
Definition of_frag (v : bool) (sf : frag) (b l : nat) : option frag :=
  match begin_ sf with
  | Some b0 => of_source v (src sf) (b0 + b) l
  | None =>
      match b with
      | O => if v then None
             else Some {| contents := []; src := src sf; begin_ := None; len := l |}
      | S b' => of_source v (src sf) b' l
      end
  end.

(** string_frag.cpp lines 117-124: valid(). *)
Definition valid (v : bool) (f : frag) : bool :=
  negb v ||
  match begin_ f with
  | None => true
  | Some b =>
      match substr (src f) b (if Nat.ltb (len f) ABBR_LENGTH then len f else ABBR_LENGTH) with
      | None => false
      | Some s => bytes_eqb s (contents f)
      end
  end.

(** string_frag.cpp lines 38-50: str(). *)
Definition str (v : bool) (f : frag) : option (list Z) :=
  if valid v f then
    match begin_ f with
    | None => Some (contents f)
    | Some b => substr (src f) b (len f)
    end
  else None.

(** string_frag.cpp lines 24-35: operator[]; [None] also for an index past the end. *)
Definition at_ (v : bool) (f : frag) (pos : nat) : option Z :=
  if valid v f then
    match begin_ f with
    | None => nth_error (contents f) pos
    | Some b => nth_error (src f) (b + pos)
    end
  else None.

(** string_frag.cpp lines 58-84: append, for another object. *)
Definition append (v : bool) (f g : frag) : option frag :=
  if valid v f && valid v g then
    match begin_ f, begin_ g with
    | Some b, Some b' =>
        if bytes_eqb (src f) (src g) && Nat.eqb (b + len f) b' then
          match substr (src f) b (Nat.min (len f + len g) ABBR_LENGTH) with
          | None => None
          | Some c => Some {| contents := c; src := src f; begin_ := Some b; len := len f + len g |}
          end
        else
          match contents f with
          | [] => Some g
          | _ =>
              match str v f, str v g with
              | Some s, Some t => Some {| contents := s ++ t; src := src f; begin_ := None; len := len f |}
              | _, _ => None
              end
          end
    | _, _ =>
        match contents f with
        | [] => Some g
        | _ =>
            match str v f, str v g with
            | Some s, Some t => Some {| contents := s ++ t; src := src f; begin_ := None; len := len f |}
            | _, _ => None
            end
        end
    end
  else None.

(** std::string::find of a character; npos if there is none. *)
Fixpoint find_from (s : list Z) (c : Z) (i : Z) : Z :=
  match s with
  | [] => NPOS
  | x :: s' => if Z.eqb x c then i else find_from s' c (i + 1)%Z
  end.
Definition string_find (s : list Z) (c : Z) (pos : nat) : Z := find_from (skipn pos s) c (Z.of_nat pos).

(** string_frag.cpp lines 87-99: find; the difference is a size_t. *)
Definition find (v : bool) (f : frag) (c : Z) (pos : nat) : option Z :=
  if valid v f then
    match begin_ f with
    | None => Some (string_find (contents f) c pos)
    | Some b => Some ((string_find (src f) c (b + pos) - Z.of_nat b) mod 2 ^ 64)%Z
    end
  else None.

(** string_frag.cpp lines 102-107: length. *)
Definition flength (f : frag) : nat :=
  match begin_ f with None => length (contents f) | Some _ => len f end.

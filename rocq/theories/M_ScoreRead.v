(** Model of how score reads a phrase pair: PhraseAlignment::create and createAlignVec
    (tools/translators/bonsai/utils/binaries/PhraseAlignment.cpp lines 82-133 and 152-164), Vocabulary::storeIfNew
    (tables-core.cpp lines 40-51), and findBestAlignment (score-main.cpp lines 359-381).
    Simplifications: what sscanf makes of a word is given from outside (no answer is a variable left as it was, which is
    None here; negative numbers, which the test for the bounds refuses, are left out); the lengths of non-terminals, the sentence number and pcfgSum (items 4 to 6) are left out, but for the
    count; counts are rational numbers; a line without "|||" at all is read like the others, the message is left out. *)
From Coq Require Import String Ascii.
From Coq Require Import List Arith ZArith QArith Bool Lia.
Import ListNotations.
Local Open Scope nat_scope.

Definition str := list ascii.
Definition str_eqb (a b : str) : bool := if list_eq_dec ascii_dec a b then true else false.
Definition bars : str := list_ascii_of_string "|||".

(** tables-core.cpp lines 40-51, storeIfNew: the map and the vector are one list; a word's number is its place *)
Fixpoint find_word (w : str) (v : list str) : option nat :=
  match v with
  | [] => None
  | x :: v' => if str_eqb x w then Some 0 else match find_word w v' with Some n => Some (S n) | None => None end
  end.
Definition store (v : list str) (w : str) : list str * nat :=
  match find_word w v with Some n => (v, n) | None => (v ++ [w], length v) end.

(** std::set::insert *)
Fixpoint set_insert (n : nat) (l : list nat) : list nat :=
  match l with
  | [] => [n]
  | m :: l' => if n <? m then n :: l else if m <? n then m :: set_insert n l' else l
  end.
(** v[i].insert(n); None is a place beyond the end *)
Fixpoint insert_at (i n : nat) (v : list (list nat)) : option (list (list nat)) :=
  match v, i with
  | [], _ => None
  | x :: v', O => Some (set_insert n x :: v')
  | x :: v', S i' => match insert_at i' n v' with Some r => Some (x :: r) | None => None end
  end.

Section Read.
  Variable hierarchical : bool.
  Variable scan_point : str -> option (nat * nat).
  Variable scan_count : str -> option Q.

  (** lines 152-164, createAlignVec, for one side; None is a size of -1 *)
  Definition sized (v : list (list nat)) (size : nat) : option (list (list nat)) :=
    match v with
    | [] => if hierarchical then match size with O => None | S n => Some (repeat [] n) end else Some (repeat [] size)
    | _ => Some v
    end.

  Record state := mkState { r_vs : list str; r_vt : list str; r_src : list nat; r_tgt : list nat;
                            r_toT : list (list nat); r_toS : list (list nat); r_count : option Q }.
  Definition with_align (st : state) (t s : list (list nat)) : state :=
    mkState (r_vs st) (r_vt st) (r_src st) (r_tgt st) t s (r_count st).
  Definition create_vec (st : state) : option state :=
    match sized (r_toT st) (length (r_tgt st)), sized (r_toS st) (length (r_src st)) with
    | Some t, Some s => Some (with_align st t s)
    | _, _ => None
    end.
  (** lines 99-112: one alignment point *)
  Definition add_point (st : state) (s t : nat) : option state :=
    if (length (r_tgt st) <=? t) || (length (r_src st) <=? s) then Some st
    else match create_vec st with
         | None => None
         | Some st => match insert_at t s (r_toT st), insert_at s t (r_toS st) with
                      | Some a, Some b => Some (with_align st a b)
                      | _, _ => None
                      end
         end.
  (** lines 88-123: the loop over the words of the line *)
  Fixpoint create_loop (l : list str) (item : nat) (st : state) : option (nat * state) :=
    match l with
    | [] => Some (item, st)
    | w :: l' =>
      if str_eqb w bars then create_loop l' (S item) st
      else match item with
           | 1 => let '(v, n) := store (r_vs st) w in
                  create_loop l' item (mkState v (r_vt st) (r_src st ++ [n]) (r_tgt st) (r_toT st) (r_toS st) (r_count st))
           | 2 => let '(v, n) := store (r_vt st) w in
                  create_loop l' item (mkState (r_vs st) v (r_src st) (r_tgt st ++ [n]) (r_toT st) (r_toS st) (r_count st))
           | 3 => match scan_point w with
                  | Some (s, t) => match add_point st s t with Some st' => create_loop l' item st' | None => None end
                  | None => None
                  end
           | 4 => create_loop l' item (mkState (r_vs st) (r_vt st) (r_src st) (r_tgt st) (r_toT st) (r_toS st)
                                         (match scan_count w with Some c => Some c | None => r_count st end))
           | _ => create_loop l' item st
           end
    end.
  (** lines 82-133, create, with the vocabularies; a count that is not set is None *)
  Definition create (vs vt : list str) (l : list str) : option state :=
    match create_loop l 1 (mkState vs vt [] [] [] [] None) with
    | None => None
    | Some (item, st) =>
      match create_vec st with
      | None => None
      | Some st => Some (if item =? 3 then mkState (r_vs st) (r_vt st) (r_src st) (r_tgt st) (r_toT st) (r_toS st) (Some 1%Q) else st)
      end
    end.
End Read.

(** score-main.cpp lines 359-381, findBestAlignment; None is the null pointer *)
Definition find_best {A} (count : A -> Q) (inverse : bool) (l : list A) : option A :=
  fst (fold_left (fun (acc : option A * Q) (a : A) => if Qle_bool (count a) (snd acc) then acc else (Some a, count a))
         (if inverse then rev l else l) (None, -1 # 1)%Q).

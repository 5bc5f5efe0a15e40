(** Model of the word-based scores of score (tools/translators/bonsai/utils/binaries/score-main.cpp): LexicalTable::load
    (lines 782-816) and permissiveLookup (score.h lines 19-26), computeLexicalTranslation (759-780), the penalties for unaligned
    words (706-732) and the crossing of non-terminals (471-523).
    Simplifications: doubles are rational numbers; what atof makes of a word is given from outside; no line is as long as the
    buffer; a std::map is a list of keys and values; a std::set is the list of its elements. *)
From Coq Require Import String Ascii.
From Coq Require Import List Arith ZArith QArith Bool.
From Verif Require Import M_Consolidate M_ScoreRead M_Domain.
Import ListNotations.
Local Open Scope nat_scope.

(** std::map: find, and operator[] with an assignment *)
Fixpoint get {A} (k : nat) (m : list (nat * A)) : option A :=
  match m with [] => None | (x, a) :: m' => if x =? k then Some a else get k m' end.
Fixpoint put {A} (k : nat) (a : A) (m : list (nat * A)) : list (nat * A) :=
  match m with [] => [(k, a)] | (x, b) :: m' => if x =? k then (k, a) :: m' else (x, b) :: put k a m' end.

Definition table := list (nat * list (nat * Q)).
(** score.h lines 19-26, permissiveLookup *)
Definition lookup (m : table) (s t : nat) : Q :=
  match get s m with
  | None => 1%Q
  | Some r => match get t r with None => 1%Q | Some p => p end
  end.
(** line 813: ltable[ wordS ][ wordT ] = prob *)
Definition assign (m : table) (s t : nat) (p : Q) : table := put s (put t p (match get s m with Some r => r | None => [] end)) m.

Section Load.
  Variable atof : str -> Q.
  (** lines 795-814: the lines of the file; None is token[0] of an empty line, in the message *)
  Fixpoint load_table (lines : list str) (vs vt : list str) (m : table) : option (list str * list str * table) :=
    match lines with
    | [] => Some (vs, vt, m)
    | l :: lines' =>
      match tokens l with
      | [t; s; p] =>
        let '(vt, nt) := store vt t in
        let '(vs, ns) := store vs s in
        load_table lines' vs vt (assign m ns nt (atof p))
      | [] => None
      | _ => load_table lines' vs vt m
      end
    end.
End Load.

(** tables-core.cpp lines 53-59, getWordID *)
Definition word_id (v : list str) (w : str) : nat := match find_word w v with Some n => n | None => 0 end.
Definition null_word : str := list_ascii_of_string "NULL".

(** lines 759-780, computeLexicalTranslation; None is an index beyond the end of a phrase *)
Fixpoint word_score (m : table) (src : list nat) (t : nat) (l : list nat) (acc : Q) : option Q :=
  match l with
  | [] => Some acc
  | p :: l' => match nth_error src p with Some s => word_score m src t l' (acc + lookup m s t)%Q | None => None end
  end.
Fixpoint lex_loop (m : table) (null : nat) (src tgt : list nat) (toT : list (list nat)) (score : Q) {struct toT} : option Q :=
  match toT with
  | [] => Some score
  | l :: toT' =>
    match tgt with
    | [] => None
    | t :: tgt' =>
      match l with
      | [] => lex_loop m null src tgt' toT' (score * lookup m null t)%Q
      | _ => match word_score m src t l 0 with
             | Some w => lex_loop m null src tgt' toT' (score * (w / inject_Z (Z.of_nat (length l))))%Q
             | None => None
             end
      end
    end
  end.
Definition lexical_translation (m : table) (vs : list str) (src tgt : list nat) (toT : list (list nat)) : option Q :=
  lex_loop m (word_id vs null_word) src tgt toT 1.

(** lines 706-732, computeUnalignedPenalty (all words count) and computeUnalignedFWPenalty *)
Fixpoint penalty_loop (counts : nat -> bool) (ti : nat) (toT : list (list nat)) (acc : Q) : Q :=
  match toT with
  | [] => acc
  | [] :: toT' => penalty_loop counts (S ti) toT' (if counts ti then acc * (2718 # 1000) else acc)%Q
  | _ :: toT' => penalty_loop counts (S ti) toT' acc
  end.
Definition penalty (counts : nat -> bool) (toT : list (list nat)) : Q := penalty_loop counts 0 toT 1.

(** lines 471-498, calcCrossedNonTerm for one non-terminal, from currSource on *)
Fixpoint crossed_at (s t cur : nat) (toS : list (list nat)) : bool :=
  match toS with
  | [] => false
  | l :: toS' =>
    (negb (cur =? s) && existsb (fun x => (cur <? s) && (t <? x) || (s <? cur) && (x <? t)) l) || crossed_at s t (S cur) toS'
  end.
(** lines 500-523, calcCrossedNonTerm; None is the assertion *)
Fixpoint crossed_loop (non_term : nat -> bool) (toS rest : list (list nat)) (s : nat) : option bool :=
  match rest with
  | [] => Some false
  | l :: rest' =>
    if non_term s then
      match l with
      | [t] => if crossed_at s t 0 toS then Some true else crossed_loop non_term toS rest' (S s)
      | _ => None
      end
    else crossed_loop non_term toS rest' (S s)
  end.
Definition crossed (non_term : nat -> bool) (toS : list (list nat)) : option bool := crossed_loop non_term toS toS 0.

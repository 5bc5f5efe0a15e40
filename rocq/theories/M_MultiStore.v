(** Model of tools/datastructures/psi_query/fsa_multi_store.hpp and fsa_multi_store.cpp: a store of
    lines "key TAB value" as a packed automaton, asked for the values of a key.
    Not modelled: loading and saving; Builder::add and addSeparatedLine, which abort (fsa_multi_store.cpp
    lines 14-24).  std::sort is an insertion sort; equal strings are not distinguished. *)
From Coq Require Import List ZArith Bool.
From Verif Require Import M_OrdSet M_Fsa M_BinFsa.
Import ListNotations.
Local Open Scope nat_scope.

(** common/config.hpp.in line 28: LEXICON_FIELD_SEPARATOR. *)
Definition TAB : symbol := 9%Z.
(** buildSearchSuffix, fsa_multi_store.cpp lines 68-75; [empty] is searchSuffixFSA_ at first.
    The number of states of the second automaton bounds the turns of [traverse]. *)
Definition search_suffix : option ndfsa :=
  bind (concatenate 2 empty (n_view (of_word [TAB]))) (fun f => concatenate 2 f (n_view (kleene_plus (of_symbol ANY)))).
(** std::sort on strings. *)
Fixpoint insert_word (w : list symbol) (l : list (list symbol)) : list (list symbol) :=
  match l with
  | [] => [w]
  | x :: l' => if str_ltb x w then x :: insert_word w l' else w :: l
  end.
Definition sort_words (l : list (list symbol)) : list (list symbol) := fold_right insert_word [] l.
(** createFromSeparatedLines, fsa_multi_store.hpp lines 71-86. *)
Definition create (lines : list (list symbol)) : option bin := minimize_incremental (sort_words lines).
(** KeyTruncator, lines 21-40.  std::string::substr throws only for a position beyond the end. *)
Fixpoint word_eqb (u v : list symbol) : bool :=
  match u, v with
  | [], [] => true
  | a :: u', b :: v' => (a =? b)%Z && word_eqb u' v'
  | _, _ => false
  end.
Definition truncate (key record : list symbol) : list symbol :=
  let key := key ++ [TAB] in
  if word_eqb key (firstn (length key) record) then skipn (length key) record else record.
(** The default of the parameter maxDepth, fsa_algorithms.hpp line 996. *)
Definition max_depth : nat := Z.to_nat 10000.
(** get, lines 43-54.  The number of pairs of states bounds the turns of the intersection. *)
Definition get (store : bin) (key : list symbol) : option (list (list symbol)) :=
  bind search_suffix (fun suffix =>
  bind (concatenate (n_size suffix) (of_word key) (n_view suffix)) (fun query =>
  bind (intersect (n_size query * b_size store) query (b_view store) true) (fun found =>
  Some (map (truncate key) (language (n_view found) max_depth))))).

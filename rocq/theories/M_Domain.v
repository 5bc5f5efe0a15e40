(** Model of the domain features of score: Domain::load and getDomainOfSentence, DomainFeature::add and the features made of
    the counts per domain (tools/translators/bonsai/utils/binaries/domain.cpp lines 16-154).
    Simplifications: what sscanf makes of a word is given from outside; no line is as long as the buffer; a std::map is a list of its keys and values,
    in the order of their coming; counts are rational numbers; maybeLog is left out: of a feature that is 2.718 or 1 we keep
    which, of one that is exp(q) or 1 = exp(0) we keep q. *)
From Coq Require Import String Ascii.
From Coq Require Import List Arith NArith ZArith QArith Bool.
From Verif Require Import M_Consolidate.
Import ListNotations.
Local Open Scope nat_scope.

Definition str_eqb (a b : str) : bool := if list_eq_dec ascii_dec a b then true else false.
Definition newline : ascii := "010"%char.

(** lines 18-22: getline and the test for the end of the file: what stands after the last newline is not seen *)
Fixpoint file_lines (s cur : str) : list str :=
  match s with
  | [] => []
  | c :: s' => if Ascii.eqb c newline then cur :: file_lines s' [] else file_lines s' (cur ++ [c])
  end.

(** lines 32-37: one entry; name2id is left out, it is the place in the list *)
Definition known (name : str) (l : list str) : bool := existsb (str_eqb name) l.
Section Load.
  Variable scan : str -> option Z.
  (** lines 16-39, load: the specification and the list of names; None is exit(1) *)
  Fixpoint load_loop (lines : list str) (spec : list (Z * str)) (names : list str) : option (list (Z * str) * list str) :=
    match lines with
    | [] => Some (spec, names)
    | l :: lines' =>
      match tokens l with
      | [number; name] =>
        match scan number with
        | Some n => load_loop lines' (spec ++ [(n, name)]) (if known name names then names else names ++ [name])
        | None => None
        end
      | _ => None
      end
    end.
  Definition load (file : str) : option (list (Z * str) * list str) := load_loop (file_lines file []) [] [].
End Load.

(** lines 42-49, getDomainOfSentence *)
Definition undefined : str := list_ascii_of_string "undefined".
Fixpoint domain_of (spec : list (Z * str)) (sentence : Z) : str :=
  match spec with
  | [] => undefined
  | (e, name) :: spec' => if (sentence <=? e)%Z then name else domain_of spec' sentence
  end.

(** lines 57-71, DomainFeature::add: the counts per domain of the pairs of a group, given by sentence and count *)
Fixpoint add_count (d : str) (c : Q) (m : list (str * Q)) : list (str * Q) :=
  match m with
  | [] => [(d, c)]
  | (k, v) :: m' => if str_eqb k d then (k, (v + c)%Q) :: m' else (k, v) :: add_count d c m'
  end.
Definition domain_count (spec : list (Z * str)) (pairs : list (Z * Q)) : list (str * Q) :=
  fold_left (fun m p => add_count (domain_of spec (fst p)) (snd p) m) pairs [].
Fixpoint find (d : str) (m : list (str * Q)) : option Q :=
  match m with [] => None | (k, v) :: m' => if str_eqb k d then Some v else find d m' end.

(** lines 73-91, SubsetDomainFeature::add; None is the exception, true is 2.718 *)
Fixpoint bitmap (m : list (str * Q)) (bit : N) (names : list str) : N :=
  match names with
  | [] => 0%N
  | d :: names' => ((match find d m with Some _ => N.shiftl 1 bit | None => 0 end) + bitmap m (bit + 1) names')%N
  end.
Definition subset_features (names : list str) (m : list (str * Q)) : option (list bool) :=
  if 6 <? length names then None
  else Some (map (fun i => N.eqb (bitmap m 0 names) (N.of_nat i)) (seq 1 (2 ^ length names - 1))).
(** lines 110-124, RatioDomainFeature::add, without exp *)
Definition ratio_features (names : list str) (m : list (str * Q)) (count : Q) : list Q :=
  map (fun d => match find d m with Some c => c / count | None => 0 end)%Q names.
(** lines 139-154, IndicatorDomainFeature::add; true is 2.718 *)
Definition indicator_features (names : list str) (m : list (str * Q)) : list bool :=
  map (fun d => match find d m with Some _ => true | None => false end) names.

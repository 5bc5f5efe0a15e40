(** Fitting a rule found in the index back into the sentence and building its target side:
    tools/translators/bonsai/rules/RuleSet.cpp 181-290 and tools/translators/bonsai/translator/TransferTypes.cpp 68-121. *)
From Coq Require Import String Ascii.
From Coq Require Import List ZArith Bool PeanoNat.
Import ListNotations.
Local Open Scope nat_scope.

(** Symbol, TransferTypes.hpp 33-66, with its only label; start and end are short ints in the code. *)
Record sym := Sym { y_label : string; y_from : Z; y_to : Z; y_nt : bool }.
(** operator!= compares str(), which is the label and the range, TransferTypes.cpp 41-54. *)
Definition sym_eqb (a b : sym) : bool :=
  String.eqb (y_label a) (y_label b) && (y_from a =? y_from b)%Z && (y_to a =? y_to b)%Z.

(** SList with its vector nt of the places of nonterminals, TransferTypes.hpp 90-104; both with the newest first. *)
Record slist := Slist { l_syms : list sym; l_nt : list nat }.
Definition l_empty : slist := Slist [] [].
(** push_back, TransferTypes.cpp 74-78. *)
Definition l_push (s : sym) (l : slist) : slist :=
  Slist (s :: l_syms l) (if y_nt s then length (l_syms l) :: l_nt l else l_nt l).
(** pop_back, lines 80-84. *)
Definition l_pop (l : slist) : slist :=
  match l_syms l with
  | [] => l
  | s :: r => Slist r (if y_nt s then tl (l_nt l) else l_nt l)
  end.
(** nt_index, lines 111-116; -1 is None.  The argument is a size_t, a negative int is out of range. *)
Definition nt_index (l : slist) (i : Z) : option nat :=
  if (i <? 0)%Z then None else nth_error (rev (l_nt l)) (Z.to_nat i).

(** Lines 268-270 of RuleSet.cpp: symbols that do not begin before [f] leave the path. *)
Fixpoint cut_back (f : Z) (n : nat) (l : slist) : slist :=
  match n with
  | O => l
  | S n =>
      match l_syms l with
      | [] => l
      | s :: _ => if (f <=? y_from s)%Z then cut_back f n (l_pop l) else l
      end
  end.

(** Unmapper: the symbols of a sentence for each symbol of rules, in the order of the set. *)
Definition unmapper := Z -> list sym.
(** Pushing on the stack in the order of the set, the top first; lines 256-260 and 281-285. *)
Definition push_all (act : nat) (ts : list sym) (st : list (nat * sym)) : list (nat * sym) :=
  fold_left (fun st t => (act, t) :: st) ts st.
(** Lines 264-287.  [rhs] is the word without w[0]; the outer None is for lack of fuel. *)
Fixpoint search (fuel : nat) (um : unmapper) (rhs : list Z) (lhs : sym) (st : list (nat * sym)) (path : slist) : option (option slist) :=
  match st with
  | [] => Some None
  | (act, s) :: st =>
      match fuel with
      | O => None
      | S fuel =>
          let path := l_push s (cut_back (y_from s) (length (l_syms path)) path) in
          if (length (l_syms path) =? length rhs) && (act =? length rhs) && (y_to s =? y_to lhs)%Z then Some (Some path)
          else
            let st := if (length (l_syms path) <=? S (length rhs)) && (act <? length rhs)
              then push_all (S act) (filter (fun t => (y_to s =? y_from t) && (y_to t <=? y_to lhs))%Z (um (nth act rhs 0%Z))) st
              else st in
            search fuel um rhs lhs st path
      end
  end.
(** word_to_slist, lines 248-290.  w[1] is there: the words come from an automaton of nonempty right sides (C69). *)
Definition first_symbols (um : unmapper) (rhs : list Z) (lhs : sym) : list sym :=
  filter (fun t => (y_from t =? y_from lhs)%Z && (y_to t <=? y_to lhs)%Z && negb (sym_eqb t lhs)) (um (nth 0 rhs 0%Z)).
Fixpoint fit_all (fuel : nat) (um : unmapper) (rhs : list Z) (ls : list sym) : option (list (sym * slist)) :=
  match ls with
  | [] => Some []
  | lhs :: ls =>
      match search fuel um rhs lhs (push_all 1 (first_symbols um rhs lhs) []) l_empty, fit_all fuel um rhs ls with
      | Some (Some p), Some r => Some ((lhs, p) :: r)
      | Some None, Some r => Some r
      | _, _ => None
      end
  end.
Definition word_to_slist (fuel : nat) (um : unmapper) (w : list Z) : option (list (sym * slist)) :=
  match w with
  | [] => None
  | a :: rhs => fit_all fuel um rhs (um a)
  end.

(** ** The target side *)
(** sscanf with "<X>[%d]", line 190.  [Exhausted] is the result EOF, which is not zero: the string ends before a number
    could be read.  The number is not bounded here. *)
Inductive scanned := Number (n : Z) | Mismatch | Exhausted.
Definition digit (c : ascii) : option Z :=
  let n := Z.of_N (N_of_ascii c) in if (48 <=? n)%Z && (n <=? 57)%Z then Some (n - 48)%Z else None.
Definition blank (c : ascii) : bool :=
  match N_of_ascii c with 32 | 9 | 10 | 11 | 12 | 13 => true | _ => false end%N.
Fixpoint digits (s : string) (v : Z) : Z :=
  match s with
  | EmptyString => v
  | String c s => match digit c with Some d => digits s (10 * v + d)%Z | None => v end
  end.
Definition number (sign : Z) (s : string) : scanned :=
  match s with
  | EmptyString => Mismatch
  | String c _ => match digit c with Some _ => Number (sign * digits s 0)%Z | None => Mismatch end
  end.
Fixpoint integer (s : string) : scanned :=
  match s with
  | EmptyString => Exhausted
  | String c r =>
      if blank c then integer r
      else if Ascii.eqb c "-" then number (-1) r
      else if Ascii.eqb c "+" then number 1 r
      else number 1 s
  end.
Fixpoint scan (fmt s : string) : scanned :=
  match fmt with
  | EmptyString => integer s
  | String c fmt =>
      match s with
      | EmptyString => Exhausted
      | String d s => if Ascii.eqb c d then scan fmt s else Mismatch
      end
  end.
Definition scan_x (s : string) : scanned := scan "<X>[" s.

(** Lines 185-206: the symbols of the target side and the number of nonterminals among them.  [None]: an index that was
    never set is used.  Numbers without a name are left out. *)
Fixpoint targets (names : list string) (src : slist) (word : list Z) : option (list sym * nat) :=
  match word with
  | [] => Some ([], 0)
  | z :: word =>
      let plain s := Sym s (-1) (-1) false in
      match targets names src word with
      | None => None
      | Some (l, n) =>
          match (if (z <? 0)%Z then None else nth_error names (Z.to_nat z)) with
          | None => Some (l, n)
          | Some s =>
              match scan_x s with
              | Mismatch => Some (plain s :: l, n)
              | Exhausted => None
              | Number i =>
                  match nt_index src i with
                  | Some j => match nth_error (rev (l_syms src)) j with Some t => Some (t :: l, S n) | None => None end
                  | None => Some (plain s :: l, n)
                  end
              end
          end
      end
  end.

(** Lines 208-238.  Costs are numbers here, not floats; [cast] is lexical_cast, which may throw.
    [None]: rs_vector[rule_set_index] is outside of the vector. *)
Section Costs.
Context (cast : string -> option Z).
Definition prob_cost (names : list string) (probs : list Z) (i : nat) : Z :=
  match nth_error probs i with
  | None => 0%Z
  | Some z =>
      match (if (z <? 0)%Z then None else nth_error names (Z.to_nat z)) with
      | None => 0%Z
      | Some s => match cast s with Some c => c | None => 0%Z end
      end
  end.
Definition costs_of (names : list string) (tm rs : list Z) (wp : Z) (index : nat) (probs : list Z) (len nts : nat) : option (Z * list Z) :=
  if index <? length rs then
    let c1 := map (prob_cost names probs) (seq 0 (length tm)) in
    let cost := fold_left (fun c x => (c + fst x * snd x)%Z) (combine tm c1) 0%Z in
    let c2 := (Z.of_nat len - Z.of_nat nts)%Z in
    let cost := (cost + wp * c2)%Z in
    let v := map (fun i => if i =? index then 1%Z else 0%Z) (seq 0 (length rs)) in
    Some (fold_left (fun c x => (c + fst x * snd x)%Z) (combine rs v) cost, c1 ++ c2 :: v)
  else None.
End Costs.
(** Lines 240-243; [None]: align[i+1] is outside of the vector. *)
Fixpoint points (align : list Z) : option (list (Z * Z)) :=
  match align with
  | [] => Some []
  | [_] => None
  | a :: b :: align => match points align with Some l => Some ((a, b) :: l) | None => None end
  end.

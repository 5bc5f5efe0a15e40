(** Model of common/limit_checker.{hpp,cpp}: LimitChecker. *)
From Coq Require Import List ZArith Bool.
Import ListNotations.
Open Scope Z_scope.

(** limit_checker.hpp lines 66-80: the fields; a LimitSpec is the pair
    (argument, limit). *)
Record limit_checker := LC {
  lc_ready : bool;
  lc_absolute : Z;
  lc_specs : list (Z * Z)
}.

Definition INT_MAX : Z := 2147483647.

(** limit_checker.cpp lines 11-20: the constructors. *)
Definition lc_default : limit_checker := LC true INT_MAX [].
Definition lc_new (absoluteLimit : Z) : limit_checker := LC true absoluteLimit [].

(** limit_checker.cpp lines 23-25. *)
Definition setAbsoluteLimit (lc : limit_checker) (n : Z) : limit_checker :=
  LC (lc_ready lc) n (lc_specs lc).

(** limit_checker.cpp lines 28-34. *)
Definition addLimitSpec (lc : limit_checker) (argument limit : Z) : limit_checker :=
  let ready :=
    match rev (lc_specs lc) with
    | [] => lc_ready lc
    | back :: _ => if argument <? fst back then false else lc_ready lc
    end in
  LC ready (lc_absolute lc) (lc_specs lc ++ [(argument, limit)]).

(** limit_checker.cpp lines 37-39. *)
Definition addUnlimitedSpec (lc : limit_checker) (argument : Z) : limit_checker :=
  addLimitSpec lc argument INT_MAX.

(** std::list::sort is a stable sort; modelled as stable insertion sort with
    LimitSpec::operator< (limit_checker.hpp line 73). *)
Fixpoint insert_spec (x : Z * Z) (l : list (Z * Z)) : list (Z * Z) :=
  match l with
  | [] => [x]
  | y :: l' => if fst y <? fst x then y :: insert_spec x l' else x :: l
  end.
Fixpoint sort_specs (l : list (Z * Z)) : list (Z * Z) :=
  match l with
  | [] => []
  | x :: l' => insert_spec x (sort_specs l')
  end.

(** limit_checker.cpp lines 47-54: the scan. *)
Fixpoint scan_specs (specs : list (Z * Z)) (absolute argument value : Z) : bool :=
  match specs with
  | [] => value <=? absolute
  | (a, l) :: rest =>
      if argument <=? a then value <=? l else scan_specs rest absolute argument value
  end.

(** limit_checker.cpp lines 42-55: isAllowed; it also updates the object. *)
Definition isAllowed (lc : limit_checker) (argument value : Z) : bool * limit_checker :=
  let lc' := if lc_ready lc then lc
             else LC true (lc_absolute lc) (sort_specs (lc_specs lc)) in
  (scan_specs (lc_specs lc') (lc_absolute lc') argument value, lc').

(** Histories of calls. *)
Inductive lc_op :=
| OpAdd (argument limit : Z)
| OpUnlimited (argument : Z)
| OpAbsolute (n : Z)
| OpQuery (argument value : Z).
Definition lc_step (lc : limit_checker) (o : lc_op) : limit_checker :=
  match o with
  | OpAdd a l => addLimitSpec lc a l
  | OpUnlimited a => addUnlimitedSpec lc a
  | OpAbsolute n => setAbsoluteLimit lc n
  | OpQuery a v => snd (isAllowed lc a v)
  end.
Definition lc_run (lc : limit_checker) (ops : list lc_op) : limit_checker :=
  fold_left lc_step ops lc.

(** Model of the completion of a pipeline, framework/auto_completer.cpp (the lines below).
    A promise (ProcessorPromise) and a factory (AnnotatorFactory) are of any type, with the
    tags they require and provide and the languages they handle; what a promise says does
    not change with time.  [keeper] are the factories of MainFactoriesKeeper that are
    annotator factories, by the order of their names.  Alternatives are lists, shared
    pointers are not seen.  Asserts are not executed; what std::list does beyond its
    contract is [Undefined]. *)
From Coq Require Import String List Bool Arith.
Import ListNotations.
Local Open Scope nat_scope.

Definition tag := string.
Definition lang := string.
(** common/annotator_factory.hpp: LanguagesHandling. *)
Inductive handling := Independent | Guesser | OneLanguage | Dependent.
(** Lines 238-254: isSubset_. *)
Definition subset (sub sup : list tag) : bool := forallb (fun t => existsb (String.eqb t) sup) sub.

Section Completer.
Context {promise factory exn num : Type}.
Variable required : promise -> list (list tag).
Variable provided : promise -> list tag.
Variable handles : promise -> handling.
Variable languages : promise -> list lang.
(** AnnotatorPromise::doCloneWithLanguageSet (common/annotator_promise.cpp lines 49-68). *)
Variable clone : promise -> lang -> promise.
Variable keeper : list factory.
Variable f_required : factory -> list (list tag).
Variable f_provided : factory -> list tag.
(** AnnotatorPromise with the options of getDefaultOptions_ and getDefaultOptionsWithLang_. *)
Variable default : factory -> promise.
Variable default_with : factory -> lang -> promise.
Variable langs : list lang.

Notation alternative := (list promise).
Notation sequence := (list (list promise)).
(** languagesHandled().front(), for promises of one language. *)
Definition one_language (p : promise) : lang := hd EmptyString (languages p).

(** Lines 199-218: isMultilingualProcessorPromiseAlternative_; [one] is theOneLanguage. *)
Fixpoint multilingual (one : option lang) (a : alternative) : bool :=
  match a with
  | [] => false
  | p :: a' =>
      match handles p with
      | Dependent => true
      | OneLanguage =>
          match one with
          | None => multilingual (Some (one_language p)) a'
          | Some l => if String.eqb l (one_language p) then multilingual one a' else true
          end
      | _ => multilingual one a'
      end
  end.
(** front() of the alternatives before iter. *)
Definition fronts (s : sequence) : list promise := flat_map (fun a => match a with p :: _ => [p] | [] => [] end) s.
(** Lines 220-236: checkRequiredTags_. *)
Definition check_required (r : list tag) (s : sequence) : bool := existsb (fun p => subset r (provided p)) (fronts s).
(** Lines 284-294: isViciousCircle_. *)
Definition vicious_circle (f : factory) (r : list tag) : bool := existsb (fun r' => subset r r') (f_required f).
(** Lines 296-330: getDefaultPromise_. *)
Definition default_promise (f : factory) (l : option lang) : option promise :=
  match handles (default f) with
  | Independent | Guesser => Some (default f)
  | OneLanguage =>
      match l with
      | Some l => if String.eqb (one_language (default f)) l then Some (default f) else None
      | None => Some (default f)
      end
  | Dependent =>
      match l with
      | Some l => if existsb (fun h => String.eqb h l) (languages (default f)) then Some (default_with f l) else None
      | None => None
      end
  end.
(** Lines 256-282: findFulfillers_. *)
Definition fulfillers (r : list tag) (l : option lang) : alternative :=
  flat_map (fun f => if negb (vicious_circle f r) && subset r (f_provided f)
                     then match default_promise f l with Some p => [p] | None => [] end else []) keeper.
(** Lines 458-481: canHandleLanguage_. *)
Definition can_handle (p : promise) (l : lang) : option promise :=
  match handles p with
  | Independent | Guesser => Some p
  | Dependent => if existsb (fun h => String.eqb h l) (languages p) then Some (clone p l) else None
  | OneLanguage => if existsb (fun h => String.eqb h l) (languages p) then Some p else None
  end.
(** Lines 440-456: filtreByLanguage_. *)
Definition filtre (a : alternative) (l : lang) : alternative :=
  flat_map (fun p => match can_handle p l with Some q => [q] | None => [] end) a.
(** Lines 98-115: the alternatives for the languages; [None]: one of them is empty (return). *)
Fixpoint by_language (a : alternative) (ls : list lang) : option sequence :=
  match ls with
  | [] => Some []
  | l :: ls' => match filtre a l with
                | [] => None
                | b => match by_language a ls' with Some s => Some (b :: s) | None => None end
                end
  end.
(** Lines 168-174. *)
Definition language_of (p : promise) : option lang :=
  match handles p with OneLanguage => Some (one_language p) | _ => None end.

(** Lines 84-193: one round of the loop over the sequence.  [pre] are the alternatives before
    iter, [post] those from iter on; the round has started at [restart]. *)
Inductive round := Finished | Again (s : sequence) (restart : nat) | Split (pre : sequence) (a : alternative) (post : sequence) | Abandoned | Undefined.
Fixpoint scan (restart : nat) (pre post : sequence) : round :=
  match post with
  | [] => Finished
  | a :: post' =>
      if multilingual None a then
        (* lines 91-120; without languages the alternative is erased, which leaves
           restartPosition dangling if it was there *)
        match by_language a langs with
        | None => Abandoned
        | Some [] => if restart =? List.length pre then Undefined else Again (pre ++ post') restart
        | Some s => Again (pre ++ s ++ post') (List.length pre)
        end
      else
        match a with
        | [] => Undefined
        | [p] =>
            (* lines 151-190 *)
            match find (fun r => negb (check_required r pre)) (required p) with
            | None => scan restart (pre ++ [a]) post'
            | Some r =>
                match fulfillers r (language_of p) with
                | [] => Abandoned
                | b => Again (pre ++ b :: a :: post') (List.length pre)
                end
            end
        | _ => Split pre a post'
        end
  end.
(** Lines 77-197: complete_ gives the sequences it appends to alternativeSequences_; the rounds
    and the recursive calls are counted by [fuel]. *)
Inductive result := Unfinished | Bad | Done (l : list (list promise)).
Definition both (a b : result) : result :=
  match a, b with
  | Done x, Done y => Done (x ++ y)
  | Bad, _ => Bad
  | Done _, Bad => Bad
  | _, _ => Unfinished
  end.
Fixpoint complete_ (fuel : nat) (s : sequence) (restart : nat) : result :=
  match fuel with
  | O => Unfinished
  | S n =>
      match scan restart (firstn restart s) (skipn restart s) with
      | Finished => Done [fronts s]
      | Again s' r' => complete_ n s' r'
      | Abandoned => Done []
      | Undefined => Bad
      | Split pre a post => fold_right (fun p x => both (complete_ n (pre ++ [p] :: post) 0) x) (Done []) a
      end
  end.

(** * The choice *)
(** Scores and times are of type [num]; [add] is the sum, [lt] and [eq] compare.
    [creates p]: createProcessor returns ([None]) or throws. *)
Variable add : num -> num -> num.
Variable nought : num.
Variable lt eq : num -> num -> bool.
Variable quality time : promise -> num.
Variable creates : promise -> option exn.
(** Lines 420-438. *)
Definition quality_of (s : list promise) : num := fold_left (fun x p => add x (quality p)) s nought.
Definition time_of (s : list promise) : num := fold_left (fun x p => add x (time p)) s nought.
(** Lines 382-397: trySolution_: [s] is taken instead of the best so far. *)
Definition try_solution (best : option (list promise)) (s : list promise) : bool :=
  match best with
  | None => true
  | Some b => lt (quality_of b) (quality_of s) || (eq (quality_of s) (quality_of b) && lt (time_of s) (time_of b))
  end.
(** Lines 37-49: the best of the sequences, with those before and after it. *)
Fixpoint best_of (seen : list (list promise)) (best : option (list (list promise) * list promise * list (list promise))) (l : list (list promise)) :=
  match l with
  | [] => best
  | s :: l' =>
      if try_solution (option_map (fun b => snd (fst b)) best) s
      then best_of (seen ++ [s]) (Some (seen, s, l')) l'
      else best_of (seen ++ [s]) best l'
  end.
(** Lines 399-417: checkSolution_. *)
Fixpoint check_solution (s : list promise) : option exn :=
  match s with
  | [] => None
  | p :: s' => match creates p with Some e => Some e | None => check_solution s' end
  end.
(** Lines 19-75: complete. *)
Inductive outcome := Found (s : list promise) | Throws (e : exn) | Nothing.
Fixpoint choose (fuel : nat) (first : option exn) (l : list (list promise)) : outcome :=
  let ends := match first with Some e => Throws e | None => Nothing end in
  match fuel with
  | O => ends
  | S n =>
      match best_of [] None l with
      | None => ends
      | Some (a, s, b) =>
          match check_solution s with
          | None => Found s
          | Some e => choose n (match first with None => Some e | _ => first end) (a ++ b)
          end
      end
  end.
(** The number of turns is the number of sequences. *)
Definition complete (fuel : nat) (s : sequence) : option outcome :=
  match complete_ fuel s 0 with
  | Done l => Some (choose (List.length l) None l)
  | _ => None
  end.
End Completer.

(** Extraction of rules from aligned sentences: tools/translators/bonsai/utils/binaries/extract-rules-main.cpp,
    SentenceAlignment.cpp, HoleCollection.cpp, HoleCollection.h, Hole.h and RuleExist.h.  Positions and options are natural
    numbers; counts of words are integers. *)
From Coq Require Import List ZArith Bool PeanoNat.
Import ListNotations.
Local Open Scope nat_scope.

(** A Hole (Hole.h 32-62), or a pair of spans: its ends in the target and in the source. *)
Record span := Span { sT : nat; eT : nat; sS : nat; eS : nat }.

(** alignedToT and alignedCountS of SentenceAlignment. *)
Record sentence := Sentence { to_t : list (list nat); count_s : list nat }.
Fixpoint upd {A} (i : nat) (f : A -> A) (l : list A) : list A :=
  match l, i with
  | [], _ => []
  | x :: l, 0 => f x :: l
  | x :: l, S i => x :: upd i f l
  end.
(** SentenceAlignment.cpp 109-110. *)
Definition add_point (n : sentence) (p : nat * nat) : sentence :=
  Sentence (upd (snd p) (fun l => l ++ [fst p]) (to_t n)) (upd (fst p) S (count_s n)).
(** SentenceAlignment::create, lines 57-123, for sentences of nt and ns words and the points that sscanf reads; None is false. *)
Definition create (boundary : bool) (nt ns : nat) (points : list (nat * nat)) : option sentence :=
  let nt := if boundary then nt + 2 else nt in
  let ns := if boundary then ns + 2 else ns in
  if (nt =? 0) || (ns =? 0) then None
  else
    match
      fold_left (fun o p => match o with
        | None => None
        | Some n =>
            let p := if boundary then (S (fst p), S (snd p)) else p in
            if (nt <=? snd p) || (ns <=? fst p) then None else Some (add_point n p)
        end) points (Some (Sentence (repeat [] nt) (repeat 0 ns)))
    with
    | None => None
    | Some n => Some (if boundary then add_point (add_point n (0, 0)) (ns - 1, nt - 1) else n)
    end.

(** RuleExtractionOptions, as far as they are used here. *)
Record options := Options {
  max_span : nat; min_hole_s : nat; min_hole_t : nat; min_words : nat; max_symbols_t : nat; max_symbols_s : nat;
  max_nonterm : nat; max_scope : nat; first_word : bool; consec_t : bool; consec_s : bool; aligned_word : bool }.

Section Extract.
(** big is 9999 in the code; node_t and node_s are HasNode of the trees, or always true without syntax. *)
Context (big : nat) (node_t node_s : nat -> nat -> bool) (boundary : bool) (o : options) (n : sentence).

(** extract-rules-main.cpp 396-412. *)
Definition touched (st et : nat) : list nat := flat_map (fun ti => nth ti (to_t n) []) (seq st (S et - st)).
Definition min_s (l : list nat) : nat := fold_left (fun m si => if si <? m then si else m) l big.
(** None is -1. *)
Definition max_s (l : list nat) : option nat :=
  fold_left (fun m si => match m with None => Some si | Some k => if k <? si then Some si else Some k end) l None.
Definition used (l : list nat) : list nat := fold_left (fun u si => upd si pred u) l (count_s n).
(** Lines 422-426. *)
Definition out_of_bounds (u : list nat) (mn mx : nat) : bool := existsb (fun si => 0 <? nth si u 0) (seq mn (S mx - mn)).
(** Lines 434-438 and 440-443. *)
Fixpoint retreat (mn mx s : nat) : list nat :=
  if (mx <? s + max_span o) && ((s =? mn) || (nth s (count_s n) 0 =? 0))
  then s :: match s with 0 => [] | S s' => retreat mn mx s' end
  else [].
Fixpoint advance (mx ss : nat) (fuel e : nat) : list nat :=
  match fuel with
  | 0 => []
  | S f =>
      if (e <? ss + max_span o) && ((e =? mx) || (nth e (count_s n) 0 =? 0)) then e :: advance mx ss f (S e) else []
  end.
(** Lines 391-447: the spans of the source for one of the target. *)
Definition source_spans (st et : nat) : list (nat * nat) :=
  if negb (node_t st et) then []
  else
    let l := touched st et in
    match max_s l with
    | None => []
    | Some mx =>
        let mn := min_s l in
        if max_span o <=? mx - mn then []
        else if out_of_bounds (used l) mn mx then []
        else flat_map (fun ss => flat_map (fun es => if node_s ss es then [(ss, es)] else [])
               (advance mx ss (length (count_s n) - mx) mx)) (retreat mn mx mn)
    end.
(** Lines 383-389. *)
Definition spans : list span :=
  flat_map (fun len => flat_map (fun st => map (fun s => Span st (st + len - 1) (fst s) (snd s)) (source_spans st (st + len - 1)))
    (seq 0 (length (to_t n) - (len - 1)))) (seq 1 (min (max_span o) (length (to_t n)))).

(** HoleCollection::Scope, HoleCollection.cpp 51-65; sc is m_scope. *)
Definition scope (ph : span) (hs : list span) (sc : nat) (h : span) : nat :=
  sc + (if (sS h =? sS ph) || existsb (fun g => S (eS g) =? sS h) hs then 1 else 0)
     + (if (eS h =? eS ph) || existsb (fun g => sS g =? S (eS h)) hs then 1 else 0).
(** Hole::Overlap and Neighbor in the source, Hole.h 92-100; OverlapSource and ConsecSource, HoleCollection.h 73-91. *)
Definition overlap_s (g h : span) : bool := negb ((eS h <? sS g) || (eS g <? sS h)).
Definition neighbor_s (g h : span) : bool := (S (eS h) =? sS g) || (sS h =? S (eS g)).
(** extract-rules-main.cpp 825-844: looking for an aligned word. *)
Fixpoint word_left (fuel pos et : nat) (hs : list span) (new : span) : bool :=
  match fuel with
  | 0 => false
  | S f =>
      if et <? pos then false
      else if pos =? sT new then word_left f (S (eT new)) et hs new
      else
        let word := match nth pos (to_t n) [] with [] => word_left f (S pos) et hs new | _ => true end in
        match hs with
        | h :: hs' => if sT h =? pos then word_left f (S (eT h)) et hs' new else word
        | [] => word
        end
  end.

(** addHieroRule, lines 756-878: the lists of holes that are saved; exist are the pairs in ruleExist, wt and ws are wordCountT and
    wordCountS.  The fuel is at least the number of holes that may still come. *)
Fixpoint hiero (fuel : nat) (exist : list span) (ph : span) (hs : list span) (sc : nat) (holes init : nat) (wt ws : Z)
  : list (list span) :=
  match fuel with
  | 0 => []
  | S f =>
      if max_nonterm o <=? holes then []
      else
        flat_map (fun st => flat_map (fun et =>
          if (holes =? max_nonterm o - 1)
             && (Z.of_nat (max_symbols_t o) <? wt - Z.of_nat (S et - sT ph) + Z.of_nat (S holes))%Z then []
          else
            let wt' := (wt - Z.of_nat (S et - st))%Z in
            if (wt' <? Z.of_nat (min_words o))%Z then []
            else if (st =? sT ph) && (et =? eT ph) then []
            else
              flat_map (fun g =>
                let size := S (eS g) - sS g in
                let ws' := (ws - Z.of_nat size)%Z in
                if size <? min_hole_s o then []
                else if (holes =? max_nonterm o - 1) && (Z.of_nat (max_symbols_s o) <? ws' + Z.of_nat (S holes))%Z then []
                else if (ws' <? Z.of_nat (min_words o))%Z then []
                else if (sS g <? sS ph) || (eS ph <? eS g) then []
                else if existsb (fun h => overlap_s h g) hs then []
                else if negb (consec_s o) && existsb (fun h => neighbor_s h g) hs then []
                else if max_scope o <? scope ph hs sc g then []
                else if aligned_word o && ((0 <? ws')%Z || (0 <? wt')%Z) && negb (word_left (S (eT ph)) (sT ph) (eT ph) hs (Span st et (sS g) (eS g))) then []
                else
                  let h := Span st et (sS g) (eS g) in
                  let hs' := hs ++ [h] in
                  (if (Z.of_nat (max_symbols_s o) <? ws' + Z.of_nat (S holes))%Z
                      || (Z.of_nat (max_symbols_t o) <? wt' + Z.of_nat (S holes))%Z then [] else [hs'])
                  ++ hiero f exist ph hs' (scope ph hs sc h) (S holes) (if consec_t o then S et else S (S et)) wt' ws')
                (filter (fun g => (sT g =? st) && (eT g =? et)) exist))
          (seq (st + (min_hole_t o - 1)) (S (eT ph) - (st + (min_hole_t o - 1)))))
        (seq init (S (eT ph) - init))
  end.

(** Lines 449-466 with the start of addRule (882-887) for one pair of spans: a rule is its spans and its holes. *)
Definition rules_of (exist : list span) (ph : span) : list (span * list span) :=
  (if (eT ph - sT ph <? max_symbols_t o) && (eS ph - sS ph <? max_symbols_s o)
      && negb (boundary && ((sS ph =? 0) && (eS ph =? 0)
                            || (sS ph =? length (count_s n) - 1) && (eS ph =? length (count_s n) - 1)))
   then [(ph, [])] else [])
  ++ map (fun hs => (ph, hs))
       (hiero (max_nonterm o) exist ph [] 0 0 (if first_word o then sT ph else S (sT ph))
          (Z.of_nat (S (eT ph) - sT ph)) (Z.of_nat (S (eS ph) - sS ph))).
(** extractRules, lines 374-471. *)
Fixpoint rules_from (exist todo : list span) : list (span * list span) :=
  match todo with
  | [] => []
  | ph :: todo => rules_of (exist ++ [ph]) ph ++ rules_from (exist ++ [ph]) todo
  end.
Definition extract : list (span * list span) := rules_from [] spans.
End Extract.

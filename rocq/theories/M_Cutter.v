(** Model of the base class of tokenizers and segmenters, common/cutter.hpp and
    common/cutter.cpp.  A text is the list of its bytes; positions are [nat]
    ([None] is std::string::npos).  Positions are assumed to fit into an int
    (the parameter type of symbolLength). *)
From Coq Require Import List ZArith Bool Arith.
From Verif Require Import M_Utf8.
Import ListNotations.
Open Scope nat_scope.

Definition sub (text : list Z) (pos len : nat) : list Z := firstn len (skipn pos text).

(** common/string_helpers.cpp lines 18-22: symbolLength; the byte after the
    last one is the terminating NUL. *)
Definition symbol_length (text : list Z) (pos : nat) : nat :=
  let len := Z.to_nat (sequence_length (nth pos text 0%Z)) in
  if Nat.ltb 0 len then len else 1.

(** cutter.cpp lines 37-58. *)
Definition limit_broken (limit len : nat) : bool := negb (limit =? 0) && (limit <=? len).

(** cutter.hpp lines 194-210: findSoftLimitCutPoint_, the loop; [n] is
    maxCutPoint - cutPoint. *)
Fixpoint soft_scan (text : list Z) (n cutPoint : nat) : nat :=
  match n with
  | O => cutPoint
  | S n' => if Z.eqb (nth cutPoint text 0%Z) 32 then cutPoint else soft_scan text n' (S cutPoint)
  end.
Definition find_soft (soft : nat) (text : list Z) (cutPoint maxCutPoint : nat) : nat :=
  let cp := cutPoint + soft in
  if Nat.ltb cp maxCutPoint then soft_scan text (maxCutPoint - cp) cp else maxCutPoint.

(** cutter.hpp lines 226-231: the loop of findHardLimitCutPoint_. *)
Fixpoint hard_scan (fuel : nat) (text : list Z) (hardLimitPos candidatePos : nat) : nat :=
  match fuel with
  | O => candidatePos
  | S fuel' =>
      if Nat.ltb candidatePos hardLimitPos then
        let symLen := symbol_length text candidatePos in
        if Nat.ltb hardLimitPos (candidatePos + symLen) then candidatePos
        else hard_scan fuel' text hardLimitPos (candidatePos + symLen)
      else candidatePos
  end.
(** cutter.hpp lines 213-240: findHardLimitCutPoint_; [None] is the exception. *)
Definition find_hard (hard : nat) (text : list Z) (cutPoint : nat) : option nat :=
  let hardLimitPos := cutPoint + hard in
  let start := if Nat.ltb 4 hardLimitPos then hardLimitPos - 4 else 0 in
  let candidatePos := hard_scan (hardLimitPos - start) text hardLimitPos start in
  if Nat.leb candidatePos cutPoint then None else Some candidatePos.

(** cutter.hpp lines 154-191: fragmentSegment_; the result is the list of
    (position, length) of the fragments put into the queue; [None] is the
    exception.  [fuel] is the number of iterations allowed. *)
Fixpoint fragment (fuel : nat) (soft hard : nat) (text : list Z) (pos len cutPoint : nat)
  : option (list (nat * nat)) :=
  match fuel with
  | O => Some []
  | S fuel' =>
    if Nat.ltb cutPoint (pos + len) then
      let currentLength := len - (cutPoint - pos) in
      let softCut :=
        if limit_broken soft currentLength then Some (find_soft soft text cutPoint (pos + len)) else None in
      let hardCut :=
        if limit_broken hard currentLength then
          match find_hard hard text cutPoint with Some p => Some (Some p) | None => None end
        else Some None in
      match hardCut with
      | None => None
      | Some hardCut =>
          let cut :=
            match softCut, hardCut with
            | Some s, Some h => Nat.min s h
            | Some s, None => s
            | None, Some h => h
            | None, None => pos + len
            end in
          match fragment fuel' soft hard text pos len cut with
          | None => None
          | Some r => Some ((cutPoint, cut - cutPoint) :: r)
          end
      end
    else Some []
  end.

Definition fragment_segment (soft hard : nat) (text : list Z) (pos len : nat) : option (list (nat * nat)) :=
  fragment len soft hard text pos len pos.

(** ** The cutter object *)
(** An item: the annotation made by the concrete cutter (category and attributes,
    any type [A]) and its text. *)
Section Cut.
Context {A St : Type}.

(** doCutOff of a concrete cutter: its state, the item and the new position. *)
Variable do_cut_off : St -> list Z -> nat -> St * (A * list Z) * option nat.
Variables soft hard : nat.

Record cutter := { st : St; queue : list (A * list Z) }.

(** cutter.hpp lines 138-151: getFirstItemInFragmentQueue_. *)
Definition first_in_queue (c : cutter) (text : list Z) (pos : nat)
  : option (cutter * (A * list Z) * option nat) :=
  match queue c with
  | [] => None
  | item :: q =>
      let p := pos + length (snd item) in
      Some ({| st := st c; queue := q |}, item, if p =? length text then None else Some p)
  end.

(** cutter.hpp lines 108-135: cutOff; [None] is the exception. *)
Definition cut_off (c : cutter) (text : list Z) (pos : nat)
  : option (cutter * (A * list Z) * option nat) :=
  match queue c with
  | _ :: _ => first_in_queue c text pos
  | [] =>
      let '(s', item, pos') := do_cut_off (st c) text pos in
      let realpos := match pos' with Some p => p | None => length text end in
      let segmentLength := realpos - pos in
      if limit_broken soft segmentLength || limit_broken hard segmentLength then
        match fragment_segment soft hard text pos segmentLength with
        | None => None
        | Some frags =>
            first_in_queue
              {| st := s'; queue := map (fun f => (fst item, sub text (fst f) (snd f))) frags |} text pos
        end
      else Some ({| st := s'; queue := [] |}, item, pos')
  end.

(** The loop that drives a cutter, common/lattice.cpp lines 1252-1269
    (runCutterOnEdge_): the items with their positions and lengths.  [None] is the
    exception, [fuel] bounds the number of items. *)
Fixpoint run_cutter (fuel : nat) (c : cutter) (text : list Z) (pos : nat)
  : option (list ((A * list Z) * nat * nat)) :=
  match fuel with
  | O => Some []
  | S fuel' =>
      match cut_off c text pos with
      | None => None
      | Some (c', item, pos') =>
          let realpos := match pos' with Some p => p | None => length text end in
          let this := (item, pos, realpos - pos) in
          match pos' with
          | Some p =>
              if Nat.ltb p (length text) then
                match run_cutter fuel' c' text p with
                | None => None
                | Some r => Some (this :: r)
                end
              else Some [this]
          | None => Some [this]
          end
      end
  end.
End Cut.
Arguments cutter : clear implicits.

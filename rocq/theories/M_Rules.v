(** The text of extracted rules, their alignments and counts: tools/translators/bonsai/utils/binaries/extract-rules-main.cpp
    473-754 and 880-995, without syntax (targetSyntax and sourceSyntax false), with paired labels (unpairedExtractFormat and
    conditionOnTargetLhs false).  A text is the list of its symbols, which the code joins by blanks. *)
From Coq Require Import String List ZArith QArith Bool PeanoNat.
From Verif Require Import M_Extract.
Import ListNotations.
Local Open Scope nat_scope.
Local Open Scope list_scope.

(** What stands at a position of a side of a rule. *)
Inductive item := W (pos : nat) | H (h : span).

(** The loops of preprocessSourceHieroPhrase, saveTargetHieroPhrase and saveSourceHieroPhrase (lines 479-508, 519-563, 576-606) over
    one side from pos to last: b and e are the ends of a hole on that side. *)
Fixpoint walk (b e : span -> nat) (fuel pos last : nat) (hs : list span) : list item :=
  match fuel with
  | 0 => []
  | S f =>
      if last <? pos then []
      else
        match hs with
        | h :: hs' => if b h =? pos then H h :: walk b e f (S (e h)) last hs' else W pos :: walk b e f (S pos) last hs
        | [] => W pos :: walk b e f (S pos) last hs
        end
  end.
(** SortSourceHoles, HoleCollection.cpp 27-40: the starts differ, so there is one order. *)
Fixpoint put (h : span) (l : list span) : list span :=
  match l with [] => [h] | g :: l' => if sS h <? sS g then h :: l else g :: put h l' end.
Definition sort_s (hs : list span) : list span := fold_right put [] hs.
Definition target_items (ph : span) (hs : list span) : list item := walk sT eT (S (eT ph)) (sT ph) (eT ph) hs.
Definition source_items (ph : span) (hs : list span) : list item := walk sS eS (S (eS ph)) (sS ph) (eS ph) (sort_s hs).

(** indexS and indexT (lines 501, 554), and the positions set in the holes (lines 497, 551): outPos counts the items. *)
Fixpoint index_w (p : nat) (l : list item) : option nat :=
  match l with
  | [] => None
  | W q :: l => if q =? p then Some 0 else option_map S (index_w p l)
  | H _ :: l => option_map S (index_w p l)
  end.
Fixpoint index_h (h : span) (l : list item) : option nat :=
  match l with
  | [] => None
  | W _ :: l => option_map S (index_h h l)
  | H g :: l => if sS g =? sS h then Some 0 else option_map S (index_h h l)
  end.
Fixpoint all_some {A} (l : list (option A)) : option (list A) :=
  match l with
  | [] => Some []
  | Some x :: l => option_map (cons x) (all_some l)
  | None :: _ => None
  end.
(** saveHieroAlignment, lines 617-654: pairs of a source and a target position; None if end() of indexS is dereferenced. *)
Definition word_points (n : sentence) (src tgt : list item) (ti : nat) : list (option (nat * nat)) :=
  match index_w ti tgt with
  | None => []
  | Some j => map (fun si => option_map (fun i => (i, j)) (index_w si src)) (nth ti (to_t n) [])
  end.
Definition hole_point (src tgt : list item) (h : span) : option (nat * nat) :=
  match index_h h src, index_h h tgt with Some i, Some j => Some (i, j) | _, _ => None end.
Definition hiero_alignment (n : sentence) (ph : span) (hs : list span) : option (list (nat * nat)) :=
  let src := source_items ph hs in
  let tgt := target_items ph hs in
  all_some (flat_map (word_points n src tgt) (seq (sT ph) (S (eT ph) - sT ph)) ++ map (hole_point src tgt) hs).
(** addRule, lines 922-935. *)
Definition lexical_alignment (n : sentence) (ph : span) : list (nat * nat) :=
  flat_map (fun ti => map (fun si => (si - sS ph, ti - sT ph)) (nth ti (to_t n) [])) (seq (sT ph) (S (eT ph) - sT ph)).

(** The label of the target: lines 663-670, 533-539 and 901-907.  For rules with holes the callers pass the source words that were
    left before the last hole was added as the number of words of the sentence (lines 756-759, 867). *)
Definition passed_count (n : sentence) (ph : span) (hs : list span) : Z :=
  match hs with
  | [] => Z.of_nat (length (count_s n))
  | _ => (Z.of_nat (S (eS ph) - sS ph) - fold_right (fun h z => (Z.of_nat (S (eS h) - sS h) + z)%Z) 0%Z (removelast hs))%Z
  end.
Definition label (boundary : bool) (n : sentence) (ph : span) (hs : list span) : string :=
  if boundary && ((sS ph =? 0) || (Z.of_nat (eS ph) =? passed_count n ph hs - 1)%Z) then "S"%string else "X"%string.

(** An ExtractedRule: its spans, source, target, alignment. *)
Record rule := Rule { r_span : span; r_source : list string; r_target : list string; r_align : list (nat * nat) }.
Definition show (ws : list string) (lt : string) (i : item) : string :=
  match i with W p => nth p ws EmptyString | H _ => ("[X][" ++ lt ++ "]")%string end.
(** saveHieroPhrase, lines 656-703, and addRule, lines 894-938. *)
Definition make_rule (boundary : bool) (n : sentence) (source target : list string) (ph : span) (hs : list span) : option rule :=
  let lt := label boundary n ph hs in
  match hs with
  | [] => Some (Rule ph (map (fun p => nth p source EmptyString) (seq (sS ph) (S (eS ph) - sS ph)) ++ ["[X]"%string])
            (map (fun p => nth p target EmptyString) (seq (sT ph) (S (eT ph) - sT ph)) ++ [("[" ++ lt ++ "]")%string]) (lexical_alignment n ph))
  | _ => option_map (Rule ph (map (show source lt) (source_items ph hs) ++ ["[X]"%string])
            (map (show target lt) (target_items ph hs) ++ [("[" ++ lt ++ "]")%string])) (hiero_alignment n ph hs)
  end.

(** addRuleToCollection, lines 950-965. *)
Definition same_text (a b : rule) : bool :=
  (if list_eq_dec string_dec (r_source a) (r_source b) then true else false)
  && (if list_eq_dec string_dec (r_target a) (r_target b) then true else false).
Definition overlap_t (a b : rule) : bool := negb ((eT (r_span a) <? sT (r_span b)) || (eT (r_span b) <? sT (r_span a))).
Definition collect_rule (duplicates : bool) (l : list rule) (r : rule) : list rule :=
  if negb duplicates && existsb (fun q => same_text q r && overlap_t q r) l then l else l ++ [r].
Definition collect_rules (duplicates : bool) (l : list rule) : list rule := fold_left (collect_rule duplicates) l [].

(** consolidateRules, lines 967-995, with rational numbers: the rules with their counts. *)
Definition same_span (a b : rule) : bool :=
  (sT (r_span a) =? sT (r_span b)) && (eT (r_span a) =? eT (r_span b)) && (sS (r_span a) =? sS (r_span b)) && (eS (r_span a) =? eS (r_span b)).
Definition same_rule (a b : rule) : bool :=
  same_text a b && (if list_eq_dec (fun x y : nat * nat => ltac:(decide equality; apply Nat.eq_dec)) (r_align a) (r_align b) then true else false).
Definition span_count (l : list rule) (r : rule) : nat := length (filter (same_span r) l).
Definition own_count (fractional : bool) (l : list rule) (r : rule) : Q :=
  (if fractional then / inject_Z (Z.of_nat (span_count l r)) else 1)%Q.
Fixpoint sumq (l : list Q) : Q := match l with [] => 0%Q | x :: l => (x + sumq l)%Q end.
(** The last loop: the first of equal rules gets what all of them have, later ones get 0. *)
Fixpoint share (all : list (rule * Q)) (seen : list rule) (l : list rule) : list (rule * Q) :=
  match l with
  | [] => []
  | r :: l =>
      (r, if existsb (same_rule r) seen then 0%Q else sumq (map snd (filter (fun x => same_rule r (fst x)) all))) :: share all (r :: seen) l
  end.
Definition consolidate (fractional : bool) (l : list rule) : list (rule * Q) :=
  share (map (fun r => (r, own_count fractional l r)) l) [] l.
(** writeRulesToFile, lines 997-1031: rules with count 0 are left out. *)
Definition written (fractional : bool) (l : list rule) : list (rule * Q) :=
  filter (fun x => negb (Qeq_bool (snd x) 0%Q)) (consolidate fractional l).

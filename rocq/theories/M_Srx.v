(** Model of the SRX segmenter: tools/segmenters/srx/srx_segmenter.cpp, lines
    105-142 (processRule_, makeRegexp_, makeAllParensNonCapturing_) and 167-390
    (SrxSentenceCutter), tools/segmenters/srx/srx_rules.cpp, lines 37-95 with
    srx_rules.hpp, lines 57-111 (the choice of the rules), and
    common/escaping.cpp.

    Simplifications: a rule is given by what its regular expression finds: for
    every place of the text the place of the break of the match that begins
    there, if there is one (the beginning of the group in it); FindAndConsume
    finds the first place at which there is one, whatever is before the
    beginning of the search.  The text is given by its length and by the place
    of the next character.  Assertions are not modelled. *)
From Coq Require Import String Ascii.
From Coq Require Import List Arith Bool Lia.
Import ListNotations.
Local Open Scope nat_scope.

(** * Cutting *)

Notation rule := (nat -> option nat).

(** RuleApplication (lines 337-344): startingPosition and breakingPosition, npos
    is None. *)
Record application := App { start : nat; brk : option nat }.
Definition fresh : application := App 0 None.

Section Cutter.
(** The length of the text, and the place after the character at a place
    (utf8::unchecked::sequence_length). *)
Variable n : nat.
Variable next : nat -> nat.

(** PerlRegExp::FindAndConsume from [s] on, in [k] places. *)
Fixpoint find_in (r : rule) (s k : nat) : option nat :=
  match k with
  | 0 => None
  | S k' => match r s with
            | Some b => Some b
            | None => find_in r (S s) k'
            end
  end.
Definition find (r : rule) (s : nat) : option nat := find_in r s (S n - s).

Definition before (b : option nat) (m : nat) : bool :=
  match b with None => true | Some b => b <? m end.

(** The loop of updatePosition_ (lines 359-383). *)
Fixpoint update_loop (fuel : nat) (r : rule) (a : application) (min : nat) : application :=
  match fuel with
  | 0 => a
  | S f =>
      if (start a <? n) && before (brk a) min then
        update_loop f r
          (match find r (start a) with
           | Some b => App (next (start a)) (Some b)
           | None => App n None
           end) min
      else a
  end.
(** updatePosition_ (lines 349-389). *)
Definition update (r : rule) (a : application) (min pos : nat) : application :=
  let a1 := if start a <? pos then App pos (brk a) else a in
  let a2 := update_loop (S n) r a1 min in
  if before (brk a2) min then App (start a2) None else a2.

(** BreakingRuleInfo: the rule and the number of non-breaking rules before it. *)
Notation breaking := (list (rule * nat)).

(** Lines 201-222: all breaking rules are brought up to date; the nearest break
    and the number of non-breaking rules that apply to it. *)
Fixpoint candidates (rs : breaking) (apps : list application) (min pos : nat)
    (best : option (nat * nat)) : list application * option (nat * nat) :=
  match rs, apps with
  | (r, k) :: rs', a :: apps' =>
      let a' := update r a min pos in
      let best' := match brk a' with
                   | None => best
                   | Some b => match best with
                               | None => Some (b, k)
                               | Some (c, _) => if b <? c then Some (b, k) else best
                               end
                   end in
      let (apps'', res) := candidates rs' apps' min pos best' in
      (a' :: apps'', res)
  | _, _ => ([], best)
  end.

(** checkBreakPoint_ (lines 301-321). *)
Fixpoint check (k : nat) (rs : list rule) (apps : list application) (b pos : nat)
    : list application * bool :=
  match k, rs, apps with
  | S k', r :: rs', a :: apps' =>
      let a' := update r a b pos in
      if match brk a' with Some c => c =? b | None => false end then (a' :: apps', false)
      else let (apps'', ok) := check k' rs' apps' b pos in (a' :: apps'', ok)
  | _, _, _ => (apps, true)
  end.

Record state := State { on_breaking : list application; on_other : list application }.

(** The loop of performCutOff (lines 198-238): the break that was accepted. *)
Fixpoint cut_loop (fuel : nat) (bs : breaking) (ns : list rule) (st : state) (min pos : nat)
    : state * option nat :=
  match fuel with
  | 0 => (st, None)
  | S f =>
      let (ba, best) := candidates bs (on_breaking st) min pos None in
      match best with
      | None => (State ba (on_other st), None)
      | Some (b, k) =>
          let (na, ok) := check k ns (on_other st) b pos in
          if ok then (State ba na, Some b)
          else cut_loop f bs ns (State ba na) (next b) pos
      end
  end.
Definition cut_off (bs : breaking) (ns : list rule) (st : state) (pos : nat) : state * option nat :=
  cut_loop (S (S n)) bs ns st (next pos) pos.

(** The cutter over a whole text: the places of the cuts. *)
Fixpoint cuts_loop (fuel : nat) (bs : breaking) (ns : list rule) (st : state) (pos : nat) : list nat :=
  match fuel with
  | 0 => []
  | S f =>
      if pos <? n then
        match cut_off bs ns st pos with
        | (_, None) => []
        | (st', Some b) => b :: cuts_loop f bs ns st' b
        end
      else []
  end.

(** processRule_ (lines 105-117): the rules in their order, true for breaking. *)
Fixpoint process (rules : list (bool * rule)) (seen : nat) : breaking * list rule :=
  match rules with
  | [] => ([], [])
  | (true, r) :: rules' => let (bs, ns) := process rules' seen in ((r, seen) :: bs, ns)
  | (false, r) :: rules' => let (bs, ns) := process rules' (S seen) in (bs, r :: ns)
  end.

Definition cuts (rules : list (bool * rule)) : list nat :=
  let (bs, ns) := process rules 0 in
  cuts_loop (S n) bs ns
    (State (map (fun _ => fresh) bs) (map (fun _ => fresh) ns)) 0.
End Cutter.

(** * Regular expressions *)

Notation text := (list ascii).
Definition bs : ascii := "\".

(** isEscaped (escaping.cpp): the number of backslashes right before a place. *)
Fixpoint last_other (s : text) (pos : nat) : option nat :=
  match pos with
  | 0 => None
  | S p => match nth_error s p with
           | Some c => if Ascii.eqb c bs then last_other s p else Some p
           | None => last_other s p
           end
  end.
Definition is_escaped (s : text) (pos : nat) : bool :=
  if pos =? 0 then false
  else match last_other s pos with
       | None => pos mod 2 =? 1
       | Some l => (pos - l) mod 2 =? 0
       end.

(** std::string::find of "(" from a place on. *)
Fixpoint find_paren (s : text) (i pos : nat) : option nat :=
  match s with
  | [] => None
  | c :: s' => if (pos <=? i) && Ascii.eqb c "(" then Some i else find_paren s' (S i) pos
  end.

(** makeAllParensNonCapturing_ (lines 128-142). *)
Fixpoint parens_loop (fuel : nat) (s : text) (pos : nat) : text :=
  match fuel with
  | 0 => s
  | S f =>
      match find_paren s 0 pos with
      | None => s
      | Some p =>
          if negb (is_escaped s p)
             && negb match nth_error s (p + 1) with Some c => Ascii.eqb c "?" | None => false end
          then parens_loop f (firstn (p + 1) s ++ list_ascii_of_string "?:" ++ skipn (p + 1) s) (p + 3)
          else parens_loop f s (p + 1)
      end
  end.
Definition non_capturing (s : text) : text := parens_loop (S (length s)) s 0.

(** makeRegexp_ (lines 119-126). *)
Definition make_regexp (before_break after_break : text) : text :=
  list_ascii_of_string "(?:" ++ non_capturing before_break ++ list_ascii_of_string ")("
  ++ non_capturing after_break ++ list_ascii_of_string ")".

(** * The choice of the rules *)

(** processMapRules_, processLanguageMap_: the names whose pattern matches the
    language, only the first one if there is no cascade. *)
Fixpoint rule_names (matches : text -> bool) (cascade : bool) (maps : list (text * text)) : list text :=
  match maps with
  | [] => []
  | (pattern, name) :: maps' =>
      if matches pattern
      then name :: (if cascade then rule_names matches cascade maps' else [])
      else rule_names matches cascade maps'
  end.
(** getRules: the rules of the chosen names in the order of the file. *)
Definition choose_rules {R : Type} (matches : text -> bool) (cascade : bool)
    (maps : list (text * text)) (rules : list (text * list R)) : list R :=
  let names := rule_names matches cascade maps in
  flat_map (fun nr => if existsb (fun x => if list_eq_dec ascii_dec x (fst nr) then true else false) names
                      then snd nr else []) rules.

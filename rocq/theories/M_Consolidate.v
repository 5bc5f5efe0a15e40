(** Model of parts of consolidate (tools/translators/bonsai/utils/binaries/consolidate-main.cpp): splitLine
    (lines 385-405), breakdownCoreAndSparse (354-370), the discounts of Good and Turing (151-161 and 249-252),
    the bins of counts (292-305 and 328-346), and tokenize (tables-core.cpp lines 10-30).
    Simplifications: a line is a list of characters without zero bytes; floats are rational numbers. *)
From Coq Require Import String Ascii.
From Coq Require Import List Arith ZArith QArith Qround Bool Lia.
Import ListNotations.
Local Open Scope nat_scope.

Definition str := list ascii.
Definition space : ascii := " "%char.

(** lines 385-405, splitLine: from i on, with the item so far; [back] says that start is i + 1, as it is at
    the last character of a separator, with which the next one may begin *)
Fixpoint split_loop (s item : str) (back : bool) : list str :=
  match s with
  | [] => [item]
  | c :: s' =>
    match s with
    | " "%char :: "|"%char :: "|"%char :: "|"%char :: ((" "%char :: _) as t) => item :: split_loop t [] true
    | _ => if back then split_loop s' [] false else split_loop s' (item ++ [c]) false
    end
  end.
Definition split_line (s : str) : list str := split_loop s [] false.

(** tables-core.cpp lines 10-30, tokenize: the word begun, if there is one *)
Definition is_blank (c : ascii) : bool := Ascii.eqb c space || Ascii.eqb c "009"%char.
Fixpoint tokens_loop (s : str) (word : option str) : list str :=
  match s with
  | [] => match word with Some w => [w] | None => [] end
  | c :: s' =>
    if is_blank c then match word with Some w => w :: tokens_loop s' None | None => tokens_loop s' None end
    else tokens_loop s' (Some (match word with Some w => w ++ [c] | None => [c] end))
  end.
Definition tokens (s : str) : list str := tokens_loop s None.

(** lines 354-370, breakdownCoreAndSparse *)
Definition is_digit (c : ascii) : bool := let n := nat_of_ascii c in (48 <=? n) && (n <=? 57).
Fixpoint breakdown_loop (l : list str) (core sparse : str) : str * str :=
  match l with
  | [] => (core, sparse)
  | [w] => (core ++ space :: w, sparse)
  | w :: ((v :: l'') as l') =>
    if is_digit (hd "000"%char w) then breakdown_loop l' (core ++ space :: w) sparse
    else breakdown_loop l'' core ((sparse ++ space :: w) ++ space :: v)
  end.
Definition breakdown (s : str) : str * str := let '(core, sparse) := breakdown_loop (tokens s) [] [] in (tl core, tl sparse).

(** lines 151-161: the discounts from countOfCounts[i], countOfCounts[i+1] and so on, after the last one *)
Definition clip (d prev : Q) : Q := let d := if Qle_bool d 1 then d else 1%Q in if Qle_bool prev d then d else prev.
Fixpoint discounts (i : Z) (prev : Q) (counts : list Q) : list Q :=
  match counts with
  | c :: ((c1 :: _) as counts') =>
    let d := clip ((inject_Z i + 1) / inject_Z i * ((c1 + (1 # 10)) / (c + (1 # 10))))%Q prev in d :: discounts (i + 1) d counts'
  | _ => []
  end.
(** [counts] are the numbers of the file after the total; countOfCounts[0] is put before them *)
Definition good_turing (counts : list Q) : list Q := (1 # 100)%Q :: discounts 1 (1 # 100) counts.
(** lines 249-252; a cast to int of a number that is not negative is its floor *)
Definition adjusted (table : list Q) (count : Q) : option Q :=
  if Qle_bool (inject_Z (Z.of_nat (length table)) - 1) (count + (99999 # 100000)) then Some count
  else match nth_error table (Z.to_nat (Qfloor (count + (99998 # 100000)))) with Some d => Some (count * d)%Q | None => None end.

(** lines 292-305: the bins as core features; true is 2.718, false is 1 *)
Fixpoint bin_loop (count : Q) (bins : list Z) (found : bool) : list bool * bool :=
  match bins with
  | [] => ([], found)
  | b :: bins' =>
    let here := negb found && Qle_bool count (inject_Z b) in
    let '(l, f) := bin_loop count bins' (found || here) in (here :: l, f)
  end.
Definition bin_features (count : Q) (bins : list Z) : list bool := let '(l, f) := bin_loop count bins false in l ++ [negb f].
(** lines 328-346: the bin as a sparse feature, the numbers in its name; None is cb_max *)
Fixpoint bin_name (count : Q) (prev : option Z) (bins : list Z) : option (option Z * Z) :=
  match bins with
  | [] => None
  | b :: bins' =>
    if Qle_bool count (inject_Z b) then
      Some (match prev with
            | None => if (1 <? b)%Z then Some 1%Z else None
            | Some p => if (p + 1 <? b)%Z then Some (p + 1)%Z else None
            end, b)
    else bin_name count (Some b) bins'
  end.

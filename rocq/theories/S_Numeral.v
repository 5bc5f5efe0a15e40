(** Polish numerals, without reference to the program: a number gives a list of words. *)
From Coq Require Import String List NArith PeanoNat.
Import ListNotations.
Local Open Scope string_scope.
Local Open Scope list_scope.
Local Open Scope nat_scope.

(** One to nineteen, the tens and the hundreds. *)
Definition below20 : list string :=
  [""; "jeden"; "dwa"; "trzy"; "cztery"; "pięć"; "sześć"; "siedem"; "osiem"; "dziewięć"; "dziesięć"; "jedenaście"; "dwanaście"; "trzynaście"; "czternaście";
   "piętnaście"; "szesnaście"; "siedemnaście"; "osiemnaście"; "dziewiętnaście"].
Definition by_tens : list string :=
  [""; ""; "dwadzieścia"; "trzydzieści"; "czterdzieści"; "pięćdziesiąt"; "sześćdziesiąt"; "siedemdziesiąt"; "osiemdziesiąt"; "dziewięćdziesiąt"].
Definition by_hundreds : list string :=
  [""; "sto"; "dwieście"; "trzysta"; "czterysta"; "pięćset"; "sześćset"; "siedemset"; "osiemset"; "dziewięćset"].
Definition word (t : list string) (k : nat) : list string := match k with 0 => [] | _ => [nth k t ""] end.
(** The words of a number below 1000, none for 0. *)
Definition small (below tens hundreds : list string) (g : nat) : list string :=
  word hundreds (g / 100) ++ (if g mod 100 <? 20 then word below (g mod 100) else word tens (g mod 100 / 10) ++ word below (g mod 10)).

(** Names of the powers of 1000: a thousand, then two names for each Latin number. *)
Definition latin (k : nat) : string :=
  if k <? 10 then nth k [""; "mi"; "bi"; "try"; "kwadry"; "kwinty"; "seksty"; "septy"; "okty"; "nony"] ""
  else (nth (k mod 10) [""; "un"; "duo"; "tre"; "kwattuor"; "kwin"; "seks"; "septen"; "okto"; "nowem"] ""
        ++ nth (k / 10) [""; "decy"; "wiginty"; "triginty"; "kwadraginty"; "kwinkwaginty"; "seksaginty"; "septuaginty"; "oktoginty"; "nowemginty"; "centy"] "")%string.
Definition power (thousand endings_even endings_odd : string) (r : nat) : string :=
  match r with 1 => thousand | _ => (latin (r / 2) ++ if Nat.even r then endings_even else endings_odd)%string end.
Definition one_power := power "tysiąc" "lion" "liard".
Definition few_powers := power "tysiące" "liony" "liardy".
Definition many_powers := power "tysięcy" "lionów" "liardów".
Definition power_th := power "tysięczny" "lionowy" "liardowy".
(** Two to four of something, but not twelve to fourteen. *)
Definition few (g : nat) : bool := (2 <=? g mod 10) && (g mod 10 <=? 4) && negb (g / 10 mod 10 =? 1).
(** What a group of three digits contributes. *)
Definition cardinal_group (r g : nat) : list string :=
  match r with
  | 0 => small below20 by_tens by_hundreds g
  | _ => match g with 0 => [] | 1 => [one_power r] | _ => small below20 by_tens by_hundreds g ++ [if few g then few_powers r else many_powers r] end
  end.
(** Digits and groups of a number. *)
Definition group_of (v : N) (r : nat) : nat := N.to_nat (v / 1000 ^ N.of_nat r mod 1000).
Definition down (k : nat) : list nat := rev (seq 0 k).
Definition cardinal (k : nat) (v : N) : list string :=
  if N.eqb v 0 then ["zero"] else flat_map (fun r => cardinal_group r (group_of v r)) (down k).

(** Ordinals: the lowest group that is not 0 is ordinal, those above are cardinal. *)
Definition below20_th : list string :=
  [""; "pierwszy"; "drugi"; "trzeci"; "czwarty"; "piąty"; "szósty"; "siódmy"; "ósmy"; "dziewiąty"; "dziesiąty"; "jedenasty"; "dwunasty"; "trzynasty";
   "czternasty"; "piętnasty"; "szesnasty"; "siedemnasty"; "osiemnasty"; "dziewiętnasty"].
Definition by_tens_th : list string :=
  [""; ""; "dwudziesty"; "trzydziesty"; "czterdziesty"; "pięćdziesiąty"; "sześćdziesiąty"; "siedemdziesiąty"; "osiemdziesiąty"; "dziewięćdziesiąty"].
Definition by_hundreds_th : list string :=
  [""; "setny"; "dwusetny"; "trzysetny"; "czterysetny"; "pięćsetny"; "sześćsetny"; "siedemsetny"; "osiemsetny"; "dziewięćsetny"].
Definition below20_of : list string :=
  [""; "jedno"; "dwu"; "trzy"; "cztero"; "pięcio"; "sześcio"; "siedmio"; "ośmio"; "dziewięcio"; "dziesięcio"; "jedenasto"; "dwunasto"; "trzynasto";
   "czternasto"; "piętnasto"; "szesnasto"; "siedemnasto"; "osiemnasto"; "dziewiętnasto"].
Definition by_tens_of : list string :=
  [""; ""; "dwudziesto"; "trzydziesto"; "czterdziesto"; "pięćdziesięcio"; "sześćdziesięcio"; "siedemdziesięcio"; "osiemdziesięcio"; "dziewięćdziesięcio"].
Definition by_hundreds_of : list string := [""; "stu"; "dwustu"; "trzystu"; "czterystu"; "pięćset"; "sześćset"; "siedemset"; "osiemset"; "dziewięćset"].
Definition ordinal_group (r g : nat) : list string :=
  match r with
  | 0 => small below20_th by_tens_th (if g mod 100 =? 0 then by_hundreds_th else by_hundreds) g
  | _ => match g with 0 => [] | 1 => [power_th r] | _ => [String.concat "" (small below20_of by_tens_of by_hundreds_of g ++ [power_th r])] end
  end.
Definition ordinal (k : nat) (v : N) : list string :=
  if N.eqb v 0 then ["zerowy"]
  else flat_map (fun r => if N.eqb (v mod 1000 ^ N.of_nat r) 0 then ordinal_group r (group_of v r) else cardinal_group r (group_of v r)) (down k).

(** Numbers in Polish words: tools/translators/transferer/numconversion.cpp.  A number is the list of its characters; results are the
    text (tequiv) and the inflection codes (tinflection).  None stands for reading n[-1] of an empty string (lines 742-744). *)
From Coq Require Import String Ascii List PeanoNat NArith Bool.
Import ListNotations.
Local Open Scope string_scope.
Local Open Scope list_scope.
Local Open Scope nat_scope.

(** The enumeration of lines 16-28; forms_index is its numbering. *)
Inductive form := CARDINAL | ORDINAL | CARDINAL_G | ORDINAL_F | ORDINAL_NPL | ORDINAL_GPL | BEFORE_NOUN | CARDINAL_NPL | CARDINAL_GPL | CARDINAL_F | CARDINAL_FG.
Definition form_eq (a b : form) : {a = b} + {a <> b}. Proof. decide equality. Defined.
Definition is_form (a b : form) : bool := if form_eq a b then true else false.
Definition form_index (f : form) : nat :=
  match f with CARDINAL => 0 | ORDINAL => 1 | CARDINAL_G => 2 | ORDINAL_F => 3 | ORDINAL_NPL => 4 | ORDINAL_GPL => 5 | BEFORE_NOUN => 6
  | CARDINAL_NPL => 7 | CARDINAL_GPL => 8 | CARDINAL_F => 9 | CARDINAL_FG => 10 end.
(** units, lines 44-116. *)
Definition units : list (list string) :=
  [["zero"; "jeden"; "dwa"; "trzy"; "cztery"; "pięć"; "sześć"; "siedem"; "osiem"; "dziewięć"];
   ["zerowy"; "pierwszy"; "drugi"; "trzeci"; "czwarty"; "piąty"; "szósty"; "siódmy"; "ósmy"; "dziewiąty"];
   ["zera"; "jeden"; "dwóch"; "trzech"; "czterech"; "pięciu"; "sześciu"; "siedmiu"; "ośmiu"; "dziewięciu"];
   ["zerowa"; "pierwsza"; "druga"; "trzecia"; "czwarta"; "piąta"; "szósta"; "siódma"; "ósma"; "dziewiąta"];
   ["zerowe"; "pierwsze"; "drugie"; "trzecie"; "czwarte"; "piąte"; "szóste"; "siódme"; "ósme"; "dziewiąte"];
   ["zerowych"; "pierwszych"; "drugich"; "trzecich"; "czwartych"; "piątych"; "szóstych"; "siódmych"; "ósmych"; "dziewiątych"];
   ["zero"; "jedno"; "dwu"; "trzy"; "cztero"; "pięcio"; "sześcio"; "siedmio"; "ośmio"; "dziewięcio"]].
(** teens, lines 118-197. *)
Definition teens : list (list string) :=
  [["dziesięć"; "jedenaście"; "dwanaście"; "trzynaście"; "czternaście"; "piętnaście"; "szesnaście"; "siedemnaście"; "osiemnaście"; "dziewiętnaście"];
   ["dziesiąty"; "jedenasty"; "dwunasty"; "trzynasty"; "czternasty"; "piętnasty"; "szesnasty"; "siedemnasty"; "osiemnasty"; "dziewiętnasty"];
   ["dziesięciu"; "jedenastu"; "dwunastu"; "trzynastu"; "czternastu"; "piętnastu"; "szesnastu"; "siedemnastu"; "osiemnastu"; "dziewiętnastu"];
   ["dziesiąta"; "jedenasta"; "dwunasta"; "trzynasta"; "czternasta"; "piętnasta"; "szesnasta"; "siedemnasta"; "osiemnasta"; "dziewiętnasta"];
   ["dziesiąte"; "jedenaste"; "dwunaste"; "trzynaste"; "czternaste"; "piętnaste"; "szesnaste"; "siedemnaste"; "osiemnaste"; "dziewiętnaste"];
   ["dziesiątych"; "jedenastych"; "dwunastych"; "trzynastych"; "czternastych"; "piętnastych"; "szesnastych"; "siedemnastych"; "osiemnastych"; "dziewiętnastych"];
   ["dziesięcio"; "jedenasto"; "dwunasto"; "trzynasto"; "czternasto"; "piętnasto"; "szesnasto"; "siedemnasto"; "osiemnasto"; "dziewiętnasto"]].
(** tens, lines 199-278. *)
Definition tens : list (list string) :=
  [[""; "dziesięć"; "dwadzieścia"; "trzydzieści"; "czterdzieści"; "pięćdziesiąt"; "sześćdziesiąt"; "siedemdziesiąt"; "osiemdziesiąt"; "dziewięćdziesiąt"];
   [""; "dziesiąty"; "dwudziesty"; "trzydziesty"; "czterdziesty"; "pięćdziesiąty"; "sześćdziesiąty"; "siedemdziesiąty"; "osiemdziesiąty"; "dziewięćdziesiąty"];
   [""; "dziesięciu"; "dwudziestu"; "trzydziestu"; "czterdziestu"; "pięćdziesięciu"; "sześćdziesięciu"; "siedemdziesięciu"; "osiemdziesięciu"; "dziewięćdziesięciu"];
   [""; "dziesiąta"; "dwudziesta"; "trzydziesta"; "czterdziesta"; "pięćdziesiąta"; "sześćdziesiąta"; "siedemdziesiąta"; "osiemdziesiąta"; "dziewięćdziesiąta"];
   [""; "dziesiąte"; "dwudzieste"; "trzydzieste"; "czterdzieste"; "pięćdziesiąte"; "sześćdziesiąte"; "siedemdziesiąte"; "osiemdziesiąte"; "dziewięćdziesiąte"];
   [""; "dziesiątych"; "dwudziestych"; "trzydziestych"; "czterdziestych"; "pięćdziesiątych"; "sześćdziesiątych"; "siedemdziesiątych"; "osiemdziesiątych"; "dziewięćdziesiątych"];
   [""; "dziesięcio"; "dwudziesto"; "trzydziesto"; "czterdziesto"; "pięćdziesięcio"; "sześćdziesięcio"; "siedemdziesięcio"; "osiemdziesięcio"; "dziewięćdziesięcio"]].
(** hundreds, lines 280-359. *)
Definition hundreds : list (list string) :=
  [[""; "sto"; "dwieście"; "trzysta"; "czterysta"; "pięćset"; "sześćset"; "siedemset"; "osiemset"; "dziewięćset"];
   [""; "setny"; "dwusetny"; "trzysetny"; "czterysetny"; "pięćsetny"; "sześćsetny"; "siedemsetny"; "osiemsetny"; "dziewięćsetny"];
   [""; "stu"; "dwustu"; "trzystu"; "czterystu"; "pięciuset"; "sześciuset"; "siedmiuset"; "ośmiuset"; "dziewięciuset"];
   [""; "setna"; "dwusetna"; "trzysetna"; "czterysetna"; "pięćsetna"; "sześćsetna"; "siedemsetna"; "osiemsetna"; "dziewięćsetna"];
   [""; "setne"; "dwusetne"; "trzysetne"; "czterysetne"; "pięćsetne"; "sześćsetne"; "siedemsetne"; "osiemsetne"; "dziewięćsetne"];
   [""; "setnych"; "dwusetnych"; "trzysetnych"; "czterysetnych"; "pięćsetnych"; "sześćsetnych"; "siedemsetnych"; "osiemsetnych"; "dziewięćsetnych"];
   [""; "stu"; "dwustu"; "trzystu"; "czterystu"; "pięćset"; "sześćset"; "siedemset"; "osiemset"; "dziewięćset"]].
(** thomils, lines 361-552. *)
Definition thomils : list (list string) :=
  [["jeden"; "tysiąc"; "milion"; "miliard"; "bilion"; "biliard"; "trylion"; "tryliard"; "kwadrylion"; "kwadryliard"; "kwintylion"; "kwintyliard"; "sekstylion"; "sekstyliard"; "septylion"; "septyliard"; "oktylion"; "oktyliard"; "nonylion"; "nonyliard"];
   ["pierwszy"; "tysięczny"; "milionowy"; "miliardowy"; "bilionowy"; "biliardowy"; "trylionowy"; "tryliardowy"; "kwadrylionowy"; "kwadryliardowy"; "kwintylionowy"; "kwintyliardowy"; "sekstylionowy"; "sekstyliardowy"; "septylionowy"; "septyliardowy"; "oktylionowy"; "oktyliardowy"; "nonylionowy"; "nonyliardowy"];
   ["jednego"; "tysiąca"; "miliona"; "miliarda"; "biliona"; "biliarda"; "tryliona"; "tryliarda"; "kwadryliona"; "kwadryliarda"; "kwintyliona"; "kwintyliarda"; "sekstyliona"; "sekstyliarda"; "septyliona"; "septyliarda"; "oktyliona"; "oktyliarda"; "nonyliona"; "nonyliarda"];
   [""; "tysięczna"; "milionowa"; "miliardowa"; "bilionowa"; "biliardowa"; "trylionowa"; "tryliardowa"; "kwadrylionowa"; "kwadryliardowa"; "kwintylionowa"; "kwintyliardowa"; "sekstylionowa"; "sekstyliardowa"; "septylionowa"; "septyliardowa"; "oktylionowa"; "oktyliardowa"; "nonylionowa"; "nonyliardowa"];
   [""; "tysięczne"; "milionowe"; "miliardowe"; "bilionowe"; "biliardowe"; "trylionowe"; "tryliardowe"; "kwadrylionowe"; "kwadryliardowe"; "kwintylionowe"; "kwintyliardowe"; "sekstylionowe"; "sekstyliardowe"; "septylionowe"; "septyliardowe"; "oktylionowe"; "oktyliardowe"; "nonylionowe"; "nonyliardowe"];
   [""; "tysięcznych"; "milionowych"; "miliardowych"; "bilionowych"; "biliardowych"; "trylionowych"; "tryliardowych"; "kwadrylionowych"; "kwadryliardowych"; "kwintylionowych"; "kwintyliardowych"; "sekstylionowych"; "sekstyliardowych"; "septylionowych"; "septyliardowych"; "oktylionowych"; "oktyliardowych"; "nonylionowych"; "nonyliardowych"];
   ["jedno"; "tysiąc"; "milion"; "miliard"; "bilion"; "biliard"; "trylion"; "tryliard"; "kwadrylion"; "kwadryliard"; "kwintylion"; "kwintyliard"; "sekstylion"; "sekstyliard"; "septylion"; "septyliard"; "oktylion"; "oktyliard"; "nonylion"; "nonyliard"];
   [""; "tysiące"; "miliony"; "miliardy"; "biliony"; "biliardy"; "tryliony"; "tryliardy"; "kwadryliony"; "kwadryliardy"; "kwintyliony"; "kwintyliardy"; "sekstyliony"; "sekstyliardy"; "septyliony"; "septyliardy"; "oktyliony"; "oktyliardy"; "nonyliony"; "nonyliardy"];
   [""; "tysięcy"; "milionów"; "miliardów"; "bilionów"; "biliardów"; "trylionów"; "tryliardów"; "kwadrylionów"; "kwadryliardów"; "kwintylionów"; "kwintyliardów"; "sekstylionów"; "sekstyliardów"; "septylionów"; "septyliardów"; "oktylionów"; "oktyliardów"; "nonylionów"; "nonyliardów"]].
(** dix, lines 554-557, and isdigit. *)
Definition dix (c : ascii) : nat := nat_of_ascii c - 48.
Definition is_digit (c : ascii) : bool := (48 <=? nat_of_ascii c) && (nat_of_ascii c <=? 57).
Definition at_form (t : list (list string)) (f : form) (k : nat) : string := nth k (nth (form_index f) t []) "".
(** join2, join3 and join4, lines 559-605. *)
Definition join2 (a b : string * string) : string * string :=
  if (fst a =? "#")%string || (fst b =? "#")%string then ("#", "") else ((fst a ++ " " ++ fst b)%string, (snd a ++ " " ++ snd b)%string).
Definition join3 (a b c : string * string) := join2 (join2 a b) c.
Definition join4 (a b c d : string * string) := join2 (join3 a b c) d.
(** prepend, lines 607-621. *)
Definition joiner (f : form) : string := if is_form f BEFORE_NOUN then "" else " ".
Definition prepend (s p : string) (f : form) : string :=
  match s with
  | EmptyString => p
  | String c _ => if (c =? " ")%char then p else match p with EmptyString => s | _ => (p ++ joiner f ++ s)%string end
  end.
(** bigger, lines 623-657: the digits at the beginning, then the rest behind one more character. *)
Fixpoint leading (n : list ascii) : nat := match n with c :: n => if is_digit c then S (leading n) else 0 | [] => 0 end.
Definition code (c : ascii) : nat := nat_of_ascii c.
(** The loop of lines 639-644: Some for a decision. *)
Fixpoint cmp_digits (k : nat) (a b : list ascii) : option bool :=
  match k, a, b with
  | S k, x :: a, y :: b => if code y <? code x then Some true else if code x <? code y then Some false else cmp_digits k a b
  | _, _, _ => None
  end.
(** The loop of lines 650-653. *)
Fixpoint some_bigger (a b : list ascii) : bool :=
  match a, b with x :: a, y :: b => (code y <? code x) || some_bigger a b | _, _ => false end.
Definition bigger (a b : list ascii) : bool :=
  if leading b <? leading a then true
  else if leading a <? leading b then false
  else
    match cmp_digits (leading a) a b with
    | Some r => r
    | None =>
        if (leading a =? length a) && (leading a =? length b) then false
        else some_bigger (skipn (S (leading a)) a) (skipn (S (leading a)) b) || (length b <? length a)
    end.
(** make_tinfl, lines 659-687; the rank of a digit is its table. *)
Inductive place := UNITS | TEENS | TENS | HUNDREDS.
Definition place_table (p : place) : list (list string) := match p with UNITS => units | TEENS => teens | TENS => tens | HUNDREDS => hundreds end.
Definition make_tinfl (f : form) (c : ascii) (p : place) : string :=
  match f with
  | CARDINAL => match p with UNITS => nth (dix c) ["R:5"; "0"; "LG:z"; "LG:z"; "LG:z"; "LG:r"; "LG:r"; "LG:r"; "LG:r"; "LG:r"] "" | _ => "LG:r" end
  | ORDINAL => match p with UNITS => nth (dix c) ["P"; "LP-P"; "LP-P"; "LP-P"; "LP-P"; "LP-P"; "LP-P"; "LP-P"; "LP-P"; "LP-P"] "" | _ => "LP-P" end
  | CARDINAL_G => "0"
  | ORDINAL_F | ORDINAL_NPL | ORDINAL_GPL => (at_form (place_table p) ORDINAL (dix c) ++ "_LP-P")%string
  | BEFORE_NOUN => ""
  | _ => "#"
  end.
(** thomil, lines 689-717. *)
Definition thomil (f : form) (rank : nat) : string :=
  if rank <? 20 then at_form thomils f rank
  else
    (nth (rank / 2 mod 10) [""; "un"; "duo"; "tre"; "kwattuor"; "kwin"; "seks"; "septen"; "okto"; "nowem"] ""
     ++ nth (rank / 2 / 10) [""; "dec"; "wigint"; "trigint"; "kwadragint"; "kwinkwagint"; "seksagint"; "septuagint"; "oktogint"; "nowemgint"; "cent"] ""
     ++ at_form [["ylion"; "yliard"]; ["ylionowy"; "yliardowy"]; ["yliona"; "yliarda"]; ["ylionowa"; "yliardowa"]; ["ylionowe"; "yliardowe"];
                 ["ylionowych"; "yliardowych"]; ["ylion"; "yliard"]; ["yliony"; "yliardy"]; ["ylionów"; "yliardów"]] f (rank mod 2))%string.
(** make_large_unit, lines 719-738. *)
Definition large_unit (f : form) (rank : nat) : string * string :=
  if rank <? 220 then
    (thomil f rank,
     match f with
     | ORDINAL_F | ORDINAL_NPL | ORDINAL_GPL => (thomil ORDINAL rank ++ "_LP-P")%string
     | CARDINAL_NPL | CARDINAL_GPL => (thomil CARDINAL rank ++ "_R:3")%string
     | _ => nth (form_index f) ["R:3"; "LP-P"; "0"; ""; ""; ""; ""] ""
     end)
  else ("#", "").
(** equals, lines 740-751, on a text that is not empty. *)
Definition equals (n : list ascii) (d : ascii) : bool := (last n " "%char =? d)%char && forallb (fun c => (c =? "0")%char) (removelast n).
(** convert_three_digit_group, lines 753-811. *)
Definition lone_hundred (f : form) : form := match f with CARDINAL_G => CARDINAL_G | BEFORE_NOUN => BEFORE_NOUN | _ => CARDINAL end.
Definition two_digits (f : form) (t u : ascii) : string * string :=
  let r :=
    if (t =? "1")%char then (at_form teens f (dix u), make_tinfl f u TEENS)
    else if (u =? "0")%char then ("", "")
    else (at_form units f (dix u), make_tinfl f u UNITS) in
  if negb (t =? "0")%char && negb (t =? "1")%char then (prepend (fst r) (at_form tens f (dix t)) f, prepend (snd r) (make_tinfl f t TENS) f) else r.
Definition before_noun (f : form) (r : string * string) : string * string := if is_form f BEFORE_NOUN then (fst r, "0") else r.
Definition three_digits (f : form) (n : list ascii) : string * string :=
  match n with
  | [] => ("", "")
  | [u] => if is_digit u then before_noun f (at_form units f (dix u), make_tinfl f u UNITS) else ("#", "")
  | [t; u] => if is_digit u then before_noun f (two_digits f t u) else ("#", "")
  | [h; t; u] =>
      if is_digit u then
        let r := two_digits f t u in
        if (h =? "0")%char then before_noun f r
        else
          let nt := match fst r with EmptyString => f | _ => lone_hundred f end in
          before_noun f (prepend (fst r) (at_form hundreds nt (dix h)) nt,
                         prepend (snd r) (if is_form nt CARDINAL && negb (is_form f CARDINAL) then "0" else make_tinfl nt h HUNDREDS) nt)
      else ("#", "")
  | _ => ("#", "")
  end.
(** select_government, lines 813-848; None is -1. *)
Inductive government := ZERO | JEDEN | DWA | PIEC.
Definition select_government (n : list ascii) : option government :=
  let zero (c : option ascii) := match c with Some c => (c =? "0")%char | None => true end in
  let go (h t : option ascii) (u : ascii) :=
    if negb (is_digit u) then None
    else
      match dix u with
      | 0 => Some (if zero t && zero h then ZERO else PIEC)
      | 1 => Some (if zero t && zero h then JEDEN else PIEC)
      | 2 | 3 | 4 => Some (match t with Some c => if (c =? "1")%char then PIEC else DWA | None => DWA end)
      | _ => Some PIEC
      end in
  match n with [u] => go None None u | [t; u] => go None (Some t) u | [h; t; u] => go (Some h) (Some t) u | _ => None end.
(** convert_cardinal_part, lines 850-880. *)
Definition cardinal_part (n : list ascii) (rank : nat) : string * string :=
  let r := three_digits CARDINAL n in
  let with_unit f := let u := large_unit f rank in ((fst r ++ " " ++ fst u)%string, (snd r ++ " " ++ snd u)%string) in
  match select_government n with
  | Some ZERO => ("", "")
  | Some JEDEN => large_unit CARDINAL rank
  | Some DWA => with_unit CARDINAL_NPL
  | Some PIEC => with_unit CARDINAL_GPL
  | None => ("#", "")
  end.
(** convert_noncardinal_part, lines 882-917: the array has five values for seven forms, the others are 0. *)
Definition high_type (f : form) : form := match f with ORDINAL => BEFORE_NOUN | CARDINAL_G => CARDINAL_G | ORDINAL_F => BEFORE_NOUN | _ => CARDINAL end.
Definition noncardinal_part (f : form) (n : list ascii) (rank : nat) : string * string :=
  let r := three_digits (high_type f) n in
  match select_government n with
  | Some ZERO => ("", "")
  | Some JEDEN => large_unit f rank
  | Some _ =>
      if is_form f CARDINAL_G then ((fst r ++ " " ++ fst (large_unit CARDINAL_GPL rank))%string, (snd r ++ " 0")%string)
      else ((fst r ++ fst (large_unit f rank))%string, snd (large_unit f rank))
  | None => ("#", "")
  end.
(** convert_part, lines 919-946. *)
Definition convert_part (f : form) (n : list ascii) (rank : nat) : string * string :=
  match rank with
  | 0 => three_digits f n
  | _ =>
      match f with
      | CARDINAL | BEFORE_NOUN => cardinal_part n rank
      | ORDINAL | ORDINAL_F | ORDINAL_NPL | ORDINAL_GPL | CARDINAL_G => noncardinal_part f n rank
      | _ => ("#", "")
      end
  end.
(** equals_one_half, lines 948-960. *)
Definition one_half (n : list ascii) : bool := match n with c :: n => (c =? "5")%char && forallb (fun c => (c =? "0")%char) n | [] => false end.
(** The groups of three digits from the end, lines 1025-1034. *)
Fixpoint chunks (fuel : nat) (r : list ascii) : list (list ascii) :=
  match fuel with
  | 0 => []
  | S f => if length r <=? 3 then [rev r] else rev (firstn 3 r) :: chunks f (skipn 3 r)
  end.
(** higher_units, lines 992-996. *)
Definition higher_units (f : form) : form := match f with CARDINAL_G | CARDINAL_FG => CARDINAL_G | _ => CARDINAL end.
Fixpoint convert_parts (f : form) (rank : nat) (cs : list (list ascii)) (acc : string * string) : string * string :=
  match cs with
  | [] => acc
  | c :: cs =>
      let p := convert_part f c rank in
      convert_parts (match fst p with EmptyString => f | _ => higher_units f end) (S rank) cs
        (prepend (fst acc) (fst p) CARDINAL, prepend (snd acc) (snd p) CARDINAL)
  end.
(** The last so many characters, and the rest. *)
Definition ends_with (s e : string) : bool := (length (list_ascii_of_string e) <=? String.length s) && (substring (String.length s - String.length e) (String.length e) s =? e)%string.
Definition cut_end (k : nat) (s : string) : string := substring 0 (String.length s - k) s.
(** integer2pltext, lines 962-1049. *)
Definition zero_words (f : form) : string * string :=
  nth (form_index f) [("zero", "R:5"); ("zerowy", "P"); ("zera", "0"); ("zerowa", "zerowy_P"); ("zerowe", "zerowy_P"); ("zerowych", "zerowy_P"); ("zero", "0");
    ("", ""); ("", ""); ("zero", "R:5"); ("zera", "0")] ("", "").
Definition one_words (f : form) : string * string :=
  nth (form_index f) [("jeden", "ZP:z"); ("pierwszy", "LP-P"); ("jednego", "0"); ("pierwsza", "pierwszy_LP"); ("pierwsze", "pierwszy_LP"); ("pierwszych", "pierwszy_LP");
    ("jedno", "0"); ("", ""); ("", ""); ("jedna", "ZP:z"); ("jednej", "ZP:z")] ("", "").
Definition integer (f : form) (n : list ascii) : option (string * string) :=
  if negb (forallb is_digit n) then Some ("#", "")
  else
    match n with
    | [] => None
    | _ =>
        if equals n "0"%char then Some (zero_words f)
        else if equals n "1"%char then Some (one_words f)
        else
          let nt := match f with CARDINAL_F => CARDINAL | CARDINAL_FG => CARDINAL_G | _ => f end in
          let r := convert_parts nt 0 (chunks (length n) (rev n)) ("", "") in
          Some (if is_form f CARDINAL_F && ends_with (fst r) "dwa" then ((cut_end 3 (fst r) ++ "dwie")%string, (cut_end 4 (snd r) ++ "dwa_LG:z")%string) else r)
    end.
(** fractional2pltext, lines 1051-1084, for at most three digits. *)
Definition fractional (f : form) (n : list ascii) : option (string * string) :=
  option_map
    (fun r0 =>
       let d := nth (length n) [""; "dziesiąt"; "setn"; "tysięczn"] "" in
       let card := is_form f CARDINAL in
       let te1 :=
         match select_government n with
         | Some JEDEN => (d ++ if card then "a" else "ej")%string
         | Some DWA => (d ++ if card then "e" else "ych")%string
         | Some _ => (d ++ "ych")%string
         | None => "#"
         end in
       join2 r0 (te1, (d ++ "y_LP")%string))
    (integer (if is_form f CARDINAL then CARDINAL_F else CARDINAL_FG) n).
Fixpoint split_at (c : ascii) (n : list ascii) : option (list ascii * list ascii) :=
  match n with
  | [] => None
  | x :: n => if (x =? c)%char then Some ([], n) else option_map (fun p => (x :: fst p, snd p)) (split_at c n)
  end.
Fixpoint leading_zeros (n : list ascii) : nat := match n with c :: n => if (c =? "0")%char then S (leading_zeros n) else 0 | [] => 0 end.
Fixpoint repeated {A} (k : nat) (g : A -> A) (x : A) : A := match k with 0 => x | S k => repeated k g (g x) end.
(** decimalfraction2pltext, lines 1086-1124; old is what the results were before. *)
Definition decimal (f : form) (n : list ascii) (old : string * string) : option (string * string) :=
  match split_at ","%char n with
  | None => integer f n
  | Some (n0, n1) =>
      match integer f n0 with
      | None => None
      | Some r0 =>
          if one_half n1 then
            Some (if is_form f BEFORE_NOUN then if (fst r0 =? "#")%string then old else ((fst r0 ++ "ipół")%string, snd old)
                  else join2 r0 ("i pół", "0 0"))
          else if negb (is_form f CARDINAL) && negb (is_form f CARDINAL_G) then Some old
          else if length n1 <=? 3 then option_map (fun r1 => join3 r0 ("i", "0") r1) (fractional f n1)
          else
            option_map
              (fun r1 =>
                 join3 r0 ("przecinek", "0") (repeated (leading_zeros n1) (fun r => (prepend (fst r) "zero" CARDINAL, prepend (snd r) "0" CARDINAL)) r1))
              (integer CARDINAL n1)
      end
  end.
(** num2pltext, lines 1126-1217: with the syntax.  The fuel is the length. *)
Fixpoint num2pltext (fuel : nat) (f : form) (n : list ascii) : option (string * string * string) :=
  let bad := Some ("#", "", "") in
  let plain r := option_map (fun p : string * string => (p, "")) r in
  let sign (w : string) r := option_map (fun p : string * string * string => (prepend (fst (fst p)) w CARDINAL, prepend (snd (fst p)) "0" CARDINAL, snd p)) r in
  let both (g : string * string -> string * string -> string * string) a b :=
    match a, b with Some a, Some b => Some (g a b, "") | _, _ => None end in
  match fuel, n with
  | 0, _ => bad
  | _, [] => bad
  | S k, c :: n' =>
      if (c =? "-")%char then sign "minus" (num2pltext k f n')
      else if (c =? "+")%char then sign "plus" (num2pltext k f n')
      else if (last n " "%char =? "%")%char then
        if is_form f CARDINAL then
          option_map (fun p : string * string * string => ((fst (fst p) ++ " procent")%string, (snd (fst p) ++ " 0")%string, snd p)) (num2pltext k f (removelast n))
        else bad
      else
        match split_at "+"%char n with
        | Some (n0, n1) =>
            if is_form f CARDINAL then both (fun a b => join3 a ("plus", "0") b) (decimal f n0 ("", "")) (decimal f n1 ("", "")) else bad
        | None =>
            match split_at "-"%char n with
            | Some (n0, n1) =>
                if negb (is_form f CARDINAL) then bad
                else if bigger n0 n1 then both (fun a b => join3 a ("minus", "0") b) (decimal f n0 ("", "")) (decimal f n1 ("", ""))
                else both (fun a b => join4 ("od", "0") a ("do", "0") b) (decimal CARDINAL_G n0 ("", "")) (decimal CARDINAL_G n1 ("", ""))
            | None =>
                match split_at "/"%char n with
                | Some (n0, n1) =>
                    if negb (is_form f CARDINAL) then bad
                    else
                      match integer CARDINAL_F n0, select_government n0 with
                      | None, _ => None
                      | Some _, None => bad
                      | Some a, Some g =>
                          option_map (fun b => (join2 a b, "R=4"))
                            (integer (match g with JEDEN => ORDINAL_F | DWA => ORDINAL_NPL | _ => ORDINAL_GPL end) n1)
                      end
                | None => plain (decimal f n ("#", ""))
                end
            end
        end
  end.

(** Model of LexiconBase (tools/datastructures/lexica/lexicon_base.cpp lines 11-69 and 88-108), which reads the lexica of bilexicon
    and mapper, and of the entries of the mapper (tools/lexica/mapper/mapper.cpp lines 279-334 and 385-414).  The separators are
    those of common/config.hpp.in lines 26-31.
    Simplifications: the file is the list of its lines; UTTLikeQuoter::unescape is a parameter (it is modelled in M_Quoter), None
    is its exception; KeyValueStore is the list of the pairs added to it, looked up by key (that get gives the value added
    is C45; two values for one key are not looked into). *)
From Coq Require Import String Ascii.
From Coq Require Import List Arith Bool.
Import ListNotations.
Local Open Scope nat_scope.

Definition str := list ascii.
Definition lit (s : string) : str := list_ascii_of_string s.
Definition str_dec := list_eq_dec ascii_dec.
Definition is (c d : ascii) : bool := if ascii_dec c d then true else false.
Definition tab : ascii := "009"%char.
Definition blank (c : ascii) : bool := is c tab || is c " "%char.
Definition hash (c : ascii) : bool := is c "#"%char.
Definition semicolon (c : ascii) : bool := is c ";"%char.
Definition comma (c : ascii) : bool := is c ","%char.

(** boost::split with is_any_of: the pieces, at least one *)
Fixpoint split (sep : ascii -> bool) (s : str) : list str :=
  match s with
  | [] => [[]]
  | c :: s' =>
    if sep c then [] :: split sep s'
    else match split sep s' with p :: ps => (c :: p) :: ps | [] => [[c]] end
  end.
(** boost::join *)
Fixpoint join (sep : str) (l : list str) : str :=
  match l with [] => [] | [x] => x | x :: l' => x ++ sep ++ join sep l' end.
(** std::string::find_first_of and find_first_not_of *)
Fixpoint find_first (f : ascii -> bool) (s : str) : option nat :=
  match s with
  | [] => None
  | c :: s' => if f c then Some 0 else option_map S (find_first f s')
  end.

(** lines 99-104, removeComment_ *)
Definition remove_comment (s : str) : str := match find_first hash s with Some n => firstn n s | None => s end.
(** lines 106-108, isEmptyLine_: the position found is turned into a bool *)
Definition is_empty_line (s : str) : bool := match find_first (fun c => negb (blank c)) s with Some O => false | _ => true end.
(** lines 30-34: the pieces between blanks that are not empty *)
Definition fields (s : str) : list str := filter (fun f => match f with [] => false | _ => true end) (split blank s).

Section Read.
  Variable unescape : str -> option str.
  (** lines 36-38 *)
  Fixpoint unescape_all (l : list str) : option (list str) :=
    match l with
    | [] => Some []
    | x :: l' => match unescape x, unescape_all l' with Some y, Some ys => Some (y :: ys) | _, _ => None end
    end.
  (** lines 24-69: the pairs added to the store; None is an exception *)
  Fixpoint read (ls : list str) (cur : option (str * str)) (added : list (str * str)) : option (list (str * str)) :=
    match ls with
    | [] => Some (added ++ match cur with Some p => [p] | None => [] end)
    | l :: ls' =>
      let l := remove_comment l in
      if is_empty_line l then read ls' cur added
      else
        match unescape_all (fields l) with
        | Some (k :: f :: fs) =>
          let t := join [tab] (f :: fs) in
          match cur with
          | None => read ls' (Some (k, t)) added
          | Some (k', s) =>
            if str_dec k k' then read ls' (Some (k', (s ++ lit ";") ++ t)) added
            else read ls' (Some (k, t)) (added ++ [(k', s)])
          end
        | _ => None
        end
    end.
  Definition read_plain_text (ls : list str) : option (list (str * str)) := read ls None [].
End Read.

Fixpoint get (added : list (str * str)) (k : str) : option str :=
  match added with
  | [] => None
  | (k', v) :: added' => if str_dec k' k then Some v else get added' k
  end.
(** lines 88-97, getRecords *)
Definition get_records (added : list (str * str)) (k : str) : list str :=
  match get added k with Some v => split semicolon v | None => [] end.

(** mapper.cpp lines 402-412: a subfield is an attribute with a value, or has the value 1 *)
Definition subfield (s : str) : str * str :=
  match find_first (fun c => is c "="%char) s with
  | Some n => (firstn n s, skipn (S n) s)
  | None => (s, lit "1")
  end.
(** lines 385-414, parseEntry_ *)
Definition parse_entry (record : str) : option str * option str * list (str * str) :=
  match split (fun c => is c tab) record with
  | [] => (None, None, [])
  | [t] => (Some t, None, [])
  | [t; c] => (Some t, Some c, [])
  | t :: c :: a :: _ => (Some t, Some c, map subfield (split comma a))
  end.
(** lines 290-302: the text and the category of the edge made of an edge with [old] *)
Definition chosen (clone : bool) (set : option str) (old : str) (parsed : option str) (record : str) : str :=
  let x := if clone then Some old else parsed in
  let x := match set with Some y => Some y | None => x end in
  match x with Some y => y | None => record end.
Definition entry_item (clone_text clone_category : bool) (set_text set_category : option str) (old_text old_category record : str) : str * str :=
  let '(t, c, _) := parse_entry record in
  (chosen clone_text set_text old_text t record, chosen clone_category set_category old_category c record).

(** Model of the tagset of the puddle parser:
    tools/parsers/puddle/tagset.cpp, lines 102-204 (the checks and
    getAttributeAtIndex, getAttributeValues), 426-485 (getAttributes), 596-662
    (parseAttribute, parsePartOfSpeech, parseOpenClasses) and 664-711
    (generateProperMorphologyLabels), and compileAddInterpretation of
    tools/parsers/puddle/rule_loader.cpp, lines 1050-1127.

    Simplifications: a std::map is a list of pairs in the order of the keys;
    the lines of the file are given as the three kinds of entries with the key
    and the value that the regular expression takes out (lines 25-100); the
    buffer of getAttributes is left out (it only keeps answers). *)
From Coq Require Import String Ascii.
From Coq Require Import List Arith Bool Lia.
From Verif Require Import M_PuddleText.
Import ListNotations.
Local Open Scope nat_scope.

(** operator< of std::string. *)
Fixpoint text_ltb (a b : text) : bool :=
  match a, b with
  | _, [] => false
  | [], _ :: _ => true
  | x :: a', y :: b' =>
      if nat_of_ascii x <? nat_of_ascii y then true
      else if nat_of_ascii y <? nat_of_ascii x then false
      else text_ltb a' b'
  end.

(** std::map::insert, which leaves an old value, and find. *)
Fixpoint insert_new {V} (k : text) (v : V) (m : list (text * V)) : list (text * V) :=
  match m with
  | [] => [(k, v)]
  | (k', v') :: m' =>
      if text_ltb k k' then (k, v) :: m
      else if text_ltb k' k then (k', v') :: insert_new k v m'
      else m
  end.
Fixpoint find_key {V} (k : text) (m : list (text * V)) : option V :=
  match m with
  | [] => None
  | (k', v) :: m' => if text_eqb k' k then Some v else find_key k m'
  end.

(** boost::split at the characters of a set, without compression of neighbours. *)
Fixpoint split_on (f : ascii -> bool) (s : text) : list text :=
  match s with
  | [] => [[]]
  | c :: s' => if f c then [] :: split_on f s'
               else match split_on f s' with
                    | [] => [[c]]
                    | w :: ws => (c :: w) :: ws
                    end
  end.
Definition one_of (s : string) (c : ascii) : bool := existsb (Ascii.eqb c) (lit s).
Definition is_space (c : ascii) : bool :=
  let n := nat_of_ascii c in (n =? 32) || ((9 <=? n) && (n <=? 13)).
(** boost::algorithm::trim_copy *)
Fixpoint trim_left (s : text) : text :=
  match s with
  | [] => []
  | c :: s' => if is_space c then trim_left s' else s
  end.
Definition trim (s : text) : text := rev (trim_left (rev (trim_left s))).
Definition blank_tab (c : ascii) : bool :=
  let n := nat_of_ascii c in (n =? 32) || (n =? 9) || (n =? 10).

Record tagset := Tagset {
  attr_list : list text;
  attributes : list (text * list text);
  parts : list (text * list text);
  opens : list text
}.

(** Lines 596-617; None is an exception. *)
Definition parse_attribute (k s : text) (T : tagset) : option tagset :=
  match find_key k (attributes T) with
  | Some _ => None
  | None => Some (Tagset (attr_list T ++ [k])
                         (insert_new k (map trim (split_on blank_tab s)) (attributes T))
                         (parts T) (opens T))
  end.
(** Lines 619-642. *)
Definition parse_pos (k s : text) (T : tagset) : option tagset :=
  match find_key k (parts T) with
  | Some _ => None
  | None => Some (Tagset (attr_list T) (attributes T)
                         (insert_new k (match s with
                                        | [] => []
                                        | _ => map trim (split_on blank_tab s)
                                        end) (parts T)) (opens T))
  end.
(** Lines 644-662. *)
Fixpoint open_loop (ws : list text) (T : tagset) : option tagset :=
  match ws with
  | [] => Some T
  | w :: ws' =>
      match find_key (trim w) (parts T) with
      | None => None
      | Some _ => open_loop ws' (Tagset (attr_list T) (attributes T) (parts T)
                                        (opens T ++ [trim w]))
      end
  end.
Inductive entry := Attr (k s : text) | Pos (k s : text) | Open (s : text).
Fixpoint read_entries (es : list entry) (T : tagset) : option tagset :=
  match es with
  | [] => Some T
  | e :: es' =>
      match match e with
            | Attr k s => parse_attribute k s T
            | Pos k s => parse_pos k s T
            | Open s => open_loop (split_on blank_tab s) T
            end with
      | None => None
      | Some T' => read_entries es' T'
      end
  end.

(** A name in brackets and without, by the first and the last character (lines
    137-139, 188-189, 464-465). *)
Definition unbracket (s : text) : text :=
  match s with
  | c :: _ => if Ascii.eqb c "[" && Ascii.eqb (List.last s "0"%char) "]"
              then removelast (tl s) else s
  | [] => s
  end.

(** Lines 102-151. *)
Definition check_attribute (T : tagset) (a : text) : bool := existsb (text_eqb a) (attr_list T).
Definition check_pos_attribute (T : tagset) (p a : text) : bool :=
  match find_key p (parts T) with
  | None => false
  | Some specs => existsb (fun s => text_eqb s a || text_eqb s (lit "[" ++ a ++ lit "]")) specs
  end.
Definition check_pos (T : tagset) (p : text) : bool :=
  match find_key p (parts T) with Some _ => true | None => false end.
Definition check_value (T : tagset) (a v : text) : bool :=
  match find_key (unbracket a) (attributes T) with
  | None => false
  | Some vs => existsb (fun w => text_eqb w v) vs
  end.

(** Lines 181-204. *)
Definition attribute_at (T : tagset) (p : text) (i : nat) : text :=
  match find_key p (parts T) with
  | None => []
  | Some specs => match nth_error specs i with
                  | None => []
                  | Some s => unbracket s
                  end
  end.
Definition attribute_values (T : tagset) (a : text) : list text :=
  if check_attribute T a
  then match find_key a (attributes T) with Some vs => vs | None => [] end
  else [].

(** getAttributes, lines 460-475: the first of the attributes that are left
    which has the value, and those behind it. *)
Fixpoint scan (T : tagset) (specs : list text) (v : text) : option text * list text :=
  match specs with
  | [] => (None, [])
  | s :: specs' =>
      if check_value T (unbracket s) v then (Some (unbracket s), specs')
      else scan T specs' v
  end.
(** Lines 446-477: None is the dereferencing of end() (line 458).  [left] are
    the attributes from attribute_start on, once they are known. *)
Fixpoint attr_loop (T : tagset) (vs : list text) (pos : text) (left : option (list text))
    (results : list (text * text)) : option (list (text * text)) :=
  match vs with
  | [] => Some results
  | v :: vs' =>
      match pos with
      | [] => attr_loop T vs' (trim v) left
                (if check_pos T (trim v) then insert_new (lit "pos") (trim v) results
                 else results)
      | _ =>
          match match left with Some l => Some l | None => find_key pos (parts T) end with
          | None => None
          | Some l =>
              match scan T l (trim v) with
              | (Some a, l') => attr_loop T vs' pos (Some l') (insert_new a (trim v) results)
              | (None, l') => attr_loop T vs' pos (Some l') results
              end
          end
      end
  end.
Definition get_attributes (T : tagset) (label : text) : option (list (text * text)) :=
  match parts T with
  | [] => Some []
  | _ => attr_loop T (split_on (one_of ":") label) [] None []
  end.

(** [\[([^\s\[\]]+)\]] (line 665): the name and whether it is optional. *)
Definition spec_of (s : text) : text * bool :=
  match s with
  | c :: r =>
      match rev r with
      | d :: w =>
          if Ascii.eqb c "[" && Ascii.eqb d "]" && negb (text_eqb w [])
             && forallb (fun x => negb (is_space x || one_of "[]" x)) w
          then (rev w, true) else (s, false)
      | [] => (s, false)
      end
  | [] => (s, false)
  end.
(** generateProperMorphologyLabels, lines 674-703. *)
Definition extend (T : tagset) (ms : list (list (text * text))) (s : text)
    : list (list (text * text)) :=
  let (name, optional) := spec_of s in
  let vs := match find_key name (attributes T) with Some vs => vs | None => [] end in
  let tmp := flat_map (fun m => map (fun v => insert_new name v m) vs) ms in
  if optional then ms ++ tmp else tmp.
Definition morphologies (T : tagset) (p : text) (specs : list text) : list (list (text * text)) :=
  fold_left (extend T) specs [[(lit "pos", p)]].
Definition labels (T : tagset) : list text :=
  flat_map (fun ps => map morphology_string (morphologies T (fst ps) (snd ps))) (parts T).
(** checkMorphology, lines 153-159. *)
Definition check_morphology (T : tagset) (l : text) : bool := existsb (text_eqb l) (labels T).

(** compileAddInterpretation (rule_loader.cpp, lines 1050-1127): the values of
    one part; None is an exception. *)
Definition part_values (T : tagset) (a v : text) : option (list text) :=
  if text_eqb v (lit "*") then Some (attribute_values T a)
  else
    let vs := if existsb (Ascii.eqb ".") v then split_on (one_of ".") v else [v] in
    if forallb (check_value T a) vs then Some vs else None.
Fixpoint add_loop (T : tagset) (p : text) (i : nat) (vs : list text)
    (ms : list (list (text * text))) : option (list (list (text * text))) :=
  match vs with
  | [] => Some ms
  | v :: vs' =>
      match part_values T (attribute_at T p i) v with
      | None => None
      | Some ws =>
          add_loop T p (S i) vs'
            (flat_map (fun w => map (insert_new (attribute_at T p i) w) ms) ws)
      end
  end.
Definition add_interpretation (T : tagset) (pattern : text)
    : option (list (list (text * text))) :=
  match split_on (one_of ":") pattern with
  | [] => Some []
  | p :: vs =>
      if check_pos T p then
        match add_loop T p 0 vs [[(lit "pos", p)]] with
        | None => None
        | Some ms => if forallb (fun m => check_morphology T (morphology_string m)) ms
                     then Some ms else None
        end
      else None
  end.

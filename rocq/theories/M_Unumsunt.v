(** Model of tools/converters/unumsunt/unumsunt_rule.cpp and of the parts of unumsunt.cpp that read rules and change
    one annotation.  Values are those of M_Items.  An annotation item is a category, a text and a map from attributes to
    values: C11 shows that items of the manager are such records (the bound of 128 attributes is not modelled here).
    The edges, tags and partitions made by convertTags are not modelled. *)
From Coq Require Import ZArith List Bool Arith.
From Verif Require Import M_Items.
Import ListNotations.
Local Open Scope nat_scope.

Notation char := Z (only parsing).
(** The values are listed in the order of the numbers of attributes; only convert depends on it. *)
Record annotation := Annotation { cat : str; txt : str; vals : list (str * zvalue) }.
(** annotation_item_manager.cpp lines 85-107. *)
Fixpoint find_value (l : list (str * zvalue)) (a : str) : option zvalue :=
  match l with [] => None | (n, v) :: l => if str_eqb n a then Some v else find_value l a end.
Definition get (it : annotation) (a : str) : zvalue := match find_value (vals it) a with Some v => v | None => ZNull end.
Definition get_string (it : annotation) (a : str) : str := M_Items.to_string (get it a).
(** Lines 70-82. *)
Fixpoint set_in (l : list (str * zvalue)) (a : str) (v : zvalue) : list (str * zvalue) :=
  match l with [] => [(a, v)] | (n, x) :: l => if str_eqb n a then (n, v) :: l else (n, x) :: set_in l a v end.
Definition set (it : annotation) (a : str) (v : zvalue) : annotation := Annotation (cat it) (txt it) (set_in (vals it) a v).
Definition set_cat (it : annotation) (c : str) : annotation := Annotation c (txt it) (vals it).
(** Lines 46-59: a string that is an integer is stored as one. *)
Definition of_string (s : str) : zvalue := match whole_int s with Some i => integer_to_zvalue i | None => from_string s end.

(** unumsunt_rule.cpp lines 13-17. *)
Definition CATEGORY : str := [67; 65; 84]%Z.
Definition REFERENCE : char := 36%Z.
Definition SEPARATOR : char := 124%Z.
Definition ANY_DESIGNATION : str := [48]%Z.
Definition FALSE_DESIGNATION : str := [45; 49]%Z.

(** unumsunt_rule.hpp lines 50-64. *)
Record rule := Rule { words : list str; conditions : list (str * str); commands : list (str * str); is_skip : bool; breed : nat }.
Definition new_rule : rule := Rule [] [] [] false 0.
(** unumsunt_rule.cpp lines 52-54. *)
Definition add_word (r : rule) (w : str) : rule := Rule (words r ++ [w]) (conditions r) (commands r) (is_skip r) (breed r).
(** Lines 57-59. *)
Definition add_condition (r : rule) (a v : str) : rule := Rule (words r) (conditions r ++ [(a, v)]) (commands r) (is_skip r) (breed r).
(** Lines 62-80; None: TagsetConverterException. *)
Definition has_separator (v : str) : bool := existsb (Z.eqb SEPARATOR) v.
Definition add_command (r : rule) (a v : str) : option rule :=
  if is_skip r then None
  else if has_separator v then
         if breed r =? 0 then Some (Rule (words r) (conditions r) (commands r ++ [(a, v)]) (is_skip r) 1) else None
       else Some (Rule (words r) (conditions r) (commands r ++ [(a, v)]) (is_skip r) (breed r)).
(** Lines 83-94. *)
Definition make_skip (r : rule) : rule := Rule (words r) (conditions r) [] true 0.
Definition clear_commands (r : rule) : rule := Rule (words r) (conditions r) [] false 0.

(** boost::split at the separators. *)
Fixpoint split_alternatives (v : str) : list str :=
  match v with
  | [] => [[]]
  | c :: v => if Z.eqb c SEPARATOR then [] :: split_alternatives v
              else match split_alternatives v with p :: ps => (c :: p) :: ps | [] => [] end
  end.
(** getText().substr(0, getText().find('+')). *)
Fixpoint up_to_plus (t : str) : str := match t with [] => [] | c :: t => if Z.eqb c 43 then [] else c :: up_to_plus t end.
Definition member (w : str) (l : list str) : bool := existsb (str_eqb w) l.
(** Lines 106-127: the words and the conditions. *)
Definition condition_holds (it : annotation) (c : str * str) : bool :=
  if str_eqb (fst c) CATEGORY then str_eqb (snd c) (cat it) else str_eqb (get_string it (fst c)) (snd c).
Definition suits (r : rule) (it : annotation) : bool :=
  match words r with [] => true | ws => member (up_to_plus (txt it)) ws end && forallb (condition_holds it) (conditions r).
(** Lines 148-168: one alternative; None: std::out_of_range of substr. *)
Definition first_is_reference (v : str) : bool := match v with c :: _ => Z.eqb c REFERENCE | [] => false end.
Definition assign (name whole a : str) (it : annotation) : option annotation :=
  if str_eqb name CATEGORY then
    if first_is_reference whole then match a with [] => None | _ :: n => Some (set_cat it (get_string it n)) end
    else Some (set_cat it a)
  else
    match a with
    | c :: n => if Z.eqb c REFERENCE then Some (set it name (get it n))
                else if str_eqb a ANY_DESIGNATION then Some (set it name ZDefault)
                else if str_eqb a FALSE_DESIGNATION then Some (set it name ZNull)
                else Some (set it name (of_string a))
    | [] => Some (set it name (of_string a))
    end.
(** Lines 133-169: a command changes the item and gives the copies that are put behind all items. *)
Fixpoint copies (name whole : str) (alternatives : list str) (it : annotation) : option (list annotation) :=
  match alternatives with
  | [] => Some []
  | a :: l => match assign name whole a it with
              | None => None
              | Some x => option_map (cons x) (copies name whole l it)
              end
  end.
Definition command (c : str * str) (it : annotation) : option (annotation * list annotation) :=
  match split_alternatives (snd c) with
  | [] => None
  | a :: l => match assign (fst c) (snd c) a it with
              | None => None
              | Some x => option_map (fun cs => (x, cs)) (copies (fst c) (snd c) l x)
              end
  end.
Fixpoint run_commands (cs : list (str * str)) (it : annotation) : option (annotation * list annotation) :=
  match cs with
  | [] => Some (it, [])
  | c :: cs => match command c it with
               | None => None
               | Some (x, l) => option_map (fun p => (fst p, l ++ snd p)) (run_commands cs x)
               end
  end.
(** Lines 97-174: apply; [items] are pointers that may be empty.  [fuel] bounds the number of items looked at. *)
Inductive outcome := Ended (items : list (option annotation)) (result : bool) | Thrown | Running.
Fixpoint apply_loop (r : rule) (fuel : nat) (done todo : list (option annotation)) (result : bool) : outcome :=
  match todo with
  | [] => Ended done result
  | x :: todo =>
      match fuel with
      | O => Running
      | S fuel =>
          match x with
          | None => apply_loop r fuel (done ++ [None]) todo result
          | Some it =>
              if suits r it then
                match run_commands (commands r) it with
                | None => Thrown
                | Some (it', l) => apply_loop r fuel (done ++ [if is_skip r then None else Some it']) (todo ++ map Some l) true
                end
              else apply_loop r fuel (done ++ [Some it]) todo result
          end
      end
  end.
Definition apply (r : rule) (fuel : nat) (items : list (option annotation)) : outcome := apply_loop r fuel [] items false.
(** unumsunt.cpp lines 286-288: all rules in order. *)
Fixpoint apply_all (rs : list rule) (fuel : nat) (items : list (option annotation)) : outcome :=
  match rs with
  | [] => Ended items false
  | r :: rs => match apply r fuel items with Ended items _ => apply_all rs fuel items | o => o end
  end.

(** unumsunt.cpp lines 265-284: the maps of attributes and values. *)
Definition lookup_name (m : list (str * str)) (a : str) : option str := option_map snd (find (fun p => str_eqb (fst p) a) m).
Definition or_same (o : option str) (a : str) : str := match o with Some b => b | None => a end.
Definition convert_values (attr_map val_map : list (str * str)) (avs : list (str * zvalue)) (it : annotation) : annotation :=
  fold_left (fun it av =>
    let a := or_same (lookup_name attr_map (fst av)) (fst av) in
    match lookup_name val_map (zvalue_to_string (snd av)) with
    | Some v => set it a (of_string v)
    | None => set it a (snd av)
    end) avs it.
(** Lines 243-259. *)
Definition convert (cat_map attr_map val_map : list (str * str)) (it : annotation) : annotation :=
  convert_values attr_map val_map (vals it) (Annotation (or_same (lookup_name cat_map (cat it)) (cat it)) (txt it) []).

(** unumsunt.hpp lines 48-53: a list of pieces, none of them empty, between commas; a rest is left. *)
Fixpoint take_until (stop : char -> bool) (s : str) : str * str :=
  match s with
  | [] => ([], [])
  | c :: t => if stop c then ([], s) else let p := take_until stop t in (c :: fst p, snd p)
  end.
Fixpoint pieces (fuel : nat) (stop : char -> bool) (s : str) : option (list str * str) :=
  match fuel with
  | O => None
  | S fuel =>
      match take_until stop s with
      | ([], _) => None
      | (p, c :: rest) => if Z.eqb c 44 then match pieces fuel stop rest with Some (ps, rest') => Some (p :: ps, rest') | None => Some ([p], c :: rest) end
                          else Some ([p], c :: rest)
      | (p, []) => Some ([p], [])
      end
  end.
Definition parse_rule (s : str) : option (list str * list str) :=
  match pieces (S (length s)) (fun c => Z.eqb c 44 || Z.eqb c 62) s with
  | Some (conds, a :: b :: rest) =>
      if Z.eqb a 62 && Z.eqb b 62 then match pieces (S (length rest)) (fun c => Z.eqb c 44) rest with Some (cmds, _) => Some (conds, cmds) | None => None end
      else None
  | _ => None
  end.
(** Lines 80-85. *)
Definition parse_assignment (s : str) : option (str * str) :=
  let stop := fun c => Z.eqb c 44 || Z.eqb c 61 in
  match take_until stop s with
  | ([], _) => None
  | (a, c :: rest) => if Z.eqb c 61 then match take_until stop rest with ([], _) => None | (v, _) => Some (a, v) end else None
  | (_, []) => None
  end.
(** boost::algorithm::trim, and words read with >>. *)
Fixpoint trim_left (s : str) : str := match s with c :: t => if is_space c then trim_left t else s | [] => [] end.
Definition trim (s : str) : str := rev (trim_left (rev (trim_left s))).
Fixpoint words_of (s : str) (cur : str) : list str :=
  match s with
  | [] => match cur with [] => [] | _ => [rev cur] end
  | c :: s => if is_space c then match cur with [] => words_of s [] | _ => rev cur :: words_of s [] end else words_of s (c :: cur)
  end.
(** unumsunt.cpp lines 163-182: the conditions of a line. *)
Definition read_condition (r : rule) (c : str) : rule :=
  match parse_assignment c with
  | Some (a, v) => add_condition r (trim a) (trim v)
  | None => fold_left add_word (words_of c []) r
  end.
(** Lines 183-206: the commands; the last rule is the first of the list. *)
Definition SKIP : str := [83; 75; 73; 80]%Z.
Definition read_command (rs : rule * list rule) (c : str) : rule * list rule :=
  let '(r, done) := rs in
  let c := trim c in
  if str_eqb c SKIP then (make_skip r, done)
  else
    match parse_assignment c with
    | None => (r, done)
    | Some (a, v) =>
        match add_command r (trim a) (trim v) with
        | Some r' => (r', done)
        | None => match add_command (clear_commands r) (trim a) (trim v) with Some r' => (r', r :: done) | None => (r, done) end
        end
    end.
Definition read_rules (s : str) : option (list rule) :=
  match parse_rule s with
  | None => None
  | Some (conds, cmds) => let '(r, done) := fold_left read_command cmds (fold_left read_condition conds new_rule, []) in Some (rev (r :: done))
  end.

(** Lines 104-219: the file.  None: FileFormatException. *)
Record rules := Rules { source_ : str; target_ : str; preserved : list str; cat_map : list (str * str); attr_map : list (str * str); val_map : list (str * str); aux : list rule }.
Definition no_rules : rules := Rules [] [] [] [] [] [] [].
Definition add_name (m : list (str * str)) (p : str * str) : list (str * str) := match lookup_name m (fst p) with Some _ => m | None => m ++ [p] end.
Definition W_source : str := [115; 111; 117; 114; 99; 101]%Z.
Definition W_target : str := [116; 97; 114; 103; 101; 116]%Z.
Definition W_tags : str := [116; 97; 103; 115]%Z.
Definition W_cat : str := [99; 97; 116]%Z.
Definition W_attr : str := [97; 116; 116; 114]%Z.
Definition W_val : str := [118; 97; 108]%Z.
Definition read_line (R : rules) (line : str) : option rules :=
  match line with
  | [] => Some R
  | c :: rest =>
      if Z.eqb c 35 then Some R
      else if Z.eqb c 64 then
        match words_of rest [] with
        | [] => None
        | t :: ws =>
            let p := (nth 0 ws [], nth 1 ws []) in
            if str_eqb t W_source then Some (Rules (nth 0 ws (source_ R)) (target_ R) (preserved R) (cat_map R) (attr_map R) (val_map R) (aux R))
            else if str_eqb t W_target then Some (Rules (source_ R) (nth 0 ws (target_ R)) (preserved R) (cat_map R) (attr_map R) (val_map R) (aux R))
            else if str_eqb t W_tags then Some (Rules (source_ R) (target_ R) (preserved R ++ ws) (cat_map R) (attr_map R) (val_map R) (aux R))
            else if str_eqb t W_cat then Some (Rules (source_ R) (target_ R) (preserved R) (add_name (cat_map R) p) (attr_map R) (val_map R) (aux R))
            else if str_eqb t W_attr then Some (Rules (source_ R) (target_ R) (preserved R) (cat_map R) (add_name (attr_map R) p) (val_map R) (aux R))
            else if str_eqb t W_val then Some (Rules (source_ R) (target_ R) (preserved R) (cat_map R) (attr_map R) (add_name (val_map R) p) (aux R))
            else None
        end
      else match read_rules line with
           | Some rs => Some (Rules (source_ R) (target_ R) (preserved R) (cat_map R) (attr_map R) (val_map R) (aux R ++ rs))
           | None => None
           end
  end.
Fixpoint read_file (lines : list str) (R : rules) : option rules :=
  match lines with
  | [] => Some R
  | l :: lines => match trim l with
                  | [] => Some R
                  | l => match read_line R l with Some R => read_file lines R | None => None end
                  end
  end.

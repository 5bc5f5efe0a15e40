(** Model of the reading of annotated sentences by the rule extraction:
    tools/translators/bonsai/utils/binaries/XmlTree.cpp, and AddNode and GetNodes of SyntaxTree.cpp.
    Simplifications: a position in a string is the rest of the string from there; integers do not
    overflow; the PCFG score stays the text that atof is given; messages are left out; what a failed
    call leaves in the tree is left out. *)
From Coq Require Import String Ascii List Arith Bool Lia.
Import ListNotations.
Open Scope nat_scope.

Definition str := list ascii.
Definition lit (s : string) : str := list_ascii_of_string s.
Definition is (c d : ascii) : bool := Ascii.eqb c d.
Definition str_eqb (a b : str) : bool := if list_eq_dec ascii_dec a b then true else false.
Definition lt_c : ascii := "<"%char.
Definition gt_c : ascii := ">"%char.
Definition amp_c : ascii := "&"%char.
Definition semi_c : ascii := ";"%char.
Definition slash_c : ascii := "/"%char.
Definition space_c : ascii := " "%char.
Definition quote_c : ascii := "034"%char.
Definition back_c : ascii := "\"%char.
Definition tab_c : ascii := "009"%char.

(** std::string::find_first_of, find_first_not_of and find of a character: where it is, or npos *)
Fixpoint find_first (p : ascii -> bool) (s : str) : option nat :=
  match s with
  | [] => None
  | c :: s' => if p c then Some 0 else match find_first p s' with Some n => Some (S n) | None => None end
  end.
(** std::string::find of a string *)
Fixpoint starts (t s : str) : bool :=
  match t, s with
  | [], _ => true
  | c :: t', d :: s' => is c d && starts t' s'
  | _ :: _, [] => false
  end.
Fixpoint find_str (t s : str) : option nat :=
  if starts t s then Some 0 else
  match s with
  | [] => None
  | _ :: s' => match find_str t s' with Some n => Some (S n) | None => None end
  end.

(** XmlTree.cpp lines 38-57, Tokenize *)
Fixpoint tokenize_loop (fuel : nat) (dl : ascii -> bool) (s : str) : list str :=
  match fuel with
  | O => []
  | S fuel' =>
    match find_first (fun c => negb (dl c)) s with
    | None => []
    | Some l =>
      let t := skipn l s in
      match find_first dl t with
      | None => [t]
      | Some n => firstn n t :: tokenize_loop fuel' dl (skipn n t)
      end
    end
  end.
Definition tokenize (dl : ascii -> bool) (s : str) : list str := tokenize_loop (S (length s)) dl s.
Definition blank (c : ascii) : bool := is c space_c || is c tab_c.

(** lines 59-64, Trim *)
Definition droppable (c : ascii) : bool := is c space_c || is c tab_c || is c "010"%char || is c "013"%char.
Fixpoint trim_front (s : str) : str :=
  match s with
  | [] => []
  | c :: s' => if droppable c then trim_front s' else s
  end.
Definition trim (s : str) : str := trim_front (rev (trim_front (rev s))).

(** lines 79-81: the loop that goes beyond escaped quotes; e is the place of the quote *)
Fixpoint closing_quote (fuel : nat) (tag : str) (e : nat) : nat :=
  match fuel with
  | O => e
  | S fuel' =>
    if is (nth (e - 1) tag space_c) back_c then
      match find_first (is quote_c) (skipn (e + 1) tag) with
      | Some k => closing_quote fuel' tag (e + 1 + k)
      | None => e
      end
    else e
  end.
(** lines 66-83, ParseXmlTagAttribute *)
Definition attribute (tag name : str) : str :=
  let opening := name ++ lit "=" ++ [quote_c] in
  match find_str opening tag with
  | None => []
  | Some p =>
    let start := p + length opening in
    match find_first (is quote_c) (skipn (start + 1) tag) with
    | None => []
    | Some k => let e := closing_quote (length tag) tag (start + 1 + k) in firstn (e - start) (skipn start tag)
    end
  end.

(** lines 90-103, TrimXml *)
Definition trim_xml (s : str) : str :=
  if length s <? 2 then s
  else if is (hd space_c s) lt_c && is (last s space_c) gt_c then removelast (tl s) else s.
(** lines 110-113, isXmlTag *)
Definition is_tag (s : str) : bool := match s with c :: _ => is c lt_c | [] => false end.

(** lines 129-148: the names *)
Definition entity (name : str) : option ascii :=
  if str_eqb name (lit "lt") then Some lt_c
  else if str_eqb name (lit "gt") then Some gt_c
  else if str_eqb name (lit "#91") then Some "["%char
  else if str_eqb name (lit "#93") then Some "]"%char
  else if str_eqb name (lit "bra") then Some "["%char
  else if str_eqb name (lit "ket") then Some "]"%char
  else if str_eqb name (lit "bar") then Some "|"%char
  else if str_eqb name (lit "amp") then Some amp_c
  else if str_eqb name (lit "apos") then Some "'"%char
  else if str_eqb name (lit "quot") then Some quote_c
  else None.

Inductive unescaped := UDone (s : str) | UThrow | UMore.
(** lines 118-168, unescape: UMore is a loop that has not ended yet.  Without a semicolon end is
    npos and the next round starts at npos + 1, which is 0. *)
Fixpoint unescape_loop (fuel : nat) (s : str) (start : nat) (acc : str) : unescaped :=
  match fuel with
  | O => UMore
  | S fuel' =>
    match find_first (is amp_c) (skipn start s) with
    | None => UDone (acc ++ skipn start s)
    | Some k =>
      let n := start + k in
      let acc1 := acc ++ firstn k (skipn start s) in
      match find_first (is semi_c) (skipn n s) with
      | None =>
        match entity (skipn (n + 1) s) with
        | None => UThrow
        | Some c => unescape_loop fuel' s 0 (acc1 ++ [c])
        end
      | Some e =>
        match entity (firstn (e - 1) (skipn (n + 1) s)) with
        | None => UThrow
        | Some c =>
          if n + e =? length s - 1 then UDone (acc1 ++ [c]) else unescape_loop fuel' s (n + e + 1) (acc1 ++ [c])
        end
      end
    end
  end.
Definition unescape (s : str) : unescaped := unescape_loop (S (length s)) s 0 [].

(** lines 178-214, TokenizeXml; false is the message about a missing ">", which the caller does not
    learn of *)
Fixpoint tokenize_xml_loop (fuel : nat) (s : str) : list str * bool :=
  match fuel with
  | O => ([], false)
  | S fuel' =>
    match s with
    | [] => ([], true)
    | _ =>
      match find_first (is lt_c) s with
      | None => ([s], true)
      | Some l =>
        let t := skipn l s in
        match find_first (is gt_c) t with
        | None => ([], false)
        | Some r =>
          let '(toks, ok) := tokenize_xml_loop fuel' (skipn (S r) t) in
          ((if 0 <? l then [firstn l s] else []) ++ firstn (S r) t :: toks, ok)
        end
      end
    end
  end.
Definition tokenize_xml (s : str) : list str * bool := tokenize_xml_loop (S (length s)) s.

(** lines 275-308: what a tag is *)
Inductive kind := Opening | Closing | Unary.
Definition read_tag (tok : str) : option (kind * str * str) :=
  let tag := trim (trim_xml tok) in
  match tag with
  | [] => None
  | c :: _ =>
    let unary := is (last tag space_c) slash_c in
    let closed := is c slash_c in
    if closed && unary then None else
    let tag := if closed then tl tag else tag in
    let tag := if unary then removelast tag else tag in
    let '(name, content) :=
      match find_first (is space_c) tag with
      | Some n => (firstn n tag, skipn (n + 1) tag)
      | None => (tag, [])
      end in
    Some (if closed then Closing else if unary then Unary else Opening, name, content)
  end.

(** atoi of what has no minus: blanks, a plus, digits *)
Definition digit (c : ascii) : option nat :=
  let n := nat_of_ascii c in if (48 <=? n) && (n <=? 57) then Some (n - 48) else None.
Fixpoint digits (acc : nat) (s : str) : nat :=
  match s with
  | [] => acc
  | c :: s' => match digit c with Some d => digits (10 * acc + d) s' | None => acc end
  end.
Definition is_space (c : ascii) : bool := let n := nat_of_ascii c in (n =? 32) || ((9 <=? n) && (n <=? 13)).
Fixpoint skip_spaces (s : str) : str :=
  match s with
  | [] => []
  | c :: s' => if is_space c then skip_spaces s' else s
  end.
Definition atoi (s : str) : nat :=
  match skip_spaces s with
  | c :: s' => if is c "+"%char then digits 0 s' else digits 0 (c :: s')
  | [] => 0
  end.

(** SyntaxTree.h lines 32-76, SyntaxNode *)
Record node := mkNode { n_start : nat; n_end : nat; n_label : str; n_pcfg : str }.

(** XmlTree.cpp lines 336-375: a completed tag *)
Definition complete (content : str) (from to : nat) : option node :=
  let span := attribute content (lit "span") in
  let place :=
    match span with
    | [] => Some (from, to)
    | _ =>
      match tokenize (is "-"%char) span with
      | [i] => Some (atoi i, S (atoi i))
      | [i; j] => Some (atoi i, S (atoi j))
      | _ => None
      end
    end in
  match place with
  | None => None
  | Some (i, j) =>
    if j <=? i then None
    else Some (mkNode i (j - 1) (attribute content (lit "label")) (attribute content (lit "pcfg")))
  end.

Inductive outcome := ROk (line : str) (words : nat) (nodes : list node) | RFalse | RThrow | RHang.

(** lines 257-261: a space at the boundary *)
Definition boundary (clean tok : str) : str :=
  match clean with
  | [] => clean
  | _ => if negb (is (last clean space_c) space_c) && negb (is (hd space_c tok) space_c) then clean ++ [space_c] else clean
  end.

(** lines 253-383: the loop over the tokens *)
Fixpoint process (esc : bool) (toks : list str) (clean : str) (w : nat) (stack : list (str * nat * str)) (nodes : list node) : outcome :=
  match toks with
  | [] => match stack with [] => ROk clean w nodes | _ => RFalse end
  | tok :: toks' =>
    if is_tag tok then
      match read_tag tok with
      | None => RFalse
      | Some (Opening, name, content) => process esc toks' clean w ((name, w, content) :: stack) nodes
      | Some (Closing, name, _) =>
        match stack with
        | [] => RFalse
        | (name', from, content) :: stack' =>
          if str_eqb name' name then
            match complete content from w with
            | Some n => process esc toks' clean w stack' (nodes ++ [n])
            | None => RFalse
            end
          else RFalse
        end
      | Some (Unary, name, content) =>
        match complete content w w with
        | Some n => process esc toks' clean w stack (nodes ++ [n])
        | None => RFalse
        end
      end
    else
      match (if esc then unescape tok else UDone tok) with
      | UThrow => RThrow
      | UMore => RHang
      | UDone u =>
        let clean' := boundary clean tok ++ u in
        process esc toks' clean' (length (tokenize blank clean')) stack nodes
      end
  end.

Inductive answer := AOk (line : str) (nodes : list node) (tops : list str) | AFalse | AThrow | AHang.
(** SyntaxTree.cpp lines 48-54 and 100-111: the nodes over a span, in the order of their coming *)
Definition get_nodes (nodes : list node) (i j : nat) : list node := filter (fun n => (n_start n =? i) && (n_end n =? j)) nodes.
(** XmlTree.cpp lines 231-398, ProcessAndStripXMLTags; the labels of the nodes over the whole line
    are those that are counted in topLabelCollection *)
Definition process_line (esc : bool) (line : str) : answer :=
  match find_first (is lt_c) line with
  | None => AOk line [] []
  | Some _ =>
    match process esc (fst (tokenize_xml line)) [] 0 [] [] with
    | ROk clean w nodes =>
      AOk clean nodes (match w with O => [] | S e => map n_label (get_nodes nodes 0 e) end)
    | RFalse => AFalse
    | RThrow => AThrow
    | RHang => AHang
    end
  end.

(** Model of the bottom-up parser of gobio: tools/parsers/gobio/chart/chart.tpl (the chart
    is a view of a lattice), parser/agenda_parser.{hpp,tpl} and
    parser/simple_cfg_combinator.{hpp,tpl}.

    Parameters: the categories with their conversion to and from annotation items
    (av_ai_converter), the combinator, the limit on the number of edges, the sum of scores
    (floating point), getEdgeLemma, boost::topological_sort.  The agenda is a list; which of its
    edges is on top is asked of [choose], a function of the number of the turn, so that an
    agenda of any kind is an instance (that of fifo_agenda is the constant 0).  Not
    modelled: is_astar() (false for all agendas there are), overflow of nb_turns, the
    category stored by mark_edge, which nothing reads, and clear_parser_caches. *)
From Coq Require Import List ZArith NArith Bool Arith.
From Verif Require M_Tags M_Items.
From Verif Require Import M_Utf8 M_Cutter M_Lattice M_LatticeWalk.
Import ListNotations.
Local Open Scope nat_scope.

Notation str := M_Tags.str.
Definition GOBIO : str := [103; 111; 98; 105; 111]%Z.
Definition PARSE_AUX : str := [112; 97; 114; 115; 101; 45; 97; 117; 120]%Z.
Definition FORM : str := [102; 111; 114; 109]%Z.
Definition LEXEME : str := [108; 101; 120; 101; 109; 101]%Z.
Definition LEMMA : str := [108; 101; 109; 109; 97]%Z.
Definition NORMALIZATION : str := [110; 111; 114; 109; 97; 108; 105; 122; 97; 116; 105; 111; 110]%Z.
Definition TERM : str := [116; 101; 114; 109]%Z.

(** ** chart.tpl *)
(** Lines 22-46: what the constructor takes from the tag manager. *)
Record chart := Chart { output : collection; form_tag : collection; quoted : mask; input : mask }.
Definition create_tags (ns : list str) : act collection :=
  fun L => match M_Tags.create (tags L) ns with
           | Some (m, c) => (set_tags m L, Ok c)
           | None => (L, Undefined)
           end.
Definition new_chart (terminal : str) : act chart :=
  do out <- create_tags [GOBIO; PARSE_AUX];
  do form <- create_tags [FORM];
  do _ <- create_tags [LEXEME];
  do _ <- create_tags [LEMMA];
  do _ <- create_tags [GOBIO];
  do n <- create_tags [NORMALIZATION];
  do t <- create_tags [TERM];
  do k <- create_tags [TOKEN];
  do x <- create_tags [terminal];
  do f <- create_tags [FORM];
  do g <- create_tags [GOBIO];
  do a <- create_tags [PARSE_AUX];
  ret (Chart out form (M_Tags.mask_of [n; t; k]) (M_Tags.mask_of [n; t; k; x; f; g; a])).

(** lattice.cpp lines 907-909. *)
Definition count_edges (L : lattice) (u v : vertex) : nat :=
  match lookup pair_eqb (counter L) (u, v) with Some n => n | None => 0 end.
(** lattice.cpp lines 772-780: isBlank. *)
Definition B : list Z := [66%Z].
Definition is_blank (L : lattice) (d : desc) : res bool :=
  if M_Tags.matches (edge_tags L d) token_mask then
    match annotation_item L d with
    | Ok it => Ok (M_Items.str_eqb (M_Items.category it) B)
    | Throw e => Throw e
    | Undefined => Undefined
    end
  else Ok false.
Fixpoint first_blank (L : lattice) (ds : list desc) : res (option desc) :=
  match ds with
  | [] => Ok None
  | d :: ds' =>
      match is_blank L d with
      | Ok true => Ok (Some d)
      | Ok false => first_blank L ds'
      | Throw e => Throw e
      | Undefined => Undefined
      end
  end.
(** Lines 275-291: edge_source with skip_blank; it goes on from the blank.  [Undefined]
    also: no end within [n] rounds. *)
Fixpoint source_skip (n : nat) (e : desc) : act vertex :=
  match n with
  | O => undefined
  | S n' =>
      do s <- ask (fun L => source L e);
      do ds <- in_edges s token_mask;
      do b <- ask (fun L => first_blank L ds);
      match b with Some d => source_skip n' d | None => ret s end
  end.
(** Lines 294-310: edge_target with skip_blank; it does not go on. *)
Definition target_skip (e : desc) : act vertex :=
  do t <- ask (fun L => target L e);
  do ds <- out_edges t token_mask;
  do b <- ask (fun L => first_blank L ds);
  match b with Some d => ask (fun L => target L d) | None => ret t end.

Section Parser.
Context {C : Type}.
(** A rule that has been found: its left-hand side, score, number and tree choice. *)
Record found := Found { r_category : C; r_score : score; r_no : Z; r_choice : Z }.
(** AV_AI_Converter::toAnnotationItem and toAVMatrix. *)
Variable to_item : C -> item.
Variable of_item : item -> C.
(** Lattice::getEdgeLemma. *)
Variable lemma : lattice -> desc -> option str.
(** The combinator. *)
Variable combine_unary : C -> list found.
Variable combine_binary : C -> C -> list found.
Variable useful : C -> bool.
(** get_limit_threshold and get_limit_min_score by level; [None] stands for
    -numeric_limits<double>::max(), which no score is less than. *)
Definition limit : Type := Z * option score.
Variable limits : list limit.
(** LimitChecker::isAllowed. *)
Variable is_allowed : Z -> Z -> bool.
Variable plus : score -> score -> score.
Variable topological_sort : list vertex -> list (vertex * vertex) -> option (list vertex).
Variable choose : nat -> nat.

Section Chart.
Variable ch : chart.
(** Lines 313-331: edge_category. *)
Definition quote (s : str) : str := [39%Z] ++ s ++ [39%Z].
Definition shown (L : lattice) (d : desc) (it : item) : item :=
  let ts := edge_tags L d in
  if M_Tags.matches ts (quoted ch) then M_Items.with_category it (quote (M_Items.text it))
  else if M_Tags.subset (form_tag ch) ts then
    M_Items.with_category it (match lemma L d with Some l => quote (36%Z :: l) | None => [] end)
  else it.
Definition edge_category (d : desc) : act C :=
  ask (fun L => match annotation_item L d with
                | Ok it => Ok (of_item (shown L d it))
                | Throw e => Throw e
                | Undefined => Undefined
                end).
(** Lines 88-155: add_edge; the edge if there is a new one. *)
Definition limited (L : lattice) (u v : vertex) : bool :=
  match u, v with
  | Text p, Text q => negb (is_allowed (Z.of_nat q - Z.of_nat p) (Z.of_nat (count_edges L u v)))
  | _, _ => false
  end.
Definition chart_add (u v : vertex) (r : found) (sc : score) (ls : list desc) : act (option desc) :=
  fun L =>
    let s := build_all L (map (fun d => (d, M_Items.ZNull)) ls) in
    let n := count_edges L u v in
    if limited L u v then (L, Ok None)
    else match add_edge u v (to_item (r_category r)) (output ch) s sc (r_no r) (r_choice r) L with
         | (L', Ok d) => (L', Ok (if n <? count_edges L' u v then Some d else None))
         | (L', Throw SelfReference) => (L', Ok None)
         | (L', Throw e) => (L', Throw e)
         | (L', Undefined) => (L', Undefined)
         end.

(** ** agenda_parser.tpl *)
Definition below (sc : score) (m : option score) : bool := match m with Some x => Z.ltb sc x | None => false end.
(** Lines 28-47: fill_. *)
Fixpoint keep_useful (m : option score) (ds : list desc) : act (list desc) :=
  match ds with
  | [] => ret []
  | d :: ds' =>
      do b <- (fun L => if below (edge_score L d) m then (L, Ok false)
                        else (do c <- edge_category d; ret (useful c)) L);
      do r <- keep_useful m ds';
      ret (if b : bool then d :: r else r)
  end.
Fixpoint fill_from (m : option score) (vs : list vertex) : act (list desc) :=
  match vs with
  | [] => ret []
  | v :: vs' =>
      do ds <- out_edges v (input ch);
      do a <- keep_useful m ds;
      do r <- fill_from m vs';
      ret (a ++ r)
  end.
Definition fill (m : option score) : act (list desc) := do vs <- ask (vertices topological_sort false); fill_from m vs.

(** Lines 128-145 and agenda_parser.hpp lines 78-96: the loop over the rules found; what
    is pushed on the agenda. *)
Definition opt_list {A} (o : option A) : list A := match o with Some a => [a] | None => [] end.
Fixpoint add_all (u v : vertex) (sc : score) (ls : list desc) (rs : list found) : act (list desc) :=
  match rs with
  | [] => ret []
  | r :: rs' =>
      do x <- chart_add u v r (plus sc (r_score r)) ls;
      do xs <- add_all u v sc ls rs';
      ret (opt_list x ++ xs)
  end.
(** Lines 116-146. *)
Definition apply_unary (e : desc) : act (list desc) :=
  do u <- ask (fun L => source L e);
  do v <- ask (fun L => target L e);
  do c <- edge_category e;
  fun L => add_all u v (edge_score L e) [e] (combine_unary c) L.
(** agenda_parser.hpp lines 57-97. *)
Definition apply_pair (m : option score) (e f : desc) : act (list desc) :=
  fun L =>
    if below (edge_score L e) m || below (edge_score L f) m then (L, Ok [])
    else (do b <- edge_category e;
          do c <- edge_category f;
          match combine_binary b c with
          | [] => ret []
          | rs =>
              do u <- ask (fun L => source L e);
              do v <- ask (fun L => target L f);
              fun L => add_all u v (plus (edge_score L e) (edge_score L f)) [e; f] rs L
          end) L.
(** The marked edges with their ends, in the order of marking (mark_edge, lines 231-238 of
    chart.tpl, appends to the lists of the two vertices). *)
Definition mark : Type := desc * vertex * vertex.
Definition marked_in (v : vertex) (ms : list mark) : list desc :=
  map (fun x => fst (fst x)) (filter (fun x => vertex_eqb (snd x) v) ms).
Definition marked_out (v : vertex) (ms : list mark) : list desc :=
  map (fun x => fst (fst x)) (filter (fun x => vertex_eqb (snd (fst x)) v) ms).
Fixpoint apply_pairs (m : option score) (ps : list (desc * desc)) : act (list desc) :=
  match ps with
  | [] => ret []
  | (e, f) :: ps' => do a <- apply_pair m e f; do r <- apply_pairs m ps'; ret (a ++ r)
  end.
(** agenda_parser.hpp lines 22-54. *)
Definition apply_binary (m : option score) (e : desc) (ms : list mark) : act (list desc) :=
  do u <- (fun L => source_skip (S (length (text L) + n_loose L)) e L);
  do a <- apply_pairs m (map (fun d => (d, e)) (marked_in u ms));
  do v <- target_skip e;
  do b <- apply_pairs m (map (fun d => (e, d)) (marked_out v ms));
  ret (a ++ b).

(** Lines 49-114: go_.  [Cut]: the last limit was exceeded; [Unfinished]: the agenda is not
    empty after [n] turns. *)
Inductive ending := Emptied | Cut | Unfinished.
Definition take_at {A} (i : nat) (l : list A) : list A := firstn i l ++ skipn (S i) l.
Fixpoint go (n turn : nat) (now : limit) (later : list limit) (agenda : list desc) (ms : list mark) : act (ending * list mark) :=
  match agenda with
  | [] => ret (Emptied, ms)
  | a :: _ =>
      match n with
      | O => ret (Unfinished, ms)
      | S n' =>
          let i := choose turn mod length agenda in
          let e := nth i agenda a in
          let rest := take_at i agenda in
          let over := Z.ltb (fst now) (Z.of_nat (S turn) + Z.of_nat (length rest)) in
          match (if over then match later with [] => None | l :: ls => Some (l, ls) end else Some (now, later)) with
          | None => ret (Cut, ms)
          | Some (now', later') =>
              fun L =>
                if below (edge_score L e) (snd now') then go n' (S turn) now' later' rest ms L
                else (do a1 <- apply_unary e;
                      do a2 <- apply_binary (snd now') e ms;
                      do u <- ask (fun L => source L e);
                      do v <- ask (fun L => target L e);
                      go n' (S turn) now' later' (rest ++ a1 ++ a2) (ms ++ [(e, u, v)])) L
          end
      end
  end.
End Chart.

(** The constructor of the chart and run (lines 20-26); [n]: the turns at most. *)
Definition parse (terminal : str) (n : nat) : act (ending * list mark) :=
  do ch <- new_chart terminal;
  match limits with
  | [] => undefined
  | l :: ls => do a <- fill ch (snd l); go ch n 0 l ls a []
  end.
End Parser.
Arguments found : clear implicits.
Arguments Found {C}.

(** ** simple_cfg_combinator *)
(** Lines 9-46 of the .tpl; [eqb] is operator== of the categories. *)
Section Simple.
Context {C : Type}.
Variable eqb : C -> C -> bool.
Definition simple_unary (rules : list (C * found C)) (c : C) : list (found C) :=
  map snd (filter (fun x => eqb (fst x) c) rules).
Definition simple_binary (rules : list (C * C * found C)) (b c : C) : list (found C) :=
  map snd (filter (fun x => eqb (fst (fst x)) b && eqb (snd (fst x)) c) rules).
End Simple.
(** Lines 83-91 of the .hpp. *)
Definition INT_MAX : Z := 2147483647.
Definition simple_limits : list limit := [(INT_MAX, None)].
(** The conversions for categories that are strings (av_ai_converter.hpp lines 124-135
    without the conversion of cases, av_ai_converter.cpp lines 84-87). *)
Definition string_to_item (c : str) : item := M_Items.new_item c [].
Definition string_of_item (it : item) : str := M_Items.category it.

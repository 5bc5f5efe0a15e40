(** Model of how tools/translators/bonsai/rules/RuleSet.cpp puts the symbols of a parsed sentence into an automaton
    (parse_to_dag, subparse_to_dag) and how it leaves in it only words of bounded length with a bounded number of
    nonterminals (build_intersector, partial, nextksb, prune_by_intersector).
    An edge of the lattice is its symbol, src_sym_map.find(label) + 1, the tokens it begins and ends with
    (charTokenMap), and whether it is a nonterminal; the edges come from getTreeSymbols and getSubTreeSymbols.
    unmap and symbolEdgeMap, which are only filled here, and messages are left out. *)
From Coq Require Import List ZArith NArith Bool.
From Verif Require Import M_Fsa M_BinFsa M_HashFsa M_Minfsa M_Dag M_SimpleDag M_MultiHash.
Import ListNotations.
Local Open Scope nat_scope.

(** ** Choosing the places of nonterminals *)
(** What nextksb does: it returns false; it returns true with [a], [h] and [m]; it reads a[k-h] with h > k. *)
Inductive chosen := Stop | Next (a : list Z) (h : nat) (m : Z) | Outside.
(** nextksb, lines 492-524.  The values of [h] and [m] before the first call do not matter. *)
Definition nextksb (a : list Z) (h : nat) (m : Z) (k n : nat) : chosen :=
  if k =? 0 then Stop else
  let first := negb (length a =? k) in
  let a := if first then repeat 0%Z k else a in
  if (nth 0 a 0 =? Z.of_nat n - Z.of_nat k + 1)%Z then Stop else
  let fill h m := fold_left (fun a j => update (k + j - h - 1) (fun _ => m + Z.of_nat j)%Z a) (seq 1 h) a in
  if first then Next (fill k 0%Z) k 0
  else
    let h := S (if (m <? Z.of_nat n - Z.of_nat h)%Z then 0 else h) in
    if k <? h then Outside
    else let m := nth (k - h) a 0%Z in Next (fill h m) h m.

(** ** Pruning *)
(** nts.count, line 432. *)
Definition bit (nts : list Z) (a : Z) : Z := if existsb (Z.eqb a) nts then 1%Z else 0%Z.
(** intmap, lines 426-429: what is assigned last stays. *)
Definition int_dest (i : sdag) (p : nat) (b : Z) : option nat :=
  match find (fun x => x_sym x =? b)%Z (rev (s_row i p)) with Some x => Some (x_dest x) | None => None end.
(** ndag, queue (the end of the vector is the head) and mapper, the pairs in the order of their states. *)
Record product := Product { t_dag : sdag; t_queue : list (nat * nat); t_keys : list (nat * nat) }.
Inductive built := Built (d : sdag) | Unfinished | Astray.

Section Sort.
Context (asort : list warc -> list warc).
(** partial, lines 470-490; [i] is the counter of the loop and [a] what is left of the vector from a[j]. *)
Fixpoint partial_from (n i : nat) (a : list Z) (q : nat) (d : sdag) : sdag :=
  match n with
  | O => d
  | S n =>
      let p := s_size d in
      let d := new_arc asort q p 0 0 (s_set_end p (new_state false d)) in
      match a with
      | x :: a' =>
          if (x =? Z.of_nat i + 1)%Z then partial_from n (S i) a' p (new_arc asort q p 1 0 d)
          else partial_from n (S i) a p d
      | [] => partial_from n (S i) [] p d
      end
  end.
Definition partial (n : nat) (a : list Z) : sdag :=
  partial_from n 0 a 1 (new_arc asort 0 1 1 0 (new_state false (new_state true s_empty))).
(** build_intersector, lines 446-468. *)
Fixpoint more_partials (fuel n k : nat) (i : sdag) (a : list Z) (h : nat) (m : Z) : built :=
  match nextksb a h m k n with
  | Stop => Built i
  | Outside => Astray
  | Next a h m =>
      match fuel with
      | O => Unfinished
      | S fuel => more_partials fuel n k (nd_union asort i (partial n a)) a h m
      end
  end.
Definition build_intersector (fuel n k : nat) : built :=
  match more_partials fuel n k (nd_union asort s_empty (partial n [])) [] 0 0 with
  | Built i => match minimize asort fuel i with Some i => Built i | None => Unfinished end
  | r => r
  end.

(** Lines 432-439, for one arc; [s] is mapper[ns] and [p] is ns.first. *)
Definition prune_arc (i : sdag) (nts : list Z) (s p : nat) (t : product) (x : warc) : product :=
  match int_dest i p (bit nts (x_sym x)) with
  | None => t
  | Some p' =>
      let k := (p', x_dest x) in
      let t := match place_of k (t_keys t) with
        | Some _ => t
        | None => Product (new_state false (t_dag t)) (k :: t_queue t) (t_keys t ++ [k])
        end in
      let e := match place_of k (t_keys t) with Some e => e | None => 0 end in
      Product (new_arc asort s e (x_sym x) 0 (t_dag t)) (t_queue t) (t_keys t)
  end.
(** Lines 415-441. *)
Fixpoint prune_loop (fuel : nat) (i d : sdag) (nts : list Z) (t : product) : option sdag :=
  match t_queue t with
  | [] => Some (t_dag t)
  | ns :: queue =>
      match fuel with
      | O => None
      | S fuel =>
          let s := match place_of ns (t_keys t) with Some s => s | None => 0 end in
          let g := if s_is_end i (fst ns) && s_is_end d (snd ns) then s_set_end s (t_dag t) else t_dag t in
          prune_loop fuel i d nts
            (fold_left (prune_arc i nts s (fst ns)) (s_row d (snd ns)) (Product g queue (t_keys t)))
      end
  end.
(** prune_by_intersector, lines 401-444. *)
Definition prune (fuel : nat) (i : sdag) (nts : list Z) (d : sdag) : option sdag :=
  match minimize asort fuel d with
  | None => None
  | Some d =>
      match prune_loop fuel i d nts (Product (new_state true s_empty) [(0, 0)] [(0, 0)]) with
      | None => None
      | Some g => minimize asort fuel g
      end
  end.

(** ** The automaton of a sentence *)
Record edge := Edge { e_sym : Z; e_from : Z; e_to : Z; e_nt : bool }.
(** The map [mapper] of lines 326 and 356-357, the newest entry first. *)
Definition token_state (m : list (Z * nat)) (t : Z) : option nat :=
  match find (fun x => Z.eqb t (fst x)) m with Some x => Some (snd x) | None => None end.
(** Lines 389-393. *)
Definition token (t : Z) (dm : sdag * list (Z * nat)) : nat * (sdag * list (Z * nat)) :=
  let '(d, m) := dm in
  match token_state m t with
  | Some s => (s, dm)
  | None => (s_size d, (new_state false d, (t, s_size d) :: m))
  end.
(** Lines 389-395. *)
Definition put_edge (dm : sdag * list (Z * nat)) (e : edge) : sdag * list (Z * nat) :=
  let '(p, dm) := token (e_from e) dm in
  let '(q, (d, m)) := token (e_to e) dm in
  (new_arc asort p q (e_sym e) 0 d, m).
(** subparse_to_dag, lines 318-399. *)
Definition subparse (lhs : edge) (es : list edge) : sdag :=
  let d := s_set_end 2 (new_state false (new_state false (new_state true s_empty))) in
  let d := new_arc asort 0 1 (e_sym lhs) 0 d in
  fst (fold_left put_edge es (d, [(e_to lhs, 2); (e_from lhs, 1)])).
(** The symbols that subparse_to_dag inserts into nts, lines 347 and 387. *)
Definition nts_of (lhs : edge) (es : list edge) : list Z := e_sym lhs :: map e_sym (filter e_nt es).
(** parse_to_dag, lines 296-316; [trees] are the nonterminals of the sentence with the edges below them. *)
Definition parse_to_dag (fuel : nat) (i : sdag) (nts : list Z) (trees : list (edge * list edge)) : option sdag :=
  prune fuel i (nts ++ flat_map (fun t => nts_of (fst t) (snd t)) trees)
    (fold_left (fun d t => nd_union asort d (subparse (fst t) (snd t))) trees s_empty).
End Sort.

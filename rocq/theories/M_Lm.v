(** Costs of translations with a language model: tools/translators/bonsai/translator/LmContainer.cpp and
    tools/translators/bonsai/translator/Translation.cpp.  Costs are integers instead of doubles. *)
From Coq Require Import List ZArith Bool PeanoNat.
Import ListNotations.
Local Open Scope nat_scope.

Section Lm.
(** Words as the language models see them; symbols have one label for each model. *)
Context {W : Type}.
Definition lastn (n : nat) (l : list W) : list W := skipn (length l - n) l.
(** A language model: its maxlevel and minus lprob times LN10 of the words of an ngram, oldest first. *)
Record model := Model { g_n : nat; g_cost : list W -> Z }.
(** get_cost, LmContainer.cpp 117-139 (get_plain_cost, lines 29-51, is the same): [ng] holds what is left of the words read, as
    n_gram.cpp 117-175 shifts them in.  Words of the interruption symbols of the dictionary are not modelled. *)
Fixpoint read_cost (g : model) (ng : list W) (ws : list W) : Z :=
  match ws with
  | [] => 0%Z
  | w :: ws =>
      let ng := lastn (g_n g) (ng ++ [w]) in
      ((if (g_n g <=? length ng)%nat then g_cost g ng else 0) + read_cost g ng ws)%Z
  end.
Definition get_cost (g : model) (ws : list W) : Z := read_cost g [] ws.
(** get_front_cost, lines 53-76: all of the first n-1 words count, with the words there are. *)
Fixpoint read_all (g : model) (ng : list W) (ws : list W) : Z :=
  match ws with
  | [] => 0%Z
  | w :: ws => let ng := lastn (g_n g) (ng ++ [w]) in (g_cost g ng + read_all g ng ws)%Z
  end.
Definition get_front_cost (g : model) (ws : list W) : Z := read_all g [] (firstn (g_n g - 1) ws).
(** get_terminal_cost, lines 78-114; a nonterminal is None.  Once the stream has been read to its end it stays failed: neither
    writing nor reading does anything any more, since str() does not clear the state. *)
Fixpoint terminal_cost (g : model) (buffer : list W) (failed : bool) (xs : list (option W)) : Z :=
  match xs with
  | [] => if failed then 0%Z else read_all g [] buffer
  | None :: xs => ((if failed then 0 else read_all g [] buffer) + terminal_cost g [] true xs)%Z
  | Some w :: xs => terminal_cost g (if failed then buffer else buffer ++ [w]) failed xs
  end.
Definition get_terminal_cost (g : model) (xs : list (option W)) : Z := terminal_cost g [] false xs.
(** get_cost with link points, lines 142-181.  A link (c - 1, c) is given as c. *)
Fixpoint link_cost (g : model) (ws : list W) (last_end : Z) (links : list nat) : Z :=
  match links with
  | [] => 0%Z
  | c :: links =>
      let n := Z.of_nat (g_n g) in
      let start := Z.max (last_end - n + 2) (Z.of_nat c - n + 1) in
      let end_ := Z.min (Z.of_nat (length ws) - 1) (Z.of_nat c - 1 + n - 1) in
      ((if n <=? end_ - start + 1
        then get_cost g (firstn (Z.to_nat (end_ - start + 1)) (skipn (Z.to_nat start) ws)) else 0)
       + link_cost g ws end_ links)%Z
  end.
Definition get_link_cost (g : model) (ws : list W) (links : list nat) : Z := link_cost g ws (Z.of_nat (g_n g) - 2) links.

(** LmContainer::get_cost, lines 222-240: weighted sums. *)
Definition container := list (Z * model).
Definition all_cost (c : container) (ws : list W) : Z := fold_left (fun s x => s + fst x * get_cost (snd x) ws)%Z c 0%Z.
Definition all_link_cost (c : container) (ws : list W) (links : list nat) : Z :=
  fold_left (fun s x => s + fst x * get_link_cost (snd x) ws links)%Z c 0%Z.

(** LinkPoints is a set, in order. *)
Fixpoint add_link (c : nat) (l : list nat) : list nat :=
  match l with
  | [] => [c]
  | d :: l' => if c =? d then l else if c <? d then c :: l else d :: add_link c l'
  end.
(** What stands on the target side: a word, or a nonterminal with its translation. *)
Inductive item := Word (w : W) | Child (ws : list W).
Record work := Work { o_trans : list W; o_ngram : list W; o_links : list nat; o_cost : Z }.
(** One turn of the loop in substitute, Translation.cpp 243-277; [i] is the size of [translation]. *)
Definition turn (lms : container) (first last : bool) (o : work) (x : item) : work :=
  match x with
  | Word w => Work (o_trans o ++ [w]) (o_ngram o ++ [w]) (o_links o) (o_cost o)
  | Child ws =>
      let cost := match o_ngram o with [] => o_cost o | _ => (o_cost o + all_cost lms (o_trans o))%Z end in
      let links := if first then o_links o else add_link (length (o_trans o)) (o_links o) in
      let trans := o_trans o ++ ws in
      Work trans [] (if last then links else add_link (length trans) links) cost
  end.
Fixpoint turns (lms : container) (first : bool) (o : work) (xs : list item) : work :=
  match xs with
  | [] => o
  | x :: xs => turns lms false (turn lms first (match xs with [] => true | _ => false end) o x) xs
  end.
(** substitute, lines 218-309: the translation and what is added to the cost.  [bare]: there are no nonterminals on the
    source side. *)
Definition substitute (lms : container) (bare : bool) (xs : list item) : list W * Z :=
  if bare then
    let ws := flat_map (fun x => match x with Word w => [w] | Child ws => ws end) xs in (ws, all_cost lms ws)
  else
    let o := turns lms true (Work [] [] [] 0) xs in
    let cost := match o_ngram o with [] => o_cost o | ng => (o_cost o + all_cost lms ng)%Z end in
    (o_trans o, (cost + all_link_cost lms (o_trans o) (o_links o))%Z).
End Lm.
Arguments model : clear implicits.
Arguments container : clear implicits.
Arguments item : clear implicits.

(** ** Whole translations *)
(** A Translation: the cost of the transformation, its target side, where nonterminals are given by their number in the list
    of the translations of the source side, and these translations. *)
Inductive piece (W : Type) := Terminal (w : W) | Nonterminal (i : nat).
Arguments Terminal {W}.
Arguments Nonterminal {W}.
Inductive tree (W : Type) := Node (cost : Z) (target : list (piece W)) (nodes : list (tree W)).
Arguments Node {W}.
(** The constructor, Translation.cpp 10-35, without the unweighted costs.  A nonterminal without a translation does not occur:
    it is a null pointer in the code. *)
Section Tree.
Context {W : Type} (lms : container W).
Fixpoint translate (t : tree W) : option (list W * Z) :=
  match t with
  | Node cost target nodes =>
      match (fix all l := match l with
             | [] => Some []
             | t :: l => match translate t, all l with Some r, Some rs => Some (r :: rs) | _, _ => None end
             end) nodes with
      | None => None
      | Some rs =>
          match fold_right (fun p acc => match acc with
              | None => None
              | Some xs => match p with
                  | Terminal w => Some (Word w :: xs)
                  | Nonterminal i => match nth_error rs i with Some r => Some (Child (fst r) :: xs) | None => None end
                  end
              end) (Some []) target with
          | None => None
          | Some xs =>
              let '(ws, c) := substitute lms (match nodes with [] => true | _ => false end) xs in
              Some (ws, (fold_left (fun s r => s + snd r) rs cost + c)%Z)
          end
      end
  end.
End Tree.

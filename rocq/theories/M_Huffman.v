(** Model of tools/lemmatizers/lamerlemma/canonical_huffman.hpp: CanonicalHuffman and
    BitWrapper<std::string>.  Cited lines are of this file.
    - The standard heap functions are parameters; what is assumed of them is written
      as a hypothesis of the theorems ([heap_ops] in P_Huffman.v).
    - The weights are added with the parameter [plus]: the results hold for any
      function, in particular for the wrapping addition of size_t.
    - Reading a vector out of bounds is [nth _ _ 0] for the integer vectors (the theorems
      show that it does not matter) and [None] for the symbols.
    - Saving and loading (lines 194-237) is not modelled. *)
From Coq Require Import List Arith ZArith Bool.
Import ListNotations.

Definition get (l : list nat) (i : nat) : nat := nth i l 0.
Fixpoint set {A} (l : list A) (i : nat) (v : A) : list A :=
  match l, i with
  | [], _ => []
  | _ :: l', O => v :: l'
  | x :: l', S i' => x :: set l' i' v
  end.

Section Lengths.
Variable plus : nat -> nat -> nat.
(** std::make_heap, pop_heap and push_heap on a range, compared by MinHeapSorter:
    the first argument gives the weight of an element (lines 22-31). *)
Variables make_heap pop_heap push_heap : (nat -> nat) -> list nat -> list nat.

(** A heap function applied to A.begin() .. A.begin() + h. *)
Definition on_prefix (f : (nat -> nat) -> list nat -> list nat) (A : list nat) (h : nat) : list nat :=
  f (get A) (firstn h A) ++ skipn h A.
(** Lines 57-76: the body of the loop. *)
Definition merge (A : list nat) (h : nat) : list nat :=
  let m1 := get A 0 in
  let A := on_prefix pop_heap A h in
  let h := h - 1 in
  let m2 := get A 0 in
  let A := on_prefix pop_heap A h in
  let A := set A h (plus (get A m1) (get A m2)) in
  let A := set A (h - 1) h in
  let A := set (set A m2 h) m1 h in
  on_prefix push_heap A h.
Fixpoint merges (A : list nat) (h : nat) : list nat :=
  match h with
  | O => A
  | S h' => match h' with O => A | S _ => merges (merge A h) h' end
  end.
(** Lines 78-80: parents become depths, from 2 on ([k] left). *)
Fixpoint depths (A : list nat) (i k : nat) : list nat :=
  match k with
  | O => A
  | S k' => depths (set A i (get A (get A i) + 1)) (S i) k'
  end.
(** A uint16_t (line 84). *)
Definition u16 (x : nat) : nat := x mod 2 ^ 16.
(** Lines 33-85: CalcLengths for the weights [ws]; first the depths as they are in [A]. *)
Definition calc_depths (ws : list nat) : list nat :=
  let n := length ws in
  let A := map (fun i => n + i) (seq 0 n) ++ ws in
  let A := on_prefix make_heap A n in
  let A := merges A n in
  let A := set A 1 0 in
  let A := depths A 2 (2 * n - 2) in
  skipn n A.
Definition calc_lengths (ws : list nat) : list nat :=
  if length ws =? 1 then [1] else map u16 (calc_depths ws).
End Lengths.

(** Lines 89-96. *)
Fixpoint bump (num : list nat) (l : nat) : list nat :=
  match num, l with
  | [], O => [1]
  | [], S l' => 0 :: bump [] l'
  | x :: num', O => S x :: num'
  | x :: num', S l' => x :: bump num' l'
  end.
Definition num_length (lengths : list nat) : list nat := fold_left bump lengths [].
(** Lines 98-101: the numbers of symbols with shorter codes. *)
Fixpoint sums (acc : nat) (num : list nat) : list nat :=
  match num with [] => [] | x :: num' => acc :: sums (acc + x) num' end.
Definition length_index (num : list nat) : list nat := sums 0 num.
(** Lines 103-107: from the longest length down to 1; entry 0 stays 0. *)
Fixpoint codes_from (num : list nat) : list nat :=
  match num with
  | [] => []
  | _ :: num' => match codes_from num' with
                 | [] => [0]
                 | c :: cs => (c + get num' 0) / 2 :: c :: cs
                 end
  end.
Definition first_codes (num : list nat) : list nat :=
  match num with [] => [] | _ :: num' => 0 :: codes_from num' end.

Section Coder.
Variable D : Type.
Variable eqb : D -> D -> bool.
Variable nothing : D.

Record huffman := Huffman { symbols : list D; firstCodes : list nat; lengthIndex : list nat;
                            encodeMap : list (D * (nat * nat)) }.

(** Lines 109-125: placing the symbols. *)
Fixpoint place (ss : list D) (ls : list nat) (first lindex next : list nat) (t : list D) : list D :=
  match ss, ls with
  | s :: ss', l :: ls' =>
      place ss' ls' first lindex (set next l (get next l + 1)) (set t (get lindex l + (get next l - get first l)) s)
  | _, _ => t
  end.
(** Lines 128-141: CreateCodeMap; a later entry for the same symbol replaces an earlier one. *)
Fixpoint code_map (ss : list D) (lindex : list nat) (l k : nat) : list (D * (nat * nat)) :=
  match k with
  | O => []
  | S k' =>
      let num := (if l + 1 <? length lindex then get lindex (l + 1) else length ss) - get lindex l in
      code_map ss lindex (S l) k' ++
      rev (map (fun i => (nth (get lindex l + i) ss nothing, (l, i))) (seq 0 num))
  end.
(** Lines 87-126 and 145-154: the constructor, from the symbols and the lengths. *)
Definition build (ss : list D) (lengths : list nat) : huffman :=
  let num := num_length lengths in
  let lindex := length_index num in
  let first := first_codes num in
  let t := place ss lengths first lindex first (repeat nothing (length lengths)) in
  Huffman t first lindex (code_map t lindex 1 (length lindex - 1)).
Definition lookup (h : huffman) (d : D) : nat * nat :=
  match find (fun e => eqb (fst e) d) (encodeMap h) with Some e => snd e | None => (0, 0) end.

(** Lines 164-174: the bits of Put, the highest first. *)
Definition bits_of (l c : nat) : list bool := map (Nat.testbit c) (rev (seq 0 l)).
Definition put_code (h : huffman) (d : D) : list bool :=
  let '(l, i) := lookup h d in bits_of l (get (firstCodes h) l + i).
End Coder.
Arguments symbols {D}. Arguments firstCodes {D}. Arguments lengthIndex {D}. Arguments encodeMap {D}.
Arguments Huffman {D}. Arguments build {D}. Arguments put_code {D}. Arguments lookup {D}. Arguments place {D}. Arguments code_map {D}.

(** ** BitWrapper<std::string> (lines 241-313); a char is an integer from -128 to 127. *)
Local Open Scope Z_scope.
Definition char (x : Z) : Z := (x + 128) mod 256 - 128.
(** The iterator is an index into the data. *)
Record wrapper := Wrapper { data : list Z; iterator : nat; current : Z; bitPos : nat }.
Definition wrap (d : list Z) : wrapper := Wrapper d 0 0 0.
(** Lines 259-271: Read. *)
Definition read_bit (w : wrapper) : bool * wrapper :=
  let w' :=
    if (bitPos w mod 8 =? 0)%nat then
      if (iterator w <? length (data w))%nat
      then Wrapper (data w) (S (iterator w)) (nth (iterator w) (data w) 0) (S (bitPos w))
      else Wrapper (data w) (iterator w) (current w) (S (bitPos w))
    else Wrapper (data w) (iterator w) (Z.shiftr (current w) 1) (S (bitPos w)) in
  (negb (Z.land (current w') 1 =? 0), w').
(** Lines 273-281: Put. *)
Definition or_last (d : list Z) (x : Z) : list Z :=
  set d (length d - 1) (char (Z.lor (nth (length d - 1) d 0) x)).
Definition put_bit (w : wrapper) (bit : bool) : wrapper :=
  let d := if (bitPos w mod 8 =? 0)%nat then data w ++ [0] else data w in
  let d := if bit then or_last d (Z.shiftl 1 (Z.of_nat (bitPos w mod 8))) else d in
  Wrapper d (iterator w) (current w) (S (bitPos w)).
Definition put_bits (w : wrapper) (bs : list bool) : wrapper := fold_left put_bit bs w.
(** Lines 288-293: TellFromEnd. *)
Definition tell_from_end (w : wrapper) : nat := (length (data w) * 8 - bitPos w)%nat.
(** Lines 295-301: Seek; [None] at 0, where the iterator is put before the beginning, and behind the end. *)
Definition seek (w : wrapper) (p : nat) : option wrapper :=
  match p with
  | O => None
  | S q => if (q / 8 <? length (data w))%nat
           then Some (Wrapper (data w) (S (q / 8)) (Z.shiftr (nth (q / 8) (data w) 0) (Z.of_nat (q mod 8))) p)
           else None
  end.
(** Lines 309-313: Reset. *)
Definition reset (w : wrapper) : wrapper := Wrapper (data w) 0 0 0.
Local Close Scope Z_scope.

Section Reader.
Variable D : Type.
(** Lines 176-192: Read.  [None]: a symbol out of bounds, or more bits than there are
    first codes; [Some (None, _)]: the end of the data. *)
Fixpoint read_code (first : list nat) (fuel code len : nat) (w : wrapper) : option (nat * nat * wrapper) :=
  if code <? get first len then
    match fuel with
    | O => None
    | S f => let '(b, w') := read_bit w in read_code first f (2 * code + Nat.b2n b) (S len) w'
    end
  else Some (code, len, w).
Definition read (h : huffman D) (w : wrapper) : option (option D * wrapper) :=
  if tell_from_end w =? 0 then Some (None, w)
  else
    let '(b, w1) := read_bit w in
    match read_code (firstCodes h) (length (firstCodes h)) (Nat.b2n b) 1 w1 with
    | None => None
    | Some (code, len, w2) =>
        match nth_error (symbols h) (get (lengthIndex h) len + (code - get (firstCodes h) len)) with
        | Some d => Some (Some d, w2)
        | None => None
        end
    end.
(** Reading [k] symbols. *)
Fixpoint read_many (h : huffman D) (k : nat) (w : wrapper) : option (list D * wrapper) :=
  match k with
  | O => Some ([], w)
  | S k' => match read h w with
            | Some (Some d, w1) => match read_many h k' w1 with Some (ds, w2) => Some (d :: ds, w2) | None => None end
            | _ => None
            end
  end.
End Reader.
Arguments read {D}. Arguments read_many {D}.

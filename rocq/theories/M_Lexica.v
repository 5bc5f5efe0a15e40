(** Model of tools/datastructures/lexica: MonotonicVector, StringVector,
    PerfectHashIndex (around an external perfect hash function) and
    KeyValueStore.

    Unsigned values of PosT are [N] with wrap-around modulo [W]; indices and
    container sizes are [nat] (the containers are assumed to hold fewer than
    [W] elements, so the index arithmetic does not wrap). *)
From Coq Require Import List NArith Arith Bool.
Import ListNotations.

Section MonotonicVector.
(** Template parameters: [W] = 2^bits of PosT, [M] = numeric_limits<LenT>::max(),
    [s] = stepSize. *)
Variables (W M : N) (s : nat).

(** monotonic_vector.hpp lines 22-24. *)
Record mvec := MV {
  mv_diffs : list N;
  mv_anchors : list N;
  mv_rests : list (nat * N)
}.
Definition mv_empty : mvec := MV [] [] [].

(** monotonic_vector.hpp lines 29-31. *)
Definition mv_size (v : mvec) : nat := length (mv_diffs v) + length (mv_anchors v).

(** monotonic_vector.hpp lines 42-49: std::lower_bound for (k,0) in m_rests (the
    first pair not less than it; m_rests is sorted) and the test of its first
    component; 0 if the test fails. *)
Fixpoint rest_at (rests : list (nat * N)) (k : nat) : N :=
  match rests with
  | [] => 0%N
  | (k', r) :: rests' =>
      if k' <? k then rest_at rests' k
      else if k' =? k then r else 0%N
  end.

(** monotonic_vector.hpp lines 40-50: one iteration of the loop. *)
Definition mv_iter (v : mvec) (j : N) (k : nat) : N :=
  let d := nth k (mv_diffs v) 0%N in
  let j1 := ((j + d) mod W)%N in
  if (d =? M)%N then ((j1 + rest_at (mv_rests v) k) mod W)%N else j1.

(** monotonic_vector.hpp lines 33-54. *)
Definition mv_at (v : mvec) (i : nat) : N :=
  let j := nth (i / s) (mv_anchors v) 0%N in
  if i mod s =? 0 then j
  else fold_left (mv_iter v) (seq ((i / s) * (s - 1)) (i mod s)) j.

(** monotonic_vector.hpp lines 60-62. *)
Definition mv_back (v : mvec) : N := mv_at v (mv_size v - 1).

(** monotonic_vector.hpp lines 64-80; [i - last] is unsigned subtraction. *)
Definition mv_push_back (v : mvec) (i : N) : mvec :=
  if mv_size v mod s =? 0 then
    MV (mv_diffs v) (mv_anchors v ++ [i]) (mv_rests v)
  else
    let diff := ((i + W - mv_back v) mod W)%N in
    if (diff <=? M)%N then
      MV (mv_diffs v ++ [diff]) (mv_anchors v) (mv_rests v)
    else
      MV (mv_diffs v ++ [M]) (mv_anchors v)
         (mv_rests v ++ [(length (mv_diffs v), (diff - M)%N)]).
End MonotonicVector.

(** ** StringVector<unsigned char, unsigned int> *)
Definition W32 : N := 4294967296.
Definition USHRT_MAX : N := 65535.

(** string_vector.hpp lines 42-46; bytes are [N] below 256. *)
Record svec := SV {
  sv_chars : list N;
  sv_positions : mvec;
  sv_sorted : bool
}.
Definition sv_empty : svec := SV [] mv_empty true.
Definition pos_at := mv_at W32 USHRT_MAX 20.
Definition pos_push := mv_push_back W32 USHRT_MAX 20.
Definition sv_size (v : svec) : nat := mv_size (sv_positions v).

(** string_vector.hpp lines 340-346: length(i), in PosT arithmetic. *)
Definition sv_length (v : svec) (i : nat) : N :=
  if i + 1 <? sv_size v then
    ((pos_at (sv_positions v) (i + 1) + W32 - pos_at (sv_positions v) i) mod W32)%N
  else ((N.of_nat (length (sv_chars v)) + W32 - pos_at (sv_positions v) i) mod W32)%N.

(** string_vector.hpp lines 325-328, 348-361 and str() in 208-214: the string at
    index i.  For an empty last string the C++ code forms the address of the
    element one past the end of the vector; the model yields the empty range. *)
Definition sv_at (v : svec) (i : nat) : list N :=
  firstn (N.to_nat (sv_length v i))
         (skipn (N.to_nat (pos_at (sv_positions v) i)) (sv_chars v)).

(** string_vector.hpp lines 230-236: lexicographical_compare with
    std::less<unsigned char>. *)
Fixpoint lex_lt (a b : list N) : bool :=
  match a, b with
  | _, [] => false
  | [], _ :: _ => true
  | x :: a', y :: b' =>
      if (x <? y)%N then true else if (y <? x)%N then false else lex_lt a' b'
  end.

(** string_vector.hpp lines 271-280: push_back. *)
Definition sv_push_back (v : svec) (str : list N) : svec :=
  let sorted :=
    if sv_sorted v && negb (sv_size v =? 0)
       && negb (lex_lt (sv_at v (sv_size v - 1)) str)
    then false else sv_sorted v in
  SV (sv_chars v ++ str)
     (pos_push (sv_positions v) (N.of_nat (length (sv_chars v)) mod W32)%N)
     sorted.

(** string_vector.hpp lines 216-223: range == std::string; the bytes of the range
    are unsigned char and those of the std::string are (signed) char, so after
    the integral promotions they are equal only if they agree and are below
    128. *)
Fixpoint range_eq (r str : list N) : bool :=
  match r, str with
  | [], [] => true
  | x :: r', y :: s' => (x =? y)%N && (y <? 128)%N && range_eq r' s'
  | _, _ => false
  end.

(** std::lower_bound over a sorted vector / std::find: first index satisfying a
    test, or size(). *)
Fixpoint first_index (p : nat -> bool) (i n : nat) : nat :=
  match n with
  | 0 => i
  | S n' => if p i then i else first_index p (S i) n'
  end.

(** string_vector.hpp lines 363-369: find. *)
Definition sv_find (v : svec) (str : list N) : nat :=
  if sv_sorted v
  then first_index (fun i => negb (lex_lt (sv_at v i) str)) 0 (sv_size v)
  else first_index (fun i => range_eq (sv_at v i) str) 0 (sv_size v).

(** ** PerfectHashIndex and KeyValueStore *)
Section KeyValueStore.
(** [search] is cmph_search of the hash function that the external library
    builds for the added keys; [fprint] is MurmurHash3_x86_32. *)
Variables (search : list N -> nat) (fprint : list N -> N).

(** A char* made of a std::string stops at the first zero byte. *)
Fixpoint cstr (k : list N) : list N :=
  match k with
  | [] => []
  | c :: k' => if (c =? 0)%N then [] else c :: cstr k'
  end.

Fixpoint set_nth {A} (n : nat) (x : A) (l : list A) : list A :=
  match l, n with
  | [], _ => []
  | _ :: l', 0 => x :: l'
  | y :: l', S n' => y :: set_nth n' x l'
  end.

(** perfect_hash_index.hpp lines 43-55: calcFprints (resize with zeroes). *)
Definition calc_fprint (fps : list N) (key : list N) : list N :=
  let idx := search key in
  let fps' := if length fps <=? idx then fps ++ repeat 0%N (idx + 1 - length fps) else fps in
  set_nth idx (fprint key) fps'.
Definition calc_fprints (keys : list (list N)) : list N := fold_left calc_fprint keys [].

(** perfect_hash_index.hpp lines 69-78: getHash. *)
Definition get_hash (fps : list N) (key : list N) : nat :=
  let idx := search key in
  if (idx <? length fps) && (fprint key =? nth idx fps 0%N)%N then idx else length fps.

Record kvs := KVS { kvs_fprints : list N; kvs_values : svec }.

(** key_value_store.cpp lines 14-19 (add) for all pairs in order, then lines
    21-44 (build).  [None]: an index out of range (undefined behaviour). *)
Definition kvs_build (pairs : list (list N * list N)) : option kvs :=
  let keys := map (fun p => cstr (fst p)) pairs in
  let values := fold_left sv_push_back (map snd pairs) sv_empty in
  let fps := calc_fprints keys in
  let total := length fps in
  if length keys <? total then None
  else
  let table := fold_left (fun t i => set_nth (get_hash fps (nth i keys [])) i t)
                         (seq 0 total) (repeat 0 total) in
  Some (KVS fps (fold_left (fun sv i => sv_push_back sv (sv_at values (nth i table 0)))
                           (seq 0 total) sv_empty)).

(** key_value_store.cpp lines 46-53: get. *)
Definition kvs_get (st : kvs) (key : list N) : option (list N) :=
  let index := get_hash (kvs_fprints st) (cstr key) in
  if index =? length (kvs_fprints st) then None else Some (sv_at (kvs_values st) index).
End KeyValueStore.

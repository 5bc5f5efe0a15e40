(** Model of the hash tables of common/zvalue.hpp and zvalue.cpp: zhash, the
    environment zenvironment and the symbol table zsymboltable.
    Pointers to values are the values; the table is a list of slots.  [None] stands for
    a loop that does not end or an [int] that overflows. *)
From Coq Require Import List ZArith Bool.
Import ListNotations.
Local Open Scope Z_scope.

Section Hash.
Context {K V : Type}.
(** zvalue.hpp lines 622-624: the three functions of a table; the results of the hash
    functions are used as [unsigned int]s. *)
Record functions := Functions { key_hash : K -> Z; val_hash : V -> Z; key_val : K -> V -> bool }.
Context (F : functions).

Inductive slot := Null | Deleted | Val (v : V).
(** Lines 615-620. *)
Record table := Table { size : Z; occupied : Z; occ_del : Z; block : list slot }.

Definition uint (x : Z) : Z := x mod 2 ^ 32.
Definition h2 (h : Z) : Z := Z.lor h 1.
(** (ix += h2) %= size. *)
Definition advance (sz h ix : Z) : Z := uint (ix + h2 h) mod sz.
Definition at_ (b : list slot) (ix : Z) : slot := nth (Z.to_nat ix) b Null.
Fixpoint set_at (b : list slot) (n : nat) (s : slot) : list slot :=
  match b, n with
  | [], _ => []
  | _ :: b', O => s :: b'
  | x :: b', S n' => x :: set_at b' n' s
  end.

(** Lines 660-676: put_. *)
Fixpoint find_free (fuel : nat) (b : list slot) (sz h ix : Z) : option Z :=
  match fuel with
  | O => None
  | S f =>
      match at_ b ix with
      | Val _ => find_free f b sz h (advance sz h ix)
      | _ => Some ix
      end
  end.
Definition put_ (t : table) (v : V) : option table :=
  let h := uint (val_hash F v) in
  match find_free (length (block t)) (block t) (size t) h (h mod size t) with
  | None => None
  | Some ix =>
      let od := match at_ (block t) ix with Null => occ_del t + 1 | _ => occ_del t end in
      Some (Table (size t) (occupied t) od (set_at (block t) (Z.to_nat ix) (Val v)))
  end.

(** Lines 678-697: get_, with the counter [i]; the place found and the new counter. *)
Fixpoint probe (fuel : nat) (b : list slot) (sz h : Z) (key : K) (i ix : Z) : option (Z * Z) :=
  match fuel with
  | O => None
  | S f =>
      match at_ b ix with
      | Null => Some (ix, i)
      | Deleted => probe f b sz h key (i + 1) (advance sz h ix)
      | Val v => if key_val F key v then Some (ix, i) else probe f b sz h key (i + 1) (advance sz h ix)
      end
  end.
Definition get_ (t : table) (key : K) (i : Z) : option (Z * Z) :=
  let h := uint (key_hash F key) in
  probe (length (block t)) (block t) (size t) h key i (uint (h + i * h2 h) mod size t).

(** Lines 700-719: resize (with an old block). *)
Fixpoint put_all (t : table) (old : list slot) : option table :=
  match old with
  | [] => Some t
  | Val v :: old' => match put_ t v with Some t' => put_all t' old' | None => None end
  | _ :: old' => put_all t old'
  end.
Definition fresh (sz : Z) : list slot := repeat Null (Z.to_nat sz).
Definition resize (t : table) (new_size : Z) : option table :=
  if 2 ^ 31 <=? new_size then None
  else
    match put_all (Table new_size (occupied t) (occ_del t) (fresh new_size)) (block t) with
    | Some t' => Some (Table (size t') (occupied t') (occupied t') (block t'))
    | None => None
    end.

(** Lines 626-653: the constructor. *)
Definition new_table (sz : Z) : table := Table sz 0 0 (fresh sz).
(** Lines 748-757: get and getNext. *)
Definition contents (b : list slot) (ix : Z) : option V := match at_ b ix with Val v => Some v | _ => None end.
Definition get (t : table) (key : K) : option (option V) :=
  match get_ t key 0 with Some (ix, _) => Some (contents (block t) ix) | None => None end.
Definition get_next (t : table) (key : K) (i : Z) : option (option V * Z) :=
  match get_ t key i with Some (ix, i') => Some (contents (block t) ix, i') | None => None end.
(** Lines 759-771: remove. *)
Definition remove (t : table) (key : K) : option (table * option V) :=
  match get_ t key 0 with
  | None => None
  | Some (ix, _) =>
      match at_ (block t) ix with
      | Val v => Some (Table (size t) (occupied t - 1) (occ_del t) (set_at (block t) (Z.to_nat ix) Deleted), Some v)
      | _ => Some (t, None)
      end
  end.
(** Lines 773-781: put. *)
Definition put (t : table) (v : V) : option table :=
  let t1 := Table (size t) (occupied t + 1) (occ_del t) (block t) in
  let r :=
    if size t / 2 <=? occupied t then resize t1 (2 * size t)
    else if size t - 1 <=? occ_del t then resize t1 (size t)
    else Some t1 in
  match r with Some t2 => put_ t2 v | None => None end.
End Hash.
Arguments slot : clear implicits.
Arguments table : clear implicits.
Arguments functions : clear implicits.

(** A run of puts and removes. *)
Inductive op (K V : Type) := Put (v : V) | Remove (k : K).
Arguments Put {K V}. Arguments Remove {K V}.
Fixpoint run {K V} (F : functions K V) (t : table V) (ops : list (op K V)) : option (table V) :=
  match ops with
  | [] => Some t
  | Put v :: ops' => match put F t v with Some t' => run F t' ops' | None => None end
  | Remove k :: ops' => match remove F t k with Some (t', _) => run F t' ops' | None => None end
  end.

(** ** zenvironment: zvalue.hpp lines 790-868, zvalue.cpp lines 376-399 and 435-460.
    A pair is kept as an address (what [setSecond] changes is the pair in the heap):
    here the table holds the pairs themselves and [change] replaces the pair found. *)
Section Environment.
Context {A D : Type} (hash : A -> Z) (eqA : A -> A -> bool) (eqD : D -> D -> bool).
Definition env_functions : functions A (A * D) :=
  Functions hash (fun p => hash (fst p)) (fun k p => eqA k (fst p)).
Definition fetch (t : table (A * D)) (s : A) : option (option D) :=
  match get env_functions t s with Some r => Some (option_map snd r) | None => None end.
Definition change (t : table (A * D)) (s : A) (d : D) : option (table (A * D)) :=
  match get_ env_functions t s 0 with
  | None => None
  | Some (ix, _) =>
      match at_ (block t) ix with
      | Val p => Some (Table (size t) (occupied t) (occ_del t) (set_at (block t) (Z.to_nat ix) (Val (fst p, d))))
      | _ => put env_functions t (s, d)
      end
  end.
Definition insert (t : table (A * D)) (s : A) (d : D) : option (table (A * D)) := put env_functions t (s, d).
(** zvalue.cpp lines 450-460 and 435-448. *)
Fixpoint delete_all_key (fuel : nat) (t : table (A * D)) (s : A) (i : Z) : option (table (A * D)) :=
  match fuel with
  | O => None
  | S f =>
      match get_ env_functions t s i with
      | None => None
      | Some (ix, i') =>
          match at_ (block t) ix with
          | Val _ => delete_all_key f (Table (size t) (occupied t - 1) (occ_del t) (set_at (block t) (Z.to_nat ix) Deleted)) s (i' + 1)
          | _ => Some t
          end
      end
  end.
Fixpoint delete_all_key_value (fuel : nat) (t : table (A * D)) (s : A) (d : D) (i : Z) : option (table (A * D)) :=
  match fuel with
  | O => None
  | S f =>
      match get_ env_functions t s i with
      | None => None
      | Some (ix, i') =>
          match at_ (block t) ix with
          | Val p =>
              delete_all_key_value f
                (if eqD (snd p) d then Table (size t) (occupied t - 1) (occ_del t) (set_at (block t) (Z.to_nat ix) Deleted) else t)
                s d (i' + 1)
          | _ => Some t
          end
      end
  end.
End Environment.

(** ** zsymboltable: zvalue.cpp lines 402-431, 462-468, 480-494, 519-529.
    A symbol is an address with the string kept there; a new symbol gets a new address. *)
Definition str := list Z.
Definition str_eqb (a b : str) : bool := if list_eq_dec Z.eq_dec a b then true else false.
(** A [char] read as a signed number. *)
Definition sgn (c : Z) : Z := if 128 <=? c then c - 256 else c.
Definition int32 (x : Z) : Z := (x + 2 ^ 31) mod 2 ^ 32 - 2 ^ 31.
Fixpoint hash_loop (h : Z) (s : str) : Z :=
  match s with
  | [] => h
  | c :: s' => if c =? 0 then h else hash_loop (Z.lxor (int32 (2 * h)) (sgn c)) s'
  end.
Definition string_hash (s : str) : Z := let h := hash_loop 29830 s in if h <? 0 then int32 (- h) else h.
Record symbol := Symbol { address : Z; text : str }.
Definition symbol_functions : functions str symbol :=
  Functions string_hash (fun y => string_hash (text y)) (fun k y => str_eqb k (text y)).
(** The heap is the next free address; [get_symbol] gets a C string. *)
Definition symtab := (table symbol * Z)%type.
Definition new_symtab : symtab := (new_table 1024, 0).
Definition get_symbol (st : symtab) (s : str) : option (symtab * symbol) :=
  let '(t, next) := st in
  match get symbol_functions t s with
  | None => None
  | Some (Some y) => Some (st, y)
  | Some None =>
      let y := Symbol next s in
      match put symbol_functions t y with Some t' => Some ((t', next + 1), y) | None => None end
  end.
Definition remove_symbol (st : symtab) (s : str) : option symtab :=
  let '(t, next) := st in
  match remove symbol_functions t s with Some (t', _) => Some (t', next) | None => None end.

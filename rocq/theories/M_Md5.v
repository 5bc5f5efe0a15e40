(** Model of common/md5.cpp (with md5.hpp).  A byte and a uint4 are numbers, the arithmetic of
    unsigned int is modulo 2^32.  [None]: memory outside of the input is read. *)
From Coq Require Import List NArith Bool Arith.
Import ListNotations.
Local Open Scope N_scope.

Definition WORD : N := 4294967296.
Definition add32 (a b : N) : N := (a + b) mod WORD.
Definition not32 (a : N) : N := N.lxor a 4294967295.
(** Lines 41-56. *)
Definition S11 : N := 7.
Definition S12 : N := 12.
Definition S13 : N := 17.
Definition S14 : N := 22.
Definition S21 : N := 5.
Definition S22 : N := 9.
Definition S23 : N := 14.
Definition S24 : N := 20.
Definition S31 : N := 4.
Definition S32 : N := 11.
Definition S33 : N := 16.
Definition S34 : N := 23.
Definition S41 : N := 6.
Definition S42 : N := 10.
Definition S43 : N := 15.
Definition S44 : N := 21.
(** Lines 61-82. *)
Definition F (x y z : N) : N := N.lor (N.land x y) (N.land (not32 x) z).
Definition G (x y z : N) : N := N.lor (N.land x z) (N.land y (not32 z)).
Definition H (x y z : N) : N := N.lxor (N.lxor x y) z.
Definition I (x y z : N) : N := N.lxor y (N.lor x (not32 z)).
Definition rotate_left (x n : N) : N := N.lor (N.shiftl x n mod WORD) (N.shiftr x (32 - n)).
(** Lines 84-99: FF, GG, HH, II; the new value of the first argument. *)
Definition mix (f : N -> N -> N -> N) (a b c d x s ac : N) : N :=
  add32 (rotate_left (add32 (add32 (add32 a (f b c d)) x) ac) s) b.

(** The registers and the lines of transform. *)
Record regs := Regs { ra : N; rb : N; rc : N; rd : N }.
Inductive reg := Ra | Rb | Rc | Rd.
Definition get (r : regs) (x : reg) : N := match x with Ra => ra r | Rb => rb r | Rc => rc r | Rd => rd r end.
Definition put (r : regs) (x : reg) (v : N) : regs :=
  match x with
  | Ra => Regs v (rb r) (rc r) (rd r)
  | Rb => Regs (ra r) v (rc r) (rd r)
  | Rc => Regs (ra r) (rb r) v (rd r)
  | Rd => Regs (ra r) (rb r) (rc r) v
  end.
Record line := Line { op : N -> N -> N -> N; l1 : reg; l2 : reg; l3 : reg; l4 : reg; word : nat; shift : N; const : N }.
Definition exec (x : list N) (r : regs) (l : line) : regs :=
  put r (l1 l) (mix (op l) (get r (l1 l)) (get r (l2 l)) (get r (l3 l)) (get r (l4 l)) (nth (word l) x 0) (shift l) (const l)).
(** Lines 168-237. *)
Definition LINES : list line := [
  Line F Ra Rb Rc Rd 0 S11 3614090360; Line F Rd Ra Rb Rc 1 S12 3905402710;
  Line F Rc Rd Ra Rb 2 S13 606105819; Line F Rb Rc Rd Ra 3 S14 3250441966;
  Line F Ra Rb Rc Rd 4 S11 4118548399; Line F Rd Ra Rb Rc 5 S12 1200080426;
  Line F Rc Rd Ra Rb 6 S13 2821735955; Line F Rb Rc Rd Ra 7 S14 4249261313;
  Line F Ra Rb Rc Rd 8 S11 1770035416; Line F Rd Ra Rb Rc 9 S12 2336552879;
  Line F Rc Rd Ra Rb 10 S13 4294925233; Line F Rb Rc Rd Ra 11 S14 2304563134;
  Line F Ra Rb Rc Rd 12 S11 1804603682; Line F Rd Ra Rb Rc 13 S12 4254626195;
  Line F Rc Rd Ra Rb 14 S13 2792965006; Line F Rb Rc Rd Ra 15 S14 1236535329;
  Line G Ra Rb Rc Rd 1 S21 4129170786; Line G Rd Ra Rb Rc 6 S22 3225465664;
  Line G Rc Rd Ra Rb 11 S23 643717713; Line G Rb Rc Rd Ra 0 S24 3921069994;
  Line G Ra Rb Rc Rd 5 S21 3593408605; Line G Rd Ra Rb Rc 10 S22 38016083;
  Line G Rc Rd Ra Rb 15 S23 3634488961; Line G Rb Rc Rd Ra 4 S24 3889429448;
  Line G Ra Rb Rc Rd 9 S21 568446438; Line G Rd Ra Rb Rc 14 S22 3275163606;
  Line G Rc Rd Ra Rb 3 S23 4107603335; Line G Rb Rc Rd Ra 8 S24 1163531501;
  Line G Ra Rb Rc Rd 13 S21 2850285829; Line G Rd Ra Rb Rc 2 S22 4243563512;
  Line G Rc Rd Ra Rb 7 S23 1735328473; Line G Rb Rc Rd Ra 12 S24 2368359562;
  Line H Ra Rb Rc Rd 5 S31 4294588738; Line H Rd Ra Rb Rc 8 S32 2272392833;
  Line H Rc Rd Ra Rb 11 S33 1839030562; Line H Rb Rc Rd Ra 14 S34 4259657740;
  Line H Ra Rb Rc Rd 1 S31 2763975236; Line H Rd Ra Rb Rc 4 S32 1272893353;
  Line H Rc Rd Ra Rb 7 S33 4139469664; Line H Rb Rc Rd Ra 10 S34 3200236656;
  Line H Ra Rb Rc Rd 13 S31 681279174; Line H Rd Ra Rb Rc 0 S32 3936430074;
  Line H Rc Rd Ra Rb 3 S33 3572445317; Line H Rb Rc Rd Ra 6 S34 76029189;
  Line H Ra Rb Rc Rd 9 S31 3654602809; Line H Rd Ra Rb Rc 12 S32 3873151461;
  Line H Rc Rd Ra Rb 15 S33 530742520; Line H Rb Rc Rd Ra 2 S34 3299628645;
  Line I Ra Rb Rc Rd 0 S41 4096336452; Line I Rd Ra Rb Rc 7 S42 1126891415;
  Line I Rc Rd Ra Rb 14 S43 2878612391; Line I Rb Rc Rd Ra 5 S44 4237533241;
  Line I Ra Rb Rc Rd 12 S41 1700485571; Line I Rd Ra Rb Rc 3 S42 2399980690;
  Line I Rc Rd Ra Rb 10 S43 4293915773; Line I Rb Rc Rd Ra 1 S44 2240044497;
  Line I Ra Rb Rc Rd 8 S41 1873313359; Line I Rd Ra Rb Rc 15 S42 4264355552;
  Line I Rc Rd Ra Rb 6 S43 2734768916; Line I Rb Rc Rd Ra 13 S44 1309151649;
  Line I Ra Rb Rc Rd 4 S41 4149444226; Line I Rd Ra Rb Rc 11 S42 3174756917;
  Line I Rc Rd Ra Rb 2 S43 718787259; Line I Rb Rc Rd Ra 9 S44 3951481745].
(** Lines 137-143: decode. *)
Fixpoint decode (input : list N) : list N :=
  match input with
  | b0 :: b1 :: b2 :: b3 :: r => N.lor (N.lor (N.lor b0 (N.shiftl b1 8)) (N.shiftl b2 16)) (N.shiftl b3 24) :: decode r
  | _ => []
  end.
(** Lines 147-157: encode. *)
Fixpoint encode (input : list N) : list N :=
  match input with
  | [] => []
  | w :: r => N.land w 255 :: N.land (N.shiftr w 8) 255 :: N.land (N.shiftr w 16) 255 :: N.land (N.shiftr w 24) 255 :: encode r
  end.
(** Lines 162-246. *)
Definition transform (block : list N) (s : regs) : regs :=
  let r := fold_left (exec (decode block)) LINES s in
  Regs (add32 (ra s) (ra r)) (add32 (rb s) (rb r)) (add32 (rc s) (rc r)) (add32 (rd s) (rd r)).

(** md5.hpp lines 73-77. *)
Record md5 := Md5 { finalized : bool; buffer : list N; count0 : N; count1 : N; state : regs; digest : list N }.
(** Lines 121-134: init; the buffer and the digest are not initialised. *)
Definition init (buffer digest : list N) : md5 := Md5 false buffer 0 0 (Regs 1732584193 4023233417 2562383102 271733878) digest.
(** memcpy(&to[at], from, length of from) *)
Definition write_at (to : list N) (at_ : nat) (from : list N) : list N := firstn at_ to ++ from ++ skipn (at_ + length from) to.
(** [n] bytes of the input from [i] on. *)
Definition read (input : list N) (i n : N) : option (list N) :=
  if i + n <=? N.of_nat (length input) then Some (firstn (N.to_nat n) (skipn (N.to_nat i) input)) else None.
(** Lines 275-277; [fuel] is enough if it is greater than the length of the input. *)
Fixpoint blocks (fuel : nat) (input : list N) (len i : N) (s : regs) : option (regs * N) :=
  match fuel with
  | O => None
  | S n =>
      if (i + 64) mod WORD <=? len then
        match read input i 64 with
        | Some b => blocks n input len ((i + 64) mod WORD) (transform b s)
        | None => None
        end
      else Some (s, i)
  end.
(** Lines 252-286: update; [len] is the argument length. *)
Definition update (m : md5) (input : list N) (len : N) : option md5 :=
  let index := (count0 m / 8) mod 64 in
  let bits := N.shiftl len 3 mod WORD in
  let c0 := add32 (count0 m) bits in
  let c1 := add32 (if c0 <? bits then add32 (count1 m) 1 else count1 m) (N.shiftr len 29) in
  let firstpart := 64 - index in
  if firstpart <=? len then
    match read input 0 firstpart with
    | None => None
    | Some p =>
        let b := write_at (buffer m) (N.to_nat index) p in
        match blocks (S (length input)) input len firstpart (transform b (state m)) with
        | None => None
        | Some (s, i) =>
            match read input i (len - i) with
            | Some r => Some (Md5 (finalized m) (write_at b 0 r) c0 c1 s (digest m))
            | None => None
            end
        end
    end
  else
    match read input 0 len with
    | Some r => Some (Md5 (finalized m) (write_at (buffer m) (N.to_nat index) r) c0 c1 (state m) (digest m))
    | None => None
    end.
Definition words (s : regs) : list N := [ra s; rb s; rc s; rd s].
(** Lines 299-331: finalize. *)
Definition PADDING : list N := 128 :: repeat 0 63.
Definition finalize (m : md5) : option md5 :=
  if finalized m then Some m
  else
    let bits := encode [count0 m; count1 m] in
    let index := (count0 m / 8) mod 64 in
    let pad := if index <? 56 then 56 - index else 120 - index in
    match update m PADDING pad with
    | None => None
    | Some m1 =>
        match update m1 bits 8 with
        | None => None
        | Some m2 => Some (Md5 true (repeat 0 64) 0 0 (state m2) (encode (words (state m2))))
        end
    end.
(** Lines 335-347: hexdigest; characters are their codes. *)
Definition hex_digit (n : N) : N := if n <? 10 then 48 + n else 87 + n.
Definition hexdigest (m : md5) : list N :=
  if finalized m then flat_map (fun b => [hex_digit (b / 16); hex_digit (b mod 16)]) (digest m) else [].
(** Lines 112-117 and 358-363: the length of the string becomes an unsigned int. *)
Definition md5_of (garbage : list N) (text : list N) : option (list N) :=
  match update (init garbage []) text (N.of_nat (length text) mod WORD) with
  | Some m => option_map hexdigest (finalize m)
  | None => None
  end.

(** Model of the HTTP request parser: server/server/request_parser.cpp,
    request_parser.hpp (parse), request.hpp (get_header_value) and the reading loop of
    server/server/connection.cpp.  Bytes are 0..255; a char above 127 is negative in the
    code, which the classes below treat alike.  Version numbers and Content-Length are
    unbounded here (int in the code). *)
From Coq Require Import List ZArith Bool Arith.
Import ListNotations.
Open Scope Z_scope.

(** request_parser.cpp lines 363-390. *)
Definition is_char (c : Z) : bool := (0 <=? c) && (c <=? 127).
Definition is_ctl (c : Z) : bool := ((0 <=? c) && (c <=? 31)) || (c =? 127).
Definition TSPECIALS : list Z :=
  [40; 41; 60; 62; 64; 44; 59; 58; 92; 34; 47; 91; 93; 63; 61; 123; 125; 32; 9].
Definition is_tspecial (c : Z) : bool := existsb (Z.eqb c) TSPECIALS.
Definition is_digit (c : Z) : bool := (48 <=? c) && (c <=? 57).

(** request.hpp lines 18-34. *)
Record req := Req {
  r_method : list Z; r_uri : list Z; r_major : Z; r_minor : Z;
  r_headers : list (list Z * list Z); r_post : list Z }.
Definition str_eqb (a b : list Z) : bool := if list_eq_dec Z.eq_dec a b then true else false.
(** The last header of that name counts. *)
Definition get_header_value (r : req) (name : list Z) : list Z :=
  match find (fun h => str_eqb (fst h) name) (rev (r_headers r)) with
  | Some h => snd h
  | None => []
  end.

(** request_parser.hpp lines 68-93. *)
Inductive state :=
| method_start | method | uri_start | uri
| http_version_h | http_version_t_1 | http_version_t_2 | http_version_p | http_version_slash
| http_version_major_start | http_version_major | http_version_minor_start | http_version_minor
| expecting_newline_1 | header_line_start | header_lws | header_name
| space_before_header_value | header_value | expecting_newline_2 | expecting_newline_3
| post_line_start | multipart_start.

Record parser := Parser { p_state : state; p_length : Z; p_counter : Z }.
(** Lines 14-17. *)
Definition initial_parser : parser := Parser method_start 0 0.
(** A request that has just been constructed (the version numbers have no value yet). *)
Definition initial_req : req := Req [] [] 0 0 [] [].

Inductive verdict := Complete | Bad | More.

(** atoi: blanks, a sign, digits. *)
Fixpoint atoi_digits (acc : Z) (s : list Z) : Z :=
  match s with
  | [] => acc
  | c :: s' => if is_digit c then atoi_digits (10 * acc + (c - 48)) s' else acc
  end.
Fixpoint atoi (s : list Z) : Z :=
  match s with
  | [] => 0
  | c :: s' =>
      if (c =? 32) || ((9 <=? c) && (c <=? 13)) then atoi s'
      else if c =? 45 then - atoi_digits 0 s'
      else if c =? 43 then atoi_digits 0 s'
      else atoi_digits 0 s
  end.

(** "POST", "Content-Type", "multipart", "Content-Length". *)
Definition POST : list Z := [80; 79; 83; 84].
Definition CONTENT_TYPE : list Z := [67; 111; 110; 116; 101; 110; 116; 45; 84; 121; 112; 101].
Definition MULTIPART : list Z := [109; 117; 108; 116; 105; 112; 97; 114; 116].
Definition CONTENT_LENGTH : list Z := [67; 111; 110; 116; 101; 110; 116; 45; 76; 101; 110; 103; 116; 104].

(** Lines 340-347. *)
Definition is_multipart (r : req) : bool := str_eqb (firstn 9 (get_header_value r CONTENT_TYPE)) MULTIPART.
(** Lines 349-361. *)
Definition post_data_length (r : req) : Z :=
  match get_header_value r CONTENT_LENGTH with [] => 0 | v => atoi v end.

(** Changes of the request. *)
Definition add_method (r : req) c := Req (r_method r ++ [c]) (r_uri r) (r_major r) (r_minor r) (r_headers r) (r_post r).
Definition add_uri (r : req) c := Req (r_method r) (r_uri r ++ [c]) (r_major r) (r_minor r) (r_headers r) (r_post r).
Definition set_version (r : req) ma mi := Req (r_method r) (r_uri r) ma mi (r_headers r) (r_post r).
Definition set_headers (r : req) hs := Req (r_method r) (r_uri r) (r_major r) (r_minor r) hs (r_post r).
Definition add_post (r : req) c := Req (r_method r) (r_uri r) (r_major r) (r_minor r) (r_headers r) (r_post r ++ [c]).
(** headers.back().name/value.push_back; without a header this is undefined (here: nothing). *)
Fixpoint back_name (hs : list (list Z * list Z)) (c : Z) : list (list Z * list Z) :=
  match hs with [] => [] | [(n, v)] => [(n ++ [c], v)] | h :: hs' => h :: back_name hs' c end.
Fixpoint back_value (hs : list (list Z * list Z)) (c : Z) : list (list Z * list Z) :=
  match hs with [] => [] | [(n, v)] => [(n, v ++ [c])] | h :: hs' => h :: back_value hs' c end.

Definition goto (p : parser) (s : state) : parser := Parser s (p_length p) (p_counter p).
Definition not_token (c : Z) : bool := negb (is_char c) || is_ctl c || is_tspecial c.

(** Lines 24-338: consume. *)
Definition consume (p : parser) (r : req) (c : Z) : verdict * parser * req :=
  let bad := (Bad, p, r) in
  let more s r' := (More, goto p s, r') in
  let expect x s := if c =? x then more s r else bad in
  match p_state p with
  | method_start => if not_token c then bad else more method (add_method r c)
  | method => if c =? 32 then more uri r
              else if not_token c then bad else more method (add_method r c)
  | uri_start => if is_ctl c then bad else more uri (add_uri r c)
  | uri => if c =? 32 then more http_version_h r
           else if is_ctl c then bad else more uri (add_uri r c)
  | http_version_h => expect 72 http_version_t_1
  | http_version_t_1 => expect 84 http_version_t_2
  | http_version_t_2 => expect 84 http_version_p
  | http_version_p => expect 80 http_version_slash
  | http_version_slash => if c =? 47 then more http_version_major_start (set_version r 0 0) else bad
  | http_version_major_start =>
      if is_digit c then more http_version_major (set_version r (r_major r * 10 + c - 48) (r_minor r)) else bad
  | http_version_major =>
      if c =? 46 then more http_version_minor_start r
      else if is_digit c then more http_version_major (set_version r (r_major r * 10 + c - 48) (r_minor r)) else bad
  | http_version_minor_start =>
      if is_digit c then more http_version_minor (set_version r (r_major r) (r_minor r * 10 + c - 48)) else bad
  | http_version_minor =>
      if c =? 13 then more expecting_newline_1 r
      else if is_digit c then more http_version_minor (set_version r (r_major r) (r_minor r * 10 + c - 48)) else bad
  | expecting_newline_1 => expect 10 header_line_start
  | header_line_start =>
      if c =? 13 then more expecting_newline_3 r
      else if negb (match r_headers r with [] => true | _ => false end) && ((c =? 32) || (c =? 9)) then more header_lws r
      else if not_token c then bad
      else more header_name (set_headers r (r_headers r ++ [([c], [])]))
  | header_lws =>
      if c =? 13 then more expecting_newline_2 r
      else if (c =? 32) || (c =? 9) then more header_lws r
      else if is_ctl c then bad
      else more header_value (set_headers r (back_value (r_headers r) c))
  | header_name =>
      if c =? 58 then more space_before_header_value r
      else if not_token c then bad
      else more header_name (set_headers r (back_name (r_headers r) c))
  | space_before_header_value => expect 32 header_value
  | header_value =>
      if c =? 13 then more expecting_newline_2 r
      else if is_ctl c then bad
      else more header_value (set_headers r (back_value (r_headers r) c))
  | expecting_newline_2 => expect 10 header_line_start
  | expecting_newline_3 =>
      if c =? 10 then
        if str_eqb (r_method r) POST then
          (More, Parser (if is_multipart r then multipart_start else post_line_start) (post_data_length r) 1, r)
        else (Complete, p, r)
      else bad
  | post_line_start =>
      if negb (c =? 10) && negb (c =? 13) then
        if p_counter p <? p_length p
        then (More, Parser post_line_start (p_length p) (p_counter p + 1), add_post r c)
        else (Complete, p, add_post r c)
      else bad
  | multipart_start =>
      if p_counter p <? p_length p
      then (More, Parser multipart_start (p_length p) (p_counter p + 1), add_post r c)
      else (Complete, p, r)
  end.

(** request_parser.hpp lines 33-47: parse; the last component is the number of bytes consumed. *)
Fixpoint parse (p : parser) (r : req) (s : list Z) : verdict * parser * req * nat :=
  match s with
  | [] => (More, p, r, 0%nat)
  | c :: s' =>
      match consume p r c with
      | (More, p', r') => let '(v, p2, r2, n) := parse p' r' s' in (v, p2, r2, S n)
      | (v, p', r') => (v, p', r', 1%nat)
      end
  end.

(** connection.cpp lines 38-72: packets are read until the verdict is known. *)
Fixpoint read_packets (p : parser) (r : req) (packets : list (list Z)) : verdict * parser * req * nat :=
  match packets with
  | [] => (More, p, r, 0%nat)
  | s :: packets' =>
      match parse p r s with
      | (More, p', r', n) => let '(v, p2, r2, k) := read_packets p' r' packets' in (v, p2, r2, (n + k)%nat)
      | res => res
      end
  end.

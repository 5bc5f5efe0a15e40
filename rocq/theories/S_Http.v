(** The requests the server is meant to understand, as texts (specification for C34). *)
From Coq Require Import List ZArith.
Import ListNotations.
Open Scope Z_scope.

(** Control characters, separators, characters of a token, of a URI, of a header value. *)
Definition control (c : Z) : Prop := 0 <= c <= 31 \/ c = 127.
Definition separator (c : Z) : Prop :=
  In c [40; 41; 60; 62; 64; 44; 59; 58; 92; 34; 47; 91; 93; 63; 61; 123; 125; 32; 9].
Definition token_char (c : Z) : Prop := 0 <= c <= 127 /\ ~ control c /\ ~ separator c.
Definition token (s : list Z) : Prop := s <> [] /\ Forall token_char s.
Definition uri_text (s : list Z) : Prop := Forall (fun c => ~ control c /\ c <> 32) s.
Definition digits (s : list Z) : Prop := s <> [] /\ Forall (fun c => 48 <= c <= 57) s.
Definition text (s : list Z) : Prop := Forall (fun c => ~ control c) s.
Definition blanks (s : list Z) : Prop := s <> [] /\ Forall (fun c => c = 32 \/ c = 9) s.
Definition CRLF : list Z := [13; 10].

(** A header: its name, the first line of its value and the continuation lines, each
    with its indentation. *)
Record header := Header { h_name : list Z; h_first : list Z; h_more : list (list Z * list Z) }.
Definition header_ok (h : header) : Prop :=
  token (h_name h) /\ text (h_first h) /\
  Forall (fun l => blanks (fst l) /\ text (snd l) /\
                   match snd l with c :: _ => c <> 32 /\ c <> 9 | [] => True end) (h_more h).
Definition render_header (h : header) : list Z :=
  h_name h ++ [58; 32] ++ h_first h ++ CRLF ++ concat (map (fun l => fst l ++ snd l ++ CRLF) (h_more h)).
Definition header_meaning (h : header) : list Z * list Z :=
  (h_name h, h_first h ++ concat (map snd (h_more h))).

(** The head of a request. *)
Record head := Head { q_method : list Z; q_uri : list Z; q_major : list Z; q_minor : list Z; q_headers : list header }.
Definition head_ok (q : head) : Prop :=
  token (q_method q) /\ uri_text (q_uri q) /\ digits (q_major q) /\ digits (q_minor q) /\
  Forall header_ok (q_headers q).
(** method SP uri SP HTTP/major.minor CRLF headers CRLF *)
Definition render_head (q : head) : list Z :=
  q_method q ++ [32] ++ q_uri q ++ [32; 72; 84; 84; 80; 47] ++ q_major q ++ [46] ++ q_minor q ++ CRLF ++
  concat (map render_header (q_headers q)) ++ CRLF.

(** The number written by decimal digits, most significant first. *)
Definition number (s : list Z) : Z := fold_left (fun n c => 10 * n + (c - 48)) s 0.

(** The value of the last header of a name. *)
Inductive header_value_is (name : list Z) : list (list Z * list Z) -> list Z -> Prop :=
| hvi_none l : (forall v, ~ In (name, v) l) -> header_value_is name l []
| hvi_last l1 v l2 : (forall w, ~ In (name, w) l2) -> header_value_is name (l1 ++ (name, v) :: l2) v.

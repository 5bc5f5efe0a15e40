(** Model of the multipart parser: server/mpfd-parser/Parser.cpp and Field.cpp (files
    stored in memory, as psi_server.cpp line 148 sets).  Memory management is not
    modelled; sizes fit into long. *)
From Coq Require Import List ZArith Bool Arith.
From Verif Require Import M_Web.
Import ListNotations.
Open Scope nat_scope.

(** A field; [f_chunks]: the pieces given to Field::AcceptSomeData, oldest first. *)
Record field := Field { f_file : bool; f_filename : list Z; f_type : list Z; f_chunks : list (list Z) }.

(** Field.cpp lines 94-102 and 128-142: for a file every piece is appended. *)
Definition file_content (f : field) : list Z := concat (f_chunks f).
(** Field.cpp lines 50-59 and 144-158: for a text FieldContentLength stays 0, so every
    piece overwrites the one before; the text ends at the first NUL. *)
Definition text_content (f : field) : list Z := c_str (last (f_chunks f) []).

(** Parser.h: the Fields map, latest assignment first; the first match counts. *)
Definition fields := list (list Z * field).
Definition name_eqb (a b : list Z) : bool := if list_eq_dec Z.eq_dec a b then true else false.
Fixpoint get_field (fs : fields) (n : list Z) : option field :=
  match fs with [] => None | (n', f) :: fs' => if name_eqb n n' then Some f else get_field fs' n end.
(** Fields[name]->AcceptSomeData(data, length). *)
Fixpoint send (fs : fields) (n data : list Z) : fields :=
  match fs with
  | [] => []
  | (n', f) :: fs' =>
      if name_eqb n n' then (n', Field (f_file f) (f_filename f) (f_type f) (f_chunks f ++ [data])) :: fs'
      else (n', f) :: send fs' n data
  end.

(** "Content-Disposition: form-data;", "name=\"", "filename=\"", "Content-Type: ". *)
Definition FORM_DATA : list Z :=
  map Z.of_nat [67; 111; 110; 116; 101; 110; 116; 45; 68; 105; 115; 112; 111; 115; 105; 116; 105; 111; 110; 58; 32;
                102; 111; 114; 109; 45; 100; 97; 116; 97; 59].
Definition NAME : list Z := map Z.of_nat [110; 97; 109; 101; 61; 34].
Definition FILENAME : list Z := map Z.of_nat [102; 105; 108; 101; 110; 97; 109; 101; 61; 34].
Definition CTYPE : list Z := map Z.of_nat [67; 111; 110; 116; 101; 110; 116; 45; 84; 121; 112; 101; 58; 32].
Definition QUOTE : list Z := [34%Z].
Definition CR4 : list Z := [13; 10; 13; 10]%Z.

(** The text between a marker and the next quote; the outer [None]: the marker is not
    there, the inner one: there is no closing quote. *)
Definition quoted (marker headers : list Z) : option (option (list Z)) :=
  match find_from marker headers 0 with
  | None => None
  | Some p =>
      let b := p + length marker in
      match find_from QUOTE headers b with
      | None => Some None
      | Some e => Some (Some (firstn (e - b) (skipn b headers)))
      end
  end.
(** Lines 198-208: the content type; the loop looks for a blank or line break and takes
    the position before it as the end; without one the rest is taken. *)
Fixpoint find_end (s : list Z) (i : nat) : option nat :=
  match s with
  | [] => None
  | c :: s' => if (c =? 32)%Z || (c =? 10)%Z || (c =? 13)%Z then Some i else find_end s' (S i)
  end.
Definition content_type (headers : list Z) : list Z :=
  match find_from CTYPE headers 0 with
  | None => []
  | Some p =>
      let v := skipn (p + 14) headers in
      match find_end v 0 with
      | None => v
      | Some 0 => v                (* the length is (size_t) -1 *)
      | Some (S e) => firstn e v
      end
  end.

(** Lines 160-216: _ParseHeaders; [None]: an exception. *)
Definition parse_headers (headers : list Z) : option (list Z * field) :=
  match find_from FORM_DATA headers 0 with
  | None => None
  | Some _ =>
      match quoted NAME headers with
      | Some (Some name) =>
          match quoted FILENAME headers with
          | None => Some (name, Field false [] [] [])
          | Some None => None
          | Some (Some fn) => Some (name, Field true fn (content_type headers) [])
          end
      | _ => None
      end
  end.

Inductive status := Looking | Headers | Content.
Record parser := Parser { p_data : list Z; p_status : status; p_fields : fields; p_name : list Z }.
(** Lines 13-22. *)
Definition initial : parser := Parser [] Looking [] [].

Section Parser.
Variable boundary : list Z.    (* with the leading "--" *)
Variable max : nat.            (* MaxDataCollectorLength *)

Inductive outcome := Go (p : parser) | Stop (p : parser) | Throw.

(** Lines 81-105, one round: FindStartingBoundaryAndTruncData (258-266),
    WaitForHeadersEndAndParseThem (132-150; the headers end at a NUL),
    ProcessContentOfTheField (108-130). *)
Definition round (p : parser) : outcome :=
  match p_status p with
  | Looking =>
      match find_from boundary (p_data p) 0 with
      | Some n => Go (Parser (skipn (n + length boundary) (p_data p)) Headers (p_fields p) (p_name p))
      | None => Stop p
      end
  | Headers =>
      match find_from CR4 (p_data p) 0 with
      | Some i =>
          match parse_headers (c_str (firstn i (p_data p))) with
          | Some (n, f) => Go (Parser (skipn (i + 4) (p_data p)) Content ((n, f) :: p_fields p) n)
          | None => Throw
          end
      | None => Stop p
      end
  | Content =>
      let pos := find_from boundary (p_data p) 0 in
      let n := match pos with
               | Some i => i - 2
               | None => length (p_data p) - (length boundary + 2)
               end in
      let '(fs, d) := match n with
                      | 0 => (p_fields p, p_data p)
                      | _ => (send (p_fields p) (p_name p) (firstn n (p_data p)), skipn n (p_data p))
                      end in
      match pos with
      | Some _ => Go (Parser d Looking fs (p_name p))
      | None => Stop (Parser d Content fs (p_name p))
      end
  end.

(** Lines 76-106: _ProcessData; [None]: an exception. *)
Fixpoint process (fuel : nat) (p : parser) : option parser :=
  match fuel with
  | 0 => Some p
  | S f => match round p with Go p' => process f p' | Stop p' => Some p' | Throw => None end
  end.

(** Lines 52-74: AcceptSomeData. *)
Definition accept (p : parser) (chunk : list Z) : option parser :=
  let d := p_data p ++ chunk in
  if max <? length d then None
  else process (2 * length d + 2) (Parser d (p_status p) (p_fields p) (p_name p)).
Fixpoint accept_all (p : parser) (chunks : list (list Z)) : option parser :=
  match chunks with
  | [] => Some p
  | c :: cs => match accept p c with Some p' => accept_all p' cs | None => None end
  end.
End Parser.

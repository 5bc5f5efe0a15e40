(** Model of the sessions of the web server: server/session.cpp, server/session_manager.cpp,
    common/guid_generator.cpp and the part of server/psi_request_handler.cpp that selects
    the session.  A std::map is an association list whose first match counts; strings are
    lists of bytes.  The counter of the identifier generator does not overflow. *)
From Coq Require Import List ZArith Bool Arith.
From Verif Require Import M_Web.
Import ListNotations.
Open Scope Z_scope.

Definition str_eqb (a b : list Z) : bool := if list_eq_dec Z.eq_dec a b then true else false.

(** std::map::find. *)
Fixpoint lookup {V} (k : list Z) (m : list (list Z * V)) : option V :=
  match m with
  | [] => None
  | (k', v) :: m' => if str_eqb k k' then Some v else lookup k m'
  end.

(** ** session.cpp *)
Definition data := list (list Z * list Z).
(** Lines 26-35. *)
Definition get_data (d : data) (k : list Z) : list Z := match lookup k d with Some v => v | None => [] end.
(** Lines 13-24. *)
Definition is_data (d : data) (k : list Z) : bool :=
  match lookup k d with Some [] => false | Some _ => true | None => false end.
(** Lines 44-46. *)
Definition set_data (d : data) (k v : list Z) : data := (k, v) :: d.
(** Lines 48-50. *)
Definition clear_data (d : data) (k : list Z) : data := (k, []) :: d.
(** Lines 37-42. *)
Definition get_or_set (d : data) (k v : list Z) : data * list Z :=
  let d' := if is_data d k then d else set_data d k v in (d', get_data d' k).

(** ** guid_generator.cpp *)
(** Decimal digits, least significant first. *)
Fixpoint dec_rev (fuel : nat) (n : Z) : list Z :=
  match fuel with
  | O => []
  | S f => if n <? 10 then [48 + n] else (48 + n mod 10) :: dec_rev f (n / 10)
  end.
(** Lines 68-80: zeroPadNumber. *)
Definition zero_pad (n : Z) : list Z :=
  let digits := rev (dec_rev (S (Z.to_nat n)) n) in
  let result := repeat 48 (4 - length digits) ++ digits in
  skipn (length result - 4) result.
(** Lines 19-33: getGUID with the date; [date] and [random] are what the clock and
    rand() give; [counter] is the value before the call. *)
Definition get_guid (counter : Z) (date random : list Z) : list Z :=
  date ++ [45] ++ zero_pad (counter + 1) ++ [45] ++ random.

(** ** session_manager.cpp *)
Record manager := { sessions : list (list Z * data); current : list Z; counter : Z }.
Definition initial : manager := {| sessions := []; current := []; counter := 0 |}.

(** "PSISESSIONID". *)
Definition IDENT : list Z := [80; 83; 73; 83; 69; 83; 83; 73; 79; 78; 73; 68].
(** Lines 9-17: SessionId; [None]: substr throws. *)
Definition session_id (cookies : list Z) : option (list Z) :=
  match find_from IDENT cookies 0 with
  | None => Some []
  | Some pos =>
      if Nat.ltb (length cookies) (pos + 12 + 1) then None
      else Some (firstn 25 (skipn (pos + 12 + 1) cookies))
  end.
(** Lines 19-21. *)
Definition cookie_header_value (id : list Z) : list Z := IDENT ++ [61] ++ id.
(** Lines 37-44. *)
Definition is_session (m : manager) (id : list Z) : bool :=
  match lookup id (sessions m) with Some _ => true | None => false end.

(** What a Session pointer points to: a map entry, or an object of its own. *)
Inductive pointer := InMap (id : list Z) | Loose (id : list Z).
Definition pointer_id (p : pointer) : list Z := match p with InMap i => i | Loose i => i end.

(** Lines 46-56: getSession; [date], [random]: used if the session does not exist. *)
Definition get_session (date random : list Z) (m : manager) (id : list Z) : manager * pointer :=
  if is_session m id then (m, InMap id)
  else ({| sessions := sessions m; current := current m; counter := counter m + 1 |},
        Loose (get_guid (counter m) date random)).
(** Lines 58-63 and 73-75: newSession; insert does not overwrite; the pointer is to the
    object that was copied into the map. *)
Definition new_session (date random : list Z) (m : manager) : manager * pointer :=
  let id := get_guid (counter m) date random in
  ({| sessions := if is_session m id then sessions m else (id, []) :: sessions m;
      current := current m; counter := counter m + 1 |}, Loose id).
(** Lines 69-71. *)
Definition set_current (m : manager) (id : list Z) : manager :=
  {| sessions := sessions m; current := id; counter := counter m |}.

(** Replacing the data of a session in the map. *)
Fixpoint update (id : list Z) (d : data) (s : list (list Z * data)) : list (list Z * data) :=
  match s with
  | [] => []
  | (i, x) :: s' => if str_eqb id i then (i, d) :: s' else (i, x) :: update id d s'
  end.

(** ** A request *)
Inductive op :=
| OGet (k : list Z) | OIs (k : list Z) | OSet (k v : list Z) | OClear (k : list Z)
| OGetOrSet (k v : list Z).
Inductive output := OutNone | OutBool (b : bool) | OutText (v : list Z).

(** One call of a Session method. *)
Definition data_op (d : data) (o : op) : data * output :=
  match o with
  | OGet k => (d, OutText (get_data d k))
  | OIs k => (d, OutBool (is_data d k))
  | OSet k v => (set_data d k v, OutNone)
  | OClear k => (clear_data d k, OutNone)
  | OGetOrSet k v => let '(d', r) := get_or_set d k v in (d', OutText r)
  end.

(** psi_server.cpp lines 209-211 and 237-239: a call through currentSession(). *)
Definition current_op (date random : list Z) (m : manager) (o : op) : manager * output :=
  let '(m', p) := get_session date random m (current m) in
  match p with
  | InMap id =>
      match lookup id (sessions m') with
      | Some d => let '(d', r) := data_op d o in
                  ({| sessions := update id d' (sessions m'); current := current m'; counter := counter m' |}, r)
      | None => (m', OutNone)
      end
  | Loose _ => (m', snd (data_op [] o))
  end.

(** psi_request_handler.cpp lines 40-54 and 72-75: selecting the session; the results
    are the identifier in use and whether a cookie is sent. *)
Definition begin_request (date random : list Z) (m : manager) (cookies : list Z) :
  option (manager * list Z * bool) :=
  match session_id cookies with
  | None => None
  | Some id =>
      let '(m1, p) := if is_session m id then get_session date random m id else new_session date random m in
      Some (set_current m1 (pointer_id p), pointer_id p, negb (is_session m id))
  end.

Record request := { r_cookies : list Z; r_date : list Z; r_random : list Z; r_ops : list op }.

Fixpoint run_ops (date random : list Z) (m : manager) (os : list op) : manager * list (op * output) :=
  match os with
  | [] => (m, [])
  | o :: os' => let '(m1, r) := current_op date random m o in
                let '(m2, rs) := run_ops date random m1 os' in (m2, (o, r) :: rs)
  end.

(** What one request did: the session, the cookie sent, the calls with their results. *)
Record answer := { a_id : list Z; a_new : bool; a_calls : list (op * output) }.

Definition run_request (m : manager) (r : request) : option (manager * answer) :=
  match begin_request (r_date r) (r_random r) m (r_cookies r) with
  | None => None
  | Some (m1, id, fresh) =>
      let '(m2, calls) := run_ops (r_date r) (r_random r) m1 (r_ops r) in
      Some (m2, {| a_id := id; a_new := fresh; a_calls := calls |})
  end.

(** Requests handled one after the other (one server thread). *)
Fixpoint run (m : manager) (rs : list request) : option (manager * list answer) :=
  match rs with
  | [] => Some (m, [])
  | r :: rs' =>
      match run_request m r with
      | None => None
      | Some (m1, a) =>
          match run m1 rs' with
          | None => None
          | Some (m2, l) => Some (m2, a :: l)
          end
      end
  end.

(** Requests handled by several server threads (server/server.cpp: a pool of threads, no
    lock): the steps of different requests interleave; the thread number is only a label. *)
Inductive step := SBegin (thread : nat) (cookies date random : list Z)
                | SOp (thread : nat) (date random : list Z) (o : op).
Fixpoint run_steps (m : manager) (ss : list step) : option (list (nat * (list Z + output))) :=
  match ss with
  | [] => Some []
  | SBegin t c d r :: ss' =>
      match begin_request d r m c with
      | None => None
      | Some (m1, id, _) =>
          match run_steps m1 ss' with Some l => Some ((t, inl id) :: l) | None => None end
      end
  | SOp t d r o :: ss' =>
      let '(m1, out) := current_op d r m o in
      match run_steps m1 ss' with Some l => Some ((t, inr out) :: l) | None => None end
  end.

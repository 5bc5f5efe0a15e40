(** Specification of UTF-8 and UTF-16 by plain arithmetic (Unicode standard,
    table 3-6), independent of the model. *)
From Coq Require Import List ZArith.
Import ListNotations.
Open Scope Z_scope.

Definition byte (b : Z) : Prop := 0 <= b < 256.

Definition scalar (cp : Z) : Prop :=
  0 <= cp < 0xD800 \/ 0xE000 <= cp <= 0x10FFFF.

Definition enc (cp : Z) : list Z :=
  if cp <? 0x80 then [cp]
  else if cp <? 0x800 then [0xC0 + cp / 64; 0x80 + cp mod 64]
  else if cp <? 0x10000 then
    [0xE0 + cp / 4096; 0x80 + cp / 64 mod 64; 0x80 + cp mod 64]
  else
    [0xF0 + cp / 262144; 0x80 + cp / 4096 mod 64; 0x80 + cp / 64 mod 64;
     0x80 + cp mod 64].

(** [encodes cps l]: the text [l] is the encoding of the scalar values [cps]. *)
Definition encodes (cps : list Z) (l : list Z) : Prop :=
  Forall scalar cps /\ l = flat_map enc cps.
Definition well_formed (l : list Z) : Prop := exists cps, encodes cps l.

(** UTF-16: one unit, or a high and a low surrogate. *)
Definition enc16 (cp : Z) : list Z :=
  if cp <? 0x10000 then [cp]
  else [0xD800 + (cp - 0x10000) / 1024; 0xDC00 + (cp - 0x10000) mod 1024].

(** Number of bytes announced by a lead byte (0: not a lead byte). *)
Definition announced (b : Z) : Z :=
  if b <? 0x80 then 1 else if b <? 0xC0 then 0 else if b <? 0xE0 then 2
  else if b <? 0xF0 then 3 else if b <? 0xF8 then 4 else 0.

(** A text that stops in the middle of an encoded character. *)
Definition cut_short (t : list Z) : Prop :=
  exists lead trails, t = lead :: trails /\
    Forall (fun b => 0x80 <= b < 0xC0) trails /\
    Z.of_nat (length t) < announced lead.

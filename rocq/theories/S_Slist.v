(** What it means that a rule fits a sentence. *)
From Coq Require Import String.
From Coq Require Import List ZArith Bool PeanoNat.
From Verif Require Import M_Slist.
Import ListNotations.
Local Open Scope nat_scope.

(** Symbols of the sentence for the symbols of a rule, each beginning where the one before ends. *)
Inductive chain (um : Z -> list sym) : list Z -> Z -> list sym -> Z -> Prop :=
  | chain_nil f : chain um [] f [] f
  | chain_cons a rhs t l e : In t (um a) -> chain um rhs (y_to t) l e -> chain um (a :: rhs) (y_from t) (t :: l) e.
Definition differs (t u : sym) : Prop := y_label t <> y_label u \/ y_from t <> y_from u \/ y_to t <> y_to u.
(** The right side covers the left side exactly; a rule is not applied to itself. *)
Definition fits (um : Z -> list sym) (rhs : list Z) (lhs : sym) (l : list sym) : Prop :=
  chain um rhs (y_from lhs) l (y_to lhs) /\ forall t, hd_error l = Some t -> differs t lhs.
(** Symbols cover something. *)
Definition wide (um : Z -> list sym) (rhs : list Z) : Prop := forall a t, In a rhs -> In t (um a) -> (y_from t < y_to t)%Z.
(** The places of nonterminals. *)
Definition nt_places (l : list sym) : list nat := filter (fun i => match nth_error l i with Some t => y_nt t | None => false end) (seq 0 (length l)).

(** Facts about ordered sets. *)
From Coq Require Import List ZArith Bool Sorted Lia.
From Verif Require Import M_OrdSet.
Import ListNotations.
Local Open Scope Z_scope.

(** A strict total order. *)
Record strict_total {A} (ltb : A -> A -> bool) : Prop := {
  st_irrefl : forall x, ltb x x = false;
  st_trans : forall x y z, ltb x y = true -> ltb y z = true -> ltb x z = true;
  st_total : forall x y, ltb x y = false -> ltb y x = false -> x = y
}.

Definition increasing {A} (ltb : A -> A -> bool) (s : list A) : Prop :=
  StronglySorted (fun x y => ltb x y = true) s.

Section OrdSet.
Context {A : Type} (ltb : A -> A -> bool) (H : strict_total ltb).

Lemma in_set_insert x y s : In y (set_insert ltb x s) <-> y = x \/ In y s.
Proof.
  induction s as [|z s IH]; cbn [set_insert].
  - cbn. intuition.
  - destruct (ltb x z) eqn:E1; [cbn; intuition|].
    destruct (ltb z x) eqn:E2.
    + cbn [In]. rewrite IH. intuition.
    + assert (x = z) by (apply (st_total _ H); assumption). subst. cbn. intuition.
Qed.
Lemma increasing_insert x s : increasing ltb s -> increasing ltb (set_insert ltb x s).
Proof.
  unfold increasing. induction 1 as [|z s Hs IH Hz]; cbn [set_insert].
  - repeat constructor.
  - destruct (ltb x z) eqn:E1.
    + constructor; [constructor; assumption|]. constructor; [assumption|].
      apply (Forall_impl _ (fun y Hy => st_trans _ H _ _ _ E1 Hy) Hz).
    + destruct (ltb z x) eqn:E2; [|constructor; assumption].
      constructor; [exact IH|]. apply Forall_forall. intros y Hy. apply in_set_insert in Hy as [->|Hy]; [assumption|].
      rewrite Forall_forall in Hz. auto.
Qed.
Lemma increasing_nodup s : increasing ltb s -> NoDup s.
Proof.
  induction 1 as [|z s Hs IH Hz]; constructor; [|assumption].
  intros Hin. rewrite Forall_forall in Hz. apply Hz in Hin. rewrite (st_irrefl _ H) in Hin. discriminate.
Qed.
(** The elements determine the list. *)
Lemma increasing_unique s : forall t, increasing ltb s -> increasing ltb t ->
  (forall x, In x s <-> In x t) -> s = t.
Proof.
  induction s as [|x s IH]; intros [|y t] Hs Ht E; [reflexivity| | |].
  - exfalso. apply (E y). now left.
  - exfalso. apply (E x). now left.
  - inversion Hs as [|? ? Hs' Hx]; inversion Ht as [|? ? Ht' Hy]; subst.
    rewrite Forall_forall in Hx, Hy.
    assert (x = y).
    { destruct (proj1 (E x) (or_introl eq_refl)) as [->|Hin]; [reflexivity|].
      destruct (proj2 (E y) (or_introl eq_refl)) as [->|Hin']; [reflexivity|].
      exfalso. apply Hy in Hin. apply Hx in Hin'. pose proof (st_trans _ H _ _ _ Hin Hin') as C.
      rewrite (st_irrefl _ H) in C. discriminate. }
    subst y. f_equal. apply IH; [assumption|assumption|]. intros z. split; intros Hz.
    + destruct (proj1 (E z) (or_intror Hz)) as [->|]; [|assumption].
      apply Hx in Hz. rewrite (st_irrefl _ H) in Hz. discriminate.
    + destruct (proj2 (E z) (or_intror Hz)) as [->|]; [|assumption].
      apply Hy in Hz. rewrite (st_irrefl _ H) in Hz. discriminate.
Qed.
End OrdSet.

Lemma str_ltb_strict : strict_total str_ltb.
Proof.
  constructor.
  - induction x as [|a x IH]; [reflexivity|]. cbn. rewrite Z.ltb_irrefl. exact IH.
  - induction x as [|a x IH]; intros [|b y] [|c z]; cbn; try discriminate; try reflexivity.
    destruct (Z.ltb_spec a b), (Z.ltb_spec b c), (Z.ltb_spec a c); try reflexivity; try lia.
    all: intros K1 K2.
    all: destruct (Z.ltb_spec b a); try discriminate; destruct (Z.ltb_spec c b); try discriminate;
      destruct (Z.ltb_spec c a); try lia; try reflexivity; try (now apply (IH y z)).
  - induction x as [|a x IH]; intros [|b y]; cbn; try discriminate; try reflexivity.
    destruct (Z.ltb_spec a b); [discriminate|]. destruct (Z.ltb_spec b a); [discriminate|].
    intros H1 H2. assert (a = b) by lia. subst. f_equal. now apply IH.
Qed.

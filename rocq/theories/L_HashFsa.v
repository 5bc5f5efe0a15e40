(** Lemmas on the words of an acyclic automaton and on their numbering. *)
From Coq Require Import List ZArith Bool Sorted Permutation Lia PeanoNat.
From Verif Require Import M_OrdSet L_OrdSet M_Fsa M_HashFsa L_BinFsa L_Daciuk.
Import ListNotations.
Local Open Scope nat_scope.

(** Specification: words spelt by arcs. *)
Inductive spelt (f : view) : nat -> list symbol -> nat -> Prop :=
  | spelt_nil p : spelt f p [] p
  | spelt_cons p a q w r : In (a, q) (v_arcs f p) -> spelt f q w r -> spelt f p (a :: w) r.
Definition in_lang (f : view) (p : nat) (w : list symbol) : Prop := exists q, spelt f p w q /\ v_is_end f q = true.
Definition acyclic (f : view) : Prop := forall p w, w <> [] -> ~ spelt f p w p.
Definition closed_view (f : view) : Prop := forall p x, p < v_size f -> In x (v_arcs f p) -> snd x < v_size f.
Definition sorted_view (f : view) : Prop := forall p, inc (v_arcs f p).

Section Words.
Context (f : view) (HI : sorted_view f) (HC : closed_view f) (HA : acyclic f).

(** ** Depth *)
Fixpoint goes (n p : nat) : Prop :=
  match n with
  | O => True
  | S n => exists x, In x (v_arcs f p) /\ goes n (snd x)
  end.
Inductive chain : nat -> list nat -> Prop :=
  | chain_nil p : chain p []
  | chain_cons p x l : In x (v_arcs f p) -> chain (snd x) l -> chain p (snd x :: l).
Lemma goes_chain n : forall p, goes n p -> exists l, chain p l /\ length l = n.
Proof.
  induction n as [|n IH]; intros p H; [exists []; split; [constructor|reflexivity]|].
  destruct H as (x & Hx & H). destruct (IH _ H) as (l & K & E). exists (snd x :: l). split; [now constructor|cbn; lia].
Qed.
Lemma chain_spelt p l : chain p l -> forall l1 q l2, l = l1 ++ q :: l2 -> exists w, w <> [] /\ spelt f p w q.
Proof.
  induction 1 as [p|p [a d] l Hx H IH]; intros l1 q l2 E; [destruct l1; discriminate|]. cbn [snd] in *.
  destruct l1 as [|y l1]; injection E as E1 E2.
  - subst q. exists [a]. split; [discriminate|]. econstructor; [exact Hx|constructor].
  - destruct (IH l1 q l2 E2) as (w & _ & K). exists (a :: w). split; [discriminate|]. econstructor; [exact Hx|exact K].
Qed.
Lemma chain_nodup p l : chain p l -> NoDup (p :: l).
Proof.
  intros H. assert (G : forall p l, chain p l -> ~ In p l).
  { intros p' l' K I. apply in_split in I as (l1 & l2 & ->). destruct (chain_spelt _ _ K l1 p' l2 eq_refl) as (w & N & S). exact (HA p' w N S). }
  induction H as [p|p x l Hx H IH]; [constructor; [intros []|constructor]|].
  constructor; [|exact IH]. apply (G p). now constructor.
Qed.
Lemma chain_bound p l : chain p l -> p < v_size f -> forall q, In q (p :: l) -> q < v_size f.
Proof.
  induction 1 as [p|p x l Hx H IH]; intros Hp q; cbn [In]; [intros [<-|[]]; assumption|].
  intros [<-|Hq]; [assumption|]. apply IH; [now apply (HC p)|]. exact Hq.
Qed.
Lemma goes_stops p : p < v_size f -> ~ goes (v_size f) p.
Proof.
  intros Hp H. destruct (goes_chain _ _ H) as (l & K & E). pose proof (chain_nodup _ _ K) as N.
  pose proof (NoDup_incl_length N (l' := seq 0 (v_size f))) as L. cbn [length] in L. rewrite seq_length in L.
  enough (S (length l) <= v_size f) by lia. apply L. intros q Hq. apply in_seq. pose proof (chain_bound _ _ K Hp q Hq). lia.
Qed.
Lemma goes_step n p x : ~ goes (S n) p -> In x (v_arcs f p) -> ~ goes n (snd x).
Proof. intros H Hx K. apply H. now exists x. Qed.

(** ** The words of a state *)
Fixpoint enum (n p : nat) : list (list symbol) :=
  (if v_is_end f p then [[]] else []) ++
  match n with
  | O => []
  | S n => flat_map (fun x => map (cons (fst x)) (enum n (snd x))) (v_arcs f p)
  end.
Lemma enum_stable n : forall p m, ~ goes (S n) p -> n <= m -> enum m p = enum n p.
Proof.
  induction n as [|n IH]; intros p m H L.
  - destruct m as [|m]; [reflexivity|]. cbn [enum]. destruct (v_arcs f p) as [|x l] eqn:E; [reflexivity|].
    exfalso. apply H. exists x. rewrite E. split; [now left|exact I].
  - destruct m as [|m]; [lia|]. cbn [enum]. f_equal. rewrite !flat_map_concat_map. f_equal. apply map_ext_in. intros x Hx. f_equal.
    apply IH; [now apply (goes_step _ p)|lia].
Qed.
Definition words_of (p : nat) : list (list symbol) := enum (v_size f) p.
Lemma words_eq p : p < v_size f -> words_of p = (if v_is_end f p then [[]] else []) ++
  flat_map (fun x => map (cons (fst x)) (words_of (snd x))) (v_arcs f p).
Proof.
  intros Hp. unfold words_of at 1. pose proof (goes_stops p Hp) as H. rewrite <- (enum_stable (v_size f) p (S (v_size f))); [reflexivity| |lia].
  intros (x & Hx & K). assert (Hd : snd x < v_size f) by now apply (HC p). now apply (goes_stops _ Hd).
Qed.
Lemma words_ind (P : nat -> Prop) : (forall p, p < v_size f -> (forall x, In x (v_arcs f p) -> P (snd x)) -> P p) -> forall p, p < v_size f -> P p.
Proof.
  intros H. assert (G : forall n p, p < v_size f -> ~ goes n p -> P p).
  { induction n as [|n IH]; intros p Hp Hg; [exfalso; now apply Hg|]. apply H; [assumption|]. intros x Hx. apply IH; [now apply (HC p)|now apply (goes_step _ p)]. }
  intros p Hp. apply (G _ p Hp (goes_stops p Hp)).
Qed.
Lemma in_words p : p < v_size f -> forall w, In w (words_of p) <-> in_lang f p w.
Proof.
  revert p. apply (words_ind (fun p => forall w, In w (words_of p) <-> in_lang f p w)). intros p Hp IH w.
  rewrite (words_eq p Hp), in_app_iff, in_flat_map. split.
  - intros [H|(x & Hx & H)].
    + destruct (v_is_end f p) eqn:E; [|now destruct H]. destruct H as [<-|[]]. exists p. split; [constructor|assumption].
    + apply in_map_iff in H as (v & <- & H). apply (IH x Hx) in H as (q & K1 & K2). exists q. split; [|assumption].
      destruct x as [a d]. econstructor; [exact Hx|assumption].
  - intros (q & K1 & K2). inversion K1 as [|? a d v ? Hx K]; subst.
    + left. rewrite K2. now left.
    + right. exists (a, d). split; [assumption|]. apply in_map. apply (IH (a, d) Hx). now exists q.
Qed.
Lemma sorted_app {A} (ltb : A -> A -> bool) l1 l2 : increasing ltb l1 -> increasing ltb l2 ->
  (forall x y, In x l1 -> In y l2 -> ltb x y = true) -> increasing ltb (l1 ++ l2).
Proof.
  unfold increasing. induction 1 as [|x l1 Hl IH Hx]; intros H2 K; cbn [app]; [assumption|]. constructor.
  - apply IH; [assumption|]. intros y z Hy. apply K. now right.
  - rewrite Forall_forall in *. intros y Hy. apply in_app_iff in Hy as [Hy|Hy]; [now apply Hx|]. apply K; [now left|assumption].
Qed.
Lemma words_sorted p : p < v_size f -> increasing str_ltb (words_of p).
Proof.
  revert p. apply (words_ind (fun p => increasing str_ltb (words_of p))). intros p Hp IH. rewrite (words_eq p Hp).
  apply sorted_app.
  - destruct (v_is_end f p); repeat constructor.
  - pose proof (HI p) as HIp. unfold inc in HIp. revert IH. induction HIp as [|[a d] l Hl IHl Hx]; intros IH; cbn [flat_map]; [constructor|]. apply sorted_app.
    + specialize (IH (a, d) (or_introl eq_refl)). cbn [fst snd] in *. unfold increasing in *. clear -IH.
      induction IH as [|w l Hl IHl Hw]; cbn [map]; constructor; [assumption|]. rewrite Forall_forall in *. intros y Hy.
      apply in_map_iff in Hy as (v & <- & Hv). cbn. rewrite Z.ltb_irrefl. now apply Hw.
    + apply IHl. intros x Hx'. apply IH. now right.
    + intros x y Kx Ky. apply in_map_iff in Kx as (v & <- & _). apply in_flat_map in Ky as ([a' d'] & Ky & Ky'). apply in_map_iff in Ky' as (v' & <- & _).
      rewrite Forall_forall in Hx. apply Hx in Ky. cbn [fst] in *. cbn. now rewrite (proj2 (Z.ltb_lt a a') Ky).
  - intros x y Kx Ky. apply in_flat_map in Ky as (z & _ & Ky). apply in_map_iff in Ky as (v & <- & _).
    destruct (v_is_end f p); [destruct Kx as [<-|[]]; reflexivity|now destruct Kx].
Qed.

(** ** Counting *)
Definition cnt (p : nat) : nat := length (words_of p).
Definition eb (p : nat) : nat := if v_is_end f p then 1 else 0.
Definition total (l : list arc) : nat := list_sum (map (fun x => cnt (snd x)) l).
Lemma total_app l k : total (l ++ k) = total l + total k.
Proof. unfold total. now rewrite map_app, list_sum_app. Qed.
Lemma cnt_eq p : p < v_size f -> cnt p = eb p + total (v_arcs f p).
Proof.
  intros Hp. unfold cnt at 1. rewrite (words_eq p Hp), app_length. f_equal; [unfold eb; now destruct (v_is_end f p)|].
  unfold total, cnt. induction (v_arcs f p) as [|x l IH]; cbn; [reflexivity|]. now rewrite app_length, map_length, IH.
Qed.
(** Reachable states have no more words. *)
Definition reach (p q : nat) : Prop := exists w, spelt f p w q.
Lemma reach_refl p : reach p p.
Proof. exists []. constructor. Qed.
Lemma reach_step p x q : In x (v_arcs f p) -> reach (snd x) q -> reach p q.
Proof. intros H (w & K). destruct x as [a d]. exists (a :: w). econstructor; [exact H|exact K]. Qed.
Lemma reach_bound p q : reach p q -> p < v_size f -> q < v_size f.
Proof. intros (w & H). induction H as [p|p a d w r Hx H IH]; intros Hp; [assumption|]. apply IH. now apply (HC p) in Hx. Qed.
Lemma total_in l x : In x l -> cnt (snd x) <= total l.
Proof. intros H. apply in_split in H as (l1 & l2 & ->). rewrite total_app. unfold total. cbn. lia. Qed.
Lemma reach_cnt p q : reach p q -> p < v_size f -> cnt q <= cnt p.
Proof.
  intros (w & H). induction H as [p|p a d w r Hx H IH]; intros Hp; [lia|]. rewrite (cnt_eq p Hp).
  pose proof (total_in _ _ Hx) as K. cbn [snd] in K. assert (Hd : d < v_size f) by now apply (HC p) in Hx. specialize (IH Hd). lia.
Qed.
Lemma no_return p x : In x (v_arcs f p) -> ~ reach (snd x) p.
Proof. intros H (w & K). destruct x as [a d]. apply (HA p (a :: w)); [discriminate|]. econstructor; [exact H|exact K]. Qed.

(** ** The position of a word *)
Lemma nth_flat {X} (g : X -> list (list symbol)) l : forall k w, nth_error (flat_map g l) k = Some w ->
  exists i x k', nth_error l i = Some x /\ nth_error (g x) k' = Some w /\ k = length (flat_map g (firstn i l)) + k'.
Proof.
  induction l as [|x l IH]; intros k w H; cbn [flat_map] in H; [destruct k; discriminate|].
  destruct (Nat.lt_ge_cases k (length (g x))) as [L|L].
  - rewrite nth_error_app1 in H by assumption. exists 0, x, k. now repeat split.
  - rewrite nth_error_app2 in H by assumption. destruct (IH _ _ H) as (i & y & k' & K1 & K2 & K3). exists (S i), y, k'.
    split; [assumption|]. split; [assumption|]. cbn [firstn flat_map]. rewrite app_length. lia.
Qed.
Lemma flat_total l : length (flat_map (fun x => map (cons (fst x)) (words_of (snd x))) l) = total l.
Proof. unfold total, cnt. induction l as [|x l IH]; cbn; [reflexivity|]. now rewrite app_length, map_length, IH. Qed.
Lemma word_at p k w : p < v_size f -> nth_error (words_of p) k = Some w ->
  (w = [] /\ k = 0 /\ v_is_end f p = true) \/
  exists a v i q k', w = a :: v /\ nth_error (v_arcs f p) i = Some (a, q) /\ nth_error (words_of q) k' = Some v /\
    k = eb p + total (firstn i (v_arcs f p)) + k'.
Proof.
  intros Hp. rewrite (words_eq p Hp). unfold eb. intros H.
  assert (G : forall k, nth_error (flat_map (fun x => map (cons (fst x)) (words_of (snd x))) (v_arcs f p)) k = Some w ->
    exists a v i q k', w = a :: v /\ nth_error (v_arcs f p) i = Some (a, q) /\ nth_error (words_of q) k' = Some v /\
    k = total (firstn i (v_arcs f p)) + k').
  { intros k0 K. apply nth_flat in K as (i & [a q] & k' & K1 & K2 & K3). cbn [fst snd] in *.
    rewrite nth_error_map in K2. destruct (nth_error (words_of q) k') as [v|] eqn:E; [|discriminate]. injection K2 as <-.
    exists a, v, i, q, k'. rewrite flat_total in K3. now repeat split. }
  destruct (v_is_end f p).
  - destruct k as [|k]; [left; injection H as <-; now repeat split|]. right. cbn [app nth_error] in H.
    destruct (G _ H) as (a & v & i & q & k' & E1 & E2 & E3 & ->). exists a, v, i, q, k'. repeat split; assumption.
  - right. cbn [app] in H. destruct (G _ H) as (a & v & i & q & k' & E1 & E2 & E3 & ->). exists a, v, i, q, k'. repeat split; assumption.
Qed.
Lemma first_from_at p i a q : nth_error (v_arcs f p) i = Some (a, q) -> first_from a (v_arcs f p) = i.
Proof.
  pose proof (HI p) as H. unfold inc in H. revert i. induction H as [|x l Hl IH Hx]; intros [|i] E; try discriminate; cbn [first_from].
  - injection E as ->. cbn. now rewrite Z.ltb_irrefl.
  - cbn in E. rewrite (IH i E). rewrite Forall_forall in Hx. apply nth_error_In in E. apply Hx in E. cbn in E. now rewrite (proj2 (Z.ltb_lt _ _) E).
Qed.
End Words.

(** ** The numbering *)
Section Numbering.
Context (f : view) (HI : sorted_view f) (HC : closed_view f) (HA : acyclic f).
Notation total := (total f). Notation cnt := (cnt f). Notation eb := (eb f). Notation reach := (reach f).
Definition prefix_sums (s : nat) : list Z :=
  map (fun i => Z.of_nat (total (firstn i (v_arcs f s)))) (seq 0 (length (v_arcs f s))).
Definition c_wts (c : counts) (s : nat) : list Z := nth s (c_weights c) [].
Definition done (c : counts) (t : nat) : Prop := c_get c t = Z.of_nat (cnt t) /\ c_wts c t = prefix_sums t.
Definition same_at (c c' : counts) (t : nat) : Prop := c_get c' t = c_get c t /\ c_wts c' t = c_wts c t.
Definition shape (c : counts) : Prop :=
  length (c_counts c) = v_size f /\ length (c_weights c) = v_size f /\ forall t, t < v_size f -> length (c_wts c t) = length (v_arcs f t).
Definition fresh (c : counts) (s : nat) : Prop := forall t, reach s t -> c_get c t = 0%Z \/ forall t', reach t t' -> done c t'.
Definition small31 (n : nat) : Prop := (Z.of_nat n < 2 ^ 31)%Z.

Lemma same_done c c' t : same_at c c' t -> done c t -> done c' t.
Proof. intros [E1 E2] [K1 K2]. split; congruence. Qed.
Lemma get_set_same c s z : shape c -> s < v_size f -> c_get (c_set c s z) s = z.
Proof. intros (L & _) H. unfold c_get, c_set. cbn. rewrite nth_upd by lia. now rewrite Nat.eqb_refl. Qed.
Lemma same_set c s z t : shape c -> s < v_size f -> t <> s -> same_at c (c_set c s z) t.
Proof. intros (L & _) H N. split; [|reflexivity]. unfold c_get, c_set. cbn. rewrite nth_upd by lia. destruct (Nat.eqb_spec t s); [contradiction|reflexivity]. Qed.
Lemma same_weight c s i z t : shape c -> s < v_size f -> t <> s -> same_at c (c_weight c s i z) t.
Proof. intros (_ & L & _) H N. split; [reflexivity|]. unfold c_wts, c_weight. cbn. rewrite nth_upd by lia. destruct (Nat.eqb_spec t s); [contradiction|reflexivity]. Qed.
Lemma wts_weight c s i z : shape c -> s < v_size f -> c_wts (c_weight c s i z) s = update i (fun _ => z) (c_wts c s).
Proof. intros (_ & L & _) H. unfold c_wts, c_weight. cbn. rewrite nth_upd by lia. now rewrite Nat.eqb_refl. Qed.
Lemma shape_set c s z : shape c -> shape (c_set c s z).
Proof. intros (L1 & L2 & L3). unfold c_set. split; [cbn; now rewrite update_len|]. split; [exact L2|exact L3]. Qed.
Lemma shape_weight c s i z : shape c -> s < v_size f -> shape (c_weight c s i z).
Proof.
  intros Sh H. assert (Sh' := Sh). destruct Sh' as (L1 & L2 & L3). split; [exact L1|]. split; [cbn; now rewrite update_len|].
  intros t Ht. destruct (Nat.eq_dec t s) as [->|N].
  - rewrite (wts_weight c s i z Sh H), update_len. now apply L3.
  - rewrite (proj2 (same_weight c s i z t Sh H N)). now apply L3.
Qed.
Lemma small_w32 n : small31 n -> w32 (Z.of_nat n) = Z.of_nat n.
Proof. unfold small31, w32. intros H. apply Z.mod_small. lia. Qed.
Lemma small_w64 z : (0 <= z < 2 ^ 31)%Z -> w64 z = z.
Proof. unfold w64. intros H. apply Z.mod_small. lia. Qed.
Lemma small_s32 z : (- 2 ^ 31 <= z < 2 ^ 31)%Z -> s32 z = z.
Proof.
  unfold s32. intros H. destruct (Z.lt_ge_cases z 0) as [L|L].
  - replace (z mod 2 ^ 32)%Z with (z + 2 ^ 32)%Z; [destruct (Z.ltb_spec (z + 2 ^ 32) (2 ^ 31)); lia|].
    symmetry. rewrite <- (Z_mod_plus_full z 1). rewrite Z.mul_1_l. apply Z.mod_small. lia.
  - rewrite Z.mod_small by lia. destruct (Z.ltb_spec z (2 ^ 31)); lia.
Qed.
Lemma update_firstn {X} i (x : X) : forall l, i < length l -> firstn (S i) (update i (fun _ => x) l) = firstn i l ++ [x].
Proof. induction i as [|i IH]; intros [|y l] H; cbn in *; try lia; [reflexivity|]. f_equal. apply (IH l). lia. Qed.
Lemma firstn_seq' n : forall a m, firstn n (seq a m) = seq a (Nat.min n m).
Proof. induction n as [|n IH]; intros a [|m]; cbn [firstn seq Nat.min]; try reflexivity. now rewrite IH. Qed.
Lemma prefix_step s i : i < length (v_arcs f s) -> firstn (S i) (prefix_sums s) = firstn i (prefix_sums s) ++ [Z.of_nat (total (firstn i (v_arcs f s)))].
Proof.
  intros H. unfold prefix_sums. rewrite !firstn_map, !firstn_seq', !Nat.min_l by lia. rewrite seq_S, map_app. reflexivity.
Qed.
Section Wrap.
Context (wrap : Z -> Z) (small_wrap : forall z, (0 <= z < 2 ^ 31)%Z -> wrap z = z).
Lemma number_arcs_spec (rec : nat -> counts -> option counts) s c0 :
  s < v_size f -> small31 (cnt s) ->
  (forall x c, In x (v_arcs f s) -> shape c -> fresh c (snd x) ->
     exists c', rec (snd x) c = Some c' /\ shape c' /\ (forall t, reach (snd x) t -> done c' t) /\
       (forall t, (reach (snd x) t /\ done c' t) \/ same_at c c' t)) ->
  forall l2 l1 c, v_arcs f s = l1 ++ l2 -> shape c -> c_get c s = Z.of_nat (total l1) ->
    firstn (length l1) (c_wts c s) = firstn (length l1) (prefix_sums s) ->
    (forall x t, In x l1 -> reach (snd x) t -> done c t) ->
    (forall t, t <> s -> (reach s t /\ done c t) \/ same_at c0 c t) ->
    (forall x, In x l2 -> fresh c (snd x)) ->
    exists c', number_arcs wrap rec s (length l1) l2 c = Some c' /\ shape c' /\ c_get c' s = Z.of_nat (total (v_arcs f s)) /\
      c_wts c' s = prefix_sums s /\ (forall x t, In x (v_arcs f s) -> reach (snd x) t -> done c' t) /\
      (forall t, t <> s -> (reach s t /\ done c' t) \/ same_at c0 c' t).
Proof.
  intros Hs Sm Hrec. induction l2 as [|[a q] l2 IH]; intros l1 c E Sh Hg Hw Hd Ho Hf; cbn [number_arcs].
  - rewrite app_nil_r in E. exists c. split; [reflexivity|]. rewrite E. split; [assumption|]. split; [assumption|]. split; [|split; assumption].
    rewrite firstn_all2 in Hw; [|destruct Sh as (_ & _ & L3); rewrite (L3 s Hs), E; lia].
    rewrite firstn_all2 in Hw; [assumption|]. unfold prefix_sums. rewrite map_length, seq_length, E. lia.
  - assert (Hx : In (a, q) (v_arcs f s)) by (rewrite E; apply in_app_iff; right; now left).
    assert (Nq : forall t, reach q t -> t <> s) by (intros t Ht ->; now apply (no_return f HA s (a, q) Hx)).
    assert (Sl : small31 (total l1 + cnt q)).
    { unfold small31 in *. rewrite (cnt_eq f HC HA s Hs), E, total_app in Sm. unfold L_HashFsa.total at 2 in Sm. cbn [map list_sum fold_right snd] in Sm. lia. }
    set (c1 := c_weight c s (length l1) (w32 (c_get c s))).
    assert (Sh1 : shape c1) by now apply shape_weight.
    assert (S1 : forall t, t <> s -> same_at c c1 t) by (intros t N; now apply same_weight).
    assert (F1 : fresh c1 q).
    { intros t Ht. destruct (Hf (a, q) (or_introl eq_refl) t Ht) as [K|K]; [left; now rewrite (proj1 (S1 t (Nq t Ht)))|].
      right. intros t' Ht'. apply (same_done c); [|now apply K]. apply S1, Nq. destruct Ht as (w & Ht). destruct Ht' as (w' & Ht').
      exists (w ++ w'). clear -Ht Ht'. induction Ht as [p|p a d w r Hx H IH]; [assumption|]. cbn. econstructor; [exact Hx|now apply IH]. }
    destruct (Hrec (a, q) c1 Hx Sh1 F1) as (c2 & E2 & Sh2 & D2 & O2). cbn [snd] in *. rewrite E2.
    assert (Ss : same_at c1 c2 s) by (destruct (O2 s) as [[K _]|K]; [exfalso; now apply (Nq s K)|assumption]).
    assert (G2 : c_get c2 s = Z.of_nat (total l1)) by (rewrite (proj1 Ss); exact Hg).
    assert (Gq : c_get c2 q = Z.of_nat (cnt q)) by apply (D2 q (reach_refl f q)).
    set (c3 := c_set c2 s (wrap (c_get c2 s + c_get c2 q)%Z)).
    assert (S3 : forall t, t <> s -> same_at c2 c3 t) by (intros t N; now apply same_set).
    assert (K12 : forall t, t <> s -> done c t -> done c3 t).
    { intros t N K. apply (same_done c2); [now apply S3|]. destruct (O2 t) as [[_ K']|K']; [assumption|]. apply (same_done c1); [assumption|].
      apply (same_done c); [now apply S1|assumption]. }
    replace (S (length l1)) with (length (l1 ++ [(a, q)])) by (rewrite app_length; cbn; lia).
    apply IH.
    + rewrite <- app_assoc. exact E.
    + now apply shape_set.
    + unfold c3. rewrite get_set_same by assumption. rewrite G2, Gq, total_app. unfold L_HashFsa.total at 3. cbn [map list_sum fold_right snd].
      rewrite small_wrap; [lia|]. unfold small31 in Sl. lia.
    + rewrite app_length. cbn [length]. rewrite Nat.add_1_r. unfold c3. change (c_wts (c_set c2 s _) s) with (c_wts c2 s).
      assert (Ll : length l1 < length (v_arcs f s)) by (rewrite E, app_length; cbn; lia).
      rewrite (proj2 Ss). unfold c1. rewrite wts_weight by assumption. rewrite update_firstn by (destruct Sh as (_ & _ & L3); rewrite (L3 s Hs); exact Ll).
      rewrite Hw, (prefix_step s (length l1) Ll). f_equal. f_equal. rewrite Hg, small_w32 by (unfold small31 in *; lia).
      rewrite E, firstn_app, Nat.sub_diag, firstn_all, firstn_O, app_nil_r. reflexivity.
    + intros x t Hx' Ht. assert (Nt : t <> s).
      { intros ->. apply (no_return f HA s x); [|assumption]. rewrite E. apply in_app_iff in Hx' as [K|[<-|[]]]; apply in_app_iff; [now left|right; now left]. }
      apply in_app_iff in Hx' as [K|[<-|[]]]; [apply K12; [assumption|now apply (Hd x)]|]. apply (same_done c2); [now apply S3|now apply D2].
    + intros t Nt. destruct (O2 t) as [[K1 K2]|K].
      * left. split; [now apply (reach_step f s (a, q))|]. apply (same_done c2); [now apply S3|assumption].
      * assert (K' : same_at c c3 t).
        { destruct (S1 t Nt) as [X1 X2]. destruct K as [Y1 Y2]. destruct (S3 t Nt) as [Z1 Z2]. split; congruence. }
        destruct (Ho t Nt) as [[K1 K2]|K1]; [left; split; [assumption|now apply (same_done c)]|]. right.
        destruct K1, K'. split; congruence.
    + intros x Hx' t Ht. assert (Hxs : In x (v_arcs f s)) by (rewrite E; apply in_app_iff; right; now right).
      assert (Tr : forall u v, reach u v -> forall y, reach v y -> reach u y).
      { clear. intros u v (w & H) y (w' & H'). exists (w ++ w'). induction H as [p|p a d w r Hx H IH]; [assumption|]. cbn. econstructor; [exact Hx|now apply IH]. }
      assert (Nt : forall t', reach (snd x) t' -> t' <> s) by (intros t' K ->; now apply (no_return f HA s x Hxs)).
      destruct (O2 t) as [[K1 K2]|K].
      * right. intros t' Ht'. apply (same_done c2); [apply S3, Nt; now apply (Tr _ t)|]. apply D2. now apply (Tr q t).
      * destruct (Hf x (or_intror Hx') t Ht) as [K0|K0].
        -- left. rewrite (proj1 (S3 t (Nt t Ht))), (proj1 K), (proj1 (S1 t (Nt t Ht))). assumption.
        -- right. intros t' Ht'. apply K12; [apply Nt; now apply (Tr _ t)|now apply K0].
Qed.
Lemma number_words_spec : forall n s c, s < v_size f -> ~ goes f n s -> small31 (cnt s) -> shape c -> fresh c s ->
  exists c', number_words wrap n f s c = Some c' /\ shape c' /\ (forall t, reach s t -> done c' t) /\
    (forall t, (reach s t /\ done c' t) \/ same_at c c' t).
Proof.
  induction n as [|n IH]; intros s c Hs Hg Sm Sh Hf; [exfalso; now apply Hg|]. cbn [number_words].
  destruct (Z.eqb_spec (c_get c s) 0) as [Ez|Nz].
  - destruct (number_arcs_spec (number_words wrap n f) s c Hs Sm) with (l2 := v_arcs f s) (l1 := @nil arc) (c := c) as (c1 & E1 & Sh1 & G1 & W1 & D1 & O1).
    + intros x c1 Hx Sh1 Hf1. assert (Hd : snd x < v_size f) by now apply (HC s). apply IH; [assumption|now apply (goes_step f n s)| |assumption|assumption].
      unfold small31 in *. pose proof (reach_cnt f HC HA s (snd x) (reach_step f s x _ Hx (reach_refl f _)) Hs). lia.
    + reflexivity.
    + assumption.
    + exact Ez.
    + reflexivity.
    + intros x t [].
    + intros t _. right. now split.
    + intros x Hx t Ht. apply Hf. now apply (reach_step f s x).
    + cbn [length] in E1. rewrite E1. eexists. split; [reflexivity|].
      set (c2 := if v_is_end f s then _ else c1).
      assert (Sh2 : shape c2) by (unfold c2; destruct (v_is_end f s); [now apply shape_set|assumption]).
      assert (S2 : forall t, t <> s -> same_at c1 c2 t) by (intros t N; unfold c2; destruct (v_is_end f s); [now apply same_set|now split]).
      assert (Ds : done c2 s).
      { pose proof (cnt_eq f HC HA s Hs) as Ec. unfold L_HashFsa.eb in Ec. unfold c2, small31 in *. destruct (v_is_end f s).
        - split; [|exact W1]. rewrite get_set_same by assumption. rewrite G1, Ec. rewrite small_wrap; lia.
        - split; [|exact W1]. rewrite G1, Ec. reflexivity. }
      split; [assumption|].
      assert (Dr : forall t, reach s t -> done c2 t).
      { intros t (w & Ht). inversion Ht as [|? a d v ? Hx Ht']; subst; [assumption|]. apply (same_done c1).
        - apply S2. intros ->. apply (no_return f HA s (a, d) Hx). now exists v.
        - apply (D1 (a, d) t Hx). now exists v. }
      split; [assumption|]. intros t. destruct (Nat.eq_dec t s) as [->|N]; [left; split; [apply reach_refl|assumption]|].
      destruct (O1 t N) as [[K1 K2]|K]; [left; split; [assumption|now apply Dr]|]. right. destruct K, (S2 t N). split; congruence.
  - exists c. split; [reflexivity|]. split; [assumption|]. split; [|intros t; right; now split].
    intros t Ht. destruct (Hf s (reach_refl f s)) as [K|K]; [contradiction|]. now apply K.
Qed.
End Wrap.
Lemma make_spec : 0 < v_size f -> small31 (cnt 0) -> exists h, make_hasher f = Some h /\ h_fsa h = f /\ h_size h = Z.of_nat (cnt 0) /\
  forall t, reach 0 t -> nth t (h_weights h) [] = prefix_sums t.
Proof.
  intros H0 Sm. unfold make_hasher. set (c := Counts _ _).
  destruct (number_words_spec w64 small_w64 (S (v_size f)) 0 c H0) as (c' & -> & _ & D & _).
  - intros (x & Hx & K). apply (goes_stops f HC HA (snd x)); [now apply (HC 0)|assumption].
  - assumption.
  - split; [cbn; now rewrite repeat_length|]. split; [cbn; now rewrite map_length, seq_length|]. intros t Ht. unfold c_wts, c. cbn [c_weights].
    rewrite (nth_indep _ [] (repeat 0%Z (length (v_arcs f 0)))) by (rewrite map_length, seq_length; lia).
    rewrite (map_nth (fun s => repeat 0%Z (length (v_arcs f s))) (seq 0 (v_size f)) 0 t), seq_nth by assumption. apply repeat_length.
  - intros t _. left. unfold c_get, c. cbn. apply nth_repeat.
  - eexists. split; [reflexivity|]. cbn [h_fsa h_size h_weights]. split; [reflexivity|]. split; [apply (D 0 (reach_refl f 0))|]. intros t Ht. apply (D t Ht).
Qed.

(** ** Hashing and back *)
Context (h : hasher) (Hf : h_fsa h = f) (Hw : forall t, reach 0 t -> nth t (h_weights h) [] = prefix_sums t) (H0 : 0 < v_size f) (Sm : small31 (cnt 0)).
Lemma weight_at s i : reach 0 s -> i < length (v_arcs f s) -> h_weight h s i = Z.of_nat (total (firstn i (v_arcs f s))).
Proof.
  intros Hr Hi. unfold h_weight. rewrite (Hw s Hr). unfold prefix_sums.
  rewrite (nth_indep _ 0%Z (Z.of_nat (total (firstn 0 (v_arcs f s))))) by (rewrite map_length, seq_length; assumption).
  rewrite (map_nth (fun i => Z.of_nat (total (firstn i (v_arcs f s)))) (seq 0 (length (v_arcs f s))) 0 i), seq_nth by assumption. reflexivity.
Qed.
Lemma split_total l i x : nth_error l i = Some x -> total (firstn (S i) l) = total (firstn i l) + cnt (snd x).
Proof.
  intros H. apply nth_error_split in H as (l1 & l2 & -> & <-).
  assert (E1 : firstn (length l1) (l1 ++ x :: l2) = l1) by (rewrite firstn_app, Nat.sub_diag, firstn_O, app_nil_r, firstn_all; reflexivity).
  assert (E2 : firstn (S (length l1)) (l1 ++ x :: l2) = l1 ++ [x]).
  { replace (S (length l1)) with (length (l1 ++ [x])) by (rewrite app_length; cbn; lia).
    replace (l1 ++ x :: l2) with ((l1 ++ [x]) ++ l2) by now rewrite <- app_assoc. rewrite firstn_app, Nat.sub_diag, firstn_O, app_nil_r, firstn_all. reflexivity. }
  rewrite E1, E2, total_app. unfold L_HashFsa.total at 2. cbn. lia.
Qed.
Lemma firstn_total l i j : i <= j -> total (firstn i l) <= total (firstn j l).
Proof. intros L. rewrite <- (firstn_skipn i (firstn j l)), firstn_firstn, Nat.min_l by assumption. rewrite total_app. lia. Qed.
Lemma spelt_snoc p w q a r : spelt f p w q -> In (a, r) (v_arcs f q) -> spelt f p (w ++ [a]) r.
Proof. induction 1 as [q|p b d w q Hq H IH]; intros Hx; cbn; [econstructor; [exact Hx|constructor]|]. econstructor; [exact Hq|now apply IH]. Qed.
Lemma reach_snoc p x : reach 0 p -> In x (v_arcs f p) -> reach 0 (snd x).
Proof. intros (w & H) Hx. exists (w ++ [fst x]). apply (spelt_snoc 0 w p); [exact H|]. destruct x. exact Hx. 
Qed.
Lemma hash_at : forall w p idx k, reach 0 p -> nth_error (words_of f p) k = Some w -> (0 <= idx)%Z ->
  (idx + Z.of_nat (cnt p) - Z.of_nat (eb p) < 2 ^ 31)%Z -> w <> [] ->
  hash_from h idx p w = (idx + Z.of_nat k - Z.of_nat (eb p))%Z.
Proof.
  induction w as [|a v IH]; intros p idx k Hr Hk Hi Hb Nw; [congruence|]. clear Nw.
  assert (Hp : p < v_size f) by now apply (reach_bound f HC 0).
  destruct (word_at f HC HA p k (a :: v) Hp Hk) as [(K & _)|(a' & v' & i & q & k' & E & Ei & Ek & Ekk)]; [discriminate|].
  injection E as <- <-. cbn [hash_from]. rewrite Hf, (first_from_at f HI p i a q Ei), Ei.
  assert (Hin : In (a, q) (v_arcs f p)) by now apply nth_error_In in Ei.
  assert (Hq : reach 0 q) by exact (reach_snoc p (a, q) Hr Hin).
  assert (Hqs : q < v_size f) by now apply (reach_bound f HC 0).
  assert (Li : i < length (v_arcs f p)) by (apply nth_error_Some; rewrite Ei; discriminate).
  rewrite (weight_at p i Hr Li). pose proof (split_total _ _ _ Ei) as St. cbn [snd] in St.
  pose proof (firstn_total (v_arcs f p) (S i) (length (v_arcs f p)) ltac:(lia)) as Lt. rewrite firstn_all in Lt.
  pose proof (cnt_eq f HC HA p Hp) as Ecp. pose proof (cnt_eq f HC HA q Hqs) as Ecq.
  assert (Lk : k' < cnt q) by (unfold L_HashFsa.cnt; apply nth_error_Some; rewrite Ek; discriminate).
  rewrite (small_s32 (idx + Z.of_nat (total (firstn i (v_arcs f p))))) by lia.
  assert (Eb : (if v_is_end f q then s32 (idx + Z.of_nat (total (firstn i (v_arcs f p))) + 1) else idx + Z.of_nat (total (firstn i (v_arcs f p))))%Z
    = (idx + Z.of_nat (total (firstn i (v_arcs f p))) + Z.of_nat (eb q))%Z).
  { unfold L_HashFsa.eb in *. destruct (v_is_end f q); [rewrite small_s32 by lia; reflexivity|lia]. }
  rewrite Eb. destruct v as [|a2 v2].
  - destruct (word_at f HC HA q k' [] Hqs Ek) as [(_ & -> & Hend)|(? & ? & ? & ? & ? & K & _)]; [|discriminate].
    cbn [hash_from]. rewrite Hf, Hend. unfold L_HashFsa.eb in *. rewrite Hend in *. rewrite small_s32 by lia. rewrite small_w64 by lia. lia.
  - rewrite (IH q _ k' Hq Ek); [lia|lia|lia|discriminate].
Qed.
Lemma binsearch_at ws last value i : (forall j k, j <= k -> k < length ws -> (nth j ws 0 <= nth k ws 0)%Z) ->
  Z.of_nat (length ws) = (last + 1)%Z -> i < length ws -> (nth i ws 0 < value)%Z ->
  (Z.of_nat i = last \/ value <= nth (S i) ws 0)%Z ->
  forall fuel l r, (0 <= l)%Z -> (l <= Z.of_nat i <= r)%Z -> (r <= last)%Z -> (r - l < Z.of_nat fuel)%Z ->
  binsearch fuel ws last value l r = Z.of_nat i.
Proof.
  intros Mono Ll Hi Hv Hn. induction fuel as [|fuel IH]; intros l r H1 H2 H3 H4; [lia|]. cbn [binsearch].
  destruct (Z.leb_spec l r) as [L|L]; [|lia].
  assert (Hm : (l <= l + (r - l) / 2 <= r)%Z).
  { pose proof (Z.div_pos (r - l) 2 ltac:(lia) ltac:(lia)). pose proof (Z.div_le_upper_bound (r - l) 2 (r - l) ltac:(lia) ltac:(lia)). lia. }
  set (m := (l + (r - l) / 2)%Z) in *. clearbody m. assert (Em : m = Z.of_nat (Z.to_nat m)) by lia. set (j := Z.to_nat m) in *. clearbody j. subst m.
  replace (Z.to_nat (Z.of_nat j + 1)) with (S j) by lia.
  destruct (Z.ltb_spec (nth j ws 0%Z) value) as [La|La]; cbn [andb].
  - destruct (Z.eqb_spec (Z.of_nat j) last) as [Ea|Na]; cbn [orb].
    + destruct Hn as [Hn|Hn]; [congruence|]. destruct (Nat.eq_dec i j) as [->|N]; [reflexivity|].
      exfalso. assert (Lij : S i <= j) by lia. pose proof (Mono (S i) j Lij ltac:(lia)). lia.
    + destruct (Z.leb_spec value (nth (S j) ws 0%Z)) as [Lb|Lb].
      * f_equal. destruct (Nat.lt_trichotomy i j) as [K|[K|K]]; [|congruence|].
        -- destruct Hn as [Hn|Hn]; [lia|]. pose proof (Mono (S i) j K ltac:(lia)). lia.
        -- pose proof (Mono (S j) i K Hi). lia.
      * apply IH; [lia| |lia|lia]. split; [|lia]. destruct (Nat.lt_ge_cases j i) as [K|K]; [lia|]. exfalso.
        destruct Hn as [Hn|Hn]; [lia|]. pose proof (Mono (S i) (S j) ltac:(lia) ltac:(lia)). lia.
  - apply IH; [lia| |lia|lia]. split; [lia|]. destruct (Nat.lt_ge_cases i j) as [K|K]; [lia|]. exfalso.
    pose proof (Mono j i K Hi). lia.
Qed.
Lemma prefix_nth s i : i < length (v_arcs f s) -> nth i (prefix_sums s) 0%Z = Z.of_nat (total (firstn i (v_arcs f s))).
Proof.
  intros Hi. unfold prefix_sums.
  rewrite (nth_indep _ 0%Z (Z.of_nat (total (firstn 0 (v_arcs f s))))) by (rewrite map_length, seq_length; assumption).
  rewrite (map_nth (fun i => Z.of_nat (total (firstn i (v_arcs f s)))) (seq 0 (length (v_arcs f s))) 0 i), seq_nth by assumption. reflexivity.
Qed.
Lemma unhash_at : forall n w p k, reach 0 p -> nth_error (words_of f p) k = Some w -> ~ goes f n p ->
  unhash_from n h (Z.of_nat k + 1 - Z.of_nat (eb p)) p = Some w.
Proof.
  induction n as [|n IH]; intros w p k Hr Hk Hg; [exfalso; now apply Hg|].
  assert (Hp : p < v_size f) by now apply (reach_bound f HC 0).
  assert (Sp : small31 (cnt p)) by (unfold small31 in *; pose proof (reach_cnt f HC HA 0 p Hr H0); lia).
  destruct (word_at f HC HA p k w Hp Hk) as [(-> & -> & Hend)|(a & v & i & q & k' & -> & Ei & Ek & Ekk)].
  - unfold L_HashFsa.eb. rewrite Hend. reflexivity.
  - cbn [unhash_from].
    assert (Hin : In (a, q) (v_arcs f p)) by now apply nth_error_In in Ei.
    assert (Hq : reach 0 q) by exact (reach_snoc p (a, q) Hr Hin).
    assert (Hqs : q < v_size f) by now apply (reach_bound f HC 0).
    assert (Li : i < length (v_arcs f p)) by (apply nth_error_Some; rewrite Ei; discriminate).
    pose proof (split_total _ _ _ Ei) as St. cbn [snd] in St.
    pose proof (firstn_total (v_arcs f p) (S i) (length (v_arcs f p)) ltac:(lia)) as Lt. rewrite firstn_all in Lt.
    pose proof (cnt_eq f HC HA p Hp) as Ecp. pose proof (cnt_eq f HC HA q Hqs) as Ecq.
    assert (Lk : k' < cnt q) by (unfold L_HashFsa.cnt; apply nth_error_Some; rewrite Ek; discriminate).
    set (T := total (firstn i (v_arcs f p))) in *.
    assert (Ev : (Z.of_nat k + 1 - Z.of_nat (eb p))%Z = Z.of_nat (T + k' + 1)) by lia. rewrite Ev.
    destruct (Z.eqb_spec (Z.of_nat (T + k' + 1)) 0); [lia|]. unfold small31 in *.
    assert (Fn : find_num h p (Z.of_nat (T + k' + 1)) = Some i).
    { unfold find_num. rewrite Hf. destruct (Nat.eqb_spec (length (v_arcs f p)) 0); [lia|]. f_equal.
      rewrite (Hw p Hr). rewrite small_w32 by (unfold small31; lia).
      rewrite (binsearch_at (prefix_sums p) (Z.of_nat (length (v_arcs f p)) - 1) _ i); [lia| | | | | | | | |].
      - intros j m Hjm Hm. assert (Lm : m < length (v_arcs f p)) by (unfold prefix_sums in Hm; rewrite map_length, seq_length in Hm; exact Hm).
        rewrite !prefix_nth by lia. pose proof (firstn_total (v_arcs f p) j m Hjm). lia.
      - unfold prefix_sums. rewrite map_length, seq_length. lia.
      - unfold prefix_sums. rewrite map_length, seq_length. exact Li.
      - rewrite prefix_nth by exact Li. fold T. lia.
      - destruct (Nat.eq_dec (S i) (length (v_arcs f p))) as [K|K]; [left; lia|]. right. rewrite prefix_nth by lia. lia.
      - lia.
      - lia.
      - lia.
      - lia. }
    rewrite Fn, Hf, Ei, (weight_at p i Hr Li). fold T. rewrite (small_w64 (Z.of_nat (T + k' + 1) - Z.of_nat T)) by lia.
    assert (Eb : (if v_is_end f q then w64 (Z.of_nat (T + k' + 1) - Z.of_nat T - 1) else Z.of_nat (T + k' + 1) - Z.of_nat T)%Z = (Z.of_nat k' + 1 - Z.of_nat (eb q))%Z).
    { unfold L_HashFsa.eb. destruct (v_is_end f q); [rewrite small_w64 by lia; lia|lia]. }
    rewrite Eb, (IH v q k' Hq Ek); [reflexivity|]. exact (goes_step f n p (a, q) Hg Hin).
Qed.
End Numbering.

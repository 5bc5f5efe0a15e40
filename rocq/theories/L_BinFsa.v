(** The packed automaton refines a list of states with their arcs and end flags. *)
From Coq Require Import List ZArith Bool Sorted Permutation Lia PeanoNat.
From Verif Require Import M_OrdSet L_OrdSet M_Fsa L_Fsa M_BinFsa.
Import ListNotations.
Local Open Scope nat_scope.

Definition auto := list (list arc * bool).
Definition enc (n : nat) (e : bool) : Z := (Z.of_nat n + if e then TOP else 0)%Z.
Fixpoint posns (n : nat) (A : auto) : list Z :=
  match A with
  | [] => []
  | (l, e) :: A' => enc n e :: posns (n + length l) A'
  end.
Definition all_arcs (A : auto) : list arc := flat_map fst A.
Definition small (n : nat) : Prop := (Z.of_nat n < TOP)%Z.
Definition rep (A : auto) (b : bin) : Prop :=
  b_states b = posns 0 A /\ b_arcs b = all_arcs A /\ small (length (all_arcs A)).
Definition a_arcs (A : auto) (p : nat) : list arc := fst (nth p A ([], false)).
Definition a_end (A : auto) (p : nat) : bool := snd (nth p A ([], false)).
Definition offset (A : auto) (p : nat) : nat := length (all_arcs (firstn p A)).

(** ** Flag bits *)
Lemma enc_unset n e : small n -> unset_last_bit (enc n e) = Z.of_nat n.
Proof.
  unfold small, unset_last_bit, enc. intros H. change (TOP - 1)%Z with (Z.ones 31). rewrite Z.land_ones by lia.
  change TOP with (2 ^ 31)%Z in *. destruct e.
  - rewrite <- (Z.mul_1_l (2 ^ 31)) at 1. rewrite Z_mod_plus_full. apply Z.mod_small. lia.
  - rewrite Z.add_0_r. apply Z.mod_small. lia.
Qed.
Lemma enc_bit n e : small n -> Z.testbit (enc n e) 31 = e.
Proof.
  unfold small, enc. intros H. change TOP with (2 ^ 31)%Z in *.
  rewrite Z.testbit_odd, Z.shiftr_div_pow2 by lia. destruct e.
  - rewrite <- (Z.mul_1_l (2 ^ 31)) at 1. rewrite Z.div_add by lia. rewrite Z.div_small by lia. reflexivity.
  - rewrite Z.add_0_r, Z.div_small by lia. reflexivity.
Qed.
Lemma lor_top n : small n -> Z.lor (Z.of_nat n) TOP = enc n true.
Proof.
  intros H. unfold enc, small in *. change TOP with (2 ^ 31)%Z in *.
  rewrite <- Z.lxor_lor; [rewrite <- Z.add_nocarry_lxor; [reflexivity|]|].
  all: apply Z.bits_inj'; intros i Hi; rewrite Z.land_spec, Z.bits_0, Z.pow2_bits_eqb by lia;
    destruct (Z.eqb_spec 31 i) as [<-|]; rewrite ?andb_false_r; try reflexivity; rewrite andb_true_r.
  all: rewrite Z.testbit_odd, Z.shiftr_div_pow2, Z.div_small by lia; reflexivity.
Qed.
Lemma enc_set n e : small n -> set_last_bit (enc n e) = enc n true.
Proof.
  intros H. unfold set_last_bit. destruct e.
  - rewrite <- (lor_top n H) at 1. rewrite <- Z.lor_assoc, Z.lor_diag. now apply lor_top.
  - unfold enc at 1. rewrite Z.add_0_r. now apply lor_top.
Qed.
Lemma enc_u32 n : small n -> u32 (Z.of_nat n) = Z.of_nat n.
Proof. unfold small, u32. intros H. change TOP with (2 ^ 31)%Z in H. apply Z.mod_small. lia. Qed.
Lemma enc_shift n e : small (S n) -> shift_state (enc n e) = enc (S n) e.
Proof.
  intros H. assert (H' : small n) by (unfold small in *; lia). unfold shift_state. rewrite (enc_bit n e H'). destruct e.
  - rewrite (enc_unset n true H'). replace (Z.of_nat n + 1)%Z with (Z.of_nat (S n)) by lia. rewrite (enc_u32 _ H).
    exact (enc_set (S n) false H) || (change (Z.of_nat (S n)) with (Z.of_nat (S n)); rewrite <- (Z.add_0_r (Z.of_nat (S n))); exact (enc_set (S n) false H)).
  - unfold enc. rewrite !Z.add_0_r. replace (Z.of_nat n + 1)%Z with (Z.of_nat (S n)) by lia. now apply enc_u32.
Qed.

(** ** Positions *)
Lemma posns_app A1 : forall n A2, posns n (A1 ++ A2) = posns n A1 ++ posns (n + length (all_arcs A1)) A2.
Proof.
  induction A1 as [|[l e] A1 IH]; intros n A2; cbn [app posns all_arcs flat_map length].
  - now rewrite Nat.add_0_r.
  - rewrite IH. cbn [fst]. fold (all_arcs A1). rewrite app_length, Nat.add_assoc. reflexivity.
Qed.
Lemma posns_length A : forall n, length (posns n A) = length A.
Proof. induction A as [|[l e] A IH]; intros n; cbn; [reflexivity|now rewrite IH]. Qed.
Lemma all_arcs_app A B : all_arcs (A ++ B) = all_arcs A ++ all_arcs B.
Proof. apply flat_map_app. Qed.
Lemma split_at (A : auto) p : p < length A -> exists A1 l e A2, A = A1 ++ (l, e) :: A2 /\ length A1 = p.
Proof.
  intros H. destruct (nth_error A p) as [[l e]|] eqn:E; [|apply nth_error_None in E; lia].
  apply nth_error_split in E as (A1 & A2 & -> & E). now exists A1, l, e, A2.
Qed.
Lemma a_arcs_mid A1 l e A2 : a_arcs (A1 ++ (l, e) :: A2) (length A1) = l.
Proof. unfold a_arcs. now rewrite nth_middle. Qed.
Lemma a_end_mid A1 l e A2 : a_end (A1 ++ (l, e) :: A2) (length A1) = e.
Proof. unfold a_end. now rewrite nth_middle. Qed.
Lemma offset_mid A1 A2 : offset (A1 ++ A2) (length A1) = length (all_arcs A1).
Proof. unfold offset. now rewrite firstn_app, Nat.sub_diag, firstn_O, app_nil_r, firstn_all. Qed.
Lemma offset_next A1 l e A2 : offset (A1 ++ (l, e) :: A2) (S (length A1)) = length (all_arcs A1) + length l.
Proof.
  replace (A1 ++ (l, e) :: A2) with ((A1 ++ [(l, e)]) ++ A2) by now rewrite <- app_assoc.
  replace (S (length A1)) with (length (A1 ++ [(l, e)])) by (rewrite app_length; cbn; lia).
  rewrite offset_mid, all_arcs_app, app_length. cbn. now rewrite app_nil_r.
Qed.
Lemma update_mid {X} (l1 : list X) x l2 g : update (length l1) g (l1 ++ x :: l2) = l1 ++ g x :: l2.
Proof. induction l1 as [|y l1 IH]; cbn; [reflexivity|now rewrite IH]. Qed.
Lemma small_le n m : n <= m -> small m -> small n.
Proof. unfold small. lia. Qed.

Section Rep.
Context (A : auto) (b : bin) (R : rep A b).
Lemma rep_size : b_size b = length A.
Proof. destruct R as [E _]. unfold b_size. now rewrite E, posns_length. Qed.
Lemma rep_state p : p < length A -> b_state b p = enc (offset A p) (a_end A p) /\ small (offset A p).
Proof.
  intros H. destruct R as (E & _ & S). destruct (split_at A p H) as (A1 & l & e & A2 & EA & L).
  unfold b_state. rewrite E, EA, posns_app, <- L. rewrite <- (posns_length A1 0) at 1. cbn [posns]. rewrite nth_middle.
  rewrite a_end_mid, offset_mid. split; [reflexivity|]. eapply small_le; [|exact S]. rewrite EA, all_arcs_app, app_length. lia.
Qed.
Lemma rep_pos p : p < length A -> b_pos b p = offset A p.
Proof. intros H. destruct (rep_state p H) as [E S]. unfold b_pos. rewrite E, (enc_unset _ _ S). lia. Qed.
Lemma rep_end p : p < length A -> b_is_end b p = a_end A p.
Proof. intros H. destruct (rep_state p H) as [E S]. unfold b_is_end. now rewrite E, (enc_bit _ _ S). Qed.
Lemma rep_range p : p < length A -> b_range b p = (offset A p, offset A (S p)).
Proof.
  intros H. unfold b_range. rewrite rep_size. destruct (Nat.ltb_spec (S p) (length A)) as [L|L].
  - rewrite !rep_pos by lia. reflexivity.
  - destruct (Nat.eqb_spec (S p) (length A)) as [E|]; [|lia]. rewrite rep_pos by lia. f_equal.
    destruct R as (_ & E2 & _). rewrite E2. unfold offset. now rewrite E, firstn_all.
Qed.
Lemma rep_arcs p : b_arcs_of b p = a_arcs A p.
Proof.
  unfold b_arcs_of. destruct (Nat.lt_ge_cases p (length A)) as [H|H].
  - rewrite (rep_range p H). destruct R as (_ & E2 & _). rewrite E2. destruct (split_at A p H) as (A1 & l & e & A2 & -> & <-).
    rewrite a_arcs_mid, offset_mid, offset_next, Nat.add_comm, Nat.add_sub, all_arcs_app.
    rewrite skipn_app, skipn_all, Nat.sub_diag. cbn [skipn app all_arcs flat_map fst].
    rewrite firstn_app, firstn_all, Nat.sub_diag. apply app_nil_r.
  - unfold b_range. rewrite rep_size. destruct (Nat.ltb_spec (S p) (length A)); [lia|]. destruct (Nat.eqb_spec (S p) (length A)); [lia|].
    rewrite Nat.sub_diag. cbn. unfold a_arcs. now rewrite nth_overflow.
Qed.
Lemma rep_equiv s t : s < length A -> t < length A ->
  state_equiv b s t = eqb (a_end A s) (a_end A t) && (negb (lex_ltb (a_arcs A s) (a_arcs A t)) && negb (lex_ltb (a_arcs A t) (a_arcs A s))).
Proof. intros H1 H2. unfold state_equiv. rewrite !rep_end, !rep_arcs by assumption. now destruct (eqb _ _). Qed.
Lemma rep_delta p a : p < length A -> b_delta b p a = match find_arc (a_arcs A p) a with x :: _ => Some (snd x) | [] => None end.
Proof. intros H. unfold b_delta. rewrite rep_size, rep_arcs. destruct (Nat.ltb_spec (length A) p); [lia|reflexivity]. Qed.
(** The operations. *)
Lemma rep_add_state : fst (b_add_state b) = length A /\ rep (A ++ [([], false)]) (snd (b_add_state b)).
Proof.
  split; [exact rep_size|]. destruct R as (E1 & E2 & S). unfold b_add_state. cbn [snd]. split; [|split]; cbn [b_states b_arcs].
  - rewrite posns_app. cbn [posns]. rewrite E1, E2, (enc_u32 _ S). unfold enc. now rewrite Z.add_0_r.
  - rewrite all_arcs_app. cbn. now rewrite app_nil_r.
  - rewrite all_arcs_app. cbn. now rewrite app_nil_r.
Qed.
Lemma rep_flag p (g : Z -> Z) e' : (forall n e, small n -> g (enc n e) = enc n e') -> p < length A ->
  rep (update p (fun x => (fst x, e')) A) (Bin (update p g (b_states b)) (b_arcs b)).
Proof.
  intros G H. destruct R as (E1 & E2 & S). destruct (split_at A p H) as (A1 & l & e & A2 & EA & <-). subst A.
  rewrite update_mid. cbn [fst].
  assert (EE : all_arcs (A1 ++ (l, e') :: A2) = all_arcs (A1 ++ (l, e) :: A2)) by now rewrite !all_arcs_app.
  split; [|split]; cbn [b_states b_arcs]; rewrite ?EE; [|assumption..].
  rewrite E1, !posns_app. cbn [posns]. rewrite <- (posns_length A1 0) at 1. rewrite update_mid. f_equal. f_equal.
  apply G. eapply small_le; [|exact S]. rewrite all_arcs_app, app_length. cbn. lia.
Qed.
Lemma rep_set_end p : p < length A -> rep (update p (fun x => (fst x, true)) A) (b_set_end p b).
Proof. apply rep_flag. apply enc_set. Qed.
Lemma rep_unset_end p : p < length A -> rep (update p (fun x => (fst x, false)) A) (b_unset_end p b).
Proof. apply rep_flag. intros n e H. rewrite (enc_unset n e H). unfold enc. lia. Qed.
Lemma rep_delete_last : A <> [] -> rep (removelast A) (b_delete_last b).
Proof.
  intros N. destruct R as (E1 & E2 & S). destruct (exists_last N) as (A' & [l e] & EA). subst A. rewrite removelast_last.
  rewrite all_arcs_app, app_length in S. cbn in S. rewrite app_nil_r in S.
  split; [|split]; cbn [b_delete_last b_states b_arcs].
  - rewrite E1, posns_app. cbn [posns]. apply removelast_last.
  - rewrite E1, E2, posns_app. cbn [posns]. rewrite last_last. rewrite enc_unset by (eapply small_le; [|exact S]; cbn; lia).
    rewrite Nat2Z.id, all_arcs_app. cbn [Nat.add]. rewrite firstn_app, Nat.sub_diag, firstn_all. apply app_nil_r.
  - eapply small_le; [|exact S]. lia.
Qed.
(** Where addArc puts the arc: before the first arc that is not smaller. *)
Fixpoint put (a : arc) (l : list arc) : list arc :=
  match l with
  | [] => [a]
  | x :: l' => if arc_ltb Nat.ltb x a then x :: put a l' else a :: l
  end.
Lemma advance_spec pre a l post : forall n, n = length l ->
  let pos := advance (pre ++ l ++ post) a (length pre) n in
  insert_at pos a (pre ++ l ++ post) = pre ++ put a l ++ post.
Proof.
  revert pre. induction l as [|x l IH]; intros pre n ->; cbn [length advance].
  - cbn. unfold insert_at. rewrite firstn_app, firstn_all, Nat.sub_diag, skipn_app, skipn_all, Nat.sub_diag. cbn. now rewrite app_nil_r.
  - change (pre ++ (x :: l) ++ post) with (pre ++ x :: (l ++ post)) at 1. rewrite nth_middle. cbn [put].
    destruct (arc_ltb Nat.ltb x a).
    + specialize (IH (pre ++ [x]) (length l) eq_refl). rewrite <- !app_assoc in IH. cbn [app] in IH.
      rewrite app_length in IH. cbn [length] in IH. rewrite Nat.add_1_r in IH. exact IH.
    + unfold insert_at. rewrite firstn_app, firstn_all, Nat.sub_diag, skipn_app, skipn_all, Nat.sub_diag. cbn. now rewrite app_nil_r.
Qed.
Lemma put_length a l : length (put a l) = S (length l).
Proof. induction l as [|x l IH]; cbn; [reflexivity|]. destruct (arc_ltb _ _ _); cbn; lia. Qed.
Lemma shift_posns A2 : forall n, small (n + S (length (all_arcs A2))) -> map shift_state (posns n A2) = posns (S n) A2.
Proof.
  induction A2 as [|[l e] A2 IH]; intros n H; cbn [posns map]; [reflexivity|].
  cbn [all_arcs flat_map fst] in H. rewrite app_length in H. fold (all_arcs A2) in H.
  rewrite enc_shift by (eapply small_le; [|exact H]; lia). f_equal. change (S n + length l) with (S (n + length l)). apply IH.
  eapply small_le; [|exact H]. lia.
Qed.
Lemma rep_add_arc p a : p < length A -> small (S (length (all_arcs A))) ->
  rep (update p (fun x => (put a (fst x), snd x)) A) (b_add_arc p a b).
Proof.
  intros H S'. pose proof (rep_range p H) as ER. pose proof (rep_pos p H) as EP. pose proof rep_size as ES.
  assert (EN : (if S p <? b_size b then b_pos b (S p) else Z.to_nat (u32 (Z.of_nat (length (b_arcs b))))) = offset A (S p)).
  { unfold b_range in ER. destruct (S p <? b_size b) eqn:El; [now injection ER|].
    rewrite ES in *. apply Nat.ltb_ge in El. destruct (Nat.eqb_spec (S p) (length A)) as [E|]; [|lia].
    destruct R as (_ & E2 & Sm). rewrite E2, (enc_u32 _ Sm), Nat2Z.id, E. unfold offset. now rewrite firstn_all. }
  unfold b_add_arc. cbv zeta. rewrite EN, EP. rewrite ES. destruct (Nat.ltb_spec p (length A)); [|lia]. clear ER EP ES EN.
  destruct R as (E1 & E2 & Sm). destruct (split_at A p H) as (A1 & l & e & A2 & EA & <-). subst A.
  rewrite update_mid. cbn [fst snd]. rewrite offset_mid, offset_next. rewrite Nat.add_comm, Nat.add_sub.
  assert (EL : length (all_arcs (A1 ++ (put a l, e) :: A2)) = S (length (all_arcs (A1 ++ (l, e) :: A2)))).
  { rewrite !all_arcs_app. cbn [all_arcs flat_map fst]. rewrite !app_length, put_length. lia. }
  split; [|split]; cbn [b_states b_arcs].
  - rewrite E1, !posns_app. cbn [posns].
    set (x := enc (0 + length (all_arcs A1)) e). set (Q := posns _ A2).
    replace (S (length A1)) with (length (posns 0 A1 ++ [x])) by (rewrite app_length, posns_length; cbn; lia).
    set (P := posns 0 A1). change (x :: Q) with ([x] ++ Q). rewrite app_assoc.
    rewrite firstn_app, firstn_all, Nat.sub_diag, firstn_O, app_nil_r. rewrite skipn_app, skipn_all, Nat.sub_diag. cbn [skipn app].
    rewrite <- app_assoc. f_equal. cbn [app]. f_equal. unfold Q. rewrite shift_posns.
    + f_equal. rewrite put_length. lia.
    + eapply small_le; [|exact S']. rewrite all_arcs_app, app_length. cbn [all_arcs flat_map fst]. rewrite app_length. fold (all_arcs A2). lia.
  - rewrite E2, !all_arcs_app. cbn [all_arcs flat_map fst]. fold (all_arcs A2). now apply (advance_spec (all_arcs A1) a l (all_arcs A2)).
  - now rewrite EL.
Qed.
Lemma update_app_mid {X} (l1 l2 l3 : list X) j g : j < length l2 ->
  update (length l1 + j) g (l1 ++ l2 ++ l3) = l1 ++ update j g l2 ++ l3.
Proof.
  intros H. induction l1 as [|x l1 IH]; cbn [length Nat.add app update].
  - revert j H. induction l2 as [|y l2 IH2]; intros j H; [cbn in H; lia|]. destruct j as [|j]; cbn; [reflexivity|]. f_equal. apply IH2. cbn in H. lia.
  - now rewrite IH.
Qed.
Lemma update_len {X} j (g : X -> X) l : length (update j g l) = length l.
Proof. revert j. induction l as [|x l IH]; intros [|j]; cbn; auto. Qed.
Lemma rep_set_dest p j q : p < length A -> j < length (a_arcs A p) ->
  rep (update p (fun x => (update j (fun y => (fst y, q)) (fst x), snd x)) A) (b_set_dest (offset A p + j) q b).
Proof.
  intros H Hj. destruct R as (E1 & E2 & Sm). destruct (split_at A p H) as (A1 & l & e & A2 & EA & <-). subst A.
  rewrite a_arcs_mid in Hj. rewrite update_mid, offset_mid. cbn [fst snd].
  assert (EL : length (all_arcs (A1 ++ (update j (fun y => (fst y, q)) l, e) :: A2)) = length (all_arcs (A1 ++ (l, e) :: A2))).
  { rewrite !all_arcs_app. cbn [all_arcs flat_map fst]. now rewrite !app_length, update_len. }
  split; [|split]; cbn [b_set_dest b_states b_arcs].
  - rewrite E1, !posns_app. cbn [posns]. now rewrite update_len.
  - rewrite E2, !all_arcs_app. cbn [all_arcs flat_map fst]. now apply update_app_mid.
  - exact (eq_ind_r small Sm EL).
Qed.
End Rep.
Lemma rep_empty : rep [] b_empty.
Proof. split; [reflexivity|]. split; [reflexivity|]. unfold small, TOP. cbn. lia. Qed.

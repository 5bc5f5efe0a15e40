(** Deterministic automata, their size, and minimisation by reversing twice. *)
From Coq Require Import List ZArith Bool Sorted Permutation Lia PeanoNat.
From Verif Require Import M_OrdSet L_OrdSet M_Fsa S_Fsa L_Fsa L_FsaTraverse L_FsaLang L_FsaOps.
Import ListNotations.
Local Open Scope nat_scope.

Definition right {S} (eps : Z) (stp : S -> Z -> S -> Prop) (fin : S -> Prop) (p : S) : lang :=
  fun u => exists q, fin q /\ path eps stp p u q.
Section Det.
Context {S : Type} (eps : Z) (stp : S -> Z -> S -> Prop).
Definition det : Prop := (forall p q, ~ stp p eps q) /\ forall p a q q', stp p a q -> stp p a q' -> q = q'.
Lemma det_path_unique p u q q' : det -> path eps stp p u q -> path eps stp p u q' -> q = q'.
Proof.
  intros [F D] H. revert q'. induction H as [p|p q r u K _ IH|p a q r u Ha K _ IH]; intros q' H'.
  - now apply (path_free _ _ F) in H'.
  - now apply F in K.
  - apply (path_free _ _ F) in H' as (t & K1 & K2). rewrite (D _ _ _ _ K1 K) in K2. now apply IH.
Qed.
Lemma det_right fin p u q v : det -> path eps stp p u q -> (right eps stp fin p (u ++ v) <-> right eps stp fin q v).
Proof.
  intros D H. split.
  - intros (e & K1 & K2). destruct (path_split _ _ _ _ _ K2 u v eq_refl) as (t & K3 & K4).
    rewrite (det_path_unique _ _ _ _ D K3 H) in K4. now exists e.
  - intros (e & K1 & K2). exists e. split; [assumption|]. now apply (path_app _ _ p u q).
Qed.
End Det.
Lemma inject {A B} (R : A -> B -> Prop) : (forall x x' y, R x y -> R x' y -> x = x') ->
  forall (l : list A) (k : list B), NoDup l -> (forall x, In x l -> exists y, In y k /\ R x y) -> length l <= length k.
Proof.
  intros I. induction l as [|x l IH]; intros k Hl H; [cbn; lia|]. inversion Hl as [|? ? N Hl']; subst.
  destruct (H x (or_introl eq_refl)) as (y & Hy & Rxy). apply in_split in Hy as (k1 & k2 & ->).
  rewrite app_length. cbn [length]. rewrite Nat.add_succ_r, <- app_length. apply le_n_S. apply IH; [assumption|].
  intros x' Hx'. destruct (H x' (or_intror Hx')) as (y' & Hy' & R'). exists y'. split; [|assumption].
  apply in_app_iff in Hy' as [Hy'|[<-|Hy']]; [apply in_app_iff; now left| |apply in_app_iff; now right].
  exfalso. apply N. now rewrite <- (I x' x y R' Rxy).
Qed.
(** An automaton whose states are reachable, productive and tell apart is smallest. *)
Lemma smallest {S T} eps (st1 : S -> Z -> S -> Prop) fin1 s1 l1 (st2 : T -> Z -> T -> Prop) fin2 s2 l2 :
  det eps st1 -> NoDup l1 -> (forall x, In x l1 -> exists u, path eps st1 s1 u x) ->
  (forall x, In x l1 -> x = s1 \/ exists v, right eps st1 fin1 x v) ->
  (forall x y, In x l1 -> In y l1 -> same (right eps st1 fin1 x) (right eps st1 fin1 y) -> x = y) ->
  det eps st2 -> In s2 l2 -> (forall p a q, In p l2 -> st2 p a q -> In q l2) ->
  same (right eps st1 fin1 s1) (right eps st2 fin2 s2) -> length l1 <= length l2.
Proof.
  intros D1 N1 H1 H2 H3 D2 I2 C2 E.
  apply (inject (fun x y => In x l1 /\ exists u, path eps st1 s1 u x /\ path eps st2 s2 u y)); [|assumption|].
  - intros x x' y (Hx & u & K1 & K2) (Hx' & u' & K3 & K4). apply H3; [assumption..|]. intros v.
    rewrite <- (det_right eps st1 fin1 s1 u x v D1 K1), <- (det_right eps st1 fin1 s1 u' x' v D1 K3).
    rewrite (E (u ++ v)), (E (u' ++ v)).
    now rewrite (det_right eps st2 fin2 s2 u y v D2 K2), (det_right eps st2 fin2 s2 u' y v D2 K4).
  - intros x Hx. destruct (H2 x Hx) as [->|(v & Hv)].
    + exists s2. split; [assumption|]. split; [assumption|]. exists []. split; constructor.
    + destruct (H1 x Hx) as (u & Hu). apply (det_right eps st1 fin1 s1 u x v D1 Hu) in Hv. apply E in Hv as (e & Ke & Kp).
      destruct (path_split _ _ _ _ _ Kp u v eq_refl) as (y & K1 & _). exists y. split.
      * clear -K1 I2 C2. revert I2. induction K1; intros I2; eauto.
      * split; [assumption|]. now exists u.
Qed.

(** ** What determinize builds *)
Definition nd_det (f : ndfsa) : Prop := det EPS (f_step f).
Definition nd_reached (f : ndfsa) : Prop :=
  forall p, p < n_size f -> exists s u, In s (n_starts f) /\ path EPS (f_step f) s u p.
Definition nd_right (f : ndfsa) : nat -> lang := right EPS (f_step f) (fun p => In p (n_ends f)).
Definition w_right {W} (w : wrapper W) : W -> lang := right EPS (step w) (fun s => w_final w s = true).

Lemma det_start_nodup v : NoDup (w_start (determinizer v)).
Proof. cbn. constructor; [intros []|constructor]. Qed.
Section Built.
Context {W : Type} (w : wrapper W) (m : list (W * nat)) (f : ndfsa) (B : beside w empty m f).
Lemma built_cover n : n < n_size f -> exists s, In (s, n) m.
Proof. intros H. apply (numbered_cover _ _ _ _ (b_num _ _ _ _ B)). cbn. lia. Qed.
Lemma built_bound s n : In (s, n) m -> n < n_size f.
Proof. intros H. now apply (numbered_bound _ _ _ _ _ (b_num _ _ _ _ B)) in H. Qed.
Lemma built_step n a k : f_step f n a k -> exists s t, In (s, n) m /\ In (t, k) m /\ step w s a t.
Proof.
  intros K. pose proof (f_step_wf _ _ _ _ (b_wf _ _ _ _ B) K) as [L _]. destruct (built_cover n L) as [s Hs].
  destruct (proj2 (beside_arcs _ _ _ _ B s n Hs) _ _ K) as (t & J1 & J2). now exists s, t.
Qed.
Lemma built_start n : In n (n_starts f) <-> exists s, In (s, n) m /\ In s (w_start w).
Proof. rewrite (b_starts _ _ _ _ B). cbn. tauto. Qed.
Lemma built_end n : In n (n_ends f) <-> exists s, In (s, n) m /\ w_final w s = true.
Proof. rewrite (b_ends _ _ _ _ B). cbn. tauto. Qed.
Lemma built_det : det EPS (step w) -> nd_det f.
Proof.
  intros [F D]. split.
  - intros p q K. apply built_step in K as (s & t & _ & _ & K). now apply F in K.
  - intros p a q q' K K'. apply built_step in K as (s & t & J1 & J2 & J3). apply built_step in K' as (s' & t' & J1' & J2' & J3').
    rewrite (numbered_inj _ _ _ _ _ _ (b_num _ _ _ _ B) J1' J1) in J3'. rewrite (D _ _ _ _ J3' J3) in J2'.
    exact (numbered_fun _ _ _ _ _ _ (b_num _ _ _ _ B) J2 J2').
Qed.
Lemma built_free : (forall p q, ~ step w p EPS q) -> nd_free f.
Proof. intros F p q K. apply built_step in K as (s & t & _ & _ & K). now apply F in K. Qed.
Lemma built_reached : nd_reached f.
Proof.
  intros p L. destruct (built_cover p L) as [s Hs].
  assert (R : reach w s) by (apply (b_reach _ _ _ _ B); apply (in_map fst) in Hs; exact Hs).
  revert p L Hs. induction R as [s Hs0|s a t R IH K]; intros p L Hs.
  - exists p, []. split; [apply built_start; now exists s|constructor].
  - destruct (in_dom _ _ _ _ B s R) as [n Hn]. destruct (IH n (built_bound s n Hn) Hn) as (s0 & u & K1 & K2).
    destruct (proj1 (beside_arcs _ _ _ _ B s n Hn) _ _ K) as (k & J1 & J2).
    rewrite (numbered_fun _ _ _ _ _ _ (b_num _ _ _ _ B) Hs J1).
    destruct (Z.eq_dec a EPS) as [->|N].
    + exists s0, (u ++ []). split; [assumption|]. apply (path_app _ _ s0 u n); [assumption|].
      apply (path_eps _ _ n k); [assumption|constructor].
    + exists s0, (u ++ [a]). split; [assumption|]. apply (path_app _ _ s0 u n); [assumption|].
      apply (path_cons _ _ n a k); [assumption..|constructor].
Qed.
Lemma built_right s n : In (s, n) m -> same (nd_right f n) (w_right w s).
Proof.
  intros Hs u. split.
  - intros (q & K1 & K2). apply built_end in K1 as (t & Ht & K1). exists t. split; [assumption|].
    now apply (beside_new _ _ _ _ B s n u t q).
  - intros (t & K1 & K2).
    assert (R : reach w s) by (apply (b_reach _ _ _ _ B); apply (in_map fst) in Hs; exact Hs).
    destruct (in_dom _ _ _ _ B t (reach_path _ _ _ _ R K2)) as [k Hk]. exists k. split; [apply built_end; now exists t|].
    now apply (beside_new _ _ _ _ B s n u t k).
Qed.
End Built.
Lemma determinizer_det v : free v -> det EPS (step (determinizer v)).
Proof. intros F. split; [now apply det_free|]. intros p a q q'. apply det_step_unique. Qed.
Lemma nd_free_view f : nd_free f -> free (n_view f).
Proof. intros F p q. apply F. Qed.
Lemma built_unique {W} (w : wrapper W) m f : beside w empty m f ->
  (forall p a q q', step w p a q -> step w p a q' -> q = q') -> forall p a q q', f_step f p a q -> f_step f p a q' -> q = q'.
Proof.
  intros B D p a q q' K K'. apply (built_step _ m f B) in K as (s & t & J1 & J2 & J3). apply (built_step _ m f B) in K' as (s' & t' & J1' & J2' & J3').
  rewrite (numbered_inj _ _ _ _ _ _ (b_num _ _ _ _ B) J1' J1) in J3'. rewrite (D _ _ _ _ J3' J3) in J2'.
  exact (numbered_fun _ _ _ _ _ _ (b_num _ _ _ _ B) J2 J2').
Qed.
Lemma determinize_gen fuel f g : wf f -> determinize fuel f = Some g ->
  wf g /\ same (nd_lang g) (nd_lang f) /\ (exists s, n_starts g = [s]) /\
  (forall p a q q', f_step g p a q -> f_step g p a q' -> q = q') /\
  (nd_free f -> nd_det g /\ nd_reached g).
Proof.
  intros Hwf E. unfold determinize in E. pose proof (n_view_wf f Hwf) as Hv.
  destruct (traverse_empty_lang (determinizer (n_view f)) fuel g set_ltb_strict (det_start_nodup _) E) as [H1 H2].
  destruct (traverse_spec (determinizer (n_view f)) set_ltb_strict empty fuel g empty_wf (det_start_nodup _) E) as [m B].
  split; [assumption|]. split; [|split; [|split]].
  - intros u. rewrite (H2 u), (determinizer_lang _ Hv u). apply n_view_lang.
  - pose proof (wf_starts_inc _ H1) as I.
    destruct (in_dom _ _ _ _ B (n_starts f)) as [n Hn]; [apply reach_start; now left|]. exists n.
    apply (increasing_unique _ nat_strict); [assumption|repeat constructor|]. intros p. rewrite (built_start _ m g B p). cbn. split.
    + intros (s & K1 & [<-|[]]). left. exact (numbered_fun _ _ _ _ _ _ (b_num _ _ _ _ B) Hn K1).
    + intros [<-|[]]. exists (n_starts f). split; [assumption|now left].
  - apply (built_unique _ m g B). intros p a q q'. apply det_step_unique.
  - intros F. pose proof (nd_free_view f F) as Fv. split.
    + apply (built_det _ m g B). now apply determinizer_det.
    + apply (built_reached _ m g B).
Qed.
Lemma determinize_spec fuel f g : wf f -> nd_free f -> determinize fuel f = Some g ->
  wf g /\ same (nd_lang g) (nd_lang f) /\ nd_det g /\ nd_reached g /\ exists s, n_starts g = [s].
Proof. intros Hwf F E. destruct (determinize_gen fuel f g Hwf E) as (H1 & H2 & H3 & _ & H4). specialize (H4 F). tauto. Qed.
Lemma determinize_ends f : wf f -> exists fuel g, determinize fuel f = Some g.
Proof.
  intros Hwf. pose proof (n_view_wf f Hwf) as Hv.
  destruct (traverse_ends (determinizer (n_view f)) set_ltb_strict empty (sublists (seq 0 (n_size f))) empty_wf (det_start_nodup _)
              (det_reach _ Hv) _ (le_n _)) as [g E].
  eexists. exists g. exact E.
Qed.
Lemma ends_nodup f : wf f -> NoDup (n_ends f).
Proof. intros H. apply (increasing_nodup _ nat_strict), H. Qed.
Lemma starts_nodup f : wf f -> NoDup (n_starts f).
Proof. intros H. apply (increasing_nodup _ nat_strict), H. Qed.
Lemma reverse_spec fuel f g : wf f -> reverse fuel f = Some g -> wf g /\ same (nd_lang g) (mirror (nd_lang f)) /\ (nd_free f -> nd_free g).
Proof.
  intros Hwf E. unfold reverse in E. pose proof (n_view_wf f Hwf) as Hv.
  destruct (traverse_empty_lang (reverser (n_view f)) fuel g nat_strict (ends_nodup f Hwf) E) as [H1 H2].
  destruct (traverse_spec (reverser (n_view f)) nat_strict empty fuel g empty_wf (ends_nodup f Hwf) E) as [m B].
  split; [assumption|]. split.
  - intros u. rewrite (H2 u), (reverser_lang _ Hv u). unfold mirror. apply n_view_lang.
  - intros F. apply (built_free _ m g B). intros p q K. apply (reverser_step _ _ _ _ Hv) in K. now apply F in K.
Qed.
Lemma reverse_ends f : wf f -> exists fuel g, reverse fuel f = Some g.
Proof.
  intros Hwf. pose proof (n_view_wf f Hwf) as Hv.
  destruct (traverse_ends (reverser (n_view f)) nat_strict empty (seq 0 (n_size f)) empty_wf (ends_nodup f Hwf) (reverser_reach _ Hv) _ (le_n _)) as [g E].
  eexists. exists g. exact E.
Qed.
Lemma reachable_spec fuel f g : wf f -> reachable fuel f = Some g -> wf g /\ same (nd_lang g) (nd_lang f).
Proof.
  intros Hwf E. unfold reachable in E.
  destruct (traverse_empty_lang (copier (n_view f)) fuel g nat_strict (starts_nodup f Hwf) E) as [H1 H2].
  split; [assumption|]. intros u. rewrite (H2 u), (copier_lang _ u). apply n_view_lang.
Qed.
Lemma reachable_ends f : wf f -> exists fuel g, reachable fuel f = Some g.
Proof.
  intros Hwf. pose proof (n_view_wf f Hwf) as Hv.
  destruct (traverse_ends (copier (n_view f)) nat_strict empty (seq 0 (n_size f)) empty_wf (starts_nodup f Hwf) (copier_reach _ Hv) _ (le_n _)) as [g E].
  eexists. exists g. exact E.
Qed.
Lemma eps_remove_spec fuel f g : wf f -> eps_remove fuel f = Some g -> wf g /\ same (nd_lang g) (nd_lang f) /\ nd_free g.
Proof.
  intros Hwf E. unfold eps_remove in E. pose proof (n_view_wf f Hwf) as Hv.
  destruct (traverse_empty_lang (eps_remover (n_view f)) fuel g nat_strict (starts_nodup f Hwf) E) as [H1 H2].
  destruct (traverse_spec (eps_remover (n_view f)) nat_strict empty fuel g empty_wf (starts_nodup f Hwf) E) as [m B].
  split; [assumption|]. split.
  - intros u. rewrite (H2 u), (eps_remover_lang _ Hv u). apply n_view_lang.
  - apply (built_free _ m g B). intros p q. apply eps_remover_free.
Qed.
Lemma eps_remove_ends f : wf f -> exists fuel g, eps_remove fuel f = Some g.
Proof.
  intros Hwf. pose proof (n_view_wf f Hwf) as Hv.
  destruct (traverse_ends (eps_remover (n_view f)) nat_strict empty (seq 0 (n_size f)) empty_wf (starts_nodup f Hwf) (eps_remover_reach _ Hv) _ (le_n _)) as [g E].
  eexists. exists g. exact E.
Qed.
Lemma fuel_le {W} (w : wrapper W) fuel fuel' f0 f : fuel <= fuel' -> traverse w fuel f0 = Some f -> traverse w fuel' f0 = Some f.
Proof. intros L E. replace fuel' with (fuel + (fuel' - fuel)) by lia. now apply traverse_more. Qed.

(** ** Minimisation *)
Lemma mirror_same L M : same L M -> same (mirror L) (mirror M).
Proof. intros H u. apply H. Qed.
Lemma mirror_mirror L : same (mirror (mirror L)) L.
Proof. intros u. unfold mirror. now rewrite rev_involutive. Qed.
(** The reversal of a reachable deterministic automaton. *)
Lemma reverse_codet fuel f g s0 : wf f -> nd_det f -> nd_reached f -> n_starts f = [s0] -> reverse fuel f = Some g ->
  (forall p, p < n_size g -> exists u, nd_right g p u) /\
  (forall p q u, p < n_size g -> q < n_size g -> nd_right g p u -> nd_right g q u -> p = q).
Proof.
  intros Hwf D R Es E. unfold reverse in E. pose proof (n_view_wf f Hwf) as Hv.
  destruct (traverse_spec (reverser (n_view f)) nat_strict empty fuel g empty_wf (ends_nodup f Hwf) E) as [m B].
  assert (X : forall x n, In (x, n) m -> x < n_size f).
  { intros x n K. apply (in_map fst) in K. cbn in K. apply (b_reach _ _ _ _ B) in K. apply (reverser_reach _ Hv) in K. apply in_seq in K. cbn in K. lia. }
  assert (P : forall x u, w_right (reverser (n_view f)) x u <-> path EPS (f_step f) s0 (rev u) x).
  { intros x u. split.
    - intros (s & K1 & K2). cbn in K1. apply (set_count_in _ nat_strict) in K1. rewrite Es in K1. destruct K1 as [<-|[]].
      apply (path_mirror EPS (step (reverser (n_view f)))); [|assumption]. intros p a q K. now apply (reverser_step _ _ _ _ Hv) in K.
    - intros K. exists s0. split.
      + cbn. apply (set_count_in _ nat_strict). rewrite Es. now left.
      + rewrite <- (rev_involutive u). apply (path_mirror EPS (f_step f)); [|assumption]. intros p a q J. now apply (reverser_step _ _ _ _ Hv). }
  split.
  - intros p L. destruct (built_cover _ m g B p L) as [x Hx]. destruct (R x (X x p Hx)) as (s & u & K1 & K2).
    rewrite Es in K1. destruct K1 as [<-|[]]. exists (rev u). apply (built_right _ m g B x p Hx). apply P. now rewrite rev_involutive.
  - intros p q u Lp Lq Kp Kq. destruct (built_cover _ m g B p Lp) as [x Hx]. destruct (built_cover _ m g B q Lq) as [y Hy].
    apply (built_right _ m g B x p Hx), P in Kp. apply (built_right _ m g B y q Hy), P in Kq.
    assert (x = y) by exact (det_path_unique _ _ _ _ _ _ D Kp Kq). subst y.
    exact (numbered_fun _ _ _ _ _ _ (b_num _ _ _ _ B) Hx Hy).
Qed.
(** Determinising a co-deterministic automaton gives states that tell apart. *)
Lemma determinize_codet fuel f g : wf f -> nd_free f ->
  (forall p, p < n_size f -> exists u, nd_right f p u) ->
  (forall p q u, p < n_size f -> q < n_size f -> nd_right f p u -> nd_right f q u -> p = q) ->
  determinize fuel f = Some g ->
  (forall p q, p < n_size g -> q < n_size g -> same (nd_right g p) (nd_right g q) -> p = q) /\
  (forall p, p < n_size g -> In p (n_starts g) \/ exists u, nd_right g p u).
Proof.
  intros Hwf F A C E. unfold determinize in E. pose proof (n_view_wf f Hwf) as Hv. pose proof (nd_free_view f F) as Fv.
  destruct (traverse_spec (determinizer (n_view f)) set_ltb_strict empty fuel g empty_wf (det_start_nodup _) E) as [m B].
  assert (P : forall P u, w_right (determinizer (n_view f)) P u <-> exists p, In p P /\ nd_right f p u).
  { intros P u. split.
    - intros (Q & K1 & K2). cbn in K1. apply existsb_exists in K1 as (q & K3 & K4). apply (set_count_in _ nat_strict) in K4.
      apply (det_path _ Hv Fv _ _ _ K2) in K3 as (p & K5 & K6). exists p. split; [assumption|]. now exists q.
    - intros (p & K1 & q & K2 & K3). destruct (det_path_exists _ Hv Fv u P p q K1 K3) as (Q & Q1 & Q2). exists Q.
      split; [|assumption]. cbn. apply existsb_exists. exists q. split; [assumption|]. now apply (set_count_in _ nat_strict). }
  assert (X : forall P n, In (P, n) m -> increasing Nat.ltb P /\ forall p, In p P -> p < n_size f).
  { intros S n K. apply (in_map fst) in K. cbn in K. apply (b_reach _ _ _ _ B) in K.
    destruct K as [S [<-|[]]|S a T _ K].
    - split; [apply Hwf|apply (wf_starts _ Hwf)].
    - apply det_step in K as (_ & K1 & K2). split; [assumption|]. intros p Hp. apply K2 in Hp as (q & _ & Hp).
      now apply (f_step_wf _ _ _ _ Hwf) in Hp. }
  split.
  - intros p q Lp Lq Eq. destruct (built_cover _ m g B p Lp) as [S HS]. destruct (built_cover _ m g B q Lq) as [T HT].
    destruct (X S p HS) as [IS BS]. destruct (X T q HT) as [IT BT].
    assert (G : forall S T p q, In (S, p) m -> In (T, q) m -> (forall x, In x S -> x < n_size f) -> (forall x, In x T -> x < n_size f) ->
              same (nd_right g p) (nd_right g q) -> forall x, In x S -> In x T).
    { clear -B A C P. intros S T p q HS HT BS BT Eq x Hx. destruct (A x (BS x Hx)) as (u & Hu).
      assert (K : w_right (determinizer (n_view f)) S u) by (apply P; now exists x).
      apply (built_right _ m g B S p HS), Eq, (built_right _ m g B T q HT), P in K as (y & K1 & K2).
      now rewrite (C x y u (BS x Hx) (BT y K1) Hu K2). }
    assert (S = T).
    { apply (increasing_unique _ nat_strict); [assumption..|]. intros x. split.
      - exact (G S T p q HS HT BS BT Eq x).
      - apply (G T S q p HT HS BT BS). intros u. symmetry. apply Eq. }
    subst T. exact (numbered_fun _ _ _ _ _ _ (b_num _ _ _ _ B) HS HT).
  - intros p Lp. destruct (built_cover _ m g B p Lp) as [S HS]. destruct (X S p HS) as [IS BS]. destruct S as [|x S].
    + left. apply (built_start _ m g B). exists []. split; [assumption|].
      apply (in_map fst) in HS. cbn in HS. apply (b_reach _ _ _ _ B) in HS. inversion HS as [? K E'|? a ? _ K E']; subst.
      * exact K.
      * apply det_step in K as [K _]. congruence.
    + right. destruct (A x (BS x (or_introl eq_refl))) as (u & Hu). exists u.
      apply (built_right _ m g B _ p HS). apply P. exists x. split; [now left|assumption].
Qed.
Lemma minimize_spec fuel f g : wf f -> minimize fuel f = Some g ->
  wf g /\ same (nd_lang g) (nd_lang f) /\ nd_det g /\ nd_reached g /\ (exists s, n_starts g = [s]) /\
  (forall p q, p < n_size g -> q < n_size g -> same (nd_right g p) (nd_right g q) -> p = q) /\
  (forall p, p < n_size g -> In p (n_starts g) \/ exists u, nd_right g p u).
Proof.
  intros W0. unfold minimize. destruct (eps_remove fuel f) as [f1|] eqn:E1; [|discriminate]. cbn [bind].
  destruct (eps_remove_spec _ _ _ W0 E1) as (W1 & L1 & F1).
  destruct (reverse fuel f1) as [f2|] eqn:E2; [|discriminate]. cbn [bind].
  destruct (reverse_spec _ _ _ W1 E2) as (W2 & L2 & F2). specialize (F2 F1).
  destruct (determinize fuel f2) as [f3|] eqn:E3; [|discriminate]. cbn [bind].
  destruct (determinize_spec _ _ _ W2 F2 E3) as (W3 & L3 & D3 & R3 & s3 & S3).
  destruct (reverse fuel f3) as [f4|] eqn:E4; [|discriminate]. cbn [bind]. intros E5.
  destruct (reverse_spec _ _ _ W3 E4) as (W4 & L4 & F4). specialize (F4 (proj1 D3)).
  destruct (reverse_codet _ _ _ s3 W3 D3 R3 S3 E4) as [A4 C4].
  destruct (determinize_spec _ _ _ W4 F4 E5) as (W5 & L5 & D5 & R5 & S5).
  destruct (determinize_codet _ _ _ W4 F4 A4 C4 E5) as [X Y].
  split; [assumption|]. split; [|now repeat split; try apply D5].
  intros u. rewrite (L5 u), (L4 u). unfold mirror. rewrite (L3 (rev u)), (L2 (rev u)). unfold mirror. now rewrite rev_involutive.
Qed.
Lemma minimize_ends f : wf f -> exists fuel g, minimize fuel f = Some g.
Proof.
  intros W0. destruct (eps_remove_ends f W0) as (n1 & f1 & E1). destruct (eps_remove_spec _ _ _ W0 E1) as (W1 & _ & _).
  destruct (reverse_ends f1 W1) as (n2 & f2 & E2). destruct (reverse_spec _ _ _ W1 E2) as (W2 & _ & _).
  destruct (determinize_ends f2 W2) as (n3 & f3 & E3).
  assert (W3 : wf f3) by exact (proj1 (traverse_empty_lang (determinizer (n_view f2)) _ _ set_ltb_strict (det_start_nodup _) E3)).
  destruct (reverse_ends f3 W3) as (n4 & f4 & E4). destruct (reverse_spec _ _ _ W3 E4) as (W4 & _ & _).
  destruct (determinize_ends f4 W4) as (n5 & f5 & E5).
  exists (n1 + n2 + n3 + n4 + n5), f5. unfold minimize, eps_remove, reverse, determinize in *.
  rewrite (fuel_le _ n1 (n1 + n2 + n3 + n4 + n5) _ _ ltac:(lia) E1). cbn [bind].
  rewrite (fuel_le _ n2 (n1 + n2 + n3 + n4 + n5) _ _ ltac:(lia) E2). cbn [bind].
  rewrite (fuel_le _ n3 (n1 + n2 + n3 + n4 + n5) _ _ ltac:(lia) E3). cbn [bind].
  rewrite (fuel_le _ n4 (n1 + n2 + n3 + n4 + n5) _ _ ltac:(lia) E4). cbn [bind].
  exact (fuel_le _ n5 (n1 + n2 + n3 + n4 + n5) _ _ ltac:(lia) E5).
Qed.

(** ** Pruning *)
Lemma prune_spec fuel f g : wf f -> prune fuel f = Some g ->
  wf g /\ same (nd_lang g) (nd_lang f) /\ nd_reached g /\ forall p, p < n_size g -> exists u, nd_right g p u.
Proof.
  intros W0. unfold prune. destruct (reverse fuel f) as [f1|] eqn:E1; [|discriminate]. cbn [bind].
  destruct (reverse_spec _ _ _ W0 E1) as (W1 & L1 & _).
  destruct (reachable fuel f1) as [f2|] eqn:E2; [|discriminate]. cbn [bind]. intros E3.
  destruct (reachable_spec _ _ _ W1 E2) as (W2 & L2). destruct (reverse_spec _ _ _ W2 E3) as (W3 & L3 & _).
  split; [assumption|]. split; [|split].
  - intros u. rewrite (L3 u). unfold mirror. rewrite (L2 (rev u)), (L1 (rev u)). unfold mirror. now rewrite rev_involutive.
  - destruct (traverse_spec (reverser (n_view f2)) nat_strict empty fuel g empty_wf (ends_nodup f2 W2) E3) as [m B].
    exact (built_reached _ m g B).
  - destruct (traverse_spec (copier (n_view f1)) nat_strict empty fuel f2 empty_wf (starts_nodup f1 W1) E2) as [m2 B2].
    pose proof (built_reached _ m2 f2 B2) as R2. pose proof (n_view_wf f2 W2) as Hv.
    destruct (traverse_spec (reverser (n_view f2)) nat_strict empty fuel g empty_wf (ends_nodup f2 W2) E3) as [m B].
    intros p L. destruct (built_cover _ m g B p L) as [x Hx].
    assert (Lx : x < n_size f2).
    { apply (in_map fst) in Hx. cbn in Hx. apply (b_reach _ _ _ _ B) in Hx. apply (reverser_reach _ Hv) in Hx. apply in_seq in Hx. cbn in Hx. lia. }
    destruct (R2 x Lx) as (s & u & K1 & K2). exists (rev u). apply (built_right _ m g B x p Hx). exists s.
    split; [cbn; now apply (set_count_in _ nat_strict)|].
    apply (path_mirror EPS (f_step f2)); [|assumption]. intros y a z J. now apply (reverser_step _ _ _ _ Hv).
Qed.
Lemma prune_ends f : wf f -> exists fuel g, prune fuel f = Some g.
Proof.
  intros W0. destruct (reverse_ends f W0) as (n1 & f1 & E1). destruct (reverse_spec _ _ _ W0 E1) as (W1 & _ & _).
  destruct (reachable_ends f1 W1) as (n2 & f2 & E2). destruct (reachable_spec _ _ _ W1 E2) as (W2 & _).
  destruct (reverse_ends f2 W2) as (n3 & f3 & E3).
  exists (n1 + n2 + n3), f3. unfold prune, reverse, reachable in *.
  rewrite (fuel_le _ n1 (n1 + n2 + n3) _ _ ltac:(lia) E1). cbn [bind].
  rewrite (fuel_le _ n2 (n1 + n2 + n3) _ _ ltac:(lia) E2). cbn [bind].
  exact (fuel_le _ n3 (n1 + n2 + n3) _ _ ltac:(lia) E3).
Qed.

(** ** Unification and concatenation *)
Lemma unify_spec fuel f v g : wf f -> v_wf v -> unify fuel f v = Some g -> wf g /\ same (nd_lang g) (union (nd_lang f) (v_lang v)).
Proof.
  intros Hwf Hv E. unfold unify in E.
  assert (Hnd : NoDup (w_start (copier v))) by (apply (increasing_nodup _ nat_strict), Hv).
  destruct (traverse_lang (copier v) f fuel g nat_strict Hwf Hnd E) as [H1 H2]. split; [assumption|].
  intros u. rewrite (H2 u). unfold union. now rewrite (copier_lang v u).
Qed.
Lemma unify_ends f v : wf f -> v_wf v -> exists fuel g, unify fuel f v = Some g.
Proof.
  intros Hwf Hv. assert (Hnd : NoDup (w_start (copier v))) by (apply (increasing_nodup _ nat_strict), Hv).
  destruct (traverse_ends (copier v) nat_strict f (seq 0 (v_size v)) Hwf Hnd (copier_reach _ Hv) _ (le_n _)) as [g E].
  eexists. exists g. exact E.
Qed.
Lemma concatenate_ends f v : wf f -> v_wf v -> exists fuel g, concatenate fuel f v = Some g.
Proof.
  intros Hwf Hv. destruct (unify_ends f v Hwf Hv) as (fuel & g & E). exists fuel. unfold concatenate. unfold unify in E. rewrite E.
  eexists. reflexivity.
Qed.

(** ** Reading words deterministically *)
Lemma loop_starts {W} (w : wrapper W) fuel : forall m queue f g, traverse_loop w fuel m queue f = Some g -> n_starts g = n_starts f.
Proof.
  assert (A : forall n l m queue f m' queue' f', traverse_arcs w n l m queue f = (m', queue', f') -> n_starts f' = n_starts f).
  { intros n. induction l as [|[a t] l IH]; intros m queue f m' queue' f' E; cbn [traverse_arcs] in E; [now injection E as _ _ <-|].
    destruct (map_find w m t); [apply IH in E; exact E|]. cbn [add_state] in E. apply IH in E. exact E. }
  induction fuel as [|fuel IH]; intros m queue f g E; destruct queue as [|s queue]; cbn [traverse_loop] in E; try discriminate;
    try (now injection E as <-).
  destruct (map_find w m s) as [n|].
  - destruct (traverse_arcs w n (w_arcs w s) m queue (if w_final w s then set_end n f else f)) as [[m' queue'] f'] eqn:E'.
    apply IH in E. apply A in E'. rewrite E, E'. now destruct (w_final w s).
  - cbn [add_state] in E. match type of E with context [traverse_arcs w ?n ?l ?m ?q ?f] => destruct (traverse_arcs w n l m q f) as [[m' queue'] f'] eqn:E' end.
    apply IH in E. apply A in E'. rewrite E, E'. now destruct (w_final w s).
Qed.
Lemma determinize_starts fuel f g : determinize fuel f = Some g -> n_starts g = [0].
Proof. unfold determinize, traverse. cbn [determinizer w_start traverse_starts add_state]. intros E. apply loop_starts in E. exact E. Qed.
Lemma dfsa_delta_spec f p a q : wf f -> (forall a q q', f_step f p a q -> f_step f p a q' -> q = q') ->
  (dfsa_delta f p a = Some q <-> f_step f p a q).
Proof.
  intros Hwf D. unfold dfsa_delta. destruct (Nat.ltb_spec (n_size f) p) as [L|L].
  - unfold f_step. rewrite n_arcs_out by lia. cbn. split; [discriminate|tauto].
  - pose proof (find_arc_spec (n_arcs f p) a (wf_sorted _ Hwf p)) as S.
    assert (H : forall x k, find_arc (n_arcs f p) a = x :: k -> f_step f p a (snd x)).
    { intros x k E. apply S. rewrite E. cbn [same_symbol].
      assert (Ex : fst x = a).
      { unfold find_arc in E. destruct (lower_bound _ _ _) as [|y l]; [discriminate|].
        destruct (Z.eqb_spec a (fst y)) as [Ea|]; [|discriminate]. now injection E as <- _. }
      rewrite Ex, Z.eqb_refl.
      assert (G : forall k acc q, In q acc -> In q (same_symbol a k acc)).
      { induction k0 as [|y k0 IH]; intros acc r Hr; cbn [same_symbol]; [assumption|].
        destruct (fst y =? a)%Z; [|assumption]. apply IH. apply (in_set_insert _ nat_strict). now right. }
      apply G. apply (in_set_insert _ nat_strict). now left. }
    destruct (find_arc (n_arcs f p) a) as [|x k] eqn:E.
    + split; [discriminate|]. intros K. apply S in K. cbn in K. destruct K.
    + specialize (H x k eq_refl). split; [intros K; now injection K as <-|]. intros K. f_equal. exact (D a _ _ H K).
Qed.
Lemma dfsa_in_spec f : wf f -> nd_det f -> forall u p, dfsa_in_from f p u = true <-> nd_right f p u.
Proof.
  intros Hwf [F D]. induction u as [|a u IH]; intros p; cbn [dfsa_in_from].
  - rewrite (set_count_in _ nat_strict). split.
    + intros K. exists p. split; [assumption|constructor].
    + intros (q & K1 & K2). apply (path_free _ _ F) in K2. now subst.
  - destruct (dfsa_delta f p a) as [q|] eqn:E.
    + apply (dfsa_delta_spec f p a q Hwf (D p)) in E. rewrite IH. split.
      * intros (e & K1 & K2). exists e. split; [assumption|]. apply (path_cons _ _ p a q); [intros ->; now apply F in E|assumption..].
      * intros (e & K1 & K2). apply (path_free _ _ F) in K2 as (t & K2 & K3). rewrite (D _ _ _ _ K2 E) in K3. now exists e.
    + split; [discriminate|]. intros (e & _ & K2). apply (path_free _ _ F) in K2 as (t & K2 & _).
      apply (dfsa_delta_spec f p a t Hwf (D p)) in K2. congruence.
Qed.

(** ** The automata of one symbol and of one word *)
Lemma chain_spec w : forall p f q g, wf f -> n_size f = S p -> add_chain p w f = (q, g) ->
  wf g /\ n_size g = S q /\ q = p + length w /\ n_starts g = n_starts f /\ n_ends g = n_ends f /\
  forall x a y, f_step g x a y <-> f_step f x a y \/ p <= x /\ nth_error w (x - p) = Some a /\ y = S x.
Proof.
  induction w as [|b w IH]; intros p f q g Hwf Sz E; cbn [add_chain] in E.
  - injection E as <- <-. split; [assumption|]. split; [assumption|]. split; [cbn; lia|]. do 2 (split; [reflexivity|]).
    intros x a y. split; [now left|]. intros [K|(_ & K & _)]; [assumption|]. now destruct (x - p).
  - set (f1 := snd (add_state false f)). change (add_state false f) with (n_size f, f1) in E. rewrite Sz in E.
    assert (S1 : n_size f1 = S (S p)) by (unfold f1; rewrite add_state_size; lia).
    assert (W1 : wf f1) by now apply add_state_wf.
    assert (W2 : wf (add_arc p (b, S p) f1)) by (apply add_arc_wf; [assumption|]; cbn [snd]; lia).
    destruct (IH (S p) (add_arc p (b, S p) f1) q g W2) as (H1 & H2 & H3 & H4 & H5 & H6).
    + now rewrite add_arc_size.
    + exact E.
    + split; [assumption|]. split; [assumption|]. split; [cbn; lia|]. split; [exact H4|]. split; [exact H5|].
      intros x a y. rewrite H6. unfold f_step at 1. rewrite add_arc_in by lia.
      replace (n_arcs f1 x) with (n_arcs f x) by (symmetry; apply add_state_arcs). split.
      * intros [[K|[-> K]]|(K1 & K2 & K3)].
        -- now left.
        -- injection K as -> ->. right. rewrite Nat.sub_diag. cbn. auto.
        -- right. split; [lia|]. split; [|assumption]. replace (x - p) with (S (x - S p)) by lia. exact K2.
      * intros [K|(K1 & K2 & K3)]; [left; now left|]. destruct (Nat.eq_dec x p) as [->|N].
        -- rewrite Nat.sub_diag in K2. cbn in K2. injection K2 as ->. subst y. left. now right.
        -- right. split; [lia|]. split; [|assumption]. replace (x - p) with (S (x - S p)) in K2 by lia. exact K2.
Qed.
Lemma of_word_spec w : wf (of_word w) /\ n_starts (of_word w) = [0] /\ n_ends (of_word w) = [length w] /\
  n_size (of_word w) = S (length w) /\
  forall x a y, f_step (of_word w) x a y <-> nth_error w x = Some a /\ y = S x.
Proof.
  unfold of_word. cbn [add_state n_states empty app length n_starts n_ends set_insert].
  set (f := Ndfsa [[]] [0] []).
  assert (W : wf f) by exact (add_state_wf true empty empty_wf).
  destruct (add_chain 0 w f) as [q g] eqn:E.
  destruct (chain_spec w 0 f q g W eq_refl E) as (H1 & H2 & H3 & H4 & H5 & H6). cbn in H3. subst q.
  split; [apply set_end_wf; [assumption|lia]|]. split; [exact H4|]. split; [cbn; rewrite H5; reflexivity|]. split; [exact H2|].
  intros x a y. change (f_step (set_end (length w) g) x a y) with (f_step g x a y). rewrite H6, Nat.sub_0_r.
  split; [|intros [K1 K2]; right; split; [lia|auto]]. intros [K|(_ & K)]; [|assumption].
  unfold f_step, n_arcs in K. cbn in K. destruct x as [|[|x]]; destruct K.
Qed.
Lemma of_word_lit w x u y : lit (f_step (of_word w)) x u y <->
  y = x + length u /\ forall i, i < length u -> nth_error w (x + i) = nth_error u i.
Proof.
  destruct (of_word_spec w) as (_ & _ & _ & _ & S). revert x. induction u as [|a u IH]; intros x.
  - split; [intros K; inversion K; subst; split; [cbn; lia|intros i L; cbn in L; lia]|].
    intros [-> _]. cbn. rewrite Nat.add_0_r. constructor.
  - split.
    + intros K. inversion K as [|? ? r ? ? K1 K2]; subst. apply S in K1 as [K1 ->]. apply IH in K2 as [-> K2]. split; [cbn; lia|].
      intros [|i] L; [now rewrite Nat.add_0_r|]. cbn in L |- *. rewrite <- K2 by lia. f_equal. lia.
    + intros [-> K]. apply (lit_cons _ x a (Datatypes.S x)).
      * apply S. split; [|reflexivity]. specialize (K 0). rewrite Nat.add_0_r in K. apply K. cbn. lia.
      * apply IH. split; [cbn; lia|]. intros i L. specialize (K (Datatypes.S i)). cbn in K. rewrite <- K by lia. f_equal. lia.
Qed.
Lemma nth_error_same {A} (l k : list A) : (forall i, nth_error l i = nth_error k i) -> l = k.
Proof.
  revert k. induction l as [|x l IH]; intros [|y k] H; [reflexivity|specialize (H 0); discriminate..|].
  pose proof (H 0) as E. injection E as ->. f_equal. apply IH. intros i. exact (H (S i)).
Qed.
Lemma of_word_lang w u : nd_lang (of_word w) u <-> u = filter (fun a => negb (a =? EPS)%Z) w.
Proof.
  destruct (of_word_spec w) as (_ & Es & Ee & _ & _). unfold nd_lang, accepted. rewrite Es, Ee. split.
  - intros (p & q & [<-|[]] & [<-|[]] & K). apply path_lit in K as (x & K & ->). apply of_word_lit in K as [K1 K2]. cbn in K1, K2.
    assert (x = w) as ->; [|reflexivity]. apply nth_error_same. intros i. destruct (Nat.lt_ge_cases i (length x)) as [L|L]; [symmetry; now apply K2|].
    rewrite (proj2 (nth_error_None x i) L). symmetry. apply nth_error_None. unfold symbol in *. lia.
  - intros ->. exists 0, (length w). split; [now left|]. split; [now left|]. apply path_lit. exists w. split; [|reflexivity].
    apply of_word_lit. split; [reflexivity|]. intros i _. reflexivity.
Qed.
Lemma of_symbol_word a : of_symbol a = of_word [a].
Proof. reflexivity. Qed.

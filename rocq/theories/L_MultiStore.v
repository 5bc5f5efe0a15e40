(** Lemmas for the multi-store: enumeration of a language, the query automaton, the answer. *)
From Coq Require Import List ZArith Bool Sorted Permutation Lia PeanoNat.
From Verif Require Import M_BinFsa L_BinFsa L_Daciuk L_HashFsa M_MultiStore.
From Verif Require Import M_OrdSet L_OrdSet M_Fsa S_Fsa L_Fsa L_FsaTraverse L_FsaLang L_FsaOps L_FsaMin L_FsaInter.
Import ListNotations.
Local Open Scope nat_scope.

(** ** Enumeration *)
Lemma str_prefix u : forall v w, str_ltb (u ++ v) (u ++ w) = str_ltb v w.
Proof. induction u as [|a u IH]; intros v w; cbn; [reflexivity|]. now rewrite Z.ltb_irrefl, IH. Qed.
Lemma sorted_det_inc l : sorted_arcs l -> NoDup l -> (forall a q q', In (a, q) l -> In (a, q') l -> q = q') -> inc l.
Proof.
  unfold sorted_arcs, inc. induction 1 as [|[a q] l Hl IH Hx]; intros N D; constructor.
  - apply IH; [now inversion N|]. intros b r r' K K'. apply (D b); now right.
  - rewrite Forall_forall in *. intros [b r] Hb. specialize (Hx _ Hb). apply arc_le_spec in Hx. cbn in *. destruct Hx as [K|[-> _]]; [assumption|].
    exfalso. rewrite (D b q r (or_introl eq_refl) (or_intror Hb)) in N. inversion N; subst. contradiction.
Qed.
Section Enumerate.
Context (g : ndfsa) (W : wf g) (D : nd_det g) (N : forall p, NoDup (n_arcs g p)).
Lemma enum_in room : forall s word x, In x (language_rec (n_view g) room s word) <->
  exists u, x = word ++ u /\ length u < room /\ nd_right g s u.
Proof.
  destruct D as [F U]. induction room as [|room IH]; intros s word x; cbn [language_rec].
  - cbn. split; [intros []|]. intros (u & _ & K & _). lia.
  - rewrite in_app_iff, in_flat_map. split.
    + intros [K|([a q] & K1 & K2)].
      * destruct (v_is_end (n_view g) s) eqn:E; [|destruct K]. destruct K as [<-|[]]. exists []. rewrite app_nil_r. split; [reflexivity|]. split; [cbn; lia|].
        exists s. split; [|constructor]. cbn in E. now apply (set_count_in _ nat_strict) in E.
      * apply IH in K2 as (u & -> & Lu & (e & He & Hp)). exists (a :: u). cbn [fst snd] in *. split; [now rewrite <- app_assoc|]. split; [cbn; lia|].
        exists e. split; [assumption|]. apply (path_cons _ _ s a q); [|exact K1|assumption]. intros ->. exact (F _ _ K1).
    + intros (u & -> & Lu & (e & He & Hp)). apply (path_free _ _ F) in Hp. destruct u as [|a u].
      * subst e. left. assert (E : v_is_end (n_view g) s = true) by (cbn; now apply (set_count_in _ nat_strict)). rewrite E. left. now rewrite app_nil_r.
      * destruct Hp as (q & K1 & K2). right. exists (a, q). split; [exact K1|]. apply IH. exists u. cbn [fst snd]. split; [now rewrite <- app_assoc|].
        split; [cbn in Lu; lia|]. now exists e.
Qed.
Lemma enum_sorted room : forall s word, increasing str_ltb (language_rec (n_view g) room s word).
Proof.
  induction room as [|room IH]; intros s word; cbn [language_rec]; [constructor|]. apply sorted_app.
  - destruct (v_is_end (n_view g) s); repeat constructor.
  - assert (Hi : inc (n_arcs g s)).
    { apply sorted_det_inc; [apply W|apply N|]. intros a q q' K K'. exact (proj2 D s a q q' K K'). }
    cbn [n_view v_arcs]. unfold inc in Hi. induction Hi as [|[a d] l Hl IHl Hx]; cbn [flat_map]; [constructor|]. apply sorted_app; [apply IH|apply IHl|].
    intros x y Kx Ky. apply enum_in in Kx as (u & -> & _). apply in_flat_map in Ky as ([b q] & Ky & Ky'). apply enum_in in Ky' as (v & -> & _).
    rewrite Forall_forall in Hx. apply Hx in Ky. cbn [fst] in *. rewrite <- !app_assoc, str_prefix. cbn. now rewrite (proj2 (Z.ltb_lt a b) Ky).
  - intros x y Kx Ky. apply in_flat_map in Ky as ([b q] & _ & Ky'). apply enum_in in Ky' as (v & -> & _). cbn [fst].
    destruct (v_is_end (n_view g) s); [|now destruct Kx]. destruct Kx as [<-|[]]. rewrite <- app_assoc. rewrite <- (app_nil_r word) at 1. now rewrite str_prefix.
Qed.
End Enumerate.

(** ** The query *)
Definition suffix : ndfsa := Ndfsa [[(TAB, 1)]; [(EPS, 2)]; [(ANY, 3)]; [(EPS, 2)]] [0] [3].
Lemma suffix_eq : search_suffix = Some suffix.
Proof. reflexivity. Qed.
Lemma suffix_wf : wf suffix.
Proof.
  constructor; cbn.
  - intros p x. do 4 (destruct p as [|p]; [cbn; intuition (subst; cbn; lia)|]). destruct p; cbn; tauto.
  - intros p. do 4 (destruct p as [|p]; [repeat constructor|]). destruct p; constructor.
  - intuition lia.
  - intuition lia.
  - repeat constructor.
  - repeat constructor.
Qed.
Lemma suffix_step p a q : f_step suffix p a q <->
  (p = 0 /\ a = TAB /\ q = 1) \/ (p = 1 /\ a = EPS /\ q = 2) \/ (p = 2 /\ a = ANY /\ q = 3) \/ (p = 3 /\ a = EPS /\ q = 2).
Proof.
  unfold f_step, n_arcs. cbn [suffix n_states]. do 4 (destruct p as [|p]; [cbn; intuition (subst; congruence || tauto)|]).
  split; [destruct p; intros []|intuition discriminate].
Qed.
(** The query: the states of the key, then those of the suffix. *)
Definition is_query (key : list symbol) (Q : ndfsa) (m0 m1 m2 m3 : nat) : Prop :=
  wf Q /\ n_starts Q = [0] /\ n_ends Q = [m3] /\ m0 > length key /\ m1 > length key /\ m2 > length key /\ m3 > length key /\ NoDup [m0; m1; m2; m3] /\
  forall p a q, f_step Q p a q <-> (nth_error key p = Some a /\ q = S p) \/ (p = length key /\ a = EPS /\ q = m0) \/
    (p = m0 /\ a = TAB /\ q = m1) \/ (p = m1 /\ a = EPS /\ q = m2) \/ (p = m2 /\ a = ANY /\ q = m3) \/ (p = m3 /\ a = EPS /\ q = m2).
Lemma increasing_single l (x : nat) : increasing Nat.ltb l -> (forall y, In y l <-> y = x) -> l = [x].
Proof.
  intros I H. apply (increasing_unique _ nat_strict); [assumption|repeat constructor|]. intros y. rewrite H. cbn. intuition.
Qed.
Lemma query_spec key : exists Q m0 m1 m2 m3, concatenate (n_size suffix) (of_word key) (n_view suffix) = Some Q /\ is_query key Q m0 m1 m2 m3.
Proof.
  destruct (of_word_spec key) as (Wk & Sk & Ek & Nk & Stk). set (K := of_word key) in *. clearbody K.
  pose proof (n_view_wf _ suffix_wf) as Hv.
  assert (Hnd : NoDup (w_start (copier (n_view suffix)))) by (cbn; constructor; [intros []|constructor]).
  destruct (traverse_ends (copier (n_view suffix)) nat_strict K (seq 0 (n_size suffix)) Wk Hnd (copier_reach _ Hv) (n_size suffix)) as [g E]; [now rewrite seq_length|].
  unfold concatenate. rewrite E. cbn [bind].
  destruct (traverse_spec (copier (n_view suffix)) nat_strict K _ g Wk Hnd E) as [m B].
  assert (Wg : wf g) by apply (b_wf _ _ _ _ B).
  assert (Sg : n_size K <= n_size g) by (destruct (b_num _ _ _ _ B) as (_ & J & _); lia).
  destruct (join_ends_spec g (n_starts K) (n_starts g) (n_ends K)) as (H1 & H2 & H3 & H4 & H5);
    [assumption|apply Wg|intros p Hp; apply (wf_ends _ Wk) in Hp; lia|].
  set (h := join_ends _ _ _ g) in *. clearbody h.
  assert (St : forall p a q, step (copier (n_view suffix)) p a q <-> f_step suffix p a q).
  { intros p a q. unfold step. cbn [copier w_arcs]. apply (in_arc_set _ nat_strict). }
  assert (R0 : reach (copier (n_view suffix)) 0) by (apply reach_start; cbn; now left).
  assert (R1 : reach (copier (n_view suffix)) 1) by (apply (reach_step _ 0 TAB); [assumption|]; apply St, suffix_step; tauto).
  assert (R2 : reach (copier (n_view suffix)) 2) by (apply (reach_step _ 1 EPS); [assumption|]; apply St, suffix_step; tauto).
  assert (R3 : reach (copier (n_view suffix)) 3) by (apply (reach_step _ 2 ANY); [assumption|]; apply St, suffix_step; tauto).
  destruct (in_dom _ _ _ _ B 0 R0) as [m0 M0]. destruct (in_dom _ _ _ _ B 1 R1) as [m1 M1].
  destruct (in_dom _ _ _ _ B 2 R2) as [m2 M2]. destruct (in_dom _ _ _ _ B 3 R3) as [m3 M3].
  pose proof (b_num _ _ _ _ B) as Nu.
  assert (Bd : forall s n, In (s, n) m -> length key < n) by (intros s n Hn; apply (numbered_bound _ _ _ _ _ Nu) in Hn; lia).
  assert (Inj : forall s t n, In (s, n) m -> In (t, n) m -> s = t) by (intros s t n; apply (numbered_inj _ _ _ _ _ _ Nu)).
  assert (Fun : forall s n k, In (s, n) m -> In (s, k) m -> n = k) by (intros s n k; apply (numbered_fun _ _ _ _ _ _ Nu)).
  exists h, m0, m1, m2, m3. split; [reflexivity|]. split; [assumption|]. split; [|split; [|split; [exact (Bd _ _ M0)|]; split; [exact (Bd _ _ M1)|]; split; [exact (Bd _ _ M2)|]; split; [exact (Bd _ _ M3)|]; split]].
  - apply increasing_single; [apply H1|]. intros y. rewrite H3, (b_starts _ _ _ _ B), Sk. cbn [In]. split.
    + intros [[[<-|[]]|(s & K1 & K2)] K3]; [reflexivity|]. destruct K3 as [K3|[K3|[<-|[]]]]; [rewrite Ek in K3; discriminate| |reflexivity].
      exfalso. apply K3. right. now exists s.
    + intros ->. split; [left; now left|]. right. right. now left.
  - apply increasing_single; [apply H1|]. intros y. rewrite H4, (b_ends _ _ _ _ B), Ek. cbn [In]. split.
    + intros [[[<-|[]]|(s & K1 & K2)] K3]; [exfalso; apply K3; now left|]. cbn in K2.
      assert (s = 3) as -> by (do 4 (destruct s as [|s]; try discriminate; try reflexivity); destruct s; discriminate). now apply (Fun 3).
    + intros ->. split; [right; exists 3; now split|]. intros [J|[]]. apply Bd in M3. lia.
  - repeat constructor; cbn [In]; intuition; subst; match goal with H1 : In (?a, ?n) m, H2 : In (?b, ?n) m |- _ => pose proof (Inj a b n H1 H2); discriminate end.
  - intros p a q. rewrite H5, Sk, Ek. cbn [In]. split.
    + intros [J|(-> & [<-|[]] & J1 & J2)].
      * destruct (Nat.lt_ge_cases p (n_size K)) as [L|L].
        -- left. apply (beside_old_step _ _ _ _ B _ _ _ L) in J. now apply Stk.
        -- pose proof (f_step_wf _ _ _ _ Wg J) as [Lp _]. destruct (numbered_cover _ _ _ p Nu ltac:(lia)) as (s & Hs).
           destruct (proj2 (beside_arcs _ _ _ _ B s p Hs) _ _ J) as (t & Ht & J'). apply St, suffix_step in J'.
           destruct J' as [(-> & -> & ->)|[(-> & -> & ->)|[(-> & -> & ->)|(-> & -> & ->)]]].
           ++ rewrite (Fun _ _ _ Hs M0), (Fun _ _ _ Ht M1). tauto.
           ++ rewrite (Fun _ _ _ Hs M1), (Fun _ _ _ Ht M2). tauto.
           ++ rewrite (Fun _ _ _ Hs M2), (Fun _ _ _ Ht M3). tauto.
           ++ rewrite (Fun _ _ _ Hs M3), (Fun _ _ _ Ht M2). tauto.
      * right. left. split; [reflexivity|]. split; [reflexivity|]. apply (b_starts _ _ _ _ B) in J1 as [J1|(s & K1 & K2)]; [rewrite Sk in J1; cbn in J1; tauto|].
        cbn in K2. destruct K2 as [<-|[]]. now apply (Fun 0).
    + assert (Ar : forall s t n k a, In (s, n) m -> In (t, k) m -> f_step suffix s a t -> f_step g n a k).
      { intros s t n k b Hs Ht J. apply St in J. destruct (proj1 (beside_arcs _ _ _ _ B s n Hs) _ _ J) as (k' & J1 & J2). now rewrite (Fun t k k' Ht J1). }
      intros [J|[(-> & -> & ->)|[(-> & -> & ->)|[(-> & -> & ->)|[(-> & -> & ->)|(-> & -> & ->)]]]]].
      * left. apply Stk in J. pose proof (f_step_wf _ _ _ _ Wk J) as [L _]. now apply (beside_old_step _ _ _ _ B _ _ _ L).
      * right. split; [reflexivity|]. split; [now left|]. split; [apply (b_starts _ _ _ _ B); right; exists 0; split; [assumption|cbn; now left]|].
        intros [J|[]]. apply Bd in M0. lia.
      * left. apply (Ar 0 1); [assumption..|]. apply suffix_step. tauto.
      * left. apply (Ar 1 2); [assumption..|]. apply suffix_step. tauto.
      * left. apply (Ar 2 3); [assumption..|]. apply suffix_step. tauto.
      * left. apply (Ar 3 2); [assumption..|]. apply suffix_step. tauto.
Qed.

(** ** The answer *)
Section Answer.
Context (key : list symbol) (Q : ndfsa) (m0 m1 m2 m3 : nat) (HQ : is_query key Q m0 m1 m2 m3).
Context (Hkey : forall a, In a key -> a <> EPS /\ a <> ANY).
Context (v : view) (Hv : v_wf v) (Fv : free v) (Av : forall p q, ~ v_step v p ANY q) (Zv : 0 < v_size v).
Context (Dv : forall p a q q', v_step v p a q -> v_step v p a q' -> q = q').
Notation k := (length key).
Definition st (j : nat) : nat := if j <=? k then j else if j =? S k then m1 else m3.
Lemma st_low j : j <= k -> st j = j.
Proof. intros H. unfold st. destruct (Nat.leb_spec j k); [reflexivity|lia]. Qed.
Lemma st_mid : st (S k) = m1.
Proof. unfold st. destruct (Nat.leb_spec (S k) k); [lia|]. now rewrite Nat.eqb_refl. Qed.
Lemma st_high j : S k < j -> st j = m3.
Proof. intros H. unfold st. destruct (Nat.leb_spec j k); [lia|]. destruct (Nat.eqb_spec j (S k)); [lia|reflexivity]. Qed.
Lemma key_eps j : nth_error key j <> Some EPS.
Proof. intros E. apply nth_error_In in E. now apply Hkey in E. Qed.
Lemma key_any j : nth_error key j <> Some ANY.
Proof. intros E. apply nth_error_In in E. now apply Hkey in E. Qed.
Lemma key_out j : k <= j -> nth_error key j = None.
Proof. apply nth_error_None. Qed.
Lemma qstep p a q : v_step (n_view Q) p a q <-> (nth_error key p = Some a /\ q = S p) \/ (p = k /\ a = EPS /\ q = m0) \/
    (p = m0 /\ a = TAB /\ q = m1) \/ (p = m1 /\ a = EPS /\ q = m2) \/ (p = m2 /\ a = ANY /\ q = m3) \/ (p = m3 /\ a = EPS /\ q = m2).
Proof. destruct HQ as (_ & _ & _ & _ & _ & _ & _ & _ & K). exact (K p a q). Qed.
Ltac facts := destruct HQ as (_ & _ & _ & G0 & G1 & G2 & G3 & Nd & _);
  assert (N01 : m0 <> m1 /\ m0 <> m2 /\ m0 <> m3 /\ m1 <> m2 /\ m1 <> m3 /\ m2 <> m3)
    by (inversion Nd as [|? ? A1 Nd1]; subst; inversion Nd1 as [|? ? A2 Nd2]; subst; inversion Nd2 as [|? ? A3 _]; subst; cbn in *; intuition).
Lemma eps_from j r : eps_reach EPS (v_step (n_view Q)) (st j) r <-> r = st j \/ (j = k /\ r = m0) \/ (k < j /\ r = m2).
Proof.
  facts. split.
  - apply (eps_reach_inv EPS (v_step (n_view Q)) (fun r => r = st j \/ (j = k /\ r = m0) \/ (k < j /\ r = m2))); [|now left].
    intros x y Hx Hs. apply qstep in Hs.
    destruct Hs as [[E _]|[(-> & _ & ->)|[(_ & E & _)|[(-> & _ & ->)|[(_ & E & _)|(-> & _ & ->)]]]]]; [now apply key_eps in E| |discriminate| |discriminate|].
    + destruct (Nat.le_gt_cases j k) as [L|L].
      * rewrite (st_low j L) in Hx. right. left. split; [lia|reflexivity].
      * exfalso. destruct (Nat.eq_dec j (S k)) as [->|N]; [rewrite st_mid in Hx; lia|rewrite (st_high j) in Hx by lia; lia].
    + right. right. split; [|reflexivity]. destruct (Nat.le_gt_cases j k) as [L|L]; [|assumption]. rewrite (st_low j L) in Hx. lia.
    + right. right. split; [|reflexivity]. destruct (Nat.le_gt_cases j k) as [L|L]; [|assumption]. rewrite (st_low j L) in Hx. lia.
  - intros [->|[(-> & ->)|(L & ->)]]; [constructor| |].
    + rewrite (st_low k) by lia. apply (path_eps _ _ k m0); [|constructor]. apply qstep. tauto.
    + destruct (Nat.eq_dec j (S k)) as [->|N]; [rewrite st_mid|rewrite (st_high j) by lia].
      * apply (path_eps _ _ m1 m2); [|constructor]. apply qstep. tauto.
      * apply (path_eps _ _ m3 m2); [|constructor]. apply qstep. tauto.
Qed.
Definition reads (j : nat) (a : symbol) : Prop := k < j \/ nth_error (key ++ [TAB]) j = Some a.
Lemma consume j a q : a <> EPS -> a <> ANY ->
  ((exists r b, eps_reach EPS (v_step (n_view Q)) (st j) r /\ v_step (n_view Q) r b q /\ (b = a \/ b = ANY)) <-> q = st (S j) /\ reads j a).
Proof.
  intros Ne Na. facts. unfold reads. split.
  - intros (r & b & K1 & K2 & K3). apply eps_from in K1. apply qstep in K2.
    destruct K2 as [[E ->]|[(-> & -> & ->)|[(-> & -> & ->)|[(-> & -> & ->)|[(-> & -> & ->)|(-> & -> & ->)]]]]];
      try (exfalso; destruct K3; [congruence|discriminate]).
    + assert (Lr : r < k) by (apply nth_error_Some; congruence). destruct K3 as [->| ->]; [|now apply key_any in E].
      destruct K1 as [K1|[(_ & K1)|(_ & K1)]]; [|lia|lia]. destruct (Nat.le_gt_cases j k) as [L|L].
      * rewrite (st_low j L) in K1. subst r. rewrite (st_low (S j)) by lia. split; [reflexivity|]. right. now rewrite nth_error_app1.
      * exfalso. destruct (Nat.eq_dec j (S k)) as [->|N]; [rewrite st_mid in K1|rewrite (st_high j) in K1 by lia]; lia.
    + destruct K3 as [<-|K3]; [|discriminate]. destruct K1 as [K1|[(-> & _)|(_ & K1)]]; [|split; [now rewrite st_mid|]|lia].
      * exfalso. destruct (Nat.le_gt_cases j k) as [L|L]; [rewrite (st_low j L) in K1; lia|].
        destruct (Nat.eq_dec j (S k)) as [->|N]; [rewrite st_mid in K1|rewrite (st_high j) in K1 by lia]; lia.
      * right. rewrite nth_error_app2, Nat.sub_diag by lia. reflexivity.
    + destruct K1 as [K1|[(_ & K1)|(L & _)]]; [|lia|split; [rewrite (st_high (S j)) by lia; reflexivity|now left]].
      exfalso. destruct (Nat.le_gt_cases j k) as [L|L]; [rewrite (st_low j L) in K1; lia|].
      destruct (Nat.eq_dec j (S k)) as [->|N]; [rewrite st_mid in K1|rewrite (st_high j) in K1 by lia]; lia.
  - intros (-> & [L|E]).
    + exists m2, ANY. split; [apply eps_from; tauto|]. split; [|tauto]. rewrite (st_high (S j)) by lia. apply qstep. tauto.
    + destruct (Nat.lt_ge_cases j k) as [L|L].
      * rewrite nth_error_app1 in E by assumption. exists j, a. split; [apply eps_from; left; now rewrite st_low by lia|]. split; [|tauto].
        rewrite (st_low (S j)) by lia. apply qstep. tauto.
      * rewrite nth_error_app2 in E by assumption. destruct (j - k) as [|i] eqn:Ej; [|destruct i; discriminate]. injection E as <-.
        assert (j = k) as -> by lia. exists m0, TAB. split; [apply eps_from; tauto|]. split; [|tauto]. rewrite st_mid. apply qstep. tauto.
Qed.
Lemma st_bound j : st j < n_size Q.
Proof.
  facts. destruct HQ as (Wq & Sq & Eq & _ & _ & _ & _ & _ & Stp).
  assert (B : forall p a q, f_step Q p a q -> p < n_size Q) by (intros p a q K; now apply (f_step_wf _ _ _ _ Wq) in K).
  destruct (Nat.le_gt_cases j k) as [L|L].
  - rewrite st_low by assumption. assert (Lk : k < n_size Q) by (apply (B k EPS m0), Stp; tauto). lia.
  - destruct (Nat.eq_dec j (S k)) as [->|N]; [rewrite st_mid; apply (B m1 EPS m2), Stp; tauto|]. rewrite st_high by lia. apply (B m3 EPS m2), Stp. tauto.
Qed.
Lemma vstep_sym p a q : v_step v p a q -> a <> EPS /\ a <> ANY.
Proof. intros H. split; intros ->; [exact (Fv _ _ H)|exact (Av _ _ H)]. Qed.
Notation ix := (intersector (n_view Q) v true).
Lemma ix_step j p2 a q : p2 < v_size v -> (step ix (st j, p2) a q <-> fst q = st (S j) /\ reads j a /\ v_step v p2 a (snd q)).
Proof.
  destruct HQ as (Wq & _). intros L. destruct q as [q1 q2]. cbn [fst snd].
  rewrite (int_step (n_view Q) v true (st j) p2 a q1 q2 (n_view_wf _ Wq) Hv (st_bound j) L). split.
  - intros (r1 & r2 & b & c & K1 & K2 & K3 & K4 & K5). assert (r2 = p2) as -> by (symmetry; exact (path_free _ _ Fv _ _ _ K2)).
    destruct (vstep_sym _ _ _ K4) as [Ne Na].
    assert (Em : a = c /\ (b = a \/ b = ANY)).
    { destruct K5 as [[-> ->]|(_ & [[-> ->]|(_ & -> & _)])]; [tauto|tauto|contradiction]. }
    destruct Em as [<- Em]. assert (C : q1 = st (S j) /\ reads j a) by (apply consume; [assumption..|]; now exists r1, b). tauto.
  - intros (-> & Hr & K4). destruct (vstep_sym _ _ _ K4) as [Ne Na].
    destruct (proj2 (consume j a (st (S j)) Ne Na) (conj eq_refl Hr)) as (r & b & K1 & K2 & K3). exists r, p2, b, a.
    split; [assumption|]. split; [constructor|]. split; [assumption|]. split; [assumption|]. unfold meets. destruct K3 as [->| ->]; [tauto|]. right. tauto.
Qed.
Lemma ix_reach p : reach ix p -> (exists j, fst p = st j) /\ snd p < v_size v.
Proof.
  destruct HQ as (Wq & Sq & _).
  intros K. split; [|apply (int_reach (n_view Q) v true (n_view_wf _ Wq) Hv); [|assumption]; intros x Hx; cbn in Hx; rewrite Sq in Hx; destruct Hx as [<-|[]]; assumption].
  assert (G : (exists j, fst p = st j) /\ snd p < v_size v); [|apply G].
  induction K as [[p1 p2] K|[p1 p2] a [q1 q2] K IH K'].
  - apply int_start in K as [K1 K2]. cbn in K1, K2. rewrite Sq in K1, K2. destruct K1 as [<-|[]]. destruct K2 as [<-|[]]. cbn. split; [exists 0; symmetry; apply st_low; lia|assumption].
  - cbn [fst snd] in *. destruct IH as [(j & ->) L]. apply (ix_step j p2 a (q1, q2) L) in K' as (K1 & _ & K2). cbn [fst snd] in *.
    split; [now exists (S j)|]. now apply (vw_arcs _ Hv) in K2.
Qed.
Lemma ix_right : forall u j p2, p2 < v_size v -> (w_right ix (st j, p2) u <->
  j + length u > S k /\ (forall i a, nth_error u i = Some a -> reads (j + i) a) /\ exists e, path EPS (v_step v) p2 u e /\ v_is_end v e = true).
Proof.
  assert (Fin : forall j, v_is_end (n_view Q) (st j) = true <-> j > S k).
  { intros j. destruct HQ as (_ & _ & Eq & G0 & G1 & G2 & G3 & Nd & _). cbn [n_view v_is_end]. rewrite (set_count_in _ nat_strict), Eq. cbn [In].
    destruct (Nat.le_gt_cases j k) as [L|L]; [rewrite st_low by assumption; lia|].
    destruct (Nat.eq_dec j (S k)) as [->|N]; [|rewrite st_high by lia; lia]. rewrite st_mid.
    inversion Nd as [|? ? A1 Nd1]; subst; inversion Nd1 as [|? ? A2 Nd2]; subst. cbn in A2. split; [intros [->|[]]; tauto|lia]. }
  assert (Fr : forall j p2 q, p2 < v_size v -> ~ step ix (st j, p2) EPS q).
  { intros j p2 q L K. apply (ix_step j p2 EPS q L) in K as (_ & _ & K). exact (Fv _ _ K). }
  induction u as [|a u IH]; intros j p2 L.
  - split.
    + intros (q & Hf & K). assert (q = (st j, p2)).
      { inversion K as [|? ? ? ? Hs|]; subst; [reflexivity|]. now apply Fr in Hs. }
      subst q. cbn [intersector w_final fst snd] in Hf. apply andb_true_iff in Hf as [H1 H2]. apply Fin in H1. split; [cbn; lia|].
      split; [intros [|i] b E; discriminate|]. exists p2. split; [constructor|assumption].
    + intros (H1 & _ & (e & K & He)). apply (path_free _ _ Fv) in K. subst e. exists (st j, p2). split; [|constructor].
      cbn [intersector w_final fst snd]. apply andb_true_iff. split; [apply Fin; cbn in H1; lia|assumption].
  - split.
    + intros (q & Hf & K). inversion K as [|? ? ? ? Hs|? ? [t1 t2] ? ? Ha Hs K']; subst; [now apply Fr in Hs|].
      apply (ix_step j p2 a _ L) in Hs as (E1 & E2 & E3). cbn [fst snd] in *. subst t1.
      assert (L' : t2 < v_size v) by now apply (vw_arcs _ Hv) in E3.
      destruct (proj1 (IH (S j) t2 L') ltac:(now exists q)) as (H1 & H2 & (e & H3 & H4)). split; [cbn; lia|]. split.
      * intros [|i] b Eb; [injection Eb as <-; now rewrite Nat.add_0_r|]. replace (j + S i) with (S j + i) by lia. now apply H2.
      * exists e. split; [|assumption]. now apply (path_cons _ _ p2 a t2).
    + intros (H1 & H2 & (e & K & He)). apply (path_free _ _ Fv) in K as (t2 & E3 & K).
      assert (L' : t2 < v_size v) by now apply (vw_arcs _ Hv) in E3.
      destruct (proj2 (IH (S j) t2 L')) as (q & Hf & Kq).
      * split; [cbn in H1; lia|]. split; [|now exists e]. intros i b Eb. replace (S j + i) with (j + S i) by lia. now apply H2.
      * exists q. split; [assumption|]. apply (path_cons _ _ _ a (st (S j), t2)); [now apply vstep_sym in E3| |assumption].
        apply (ix_step j p2 a _ L). cbn. split; [reflexivity|]. split; [|assumption]. specialize (H2 0 a eq_refl). now rewrite Nat.add_0_r in H2.
Qed.
Definition found (u : list symbol) : Prop :=
  exists w, w <> [] /\ u = key ++ [TAB] ++ w /\ exists e, path EPS (v_step v) 0 u e /\ v_is_end v e = true.
Lemma ix_found u : w_right ix (0, 0) u <-> found u.
Proof.
  rewrite <- (st_low 0) at 1 by lia. rewrite (ix_right u 0 0 Zv). cbn [Nat.add]. unfold found. split.
  - intros (H1 & H2 & H3). assert (Ep : firstn (S k) u = key ++ [TAB]).
    { apply nth_error_same. intros i. destruct (Nat.lt_ge_cases i (S k)) as [L|L].
      - destruct (nth_error u i) as [a|] eqn:Ea; [|apply nth_error_None in Ea; lia].
        destruct (H2 i a Ea) as [C|C]; [lia|]. transitivity (Some a); [|symmetry; exact C]. rewrite <- (firstn_skipn (S k) u) in Ea. rewrite nth_error_app1 in Ea; [assumption|]. rewrite firstn_length. lia.
      - rewrite !(proj2 (nth_error_None _ _)); [reflexivity| |]; [rewrite app_length; cbn; lia|rewrite firstn_length; lia]. }
    exists (skipn (S k) u). split; [|split; [|assumption]].
    + intros E. apply (f_equal (@length _)) in E. rewrite skipn_length in E. cbn in E. lia.
    + rewrite app_assoc, <- Ep. symmetry. apply firstn_skipn.
  - intros (w & Nw & E & H3). split; [|split; [|assumption]].
    + rewrite E, !app_length. destruct w; [congruence|cbn; lia].
    + intros i a Ea. unfold reads. destruct (Nat.lt_ge_cases k i) as [L|L]; [now left|right]. rewrite E, app_assoc, nth_error_app1 in Ea; [assumption|]. rewrite app_length. cbn. lia.
Qed.
Lemma found_spec : exists g, intersect (n_size Q * v_size v) Q v true = Some g /\
  increasing str_ltb (language (n_view g) max_depth) /\
  forall u, In u (language (n_view g) max_depth) <-> found u /\ length u <= max_depth.
Proof.
  destruct HQ as (Wq & Sq & _). pose proof (n_view_wf _ Wq) as Hq.
  assert (S0 : forall p, In p (v_starts (n_view Q)) -> p < v_size v) by (intros p Hp; cbn in Hp; rewrite Sq in Hp; destruct Hp as [<-|[]]; assumption).
  destruct (traverse_ends ix pair_strict empty _ empty_wf (int_start_nodup _ _ _) (int_univ _ _ true Hq Hv S0) (n_size Q * v_size v)) as [g E].
  { rewrite prod_length, !seq_length. reflexivity. }
  exists g. split; [exact E|].
  destruct (traverse_spec ix pair_strict empty _ g empty_wf (int_start_nodup _ _ _) E) as [m B].
  assert (Es : n_starts g = [0]).
  { unfold traverse in E. destruct (traverse_starts (w_start ix) [] [] empty) as [[m' q'] f'] eqn:E0.
    apply loop_starts in E. rewrite E. cbn [intersector w_start] in E0.
    assert (Ew : insert_all pair_ltb (flat_map (fun p1 => map (fun p2 => (p1, p2)) (v_starts (n_view Q))) (v_starts (n_view Q))) [] = [(0, 0)]).
    { cbn [n_view v_starts]. rewrite Sq. reflexivity. }
    rewrite Ew in E0. cbn in E0. injection E0 as <- <- <-. reflexivity. }
  assert (M0 : In ((0, 0), 0) m).
  { assert (In 0 (n_starts g)) as K by (rewrite Es; now left). apply (built_start _ m g B) in K as (s & K1 & K2). destruct s as [s1 s2].
    apply int_start in K2 as [K2 K3]. cbn in K2, K3. rewrite Sq in K2, K3. destruct K2 as [<-|[]]. destruct K3 as [<-|[]]. exact K1. }
  assert (Rch : forall s n, In (s, n) m -> (exists j, fst s = st j) /\ snd s < v_size v).
  { intros s n Hs. apply ix_reach. apply (b_reach _ _ _ _ B). apply in_map_iff. now exists (s, n). }
  pose proof (b_num _ _ _ _ B) as Nu.
  assert (Det : nd_det g).
  { split.
    - intros p q K. apply (built_step _ m g B) in K as ([s1 s2] & t & K1 & _ & K). destruct (Rch _ _ K1) as [(j & Ej) L]. cbn [fst snd] in *. subst s1.
      apply (ix_step j s2 EPS t L) in K as (_ & _ & K). exact (Fv _ _ K).
    - intros p a q q' K K'. apply (built_step _ m g B) in K as ([s1 s2] & t & J1 & J2 & J3). apply (built_step _ m g B) in K' as (s' & t' & J1' & J2' & J3').
      rewrite (numbered_inj _ _ _ _ _ _ Nu J1' J1) in J3'. destruct (Rch _ _ J1) as [(j & Ej) L]. cbn [fst snd] in *. subst s1.
      apply (ix_step j s2 a t L) in J3 as (A1 & _ & A2). apply (ix_step j s2 a t' L) in J3' as (A1' & _ & A2').
      assert (t = t') as <- by (destruct t, t'; cbn [fst snd] in *; f_equal; [congruence|now apply (Dv s2 a)]).
      exact (numbered_fun _ _ _ _ _ _ Nu J2 J2'). }
  assert (Nod : forall p, NoDup (n_arcs g p)).
  { intros p. destruct (Nat.lt_ge_cases p (n_size g)) as [L|L]; [|rewrite n_arcs_out by assumption; constructor].
    destruct (built_cover _ m g B p L) as [s Hs]. destruct (b_arcs _ _ _ _ B s p Hs) as (ks & C & P). apply (Permutation_NoDup P).
    assert (Nw : NoDup (w_arcs ix s)).
    { apply (increasing_nodup _ (arc_strict _ pair_strict)). cbn [intersector w_arcs]. apply (increasing_arc_set _ pair_strict). }
    clear -C Nw Nu. induction C as [|x y l ks [Hxy Hm] C IH]; [constructor|]. inversion Nw as [|? ? N1 N2]; subst. constructor; [|now apply IH].
    intros Hin. apply N1. assert (Ex : exists x', In x' l /\ fst x' = fst y /\ In (snd x', snd y) m).
    { clear -C Hin. induction C as [|x0 y0 l ks [H1 H2] C IH]; [destruct Hin|]. destruct Hin as [->|Hin]; [exists x0; split; [now left|auto]|].
      destruct (IH Hin) as (x' & K1 & K2). exists x'. split; [now right|assumption]. }
    destruct Ex as (x' & K1 & K2 & K3). pose proof (numbered_inj _ _ _ _ _ _ Nu K3 Hm) as K4. destruct x as [a t], x' as [a' t']. cbn [fst snd] in *. congruence. }
  unfold language. cbn [n_view v_starts]. rewrite Es. cbn [flat_map]. rewrite app_nil_r. fold (n_view g). split.
  - apply enum_sorted; [apply (b_wf _ _ _ _ B)|assumption..].
  - intros u. rewrite (enum_in g Det). split.
    + intros (x & -> & L & R). cbn [app]. apply (built_right _ m g B (0, 0) 0 M0), ix_found in R. split; [assumption|lia].
    + intros [R L]. exists u. split; [reflexivity|]. split; [lia|]. apply (built_right _ m g B (0, 0) 0 M0). now apply ix_found.
Qed.
End Answer.

(** ** The store *)
Lemma insert_word_perm w l : Permutation (insert_word w l) (w :: l).
Proof. induction l as [|x l IH]; cbn; [reflexivity|]. destruct (str_ltb x w); [|reflexivity]. rewrite IH. apply perm_swap. Qed.
Lemma sort_words_perm l : Permutation (sort_words l) l.
Proof. induction l as [|w l IH]; cbn; [reflexivity|]. rewrite insert_word_perm. now constructor. Qed.
Lemma str_not_lt x y z : str_ltb y x = false -> str_ltb z y = false -> str_ltb z x = false.
Proof.
  destruct str_ltb_strict as [Ir Tr To]. intros H1 H2. destruct (str_ltb z x) eqn:E; [|reflexivity]. exfalso.
  destruct (str_ltb x y) eqn:K.
  - rewrite (Tr z x y E K) in H2. discriminate.
  - rewrite (To x y K H1) in E. congruence.
Qed.
Lemma sort_words_sorted l : StronglySorted (fun x y => str_ltb y x = false) (sort_words l).
Proof.
  induction l as [|w l IH]; [constructor|]. change (sort_words (w :: l)) with (insert_word w (sort_words l)). set (l' := sort_words l) in *. clearbody l'. clear l. rename l' into l.
  destruct str_ltb_strict as [Ir Tr To].
  induction IH as [|x l Hl IH Hx]; cbn [insert_word]; [repeat constructor|]. destruct (str_ltb x w) eqn:E.
  - constructor; [exact IH|]. rewrite Forall_forall in *. intros y Hy. apply (Permutation_in _ (insert_word_perm w l)) in Hy as [<-|Hy]; [|now apply Hx].
    destruct (str_ltb w x) eqn:E'; [|reflexivity]. rewrite <- (Ir x). symmetry. now apply (Tr x w x).
  - constructor; [now constructor|]. rewrite Forall_forall in *. intros y [<-|Hy]; [assumption|]. apply (str_not_lt w x y); [assumption|now apply Hx].
Qed.

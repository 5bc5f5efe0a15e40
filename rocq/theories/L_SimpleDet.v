(** Lemmas on determinizing and minimizing the automata that are built while translating. *)
From Coq Require Import List ZArith NArith Bool Sorted Permutation Lia PeanoNat.
From Verif Require Import M_Fsa L_Fsa M_Minfsa M_Dag M_SimpleDag S_SimpleDag L_FsaMin L_SimpleDag L_SimpleCopy.
Import ListNotations.
Local Open Scope nat_scope.

(** ** The steps from a set of states *)
Definition get (a : Z) (l : arcset) : N := match find (fun x => (a =? fst x)%Z) l with Some x => snd x | None => 0%N end.
Definition by_symbol (l : arcset) : Prop := StronglySorted (fun x y => (fst x < fst y)%Z) l.
Lemma put_keys a q l b : In b (map fst (put a q l)) <-> b = a \/ In b (map fst l).
Proof.
  induction l as [|[c s] l IH]; cbn [put map fst In]; [intuition|].
  destruct (Z.eqb_spec a c) as [->|]; [cbn; intuition|]. destruct (a <? c)%Z; cbn [map fst In]; [intuition|]. rewrite IH. intuition.
Qed.
Lemma put_sorted a q l : by_symbol l -> by_symbol (put a q l).
Proof.
  induction l as [|[c s] l IH]; intros H; cbn [put]; [repeat constructor|].
  apply StronglySorted_inv in H as [H1 H2]. destruct (Z.eqb_spec a c) as [->|D]; [now constructor|].
  destruct (Z.ltb_spec a c) as [L|L].
  - constructor; [now constructor|]. constructor; [assumption|]. eapply Forall_impl; [|exact H2]. cbn. lia.
  - constructor; [now apply IH|]. apply Forall_forall. intros [b t] Hb. apply (in_map fst) in Hb. apply put_keys in Hb as [->|Hb]; cbn; [lia|].
    apply in_map_iff in Hb as ([b' t'] & E & Hb). rewrite Forall_forall in H2. specialize (H2 _ Hb). cbn in *. lia.
Qed.
Lemma get_put a q l b j : by_symbol l -> has (get b (put a q l)) j = ((b =? a)%Z && (q =? j)) || has (get b l) j.
Proof.
  unfold get. induction l as [|[c s] l IH]; intros H; cbn [put find fst].
  - destruct (Z.eqb_spec b a); cbn [snd]; [now rewrite has_with_bit|reflexivity].
  - apply StronglySorted_inv in H as [H1 H2]. destruct (Z.eqb_spec a c) as [->|D].
    + cbn [find fst]. destruct (Z.eqb_spec b c); cbn [snd andb]; [now rewrite has_with_bit|reflexivity].
    + destruct (Z.ltb_spec a c) as [L|L].
      * cbn [find fst]. destruct (Z.eqb_spec b a) as [->|D']; [|reflexivity]. cbn [snd andb]. rewrite has_with_bit.
        destruct (Z.eqb_spec a c); [contradiction|].
        destruct (find (fun x => (a =? fst x)%Z) l) as [[c' s']|] eqn:F; [|reflexivity].
        apply find_some in F as [F1 F2]. rewrite Forall_forall in H2. specialize (H2 _ F1). cbn in *. lia.
      * cbn [find fst]. destruct (Z.eqb_spec b c) as [->|D']; [|now apply IH]. cbn [snd].
        destruct (Z.eqb_spec c a); [congruence|reflexivity].
Qed.
Lemma get_in a t l : by_symbol l -> (In (a, t) l <-> In a (map fst l) /\ t = get a l).
Proof.
  unfold get. induction l as [|[c s] l IH]; intros H; [cbn; tauto|]. apply StronglySorted_inv in H as [H1 H2]. rewrite Forall_forall in H2.
  cbn [map fst In find]. destruct (Z.eqb_spec a c) as [->|D]; cbn [snd].
  - split; [|intros [_ ->]; now left]. intros [E|E]; [inversion E; auto|]. specialize (H2 _ E). cbn in H2. lia.
  - specialize (IH H1). split.
    + intros [E|E]; [inversion E; congruence|]. apply IH in E as [E1 E2]. split; [now right|assumption].
    + intros [[E|E1] E2]; [congruence|]. right. apply IH. now split.
Qed.
Definition feed (l : arcset) (x : warc) : arcset := put (x_sym x) (x_dest x) l.
Lemma fed_spec r : by_symbol (fold_left feed r []) /\ (forall a, In a (map fst (fold_left feed r [])) <-> exists q v, In (Warc a q v) r) /\
  (forall a q, has (get a (fold_left feed r [])) q = true <-> exists v, In (Warc a q v) r).
Proof.
  induction r as [|[a q v] r (IH1 & IH2 & IH3)] using rev_ind.
  - split; [constructor|]. split; [intros a; cbn; split; [easy|intros (q & v & [])]|]. intros a q. unfold get. cbn [fold_left find]. rewrite has_none. split; [easy|intros (v & [])].
  - rewrite fold_left_app. cbn [fold_left]. unfold feed at 1 3 5. cbn [x_sym x_dest]. split; [now apply put_sorted|]. split.
    + intros b. rewrite put_keys, IH2. split.
      * intros [->|(q' & v' & H)]; [exists q, v; apply in_app_iff; right; now left|exists q', v'; apply in_app_iff; now left].
      * intros (q' & v' & H). apply in_app_iff in H as [H|[H|[]]]; [right; now exists q', v'|left; now inversion H].
    + intros b j. rewrite get_put by assumption. rewrite orb_true_iff, andb_true_iff, Z.eqb_eq, Nat.eqb_eq, IH3. split.
      * intros [[-> <-]|(v' & H)]; [exists v; apply in_app_iff; right; now left|exists v'; apply in_app_iff; now left].
      * intros (v' & H). apply in_app_iff in H as [H|[H|[]]]; [right; now exists v'|left; now inversion H].
Qed.
Definition onward (d : sdag) (k : N) (a : Z) (q : nat) : Prop := exists p v, has k p = true /\ In (Warc a q v) (s_row d p).
Lemma steps_spec d k : by_symbol (steps d k) /\
  (forall a t, In (a, t) (steps d k) -> (exists q, onward d k a q) /\ forall q, has t q = true <-> onward d k a q) /\
  (forall a q, onward d k a q -> exists t, In (a, t) (steps d k)).
Proof.
  assert (E : steps d k = fold_left feed (flat_map (s_row d) (bits (s_size d) k)) []) by (unfold steps; rewrite <- fold_flat; reflexivity).
  rewrite E. set (r := flat_map (s_row d) (bits (s_size d) k)).
  assert (Hr : forall a q v, In (Warc a q v) r <-> exists p, has k p = true /\ In (Warc a q v) (s_row d p)).
  { intros a q v. unfold r. rewrite in_flat_map. split; intros (p & H1 & H2); exists p; (split; [|assumption]).
    - now apply in_bits in H1.
    - apply in_bits. split; [now apply row_inside in H2|assumption]. }
  destruct (fed_spec r) as (F1 & F2 & F3). split; [assumption|]. split.
  - intros a t H. apply get_in in H as [H ->]; [|assumption]. split.
    + apply F2 in H as (q & v & H). apply Hr in H as (p & H1 & H2). exists q, p, v. now split.
    + intros q. rewrite F3. split; [intros (v & H'); apply Hr in H' as (p & H1 & H2); now exists p, v|].
      intros (p & v & H1 & H2). exists v. apply Hr. now exists p.
  - intros a q (p & v & H1 & H2). exists (get a (fold_left feed r [])). apply get_in; [assumption|]. split; [|reflexivity].
    apply F2. exists q, v. apply Hr. now exists p.
Qed.

(** ** The sets that are reached *)
Section Subsets.
Context (d : sdag) (W : whole d).
Inductive reached : N -> Prop :=
  | reached_start : reached (s_starts d)
  | reached_step k a t : reached k -> In (a, t) (steps d k) -> reached t.
Lemma step_small k a t q : In (a, t) (steps d k) -> has t q = true -> q < s_size d.
Proof.
  intros H Hq. destruct (steps_spec d k) as (_ & S & _). destruct (S a t H) as [_ S']. apply S' in Hq as (p & v & _ & Hx).
  destruct W as (W1 & _). eapply W1. eassumption.
Qed.
Lemma reached_small k q : reached k -> has k q = true -> q < s_size d.
Proof. intros H. destruct H as [|k a t _ H]; [apply W|now apply (step_small k a)]. Qed.
Lemma enqueue_spec ts : forall ns qu, NoDup ns -> let '(ns', qu') := fold_left enqueue ts (ns, qu) in
  NoDup ns' /\ (forall t, In t ns' <-> In t ns \/ In t ts) /\ (forall t, In t qu' -> In t qu \/ In t ts) /\ (forall t, In t qu -> In t qu') /\
  (forall t, In t ns' -> In t ns \/ In t qu') /\ length qu' + length ns = length qu + length ns'.
Proof.
  induction ts as [|t ts IH]; intros ns qu N; cbn [fold_left].
  - split; [assumption|]. split; [intros t; cbn; tauto|]. split; [now left|]. split; [easy|]. split; [now left|reflexivity].
  - unfold enqueue at 2. cbn [fst snd]. destruct (existsb (N.eqb t) ns) eqn:E.
    + apply existsb_exists in E as (t' & E1 & E2). apply N.eqb_eq in E2 as <-. specialize (IH ns qu N).
      destruct (fold_left enqueue ts (ns, qu)) as [ns' qu']. destruct IH as (I1 & I2 & I3 & I4 & I5 & I6).
      split; [assumption|]. split; [intros s; rewrite I2; cbn [In]; split; [tauto|]; intros [H|[<-|H]]; auto|].
      split; [intros s H; apply I3 in H as [H|H]; [now left|right; now right]|]. auto.
    + assert (N' : ~ In t ns) by (intros H; assert (existsb (N.eqb t) ns = true) by (apply existsb_exists; exists t; split; [assumption|apply N.eqb_refl]); congruence).
      specialize (IH (t :: ns) (t :: qu) (NoDup_cons _ N' N)). destruct (fold_left enqueue ts (t :: ns, t :: qu)) as [ns' qu'].
      destruct IH as (I1 & I2 & I3 & I4 & I5 & I6). split; [assumption|]. split; [intros s; rewrite I2; cbn [In]; tauto|].
      split; [intros s H; apply I3 in H as [[<-|H]|H]; [right; now left|now left|right; now right]|].
      split; [intros s H; apply I4; now right|]. split.
      * intros s H. apply I5 in H as [[<-|H]|H]; [right; apply I4; now left|now left|now right].
      * cbn [length] in I6. lia.
Qed.
Definition by_set (l : list (N * arcset)) : Prop := StronglySorted (fun x y => (fst x < fst y)%N) l.
Lemma put_state_in k v l x : by_set l -> (In x (put_state k v l) <-> x = (k, v) \/ (In x l /\ fst x <> k)).
Proof.
  induction l as [|[k' v'] l IH]; intros H; cbn [put_state].
  - cbn. intuition.
  - apply StronglySorted_inv in H as [H1 H2]. rewrite Forall_forall in H2. destruct (N.eqb_spec k k') as [<-|D].
    + cbn [In]. split; [intros [<-|H]; [now left|right; split; [now right|]]|intros [->|[[<-|H] H']]; [now left|now elim H'|now right]].
      specialize (H2 _ H). cbn in H2. intros <-. lia.
    + destruct (N.ltb_spec k k') as [L|L].
      * cbn [In]. split; [|intros [->|[H _]]; [now left|now right]]. intros [<-|[<-|H]]; [now left|right; cbn; split; [now left|congruence]|].
        right. split; [now right|]. specialize (H2 _ H). cbn in H2. intros <-. lia.
      * cbn [In]. rewrite IH by assumption. split; [intros [<-|[->|[H H']]]; [right; cbn; split; [now left|congruence]|now left|right; split; [now right|assumption]]|].
        intros [->|[[<-|H] H']]; [right; now left|now left|right; right; now split].
Qed.
Lemma put_state_sorted k v l : by_set l -> by_set (put_state k v l).
Proof.
  induction l as [|[k' v'] l IH]; intros H; cbn [put_state]; [repeat constructor|].
  pose proof H as H'. apply StronglySorted_inv in H as [H1 H2]. destruct (N.eqb_spec k k') as [<-|D]; [now constructor|].
  destruct (N.ltb_spec k k') as [L|L].
  - constructor; [assumption|]. constructor; [assumption|]. eapply Forall_impl; [|exact H2]. cbn. lia.
  - constructor; [now apply IH|]. apply Forall_forall. intros x Hx. apply put_state_in in Hx as [->|[Hx _]]; [cbn; lia| |assumption].
    rewrite Forall_forall in H2. now apply H2.
Qed.
Record going (ns qu : list N) (fsa : list (N * arcset)) : Prop := Going {
  go_nodup : NoDup ns; go_sorted : by_set fsa;
  go_ns : forall k, In k ns -> reached k; go_qu : forall k, In k qu -> reached k;
  go_fsa : forall k v, In (k, v) fsa -> reached k /\ v = steps d k /\ forall a t, In (a, t) v -> In t ns;
  go_start : In (s_starts d) qu \/ In (s_starts d) (map fst fsa);
  go_done : forall k, In k ns -> In k qu \/ In k (map fst fsa) }.
Lemma going_step ns k qu fsa : going ns (k :: qu) fsa -> let '(ns', qu') := fold_left enqueue (map snd (steps d k)) (ns, qu) in
  going ns' qu' (put_state k (steps d k) fsa) /\ length qu' + length ns = length qu + length ns'.
Proof.
  intros [G1 G2 G3 G4 G5 G6 G7]. pose proof (enqueue_spec (map snd (steps d k)) ns qu G1) as E.
  destruct (fold_left enqueue (map snd (steps d k)) (ns, qu)) as [ns' qu']. destruct E as (E1 & E2 & E3 & E4 & E5 & E6). split; [|assumption].
  assert (Rk : reached k) by (apply G4; now left).
  assert (Rt : forall t, In t (map snd (steps d k)) -> reached t).
  { intros t H. apply in_map_iff in H as ([a t'] & <- & H). now apply (reached_step k a). }
  assert (Keep : forall s, In s (map fst fsa) -> In s (map fst (put_state k (steps d k) fsa))).
  { intros s H. destruct (N.eq_dec s k) as [->|D].
    - apply in_map_iff. exists (k, steps d k). split; [reflexivity|]. apply put_state_in; [assumption|now left].
    - apply in_map_iff in H as ([s' v] & <- & H). apply in_map_iff. exists (s', v). split; [reflexivity|]. apply put_state_in; [assumption|]. right. now split. }
  assert (Kk : In k (map fst (put_state k (steps d k) fsa))) by (apply in_map_iff; exists (k, steps d k); split; [reflexivity|]; apply put_state_in; [assumption|now left]).
  constructor.
  - assumption.
  - now apply put_state_sorted.
  - intros t H. apply E2 in H as [H|H]; auto.
  - intros t H. apply E3 in H as [H|H]; [apply G4; now right|auto].
  - intros s v H. apply put_state_in in H as [H|[H _]]; [|destruct (G5 s v H) as (H1 & H2 & H3)|assumption].
    + inversion H; subst. split; [assumption|]. split; [reflexivity|]. intros a t Ht. apply E2. right. apply (in_map snd) in Ht. exact Ht.
    + split; [assumption|]. split; [assumption|]. intros a t Ht. apply E2. left. now apply (H3 a).
  - destruct G6 as [[<-|H]|H]; [now right|left; now apply E4|right; now apply Keep].
  - intros t H. apply E5 in H as [H|H]; [|now left]. destruct (G7 t H) as [[<-|H']|H']; [now right|left; now apply E4|right; now apply Keep].
Qed.
Lemma subsets_spec : forall fuel ns qu fsa, going ns qu fsa -> match subsets fuel d ns qu fsa with
  | Some fsa' => exists ns', going ns' [] fsa' | None => True end.
Proof.
  induction fuel as [|fuel IH]; intros ns [|k qu] fsa G; cbn [subsets]; try easy; try (exists ns; assumption).
  pose proof (going_step _ _ _ _ G) as E. destruct (fold_left enqueue (map snd (steps d k)) (ns, qu)) as [ns' qu']. now apply IH.
Qed.
Lemma in_reached k : reached k -> In k (map N.of_nat (seq 0 (2 ^ s_size d))).
Proof.
  intros R. apply in_map_iff. exists (N.to_nat k). split; [apply N2Nat.id|]. apply in_seq.
  pose proof (has_small (s_size d) k (fun i => reached_small k i R)) as L. split; [lia|]. cbn [Nat.add].
  assert (E : N.of_nat (2 ^ s_size d) = (2 ^ N.of_nat (s_size d))%N) by (clear; induction (s_size d) as [|n IH]; [reflexivity|];
    rewrite Nat.pow_succ_r', Nat2N.inj_mul, IH, (Nat2N.inj_succ n), N.pow_succ_r'; reflexivity).
  rewrite <- E in L. lia.
Qed.
Lemma reached_count ns : NoDup ns -> (forall k, In k ns -> reached k) -> length ns <= 2 ^ s_size d.
Proof.
  intros N R. rewrite <- (seq_length (2 ^ s_size d) 0), <- (map_length N.of_nat). apply NoDup_incl_length; [assumption|].
  intros k Hk. now apply in_reached, R.
Qed.
Lemma subsets_ends : forall fuel ns qu fsa, going ns qu fsa -> length qu + 2 ^ s_size d <= fuel + length ns -> subsets fuel d ns qu fsa <> None.
Proof.
  induction fuel as [|fuel IH]; intros ns [|k qu] fsa G L; try discriminate.
  - pose proof (reached_count ns (go_nodup _ _ _ G) (go_ns _ _ _ G)). cbn in L. lia.
  - cbn [subsets]. pose proof (going_step _ _ _ _ G) as E. destruct (fold_left enqueue (map snd (steps d k)) (ns, qu)) as [ns' qu'].
    destruct E as [E1 E2]. apply IH; [assumption|]. cbn [length] in L. lia.
Qed.
Lemma going_start : going [] [s_starts d] [].
Proof.
  constructor; try easy; try constructor.
  - intros k [<-|[]]. constructor.
  - now left.
Qed.
(** The table that is built: every set that is reached, with its steps. *)
Lemma table_spec fuel fsa : subsets fuel d [] [s_starts d] [] = Some fsa ->
  by_set fsa /\ forall k v, In (k, v) fsa <-> reached k /\ v = steps d k.
Proof.
  intros E. pose proof (subsets_spec fuel _ _ _ going_start) as H. rewrite E in H. destruct H as (ns & [G1 G2 G3 G4 G5 G6 G7]).
  split; [assumption|]. intros k v. split; [intros H; destruct (G5 k v H) as (H1 & H2 & _); now split|].
  assert (All : forall k, reached k -> In (k, steps d k) fsa).
  { intros s R. assert (In s (map fst fsa)) as H.
    - induction R as [|s a t R IH Ht]; [now destruct G6|]. apply in_map_iff in IH as ([s' v'] & <- & IH). destruct (G5 _ _ IH) as (_ & -> & G5').
      cbn [fst] in Ht. apply G5' in Ht. now destruct (G7 t Ht).
    - apply in_map_iff in H as ([s' v'] & <- & H). cbn [fst]. destruct (G5 _ _ H) as (_ & E' & _). now rewrite <- E'. }
  intros [R ->]. now apply All.
Qed.
End Subsets.

(** ** Determinized automata *)
Lemma strict l : StronglySorted (fun x y => (x_sym x <= x_sym y)%Z) l -> NoDup (map x_sym l) -> StronglySorted (fun x y => (x_sym x < x_sym y)%Z) l.
Proof.
  induction 1 as [|x l H IH F]; intros N; [constructor|]. cbn in N. inversion N as [|? ? N1 N2]; subst. constructor; [now apply IH|].
  apply Forall_forall. intros y Hy. rewrite Forall_forall in F. specialize (F y Hy). apply (in_map x_sym) in Hy.
  destruct (Z.eq_dec (x_sym x) (x_sym y)) as [E|]; [rewrite E in N1; contradiction|lia].
Qed.
Lemma flat_map_one {A B} (f : A -> list B) l x : NoDup l -> In x l -> (forall y, In y l -> y <> x -> f y = []) -> flat_map f l = f x.
Proof.
  intros N H O. apply in_split in H as (l1 & l2 & ->). apply NoDup_remove_2 in N. rewrite flat_map_app. cbn [flat_map].
  rewrite (flat_map_none f l1), (flat_map_none f l2); [now rewrite app_nil_r| |];
    intros y Hy; (apply O; [rewrite in_app_iff; cbn; tauto|]); intros ->; apply N; rewrite in_app_iff; tauto.
Qed.
Definition distinct_rows (d : sdag) : Prop := forall p x y, In x (s_row d p) -> In y (s_row d p) -> x_sym x = x_sym y -> x = y.
Lemma strict_distinct d : (forall p, StronglySorted (fun x y => (x_sym x < x_sym y)%Z) (s_row d p)) -> distinct_rows d.
Proof.
  intros H p. specialize (H p). induction H as [|z l H IH F]; [intros x y []|]. rewrite Forall_forall in F.
  intros x y [<-|Hx] [<-|Hy] E; [reflexivity|apply F in Hy; lia|apply F in Hx; lia|now apply IH].
Qed.
Lemma leads_once d p w q r : distinct_rows d -> leads d p w q -> leads d p w r -> q = r.
Proof.
  intros D H. revert r. induction H as [p|p a q v w q' Hx _ IH]; intros r K; inversion K as [|? ? q1 v1 ? ? Hx1 Hl1]; subst; [reflexivity|].
  specialize (D p _ _ Hx Hx1 eq_refl). inversion D; subst. now apply IH.
Qed.
Section Det.
Context (asort : list warc -> list warc) (Hsort : sorts asort) (d : sdag) (W : whole d).
Lemma determinize_ends fuel : 2 ^ s_size d < fuel -> exists g, determinize asort fuel d = Some g.
Proof.
  intros L. unfold determinize. pose proof (subsets_ends d W fuel _ _ _ (going_start d)) as H. cbn [length] in H.
  destruct (subsets fuel d [] [s_starts d] []) as [fsa|]; [eexists; reflexivity|]. elim H; [lia|reflexivity].
Qed.
Notation look := (lookup N.eqb).
Record determinized (g : sdag) (m : list (N * nat)) : Prop := Determinized {
  dt_keys : forall k, reached d k <-> exists s, look k m = Some s;
  dt_first : look (s_starts d) m = Some 0;
  dt_inj : forall k k' s, look k m = Some s -> look k' m = Some s -> k = k';
  dt_onto : forall s, s < s_size g <-> exists k, look k m = Some s;
  dt_rows : forall k s, look k m = Some s -> forall a q w, In (Warc a q w) (s_row g s) <-> exists t, In (a, t) (steps d k) /\ look t m = Some q /\ w = 0%Z;
  dt_strict : forall s, StronglySorted (fun x y => (x_sym x < x_sym y)%Z) (s_row g s);
  dt_ends : forall s, In s (s_ends g) <-> exists k q, look k m = Some s /\ has k q = true /\ In q (s_ends d);
  dt_starts : forall s, start_of g s <-> s = 0 }.
Lemma N_spec k k' : N.eqb k k' = true <-> k = k'.
Proof. apply N.eqb_eq. Qed.
Lemma by_set_nodup l : by_set l -> NoDup (map fst l).
Proof.
  induction 1 as [|x l H IH F]; [constructor|]. cbn. constructor; [|assumption]. rewrite Forall_forall in F. intros K.
  apply in_map_iff in K as (y & E & Hy). specialize (F y Hy). lia.
Qed.
Lemma determinize_spec fuel g : determinize asort fuel d = Some g -> exists m, determinized g m.
Proof.
  unfold determinize. destruct (subsets fuel d [] [s_starts d] []) as [fsa|] eqn:T; [|discriminate].
  destruct (table_spec d fuel fsa T) as [T1 T2]. set (es := map (subset_entry d) fsa).
  assert (Hes : forall e, In e es <-> exists k, reached d k /\ e = subset_entry d (k, steps d k)).
  { intros e. unfold es. rewrite in_map_iff. split.
    - intros ([k v] & <- & H). apply T2 in H as [H ->]. now exists k.
    - intros (k & H & ->). exists (k, steps d k). split; [reflexivity|]. apply T2. now split. }
  set (B := new_state true s_empty). set (m0 := [(s_starts d, 0)]).
  destruct (fold_left (copy asort N.eqb) es (B, m0)) as [g' m] eqn:E. intros G. assert (g = g') as -> by (cbn [fst] in G; congruence). clear G.
  destruct (copy_all asort Hsort N.eqb N_spec B m0 es [] B m0) with (d' := g') (m' := m) as (C & Kn); [|assumption|].
  { apply copied_nil; unfold m0; intros k; cbn [lookup].
    - intros k' s. destruct (N.eqb_spec k (s_starts d)), (N.eqb_spec k' (s_starts d)); congruence.
    - intros s. destruct (N.eqb_spec k (s_starts d)); [|discriminate]. intros H. inversion H. cbn. lia. }
  cbn [app] in C. exists m. pose proof C as [C1 C2 C3 C4 C5 C6 C7 C8 C9 C10].
  assert (First : look (s_starts d) m = Some 0) by (apply C1; unfold m0; cbn; now rewrite N.eqb_refl).
  assert (Keys : forall k, reached d k <-> exists s, look k m = Some s).
  { intros k. split.
    - intros R. destruct (C6 (subset_entry d (k, steps d k))) as [H _]; [apply Hes; now exists k|]. unfold known in H. cbn [e_key subset_entry fst] in H.
      destruct (look k m) as [s|]; [now exists s|now elim H].
    - intros (s & H). destruct (Kn k) as [H'|(e & He & H')]; [unfold known; congruence| |].
      + unfold known, m0 in H'. cbn [lookup] in H'. destruct (N.eqb_spec k (s_starts d)) as [->|]; [constructor|now elim H'].
      + apply Hes in He as (i & Hi & ->). destruct H' as [->|([[a k'] w] & Hx & ->)]; [assumption|]. cbn [e_arcs subset_entry snd] in Hx.
        apply in_map_iff in Hx as ([a' t] & Ex & Hx). inversion Ex; subst. cbn. now apply (reached_step d i a). }
  assert (RowB : forall s, s_row B s = []) by (intros [|[|]]; reflexivity).
  constructor.
  - exact Keys.
  - exact First.
  - exact C2.
  - intros s. split; [|intros (k & H); now apply C3 in H]. intros H. apply C4 in H as [H|H]; [|assumption].
    exists (s_starts d). rewrite First. f_equal. cbn in H. lia.
  - intros k s H a q w. rewrite (copied_arc N.eqb B m0 es g' m k s C H (RowB s)). split.
    + intros (e & k' & He & Hk & Hx & Hq). apply Hes in He as (i & Hi & ->). cbn [e_key subset_entry e_arcs fst snd] in *. subst i.
      apply in_map_iff in Hx as ([a' t] & Ex & Hx). inversion Ex; subst. exists k'. now split.
    + intros (t & Hx & Hq & ->). exists (subset_entry d (k, steps d k)), t. split; [apply Hes; exists k; split; [apply Keys; now exists s|reflexivity]|].
      split; [reflexivity|]. split; [|assumption]. cbn [e_arcs subset_entry snd]. apply in_map_iff. exists (a, t). now split.
  - intros s. apply strict; [apply C10; intros p; rewrite RowB; constructor|].
    assert (P : Permutation (s_row g' s) (flat_map (own N.eqb m s) es)) by (specialize (C7 s); now rewrite RowB in C7).
    apply (Permutation_map x_sym) in P. eapply Permutation_NoDup; [apply Permutation_sym, P|]. clear P.
    destruct (existsb (fun e => match look (e_key e) m with Some s' => s =? s' | None => false end) es) eqn:Ex.
    + apply existsb_exists in Ex as (e & He & Ee). destruct (look (e_key e) m) as [s'|] eqn:Le; [|discriminate]. apply Nat.eqb_eq in Ee as <-.
      rewrite (flat_map_one _ es e).
      * unfold own. rewrite Le, Nat.eqb_refl. apply Hes in He as (k & Hk & ->). cbn [e_arcs subset_entry snd]. rewrite !map_map. cbn [moved x_sym].
        destruct (steps_spec d k) as (S1 & _). clear -S1. induction S1 as [|x l H IH F]; [constructor|]. cbn. constructor; [|assumption].
        rewrite Forall_forall in F. intros K. apply in_map_iff in K as (y & E & Hy). specialize (F y Hy). lia.
      * unfold es. apply (NoDup_map_inv e_key). rewrite map_map. cbn [e_key subset_entry]. now apply by_set_nodup.
      * assumption.
      * intros y Hy Ny. unfold own. destruct (look (e_key y) m) as [s'|] eqn:Ly; [|reflexivity]. destruct (Nat.eqb_spec s s') as [<-|]; [|reflexivity].
        elim Ny. pose proof (C2 _ _ _ Ly Le) as Ek. apply Hes in Hy as (k & Hk & ->). apply Hes in He as (k' & Hk' & ->). cbn in Ek. now subst.
    + rewrite (flat_map_none _ es); [constructor|]. intros e He. unfold own. destruct (look (e_key e) m) as [s'|] eqn:Le; [|reflexivity].
      destruct (Nat.eqb_spec s s') as [<-|]; [|reflexivity]. exfalso. assert (X : existsb (fun e => match look (e_key e) m with Some s' => s =? s' | None => false end) es = true)
        by (apply existsb_exists; exists e; split; [assumption|rewrite Le; apply Nat.eqb_refl]). congruence.
  - intros s. rewrite C8. split.
    + intros [[]|(e & He & Hs & Hf)]. apply Hes in He as (k & Hk & ->). cbn [e_key e_end subset_entry fst] in *.
      apply existsb_exists in Hf as (q & Hq & Eq). apply in_bits in Hq as [_ Hq]. exists k, q. split; [assumption|]. split; [assumption|]. now apply is_end_in.
    + intros (k & q & Hs & Hq & Eq). right. exists (subset_entry d (k, steps d k)).
      assert (Rk : reached d k) by (apply Keys; now exists s).
      split; [apply Hes; now exists k|]. split; [assumption|]. cbn [e_end subset_entry fst]. apply existsb_exists. exists q.
      split; [|now apply is_end_in]. apply in_bits. split; [now apply (reached_small d W k)|assumption].
  - intros s. rewrite C9. split.
    + intros [H|(e & He & _ & Hf)]; [|apply Hes in He as (k & _ & ->); discriminate]. apply start_of_bit in H as [H|H]; [now symmetry|].
      unfold start_of in H. cbn in H. now rewrite ?N.bits_0 in H.
    + intros ->. left. unfold B. rewrite new_state_start. apply start_of_bit. now left.
Qed.
Section Result.
Context (g : sdag) (m : list (N * nat)) (D : determinized g m).
Lemma det_row_at k s a t : look k m = Some s -> In (a, t) (steps d k) -> exists q, look t m = Some q /\ In (Warc a q 0) (s_row g s).
Proof.
  intros Hs Ht. assert (reached d t) as R by (apply (reached_step d k a); [apply (dt_keys _ _ D); now exists s|assumption]).
  apply (dt_keys _ _ D) in R as (q & Hq). exists q. split; [assumption|]. apply (dt_rows _ _ D k s Hs). now exists t.
Qed.
Lemma det_forth s w r : leads g s w r -> forall k, look k m = Some s ->
  exists k', look k' m = Some r /\ forall q, has k' q = true <-> exists p, has k p = true /\ leads d p w q.
Proof.
  intros H. induction H as [s|s a q v w r Hx _ IH]; intros k Hk.
  - exists k. split; [assumption|]. intros q. split; [intros Hq; exists q; split; [assumption|constructor]|]. intros (p & Hp & L). inversion L; now subst.
  - apply (dt_rows _ _ D k s Hk) in Hx as (t & Ht & Hq & ->). destruct (IH t Hq) as (k' & K1 & K2). exists k'. split; [assumption|].
    destruct (steps_spec d k) as (_ & S2 & _). destruct (S2 a t Ht) as [_ S3]. intros z. rewrite K2. split.
    + intros (p & Hp & L). apply S3 in Hp as (p0 & v & Hp0 & Hx). exists p0. split; [assumption|]. econstructor; eassumption.
    + intros (p & Hp & L). inversion L as [|? ? p' v ? ? Hx L']; subst. exists p'. split; [|assumption]. apply S3. now exists p, v.
Qed.
Lemma det_back p w q : leads d p w q -> forall k s, look k m = Some s -> has k p = true ->
  exists k' r, leads g s w r /\ look k' m = Some r /\ has k' q = true.
Proof.
  intros H. induction H as [p|p a q v w r Hx _ IH]; intros k s Hk Hp; [exists k, s; split; [constructor|now split]|].
  destruct (steps_spec d k) as (_ & S2 & S3). assert (onward d k a q) as O by now exists p, v. destruct (S3 a q O) as (t & Ht).
  destruct (det_row_at k s a t Hk Ht) as (z & Hz & Hr). destruct (S2 a t Ht) as [_ S4]. apply S4 in O.
  destruct (IH t z Hz O) as (k' & r' & L & H1 & H2). exists k', r'. split; [|now split]. econstructor; eassumption.
Qed.
Lemma det_words w : words g w <-> words d w.
Proof.
  split.
  - intros (p & q & H1 & H2 & H3). apply (dt_starts _ _ D) in H1 as ->. destruct (det_forth _ _ _ H2 _ (dt_first _ _ D)) as (k & K1 & K2).
    apply (dt_ends _ _ D) in H3 as (k' & e & K3 & K4 & K5). rewrite (dt_inj _ _ D _ _ _ K3 K1) in K4.
    apply K2 in K4 as (p & Hp & L). exists p, e. split; [exact Hp|]. now split.
  - intros (p & q & H1 & H2 & H3). destruct (det_back p w q H2 _ 0 (dt_first _ _ D) H1) as (k & r & L & K1 & K2).
    exists 0, r. split; [now apply (dt_starts _ _ D)|]. split; [assumption|]. apply (dt_ends _ _ D). exists k, q. now split.
Qed.
Lemma det_reach s : s < s_size g -> exists w, leads g 0 w s.
Proof.
  intros H. apply (dt_onto _ _ D) in H as (k & Hk). assert (R : reached d k) by (apply (dt_keys _ _ D); now exists s).
  revert s Hk. induction R as [|k a t R IH Ht]; intros s Hs.
  - rewrite (dt_first _ _ D) in Hs. inversion Hs. exists []. constructor.
  - apply (dt_keys _ _ D) in R as (z & Hz). destruct (IH z Hz) as (w & L). exists (w ++ [a]). apply (leads_app _ _ _ z); [assumption|].
    apply (leads_arc _ _ a s 0%Z); [|constructor]. apply (dt_rows _ _ D k z Hz). now exists t.
Qed.
Lemma det_whole : whole g /\ deterministic g.
Proof.
  split; [|split; [apply D|apply D]]. split; [|split].
  - intros p a q v H. assert (exists k, look k m = Some p) as (k & Hk) by (apply (dt_onto _ _ D); now apply row_inside in H).
    apply (dt_rows _ _ D k p Hk) in H. destruct H as (t & _ & Ht & _).
    apply (dt_onto _ _ D). now exists t.
  - intros p H. apply (dt_starts _ _ D) in H as ->. apply (dt_onto _ _ D). eexists. apply D.
  - intros p H. apply (dt_ends _ _ D) in H as (k & q & Hk & _). apply (dt_onto _ _ D). now exists k.
Qed.
(** A state other than the start has a state in it. *)
Lemma det_inhabited k s : look k m = Some s -> s <> 0 -> exists q, has k q = true.
Proof.
  intros Hk N. assert (R : reached d k) by (apply (dt_keys _ _ D); now exists s). destruct R as [|k a t _ Ht].
  - rewrite (dt_first _ _ D) in Hk. congruence.
  - destruct (steps_spec d k) as (_ & S2 & _). destruct (S2 a t Ht) as [(q & O) S3]. exists q. now apply S3.
Qed.
Lemma det_size : s_size g <= 2 ^ s_size d.
Proof.
  rewrite <- (seq_length (s_size g) 0). rewrite <- (seq_length (2 ^ s_size d) 0), <- (map_length N.of_nat (seq 0 (2 ^ s_size d))).
  apply (inject (fun s k => look k m = Some s)); [intros x x' y; congruence|apply seq_NoDup|].
  intros s Hs. apply in_seq in Hs. destruct (proj1 (dt_onto _ _ D s)) as (k & Hk); [lia|]. exists k. split; [|assumption].
  apply in_reached; [assumption|]. apply (dt_keys _ _ D). now exists s.
Qed.
End Result.
End Det.

(** ** Minimizing *)
Definition accepts (g : sdag) (s : nat) (w : list Z) : Prop := exists r, leads g s w r /\ In r (s_ends g).
Section Min.
Context (asort : list warc -> list warc) (Hsort : sorts asort) (d : sdag) (W : whole d).
Lemma minimize_spec fuel g : minimize asort fuel d = Some g ->
  whole g /\ deterministic g /\ (forall w, words g w <-> words d w) /\
  (forall s, s < s_size g -> exists w, leads g 0 w s) /\
  (forall s, s < s_size g -> s = 0 \/ exists w, accepts g s w) /\
  (forall s t, s < s_size g -> t < s_size g -> (forall w, accepts g s w <-> accepts g t w) -> s = t).
Proof.
  unfold minimize. set (d1 := reverse asort d). destruct (reverse_spec asort Hsort d W) as (_ & _ & W1 & _). fold d1 in W1.
  destruct (determinize asort fuel d1) as [d2|] eqn:E2; [|discriminate].
  destruct (determinize_spec asort Hsort d1 W1 fuel d2 E2) as (m2 & D2). destruct (det_whole d1 d2 m2 D2) as [W2 [St2 Di2]].
  set (d3 := reverse asort d2). destruct (reverse_spec asort Hsort d2 W2) as (Sz3 & _ & W3 & Ss3 & Se3 & _). fold d3 in W3, Ss3, Se3, Sz3.
  intros E4. destruct (determinize_spec asort Hsort d3 W3 fuel g E4) as (m4 & D4). destruct (det_whole d3 g m4 D4) as [W4 Di4].
  split; [assumption|]. split; [assumption|]. split.
  { intros w. rewrite (det_words d3 g m4 D4). unfold d3. rewrite (reverse_words asort Hsort d2 W2), (det_words d1 d2 m2 D2).
    unfold d1. now rewrite (reverse_words asort Hsort d W), rev_involutive. }
  split; [apply (det_reach d3 g m4 D4)|].
  (** every state of [d2] is reached by some word, which read backwards is accepted from the sets it belongs to *)
  assert (Acc : forall k s q u, lookup N.eqb k m4 = Some s -> has k q = true -> leads d2 0 u q -> accepts g s (rev u)).
  { intros k s q u Hk Hq Hu. assert (L3 : leads d3 q (rev u) 0) by (apply (reverse_leads asort Hsort d2 W2); now rewrite rev_involutive).
    destruct (det_back d3 g m4 D4 q (rev u) 0 L3 k s Hk Hq) as (k' & r & L & K1 & K2). exists r. split; [assumption|].
    apply (dt_ends _ _ _ D4). exists k', 0. split; [assumption|]. split; [assumption|]. apply Se3. now apply St2. }
  assert (Tell : forall k s q u, lookup N.eqb k m4 = Some s -> leads d2 0 u q -> accepts g s (rev u) -> has k q = true).
  { intros k s q u Hk Hu (r & L & Hr). destruct (det_forth d3 g m4 D4 _ _ _ L k Hk) as (k' & K1 & K2).
    apply (dt_ends _ _ _ D4) in Hr as (k2 & e & K3 & K4 & K5). rewrite (dt_inj _ _ _ D4 _ _ _ K3 K1) in K4.
    apply K2 in K4 as (p & Hp & Lp). apply Se3 in K5. apply St2 in K5 as ->.
    apply (reverse_leads asort Hsort d2 W2) in Lp. rewrite rev_involutive in Lp.
    now rewrite (leads_once d2 0 u q p (strict_distinct d2 Di2) Hu Lp). }
  assert (Small : forall k s q, lookup N.eqb k m4 = Some s -> has k q = true -> q < s_size d2).
  { intros k s q Hk Hq. rewrite <- Sz3. apply (reached_small d3 W3 k); [|assumption]. apply (dt_keys _ _ _ D4). now exists s. }
  split.
  - intros s Hs. apply (dt_onto _ _ _ D4) in Hs as (k & Hk). destruct (Nat.eq_dec s 0) as [|N]; [now left|right].
    destruct (det_inhabited d3 g m4 D4 k s Hk N) as (q & Hq). destruct (det_reach d1 d2 m2 D2 q (Small _ _ _ Hk Hq)) as (u & Hu).
    exists (rev u). now apply (Acc k s q u).
  - intros s t Hs Ht H. apply (dt_onto _ _ _ D4) in Hs as (k & Hk). apply (dt_onto _ _ _ D4) in Ht as (k' & Hk').
    assert (k = k') as ->; [|congruence]. apply has_inj. intros q. apply eq_true_iff_eq. split; intros Hq.
    + destruct (det_reach d1 d2 m2 D2 q (Small _ _ _ Hk Hq)) as (u & Hu). apply (Tell k' t q u Hk' Hu). apply H. now apply (Acc k s q u).
    + destruct (det_reach d1 d2 m2 D2 q (Small _ _ _ Hk' Hq)) as (u & Hu). apply (Tell k s q u Hk Hu). apply H. now apply (Acc k' t q u).
Qed.
Lemma minimize_ends fuel : 2 ^ (2 ^ s_size d) < fuel -> exists g, minimize asort fuel d = Some g.
Proof.
  intros L. destruct (reverse_spec asort Hsort d W) as (Sz & _ & W1 & _). unfold minimize. set (d1 := reverse asort d) in *.
  assert (L1 : 2 ^ s_size d1 < fuel).
  { rewrite Sz. eapply Nat.le_lt_trans; [|exact L]. apply Nat.pow_le_mono_r; [lia|]. apply Nat.lt_le_incl, Nat.pow_gt_lin_r. lia. }
  destruct (determinize_ends asort d1 W1 fuel L1) as (d2 & E2). rewrite E2.
  destruct (determinize_spec asort Hsort d1 W1 fuel d2 E2) as (m2 & D2). destruct (det_whole d1 d2 m2 D2) as [W2 _].
  destruct (reverse_spec asort Hsort d2 W2) as (Sz3 & _ & W3 & _). apply determinize_ends; [assumption|]. rewrite Sz3.
  eapply Nat.le_lt_trans; [|exact L]. apply Nat.pow_le_mono_r; [lia|]. rewrite <- Sz. now apply (det_size d1 W1 d2 m2).
Qed.
End Min.

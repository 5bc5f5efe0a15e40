(** What [traverse] builds: a copy of the reachable part of the wrapper beside the
    automaton that was there, for every wrapper. *)
From Coq Require Import List ZArith Bool Sorted Permutation Lia PeanoNat.
From Verif Require Import M_OrdSet L_OrdSet M_Fsa S_Fsa L_Fsa.
Import ListNotations.
Local Open Scope nat_scope.

Section Traverse.
Context {W : Type} (w : wrapper W) (strict : strict_total (w_ltb w)).

Lemma map_find_some m s n : map_find w m s = Some n -> In (s, n) m.
Proof.
  induction m as [|[t k] m IH]; cbn [map_find]; [discriminate|].
  destruct (equivalent (w_ltb w) s t) eqn:E.
  - intros K. injection K as ->. apply (equivalent_eq _ strict) in E as ->. now left.
  - intros K. right. auto.
Qed.
Lemma map_find_none m s : map_find w m s = None -> ~ In s (map fst m).
Proof.
  induction m as [|[t k] m IH]; cbn [map_find map fst In]; [auto|].
  destruct (equivalent (w_ltb w) s t) eqn:E; [discriminate|].
  intros K [<-|Hin]; [|now apply (IH K)].
  assert (equivalent (w_ltb w) t t = true) by now apply (equivalent_eq _ strict). congruence.
Qed.
Lemma in_map_fst (m : list (W * nat)) s : In s (map fst m) <-> exists n, In (s, n) m.
Proof.
  rewrite in_map_iff. split.
  - intros ([t n] & <- & H). now exists n.
  - intros [n H]. now exists (s, n).
Qed.

Definition step s a t := In (a, t) (w_arcs w s).
Inductive reach : W -> Prop :=
| reach_start s : In s (w_start w) -> reach s
| reach_step s a t : reach s -> step s a t -> reach t.

(** The numbers in the map are given out in order. *)
Definition numbered (f0 : ndfsa) (m : list (W * nat)) (f : ndfsa) : Prop :=
  map snd m = rev (seq (n_size f0) (length m)) /\ n_size f = n_size f0 + length m /\ NoDup (map fst m).
Lemma numbered_bound f0 m f s n : numbered f0 m f -> In (s, n) m -> n_size f0 <= n < n_size f.
Proof.
  intros (H1 & H2 & _) Hin. apply (in_map snd) in Hin. cbn in Hin. rewrite H1 in Hin.
  apply in_rev, in_seq in Hin. lia.
Qed.
Lemma numbered_inj f0 m f s t n : numbered f0 m f -> In (s, n) m -> In (t, n) m -> s = t.
Proof.
  intros (H1 & _ & _) Hs Ht.
  assert (N : NoDup (map snd m)) by (rewrite H1; apply NoDup_rev, seq_NoDup).
  clear H1. induction m as [|[u k] m IH]; [contradiction|].
  cbn [map snd] in N. inversion N as [|? ? N1 N2]; subst.
  destruct Hs as [E|Hs], Ht as [E'|Ht].
  - congruence.
  - injection E as -> ->. exfalso. apply N1. now apply (in_map snd) in Ht.
  - injection E' as -> ->. exfalso. apply N1. now apply (in_map snd) in Hs.
  - auto.
Qed.
Lemma numbered_fun f0 m f s n k : numbered f0 m f -> In (s, n) m -> In (s, k) m -> n = k.
Proof.
  intros (_ & _ & N) Hs Ht. induction m as [|[u j] m IH]; [contradiction|].
  cbn [map fst] in N. inversion N as [|? ? N1 N2]; subst.
  destruct Hs as [E|Hs], Ht as [E'|Ht].
  - congruence.
  - injection E as -> ->. exfalso. apply N1. now apply (in_map fst) in Ht.
  - injection E' as -> ->. exfalso. apply N1. now apply (in_map fst) in Hs.
  - auto.
Qed.
Lemma numbered_cover f0 m f n : numbered f0 m f -> n_size f0 <= n < n_size f -> exists s, In (s, n) m.
Proof.
  intros (H1 & H2 & _) Hn. assert (Hin : In n (map snd m)).
  { rewrite H1, <- in_rev, in_seq. lia. }
  apply in_map_iff in Hin as ([s k] & <- & Hin). now exists s.
Qed.
Lemma numbered_add f0 m f s : numbered f0 m f -> ~ In s (map fst m) ->
  numbered f0 ((s, n_size f) :: m) (snd (add_state false f)).
Proof.
  intros (H1 & H2 & N) Hs. split; [|split].
  - cbn [map snd length]. rewrite H1, seq_S, rev_app_distr, H2. reflexivity.
  - rewrite add_state_size, H2. cbn [length]. lia.
  - cbn [map fst]. now constructor.
Qed.

(** The arcs [ks] of the copy of a state with the arcs [l]. *)
Definition copied (m : list (W * nat)) (l : list (symbol * W)) (ks : list arc) : Prop :=
  Forall2 (fun x y => fst x = fst y /\ In (snd x, snd y) m) l ks.
Lemma copied_mono m m' l ks : incl m m' -> copied m l ks -> copied m' l ks.
Proof.
  intros H. unfold copied. induction 1 as [|x y l ks [E K] _ IH]; constructor; [|assumption]. split; [assumption|auto].
Qed.

Lemma traverse_arcs_spec f0 n l : forall m queue f m' queue' f',
  wf f -> numbered f0 m f -> n < n_size f ->
  traverse_arcs w n l m queue f = (m', queue', f') ->
  exists ext, m' = ext ++ m /\ queue' = map fst ext ++ queue /\ wf f' /\ numbered f0 m' f' /\
    (forall t, In t (map fst ext) -> ~ In t (map fst m) /\ exists a, In (a, t) l) /\
    (forall p, p <> n -> n_arcs f' p = n_arcs f p) /\
    (exists ks, copied m' l ks /\ Permutation (n_arcs f n ++ ks) (n_arcs f' n)) /\
    n_starts f' = n_starts f /\ n_ends f' = n_ends f.
Proof.
  induction l as [|[a t] l IH]; intros m queue f m' queue' f' Hwf Hm Hn E; cbn [traverse_arcs] in E.
  - injection E as <- <- <-. exists []. cbn [app map]. do 4 (split; [reflexivity || assumption|]).
    split; [intros t []|]. split; [reflexivity|]. split; [|now split].
    exists []. split; [constructor|]. now rewrite app_nil_r.
  - destruct (map_find w m t) as [k|] eqn:Hk.
    + apply map_find_some in Hk. pose proof (numbered_bound _ _ _ _ _ Hm Hk) as Hb.
      destruct (IH m queue (add_arc n (a, k) f) m' queue' f') as
        (ext & E1 & E2 & W' & Nu & Hx & Ho & (ks & Hc & Hp) & Es & Ee); [|..|exact E|].
      * apply add_arc_wf; [assumption|cbn; lia].
      * destruct Hm as (A1 & A2 & A3). repeat split; try assumption. now rewrite add_arc_size.
      * now rewrite add_arc_size.
      * exists ext. split; [exact E1|]. split; [exact E2|]. split; [exact W'|]. split; [exact Nu|]. split; [|split; [|split; [|split]]].
        -- intros u Hu. destruct (Hx u Hu) as [K1 [b K2]]. split; [exact K1|]. exists b. now right.
        -- intros p Np. rewrite (Ho p Np). now apply add_arc_other.
        -- exists ((a, k) :: ks). split.
           ++ constructor; [|exact Hc]. cbn. split; [reflexivity|]. rewrite E1. apply in_app_iff. now right.
           ++ rewrite <- Hp, add_arc_same by assumption. rewrite sort_arcs_perm. now rewrite <- app_assoc.
        -- exact Es.
        -- exact Ee.
    + apply map_find_none in Hk. destruct (add_state false f) as [k g] eqn:Eg.
      assert (Ek : k = n_size f) by (injection Eg as <- _; reflexivity).
      assert (Eg' : g = snd (add_state false f)) by now rewrite Eg.
      assert (Hg : wf g) by (subst g; now apply add_state_wf).
      assert (Hng : numbered f0 ((t, k) :: m) g) by (subst k; subst g; now apply numbered_add).
      assert (Sg : n_size g = S (n_size f)) by (subst g; apply add_state_size).
      destruct (IH ((t, k) :: m) (t :: queue) (add_arc n (a, k) g) m' queue' f') as
        (ext & E1 & E2 & W' & Nu & Hx & Ho & (ks & Hc & Hp) & Es & Ee); [|..|exact E|].
      * apply add_arc_wf; [assumption|cbn; lia].
      * destruct Hng as (A1 & A2 & A3). repeat split; try assumption. now rewrite add_arc_size.
      * rewrite add_arc_size. lia.
      * exists (ext ++ [(t, k)]). rewrite <- app_assoc, map_app. cbn [map fst app].
        split; [exact E1|]. split; [rewrite <- app_assoc; exact E2|]. split; [exact W'|]. split; [exact Nu|].
        split; [|split; [|split; [|split]]].
        -- intros u Hu. apply in_app_iff in Hu as [Hu|[<-|[]]].
           ++ destruct (Hx u Hu) as [K1 [b K2]]. split.
              ** intros C. apply K1. now right.
              ** exists b. now right.
           ++ split; [exact Hk|]. exists a. now left.
        -- intros p Np. rewrite (Ho p Np), add_arc_other by assumption. subst g. apply add_state_arcs.
        -- exists ((a, k) :: ks). split.
           ++ constructor; [|exact Hc]. cbn. split; [reflexivity|]. rewrite E1. apply in_app_iff. right. now left.
           ++ rewrite <- Hp, add_arc_same by lia. rewrite sort_arcs_perm.
              assert (Ea : n_arcs g n = n_arcs f n) by (subst g; apply add_state_arcs).
              rewrite Ea. now rewrite <- app_assoc.
        -- rewrite Es. cbn. subst g. reflexivity.
        -- rewrite Ee. cbn. subst g. reflexivity.
Qed.

(** The invariant of the loop: the states of the map that are not in the queue have been dealt with. *)
Record inv (f0 : ndfsa) (m : list (W * nat)) (queue : list W) (f : ndfsa) : Prop := {
  i_wf : wf f;
  i_num : numbered f0 m f;
  i_queue : NoDup queue;
  i_incl : incl queue (map fst m);
  i_reach : forall s, In s (map fst m) -> reach s;
  i_start : incl (w_start w) (map fst m);
  i_old : forall p, p < n_size f0 -> n_arcs f p = n_arcs f0 p;
  i_pending : forall s n, In (s, n) m -> In s queue -> n_arcs f n = [];
  i_done : forall s n, In (s, n) m -> ~ In s queue -> exists ks, copied m (w_arcs w s) ks /\ Permutation ks (n_arcs f n);
  i_starts : forall p, In p (n_starts f) <-> In p (n_starts f0) \/ exists s, In (s, p) m /\ In s (w_start w);
  i_ends : forall p, In p (n_ends f) <-> In p (n_ends f0) \/
             exists s, In (s, p) m /\ ~ In s queue /\ w_final w s = true
}.

Lemma inv_step f0 m s queue f n m' queue' f' :
  inv f0 m (s :: queue) f -> map_find w m s = Some n ->
  traverse_arcs w n (w_arcs w s) m queue (if w_final w s then set_end n f else f) = (m', queue', f') ->
  inv f0 m' queue' f'.
Proof.
  intros [I1 I2 I3 I4 I5 I6 I7 I8 I9 I10 I11] Hn E. apply map_find_some in Hn.
  set (g := if w_final w s then set_end n f else f) in *.
  pose proof (numbered_bound _ _ _ _ _ I2 Hn) as Hb.
  assert (Hg : wf g). { subst g. destruct (w_final w s); [apply set_end_wf; [assumption|lia]|assumption]. }
  assert (Ag : forall p, n_arcs g p = n_arcs f p) by (intros p; subst g; now destruct (w_final w s)).
  assert (Sg : n_size g = n_size f) by (subst g; now destruct (w_final w s)).
  assert (Tg : n_starts g = n_starts f) by (subst g; now destruct (w_final w s)).
  assert (Fg : forall p, In p (n_ends g) <-> In p (n_ends f) \/ p = n /\ w_final w s = true).
  { intros p. subst g. destruct (w_final w s); [rewrite set_end_in; intuition|intuition discriminate]. }
  clearbody g.
  inversion I3 as [|? ? Hs Hq]; subst.
  destruct (traverse_arcs_spec f0 n (w_arcs w s) m queue g m' queue' f') as
    (ext & -> & -> & Wf & Nu & Hx & Ho & (ks & Hc & Hp) & Es & Ee);
    [assumption| |lia|exact E|].
  { destruct I2 as (A1 & A2 & A3). repeat split; try assumption. congruence. }
  assert (Dq : forall t, In t (map fst ext) -> ~ In t (s :: queue)).
  { intros t Ht Hin. apply (Hx t Ht). now apply I4. }
  assert (Sdom : In s (map fst m)) by (apply I4; now left).
  assert (New : forall t k, In (t, k) ext -> n_size f <= k).
  { intros t k Hin. destruct (Nat.le_gt_cases (n_size f) k) as [|L]; [assumption|exfalso].
    assert (B : n_size f0 <= k < n_size f').
    { apply (numbered_bound _ (ext ++ m) f' t k Nu). apply in_app_iff. now left. }
    destruct (numbered_cover f0 m f k I2) as [u Hu]; [lia|].
    assert (t = u). { apply (numbered_inj _ _ _ t u k Nu); apply in_app_iff; [now left|now right]. }
    subst u. destruct (Hx t) as [K _]; [apply in_map_fst; now exists k|]. apply K. apply in_map_fst. now exists k. }
  constructor.
  - exact Wf.
  - exact Nu.
  - assert (NoDup (map fst ext)).
    { destruct Nu as (_ & _ & N). rewrite map_app in N. clear -N. induction (map fst ext) as [|x l IH]; [constructor|].
      cbn in N. inversion N as [|? ? N1 N2]; subst. constructor; [|auto]. intros K. apply N1, in_app_iff. now left. }
    clear -H Hq Dq. induction (map fst ext) as [|x l IH]; [exact Hq|]. cbn.
    inversion H; subst. constructor.
    + intros K. apply in_app_iff in K as [K|K]; [contradiction|]. apply (Dq x); [now left|now right].
    + apply IH; [intros t Ht; apply Dq; now right|assumption].
  - intros t. rewrite map_app, !in_app_iff. intros [K|K]; [now left|]. right. apply I4. now right.
  - intros t. rewrite map_app, in_app_iff. intros [K|K]; [|now apply I5].
    destruct (Hx t K) as [_ [a Ha]]. apply (reach_step s a t); [now apply I5|exact Ha].
  - intros t Ht. rewrite map_app, in_app_iff. right. now apply I6.
  - intros p Lp. rewrite Ho by lia. rewrite Ag. now apply I7.
  - intros t k Ht Hin. apply in_app_iff in Ht as [Ht|Ht].
    + pose proof (New t k Ht). rewrite Ho by lia. rewrite Ag. now apply n_arcs_out.
    + assert (t <> s).
      { intros ->. apply in_app_iff in Hin as [K|K]; [|contradiction]. now apply (Hx s K). }
      assert (k <> n) by (intros ->; apply H; now apply (numbered_inj _ _ _ t s n I2)).
      rewrite Ho by assumption. rewrite Ag. apply (I8 t k Ht).
      apply in_app_iff in Hin as [K|K]; [|now right]. exfalso. apply (Hx t K). apply in_map_fst. now exists k.
  - intros t k Ht Hin. rewrite in_app_iff in Hin.
    assert (Ht' : In (t, k) m).
    { apply in_app_iff in Ht as [Ht|Ht]; [|assumption]. exfalso. apply Hin. left. apply in_map_fst. now exists k. }
    destruct (order_dec _ strict t s) as [->|Ns].
    + assert (k = n) by now apply (numbered_fun _ _ _ s k n I2). subst k.
      exists ks. split; [exact Hc|]. rewrite <- Hp, Ag, (I8 s n Hn) by now left. reflexivity.
    + assert (k <> n) by (intros ->; apply Ns; now apply (numbered_inj _ _ _ t s n I2)).
      rewrite Ho by assumption. rewrite Ag. destruct (I9 t k Ht') as (ks' & K1 & K2).
      { intros [K|K]; [now subst|tauto]. }
      exists ks'. split; [|exact K2]. apply (copied_mono m); [|exact K1]. intros x Hx'. apply in_app_iff. now right.
  - intros p. rewrite Es, Tg, I10. split.
    + intros [K|(t & K1 & K2)]; [now left|]. right. exists t. split; [apply in_app_iff; now right|assumption].
    + intros [K|(t & K1 & K2)]; [now left|]. right. exists t. split; [|assumption].
      apply in_app_iff in K1 as [K1|K1]; [|assumption]. exfalso.
      apply (Hx t); [apply in_map_fst; now exists p|]. now apply I6.
  - intros p. rewrite Ee, Fg, I11. split.
    + intros [[K|(t & K1 & K2 & K3)]|[-> K]].
      * now left.
      * right. exists t. split; [apply in_app_iff; now right|]. split; [|assumption].
        rewrite in_app_iff. intros [C|C]; [|apply K2; now right]. apply (Hx t C). apply in_map_fst. now exists p.
      * right. exists s. split; [apply in_app_iff; now right|]. split; [|assumption].
        rewrite in_app_iff. intros [C|C]; [|contradiction]. now apply (Hx s C).
    + intros [K|(t & K1 & K2 & K3)]; [left; now left|]. rewrite in_app_iff in K2.
      apply in_app_iff in K1 as [K1|K1]; [exfalso; apply K2; left; apply in_map_fst; now exists p|].
      destruct (order_dec _ strict t s) as [->|Ns].
      * right. split; [|assumption]. now apply (numbered_fun _ _ _ s p n I2).
      * left. right. exists t. split; [assumption|]. split; [|assumption]. intros [C|C]; [congruence|tauto].
Qed.

Lemma loop_spec f0 fuel : forall m queue f f', inv f0 m queue f ->
  traverse_loop w fuel m queue f = Some f' -> exists m', inv f0 m' [] f'.
Proof.
  induction fuel as [|fuel IH]; intros m queue f f' I E; destruct queue as [|s queue]; cbn [traverse_loop] in E.
  - injection E as <-. now exists m.
  - discriminate.
  - injection E as <-. now exists m.
  - destruct (map_find w m s) as [n|] eqn:Hn.
    + destruct (traverse_arcs w n (w_arcs w s) m queue _) as [[m1 q1] f1] eqn:E1.
      apply (IH m1 q1 f1 f'); [|exact E]. now apply (inv_step f0 m s queue f n).
    + exfalso. apply map_find_none in Hn. apply Hn. apply (i_incl _ _ _ _ I). now left.
Qed.

(** The start states. *)
Lemma starts_spec f0 : wf f0 -> NoDup (w_start w) ->
  forall m queue f, traverse_starts (w_start w) [] [] f0 = (m, queue, f) -> inv f0 m queue f.
Proof.
  intros Hwf Hnd.
  enough (G : forall ss m queue f m' queue' f', NoDup ss -> (forall s, In s ss -> ~ In s (map fst m)) ->
    wf f -> numbered f0 m f -> queue = map fst m -> (forall p, n_arcs f p = n_arcs f0 p) ->
    (forall p, In p (n_starts f) <-> In p (n_starts f0) \/ exists s, In (s, p) m) ->
    n_ends f = n_ends f0 ->
    traverse_starts ss m queue f = (m', queue', f') ->
    wf f' /\ numbered f0 m' f' /\ queue' = map fst m' /\ (forall p, n_arcs f' p = n_arcs f0 p) /\
    (forall p, In p (n_starts f') <-> In p (n_starts f0) \/ exists s, In (s, p) m') /\
    n_ends f' = n_ends f0 /\ (forall s, In s (map fst m') <-> In s ss \/ In s (map fst m))).
  { intros m queue f E. apply G in E; cbn [map In length] in *.
    - destruct E as (E1 & E2 & E3 & E4 & E5 & E6 & E7). constructor.
      + assumption.
      + assumption.
      + rewrite E3. apply E2.
      + rewrite E3. apply incl_refl.
      + intros s Hs. apply reach_start. apply E7 in Hs as [K|[]]. exact K.
      + intros s Hs. apply E7. now left.
      + intros p _. apply E4.
      + intros s n Hin _. rewrite E4. apply n_arcs_out. pose proof (numbered_bound _ _ _ _ _ E2 Hin). lia.
      + intros s n Hin K. exfalso. apply K. rewrite E3. apply in_map_fst. now exists n.
      + intros p. rewrite E5. split; (intros [K|(s & K)]; [now left|right]).
        * exists s. split; [assumption|]. assert (In s (map fst m)) by (apply in_map_fst; now exists p).
          apply E7 in H as [H|[]]. exact H.
        * exists s. apply K.
      + intros p. rewrite E6. split; [now left|]. intros [K|(s & K1 & K2 & _)]; [assumption|exfalso].
        apply K2. rewrite E3. apply in_map_fst. now exists p.
    - assumption.
    - intros s _ [].
    - assumption.
    - repeat split; [cbn; lia|constructor].
    - reflexivity.
    - reflexivity.
    - intros p. split; [now left|]. intros [K|(s & [])]. exact K.
    - reflexivity. }
  induction ss as [|s ss IH]; intros m queue f m' queue' f' Nss Dm Wf Nu Eq Ea Es Ee E; cbn [traverse_starts] in E.
  - injection E as <- <- <-. do 6 (split; [assumption|]). intros s. cbn [In]. intuition.
  - destruct (add_state true f) as [n g] eqn:Eg.
    assert (En : n = n_size f) by (injection Eg as <- _; reflexivity).
    assert (Eg' : g = snd (add_state true f)) by now rewrite Eg.
    inversion Nss as [|x0 l0 Ns Nss' Ex0].
    apply IH in E.
    + destruct E as (E1 & E2 & E3 & E4 & E5 & E6 & E7). do 6 (split; [assumption|]).
      intros t. rewrite E7. cbn [map fst In]. intuition.
    + assumption.
    + intros t Ht. cbn [map fst In]. intros [<-|K]; [contradiction|]. apply (Dm t); [now right|assumption].
    + rewrite Eg'. now apply add_state_wf.
    + assert (Nn : numbered f0 ((s, n_size f) :: m) (snd (add_state false f))).
      { apply numbered_add; [assumption|]. apply Dm. now left. }
      destruct Nn as (N1 & N2 & N3). rewrite En, Eg'. repeat split; try assumption.
    + cbn [map fst]. now rewrite Eq.
    + intros p. rewrite Eg', add_state_arcs. apply Ea.
    + intros p. rewrite Eg', add_state_starts, Es. rewrite En. cbn [In]. split.
      * intros [[K|(t & K)]|[_ ->]]; [now left|right; exists t; now right|right; exists s; now left].
      * intros [K|(t & [K|K])]; [left; now left| |left; right; now exists t].
        injection K as -> ->. right. now split.
    + rewrite Eg'. exact Ee.
Qed.

(** [f'] is [f0] with a copy of the reachable part of the wrapper beside it. *)
Record beside (f0 : ndfsa) (m : list (W * nat)) (f : ndfsa) : Prop := {
  b_wf : wf f;
  b_num : numbered f0 m f;
  b_reach : forall s, In s (map fst m) <-> reach s;
  b_old : forall p, p < n_size f0 -> n_arcs f p = n_arcs f0 p;
  b_arcs : forall s n, In (s, n) m -> exists ks, copied m (w_arcs w s) ks /\ Permutation ks (n_arcs f n);
  b_starts : forall p, In p (n_starts f) <-> In p (n_starts f0) \/ exists s, In (s, p) m /\ In s (w_start w);
  b_ends : forall p, In p (n_ends f) <-> In p (n_ends f0) \/ exists s, In (s, p) m /\ w_final w s = true
}.
Lemma copied_in m l ks : copied m l ks ->
  (forall a t, In (a, t) l -> exists k, In (t, k) m /\ In (a, k) ks) /\
  (forall a k, In (a, k) ks -> exists t, In (t, k) m /\ In (a, t) l).
Proof.
  induction 1 as [|[a t] [b k] l ks [E K] _ [IH1 IH2]]; cbn in *; [split; contradiction|]. subst b. split.
  - intros c u [H|H]; [injection H as <- <-; exists k; auto|]. destruct (IH1 c u H) as (j & J1 & J2). exists j. auto.
  - intros c j [H|H]; [injection H as <- <-; exists t; auto|]. destruct (IH2 c j H) as (u & J1 & J2). exists u. auto.
Qed.
Theorem traverse_spec f0 fuel f : wf f0 -> NoDup (w_start w) ->
  traverse w fuel f0 = Some f -> exists m, beside f0 m f.
Proof.
  intros Hwf Hnd. unfold traverse. destruct (traverse_starts _ _ _ _) as [[m0 q0] g] eqn:E0. intros E.
  destruct (loop_spec f0 fuel m0 q0 g f) as [m I]; [now apply starts_spec|exact E|].
  destruct I as [I1 I2 I3 I4 I5 I6 I7 I8 I9 I10 I11]. exists m. constructor; try assumption.
  - intros s. split; [apply I5|]. induction 1 as [s Hs|s a t _ IH Hs]; [now apply I6|].
    apply in_map_fst in IH as [n Hn]. destruct (I9 s n Hn) as (ks & K1 & _); [auto|].
    destruct (copied_in _ _ _ K1) as [K2 _]. destruct (K2 a t Hs) as (k & K & _). apply in_map_fst. now exists k.
  - intros s n Hin. apply I9; auto.
  - intros p. rewrite I11. split; (intros [K|(s & K)]; [now left|right; exists s]); intuition.
Qed.

(** The loop ends: the number of reachable states bounds the number of turns. *)
Lemma loop_fuel f0 (univ : list W) : (forall s, reach s -> In s univ) ->
  forall fuel m queue f, inv f0 m queue f -> length queue + length univ <= fuel + length m ->
  exists f', traverse_loop w fuel m queue f = Some f'.
Proof.
  intros U. induction fuel as [|fuel IH]; intros m queue f I L; destruct queue as [|s queue]; cbn [traverse_loop].
  - now exists f.
  - exfalso. cbn [length] in L. assert (length m <= length univ); [|lia].
    rewrite <- (map_length fst). apply NoDup_incl_length; [apply (i_num _ _ _ _ I)|].
    intros t Ht. apply U. now apply (i_reach _ _ _ _ I).
  - now exists f.
  - destruct (map_find w m s) as [n|] eqn:Hn.
    + destruct (traverse_arcs w n (w_arcs w s) m queue _) as [[m1 q1] f1] eqn:E1.
      pose proof (inv_step f0 m s queue f n m1 q1 f1 I Hn E1) as I'.
      apply IH; [exact I'|].
      assert (exists ext : list (W * nat), m1 = ext ++ m /\ q1 = map fst ext ++ queue) as (ext & -> & ->).
      { clear -E1. revert m queue m1 q1 f1 E1. generalize (if w_final w s then set_end n f else f).
        induction (w_arcs w s) as [|[a t] l IHl]; intros g m queue m1 q1 f1 E1; cbn [traverse_arcs] in E1.
        - injection E1 as <- <- <-. now exists [].
        - destruct (map_find w m t); [now apply IHl in E1|].
          destruct (add_state false g) as [k g']. apply IHl in E1 as (ext & -> & ->).
          exists (ext ++ [(t, k)]). rewrite map_app, <- !app_assoc. now split. }
      rewrite !app_length, map_length. cbn [length] in L. lia.
    + exfalso. apply map_find_none in Hn. apply Hn. apply (i_incl _ _ _ _ I). now left.
Qed.
Theorem traverse_ends f0 (univ : list W) : wf f0 -> NoDup (w_start w) -> (forall s, reach s -> In s univ) ->
  forall fuel, length univ <= fuel -> exists f, traverse w fuel f0 = Some f.
Proof.
  intros Hwf Hnd U fuel L. unfold traverse. destruct (traverse_starts _ _ _ _) as [[m q] g] eqn:E.
  pose proof (starts_spec f0 Hwf Hnd m q g E) as I. apply (loop_fuel f0 univ U); [exact I|].
  assert (length q <= length m); [|lia]. rewrite <- (map_length fst m).
  apply NoDup_incl_length; [apply (i_queue _ _ _ _ I)|apply (i_incl _ _ _ _ I)].
Qed.
(** More turns do not change the result. *)
Lemma loop_more k fuel : forall m queue f f',
  traverse_loop w fuel m queue f = Some f' -> traverse_loop w (fuel + k) m queue f = Some f'.
Proof.
  induction fuel as [|fuel IH]; intros m queue f f' E; destruct queue as [|s queue]; cbn [traverse_loop] in E.
  - destruct k; exact E.
  - discriminate.
  - destruct k; exact E.
  - cbn [Nat.add traverse_loop]. destruct (match map_find w m s with Some n => _ | None => _ end) as [[n m1] f1].
    destruct (traverse_arcs _ _ _ _ _ _) as [[m2 q2] f2]. now apply IH.
Qed.
Lemma traverse_more k fuel f0 f : traverse w fuel f0 = Some f -> traverse w (fuel + k) f0 = Some f.
Proof. unfold traverse. destruct (traverse_starts _ _ _ _) as [[m q] g]. apply loop_more. Qed.
End Traverse.

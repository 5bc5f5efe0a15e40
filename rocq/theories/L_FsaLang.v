(** The languages of automata, wrappers and of what [traverse] builds from them. *)
From Coq Require Import List ZArith Bool Sorted Permutation Lia PeanoNat.
From Verif Require Import M_OrdSet L_OrdSet M_Fsa S_Fsa L_Fsa L_FsaTraverse.
Import ListNotations.
Local Open Scope nat_scope.

(** ** Paths *)
Section Paths.
Context {S : Type} (eps : Z) (step : S -> Z -> S -> Prop).
Notation path := (path eps step).
Lemma path_app p u q v r : path p u q -> path q v r -> path p (u ++ v) r.
Proof. induction 1; intros; [assumption|eapply path_eps; eauto|cbn; eapply path_cons; eauto]. Qed.
Lemma path_split p w r : path p w r -> forall u v, w = u ++ v -> exists q, path p u q /\ path q v r.
Proof.
  induction 1 as [p|p q r w Hs _ IH|p a q r w Ha Hs _ IH]; intros u v E.
  - symmetry in E. apply app_eq_nil in E as [-> ->]. exists p. split; constructor.
  - destruct (IH u v E) as (t & K1 & K2). exists t. split; [|assumption]. now apply (path_eps _ _ p q).
  - destruct u as [|b u]; cbn in E.
    + subst v. exists p. split; [constructor|]. apply (path_cons _ _ p a q); [assumption..|].
      destruct (IH [] w eq_refl) as (t & K1 & K2). exact (path_app _ _ _ _ _ K1 K2).
    + injection E as <- ->. destruct (IH u v eq_refl) as (t & K1 & K2). exists t. split; [|assumption].
      now apply (path_cons _ _ p a q).
Qed.
(** Epsilon steps. *)
Definition eps_reach p q := path p [] q.
Lemma eps_reach_step p q r : eps_reach p q -> step q eps r -> eps_reach p r.
Proof. intros H K. apply (path_app p [] q [] r H). apply (path_eps _ _ q r r); [assumption|constructor]. Qed.
Lemma eps_reach_inv (X : S -> Prop) p q : (forall x y, X x -> step x eps y -> X y) -> X p -> eps_reach p q -> X q.
Proof.
  intros H Hp K. unfold eps_reach in K. remember [] as u eqn:E. revert Hp.
  induction K as [x|x y z u' Hs _ IH|x a y z u' Ha Hs _ IH]; intros Hp; [assumption| |discriminate].
  apply (IH E). now apply (H x).
Qed.
Lemma path_head p a w r : path p (a :: w) r <->
  exists q t, eps_reach p q /\ a <> eps /\ step q a t /\ path t w r.
Proof.
  split.
  - intros H. remember (a :: w) as v eqn:E. revert a w E.
    induction H as [p|p q r v Hs _ IH|p b q r v Ha Hs Hp _]; intros a w E; [discriminate| |].
    + destruct (IH a w E) as (q' & t & K1 & K2 & K3 & K4). exists q', t. split; [|tauto]. now apply (path_eps _ _ p q).
    + injection E as <- <-. exists p, q. repeat split; try assumption. constructor.
  - intros (q & t & K1 & K2 & K3 & K4). apply (path_app p [] q (a :: w) r K1). now apply (path_cons _ _ q a t).
Qed.
Lemma path_no_eps p w q : path p w q -> ~ In eps w.
Proof. induction 1 as [|p q r w _ _ IH|p a q r w Ha _ _ IH]; [intros []|exact IH|]. intros [K|K]; [congruence|auto]. Qed.
(** Without epsilon arcs a path is a sequence of steps. *)
Lemma path_free : (forall p q, ~ step p eps q) -> forall p w q, path p w q ->
  match w with [] => p = q | a :: w' => exists t, step p a t /\ path t w' q end.
Proof.
  intros F p w q H. destruct H as [p|p q r w Hs H|p a q r w Ha Hs H]; [reflexivity|now apply F in Hs|now exists q].
Qed.
Lemma path_mono (step' : S -> Z -> S -> Prop) : (forall p a q, step p a q -> step' p a q) ->
  forall p w q, path p w q -> S_Fsa.path eps step' p w q.
Proof.
  intros H. induction 1 as [|p q r w Hs _ IH|p a q r w Ha Hs _ IH]; [constructor|..].
  - apply (path_eps _ _ p q); auto.
  - apply (path_cons _ _ p a q); auto.
Qed.
End Paths.

(** The mirror image of a path. *)
Lemma path_mirror {S} eps (step step' : S -> Z -> S -> Prop) :
  (forall p a q, step p a q -> step' q a p) ->
  forall p w q, path eps step p w q -> path eps step' q (rev w) p.
Proof.
  intros H. induction 1 as [|p q r w Hs _ IH|p a q r w Ha Hs _ IH]; [constructor|..].
  - rewrite <- (app_nil_r (rev w)). apply (path_app _ _ _ _ q _ _ IH).
    apply (path_eps _ _ q p p); [auto|constructor].
  - cbn [rev]. apply (path_app _ _ _ _ q _ _ IH). apply (path_cons _ _ q a p p); [assumption|auto|constructor].
Qed.

(** ** Languages *)
Definition f_step (f : ndfsa) p a q := In (a, q) (n_arcs f p).
Definition nd_lang (f : ndfsa) : lang :=
  accepted EPS (f_step f) (fun p => In p (n_starts f)) (fun p => In p (n_ends f)).
Definition v_step (v : view) p a q := In (a, q) (v_arcs v p).
Definition v_lang (v : view) : lang :=
  accepted EPS (v_step v) (fun p => In p (v_starts v)) (fun p => v_is_end v p = true).
Definition w_lang {W} (w : wrapper W) : lang :=
  accepted EPS (step w) (fun s => In s (w_start w)) (fun s => w_final w s = true).

Lemma f_step_wf f p a q : wf f -> f_step f p a q -> p < n_size f /\ q < n_size f.
Proof.
  intros H K. split; [|exact (wf_arcs _ H _ _ K)].
  destruct (Nat.lt_ge_cases p (n_size f)) as [|L]; [assumption|]. unfold f_step in K. rewrite n_arcs_out in K by assumption. destruct K.
Qed.
Lemma n_view_lang f : same (v_lang (n_view f)) (nd_lang f).
Proof.
  intros w. split; intros (p & q & H1 & H2 & H3); exists p, q; repeat split; try assumption;
    cbn in *; now apply (set_count_in _ nat_strict).
Qed.

Section Beside.
Context {W : Type} (w : wrapper W) (f0 : ndfsa) (m : list (W * nat)) (f : ndfsa).
Context (Hwf : wf f0) (B : beside w f0 m f).

Lemma beside_arcs s n : In (s, n) m ->
  (forall a t, step w s a t -> exists k, In (t, k) m /\ f_step f n a k) /\
  (forall a k, f_step f n a k -> exists t, In (t, k) m /\ step w s a t).
Proof.
  intros H. destruct (b_arcs _ _ _ _ B s n H) as (ks & K & P). apply copied_in in K as [K1 K2]. split.
  - intros a t Hs. destruct (K1 a t Hs) as (k & J1 & J2). exists k. split; [assumption|]. now apply (Permutation_in _ P).
  - intros a k Hs. apply K2. now apply (Permutation_in _ (Permutation_sym P)).
Qed.
Lemma beside_old_step p a q : p < n_size f0 -> (f_step f p a q <-> f_step f0 p a q).
Proof. intros H. unfold f_step. now rewrite (b_old _ _ _ _ B). Qed.
Lemma beside_old p u q : p < n_size f0 -> (path EPS (f_step f) p u q <-> path EPS (f_step f0) p u q).
Proof.
  intros H. split; intros K.
  - induction K as [p|p q r v Hs _ IH|p a q r v Ha Hs _ IH]; [constructor|..];
      apply (beside_old_step _ _ _ H) in Hs; pose proof (f_step_wf _ _ _ _ Hwf Hs) as [_ L].
    + apply (path_eps _ _ p q); auto.
    + apply (path_cons _ _ p a q); auto.
  - revert H. induction K as [p|p q r v Hs _ IH|p a q r v Ha Hs _ IH]; intros L; [constructor|..];
      pose proof (f_step_wf _ _ _ _ Hwf Hs) as [_ L']; apply (beside_old_step _ _ _ L) in Hs.
    + apply (path_eps _ _ p q); auto.
    + apply (path_cons _ _ p a q); auto.
Qed.
Lemma beside_new s n u t k : In (s, n) m -> In (t, k) m ->
  (path EPS (f_step f) n u k <-> path EPS (step w) s u t).
Proof.
  intros Hs Ht. split; intros K.
  - revert s Hs t Ht. induction K as [p|p q r v Hst _ IH|p a q r v Ha Hst _ IH]; intros s Hs t Ht.
    + assert (s = t) by exact (numbered_inj _ _ _ _ _ _ (b_num _ _ _ _ B) Hs Ht). subst. constructor.
    + destruct (proj2 (beside_arcs _ _ Hs) _ _ Hst) as (s' & J1 & J2). apply (path_eps _ _ s s'); [assumption|]. now apply IH.
    + destruct (proj2 (beside_arcs _ _ Hs) _ _ Hst) as (s' & J1 & J2). apply (path_cons _ _ s a s'); [assumption..|]. now apply IH.
  - revert n Hs k Ht. induction K as [p|p q r v Hst _ IH|p a q r v Ha Hst _ IH]; intros n Hs k Ht.
    + assert (n = k) by exact (numbered_fun _ _ _ _ _ _ (b_num _ _ _ _ B) Hs Ht). subst. constructor.
    + destruct (proj1 (beside_arcs _ _ Hs) _ _ Hst) as (s' & J1 & J2). apply (path_eps _ _ n s'); [assumption|]. now apply IH.
    + destruct (proj1 (beside_arcs _ _ Hs) _ _ Hst) as (s' & J1 & J2). apply (path_cons _ _ n a s'); [assumption..|]. now apply IH.
Qed.
Lemma beside_stays s n u k : In (s, n) m -> path EPS (f_step f) n u k -> exists t, In (t, k) m.
Proof.
  intros Hs K. revert s Hs. induction K as [p|p q r v Hst _ IH|p a q r v Ha Hst _ IH]; intros s Hs.
  - now exists s.
  - destruct (proj2 (beside_arcs _ _ Hs) _ _ Hst) as (s' & J1 & J2). now apply (IH s').
  - destruct (proj2 (beside_arcs _ _ Hs) _ _ Hst) as (s' & J1 & J2). now apply (IH s').
Qed.
Lemma reach_path s u t : reach w s -> path EPS (step w) s u t -> reach w t.
Proof. intros H K. induction K; [assumption|eauto using reach_step..]. Qed.
Lemma old_not_new s p : p < n_size f0 -> ~ In (s, p) m.
Proof. intros H K. pose proof (numbered_bound _ _ _ _ _ (b_num _ _ _ _ B) K). lia. Qed.
Lemma in_dom s : reach w s -> exists n, In (s, n) m.
Proof. intros H. apply in_map_fst. now apply (b_reach _ _ _ _ B). Qed.

Theorem beside_lang : same (nd_lang f) (union (nd_lang f0) (w_lang w)).
Proof.
  intros u. split.
  - intros (p & q & Hp & Hq & K). apply (b_starts _ _ _ _ B) in Hp as [Hp|(s & Hs & Hp)].
    + left. pose proof (wf_starts _ Hwf _ Hp) as L. apply (beside_old _ _ _ L) in K. exists p, q.
      split; [assumption|]. split; [|assumption]. apply (b_ends _ _ _ _ B) in Hq as [Hq|(t & Ht & Hq)]; [assumption|].
      exfalso. apply (old_not_new t q); [|assumption]. clear -K L Hwf.
      induction K as [p|p q r v Hs _ IH|p a q r v Ha Hs _ IH]; [assumption|..];
        pose proof (f_step_wf _ _ _ _ Hwf Hs); apply IH; lia.
    + right. destruct (beside_stays _ _ _ _ Hs K) as [t Ht]. exists s, t. split; [assumption|]. split.
      * apply (b_ends _ _ _ _ B) in Hq as [Hq|(t' & Ht' & Hq)].
        -- exfalso. apply (old_not_new t q); [now apply (wf_ends _ Hwf)|assumption].
        -- now rewrite (numbered_inj _ _ _ _ _ _ (b_num _ _ _ _ B) Ht Ht').
      * now apply (beside_new s p u t q Hs Ht).
  - intros [(p & q & Hp & Hq & K)|(s & t & Hs & Ht & K)].
    + exists p, q. split; [apply (b_starts _ _ _ _ B); now left|]. split; [apply (b_ends _ _ _ _ B); now left|].
      apply beside_old; [now apply (wf_starts _ Hwf)|assumption].
    + assert (Rs : reach w s) by now apply reach_start.
      destruct (in_dom s Rs) as [n Hn].
      destruct (in_dom t (reach_path _ _ _ Rs K)) as [k Hk]. exists n, k.
      split; [apply (b_starts _ _ _ _ B); right; now exists s|].
      split; [apply (b_ends _ _ _ _ B); right; now exists t|]. now apply (beside_new s n u t k Hn Hk).
Qed.
End Beside.

Lemma empty_lang u : ~ nd_lang empty u.
Proof. intros (p & q & [] & _). Qed.
Lemma traverse_lang {W} (w : wrapper W) f0 fuel f :
  strict_total (w_ltb w) -> wf f0 -> NoDup (w_start w) -> traverse w fuel f0 = Some f ->
  wf f /\ same (nd_lang f) (union (nd_lang f0) (w_lang w)).
Proof.
  intros H Hwf Hnd E. destruct (traverse_spec w H f0 fuel f Hwf Hnd E) as [m B].
  split; [apply (b_wf _ _ _ _ B)|]. exact (beside_lang w f0 m f Hwf B).
Qed.
Lemma traverse_empty_lang {W} (w : wrapper W) fuel f :
  strict_total (w_ltb w) -> NoDup (w_start w) -> traverse w fuel empty = Some f ->
  wf f /\ same (nd_lang f) (w_lang w).
Proof.
  intros H Hnd E. destruct (traverse_lang w empty fuel f H empty_wf Hnd E) as [H1 H2]. split; [assumption|].
  intros u. rewrite (H2 u). unfold union. split; [|now right]. intros [K|K]; [now apply empty_lang in K|assumption].
Qed.

(** ** Views *)
Record v_wf (v : view) : Prop := {
  vw_arcs : forall p x, In x (v_arcs v p) -> p < v_size v /\ snd x < v_size v;
  vw_starts : forall p, In p (v_starts v) -> p < v_size v;
  vw_ends : forall p, In p (v_ends v) -> p < v_size v;
  vw_starts_inc : increasing Nat.ltb (v_starts v);
  vw_ends_inc : increasing Nat.ltb (v_ends v);
  vw_is_start : forall p, v_is_start v p = true <-> In p (v_starts v);
  vw_is_end : forall p, v_is_end v p = true <-> In p (v_ends v)
}.
Lemma n_view_wf f : wf f -> v_wf (n_view f).
Proof.
  intros H. constructor; cbn; try apply H.
  - intros p [a q] K. exact (f_step_wf f p a q H K).
  - intros p. apply (set_count_in _ nat_strict).
  - intros p. apply (set_count_in _ nat_strict).
Qed.

Lemma copier_lang v : same (w_lang (copier v)) (v_lang v).
Proof.
  intros u. unfold w_lang, v_lang, accepted. cbn [copier w_start w_final].
  assert (E : forall p a q, step (copier v) p a q <-> v_step v p a q).
  { intros p a q. apply (in_arc_set _ nat_strict). }
  split; intros (p & q & H1 & H2 & H3); exists p, q; repeat split; try assumption;
    (eapply path_mono; [|exact H3]; intros; now apply E).
Qed.
Lemma reach_seq (w : wrapper nat) n : (forall p, In p (w_start w) -> p < n) ->
  (forall p a q, step w p a q -> q < n) -> forall p, reach w p -> In p (seq 0 n).
Proof.
  intros H1 H2 p K. apply in_seq. split; [lia|]. cbn. destruct K as [p K|p a q _ K]; [now apply H1|now apply H2 in K].
Qed.
Lemma copier_reach v : v_wf v -> forall p, reach (copier v) p -> In p (seq 0 (v_size v)).
Proof.
  intros H. apply reach_seq; [apply H|]. intros p a q K. unfold step in K. cbn [copier w_arcs] in K. rewrite (in_arc_set _ nat_strict) in K.
  now apply (vw_arcs _ H) in K.
Qed.

(** ** Epsilon closures *)
Lemma eps_arcs_spec l : forall cl queue cl' queue', eps_arcs l cl queue = (cl', queue') ->
  NoDup cl -> NoDup queue -> incl queue cl ->
  NoDup cl' /\ NoDup queue' /\ incl queue' cl' /\ incl cl cl' /\ incl queue queue' /\
  length queue' + length cl = length queue + length cl' /\
  (forall q, In q cl' -> In q cl \/ In (EPS, q) l) /\
  (forall q, In (EPS, q) l -> In q cl') /\
  (forall q, In q cl' -> In q queue' \/ In q cl /\ ~ In q queue).
Proof.
  induction l as [|[a q] l IH]; intros cl queue cl' queue' E N1 N2 I; cbn [eps_arcs fst snd] in E.
  - injection E as <- <-. repeat split; try assumption; try (intros x Hx; assumption).
    + intros q Hq. now left.
    + intros q [].
    + intros q Hq. destruct (in_dec Nat.eq_dec q queue); auto.
  - destruct ((a =? EPS)%Z && negb (set_count Nat.ltb q cl)) eqn:C.
    + apply andb_true_iff in C as [C1 C2]. apply Z.eqb_eq in C1. subst a.
      assert (Nq : ~ In q cl). { intros K. apply (set_count_in _ nat_strict) in K. rewrite K in C2. discriminate. }
      assert (Ei : forall x, In x (set_insert Nat.ltb q cl) <-> x = q \/ In x cl) by (intros; apply (in_set_insert _ nat_strict)).
      assert (L : length (set_insert Nat.ltb q cl) = S (length cl) /\ NoDup (set_insert Nat.ltb q cl)).
      { clear -Nq N1. induction cl as [|x cl IH]; cbn [set_insert]; [split; [reflexivity|repeat constructor; auto]|].
        inversion N1 as [|? ? Nx N1']; subst.
        destruct (Nat.ltb q x) eqn:E1; [split; [reflexivity|constructor; assumption]|].
        destruct (Nat.ltb x q) eqn:E2.
        - destruct IH as [IH1 IH2]; [assumption|intros K; apply Nq; now right|]. cbn [length]. split; [lia|].
          constructor; [|assumption]. rewrite (in_set_insert _ nat_strict). intros [K|K]; [apply Nq; now left|contradiction].
        - exfalso. apply Nq. left. apply Nat.ltb_ge in E1, E2. lia. }
      destruct L as [L N1'].
      apply IH in E as (E1 & E2 & E3 & E4 & E5 & E6 & E7 & E8 & E9); [|assumption| |].
      * split; [assumption|]. split; [assumption|]. split; [assumption|].
        split; [intros x Hx; apply E4; apply Ei; now right|]. split; [intros x Hx; apply E5; now right|].
        split; [rewrite L in E6; cbn [length] in E6; lia|]. split; [|split].
        -- intros x Hx. apply E7 in Hx as [Hx|Hx]; [|right; now right]. apply Ei in Hx as [-> |Hx]; [right; now left|now left].
        -- intros x [K|K]; [injection K as <-; apply E4, Ei; now left|now apply E8].
        -- intros x Hx. apply E9 in Hx as [Hx|[Hx K]]; [now left|]. right. apply Ei in Hx as [-> |Hx].
           ++ exfalso. apply K. now left.
           ++ split; [assumption|]. intros J. apply K. now right.
      * constructor; [|assumption]. intros K. apply Nq. now apply I.
      * intros x [<-|Hx]; apply Ei; [now left|right; now apply I].
    + assert (Hq : a = EPS -> In q cl).
      { intros ->. cbn [Z.eqb] in C. rewrite Z.eqb_refl in C. cbn in C. apply negb_false_iff in C. now apply (set_count_in _ nat_strict). }
      apply IH in E as (E1 & E2 & E3 & E4 & E5 & E6 & E7 & E8 & E9); [|assumption..].
      do 6 (split; [assumption|]). split; [|split].
      * intros x Hx. apply E7 in Hx as [Hx|Hx]; [now left|right; now right].
      * intros x [K|K]; [injection K as -> ->; apply E4; now apply Hq|now apply E8].
      * exact E9.
Qed.
Lemma eps_loop_spec v p : v_wf v -> p < v_size v -> forall fuel cl queue,
  NoDup cl -> NoDup queue -> incl queue cl -> In p cl ->
  (forall q, In q cl -> q < v_size v /\ eps_reach EPS (v_step v) p q) ->
  (forall q r, In q cl -> ~ In q queue -> v_step v q EPS r -> In r cl) ->
  length queue + v_size v <= fuel + length cl ->
  forall q, In q (eps_loop v fuel cl queue) <-> eps_reach EPS (v_step v) p q.
Proof.
  intros Hv Hp. induction fuel as [|fuel IH]; intros cl queue N1 N2 I P A C L q.
  - assert (queue = []).
    { destruct queue as [|s queue]; [reflexivity|]. exfalso. cbn [length] in L.
      assert (length cl <= v_size v); [|lia]. rewrite <- (seq_length (v_size v) 0).
      apply NoDup_incl_length; [assumption|]. intros x Hx. apply in_seq. apply A in Hx. lia. }
    subst queue. cbn [eps_loop]. split; [intros K; now apply A|]. apply (eps_reach_inv EPS (v_step v) (fun x => In x cl)); [|assumption].
    intros x y Hx Hs. apply (C x y); auto.
  - destruct queue as [|s queue].
    + cbn [eps_loop]. split; [intros K; now apply A|]. apply (eps_reach_inv EPS (v_step v) (fun x => In x cl)); [|assumption].
      intros x y Hx Hs. apply (C x y); auto.
    + cbn [eps_loop]. destruct (eps_arcs (v_arcs v s) cl queue) as [cl' queue'] eqn:E.
      inversion N2 as [|? ? Ns N2']; subst.
      apply eps_arcs_spec in E as (E1 & E2 & E3 & E4 & E5 & E6 & E7 & E8 & E9);
        [|assumption|assumption|intros x Hx; apply I; now right].
      apply IH; try assumption.
      * now apply E4.
      * intros x Hx. apply E7 in Hx as [Hx|Hx]; [now apply A|].
        destruct (A s) as [As1 As2]; [apply I; now left|]. split; [now apply (vw_arcs _ Hv) in Hx|].
        now apply (eps_reach_step _ _ _ s).
      * intros x y Hx Nx Hs. apply E9 in Hx as [Hx|[Hx1 Hx2]]; [contradiction|].
        destruct (Nat.eq_dec x s) as [->|Ne]; [now apply E8|].
        apply E4. apply (C x y); [assumption| |assumption]. intros [K|K]; [congruence|contradiction].
      * cbn [length] in L. lia.
Qed.
Lemma eps_closure_spec v p q : v_wf v -> p < v_size v ->
  (In q (eps_closure v p) <-> eps_reach EPS (v_step v) p q).
Proof.
  intros Hv Hp. unfold eps_closure. apply eps_loop_spec; try assumption.
  - repeat constructor; auto.
  - repeat constructor; auto.
  - apply incl_refl.
  - now left.
  - intros x [<-|[]]. split; [assumption|constructor].
  - intros x r [<-|[]] K. exfalso. apply K. now left.
  - cbn [length]. lia.
Qed.
Lemma eps_reach_bound v p q u : v_wf v -> p < v_size v -> path EPS (v_step v) p u q -> q < v_size v.
Proof.
  intros Hv Hp K. induction K as [x|x y z u Hs _ IH|x a y z u Ha Hs _ IH]; [assumption|..];
    apply (vw_arcs _ Hv) in Hs; apply IH; apply Hs.
Qed.
(** No arc leaves a state that is not there. *)
Lemma path_out v p u q : v_wf v -> v_size v <= p -> path EPS (v_step v) p u q -> u = [] /\ p = q.
Proof.
  intros Hv L K. destruct K as [x|x y z u Hs _|x a y z u Ha Hs _]; [now split|..];
    apply (vw_arcs _ Hv) in Hs; lia.
Qed.

(** ** Removing epsilon arcs *)
Lemma eps_remover_step v p a q : v_wf v -> p < v_size v ->
  (step (eps_remover v) p a q <-> a <> EPS /\ exists r, eps_reach EPS (v_step v) p r /\ v_step v r a q).
Proof.
  intros Hv Hp. unfold step. cbn [eps_remover w_arcs]. rewrite (in_arc_set _ nat_strict), in_flat_map. split.
  - intros (r & K1 & K2). apply filter_In in K2 as [K2 K3]. cbn [fst] in K3. apply negb_true_iff, Z.eqb_neq in K3.
    split; [assumption|]. exists r. split; [now apply eps_closure_spec in K1|exact K2].
  - intros (Ha & r & K1 & K2). exists r. split; [now apply eps_closure_spec|]. apply filter_In. split; [exact K2|].
    cbn. now apply negb_true_iff, Z.eqb_neq.
Qed.
Lemma eps_remover_lang v : v_wf v -> same (w_lang (eps_remover v)) (v_lang v).
Proof.
  intros Hv u.
  assert (Hf : forall p, p < v_size v -> (w_final (eps_remover v) p = true <->
            exists q, eps_reach EPS (v_step v) p q /\ v_is_end v q = true)).
  { intros p Hp. cbn [eps_remover w_final]. rewrite existsb_exists. split; intros (q & K1 & K2); exists q;
      (split; [now apply (eps_closure_spec v p q Hv Hp)|assumption]). }
  assert (G : forall p, p < v_size v ->
    ((exists q, w_final (eps_remover v) q = true /\ path EPS (step (eps_remover v)) p u q) <->
     exists q, v_is_end v q = true /\ path EPS (v_step v) p u q)).
  { induction u as [|a u IH]; intros p Hp.
    - split.
      + intros (q & K1 & K2). assert (p = q).
        { destruct (path_free EPS (step (eps_remover v))) with (p := p) (w := @nil Z) (q := q) as [] ; try assumption; [|reflexivity].
          intros x y Hx. unfold step in Hx. cbn [eps_remover w_arcs] in Hx. apply (in_arc_set _ nat_strict), in_flat_map in Hx as (r & _ & Hx).
          apply filter_In in Hx as [_ Hx]. cbn in Hx. discriminate. }
        subst q. apply (Hf p Hp) in K1 as (q & J1 & J2). now exists q.
      + intros (q & K1 & K2). exists p. split; [|constructor]. apply (Hf p Hp). now exists q.
    - split.
      + intros (q & K1 & K2).
        pose proof (path_head EPS (step (eps_remover v)) p a u q) as [Hh _].
        destruct (Hh K2) as (p1 & p2 & J1 & J2 & J3 & J4).
        assert (p = p1).
        { refine (path_free EPS (step (eps_remover v)) _ p (@nil Z) p1 J1).
          intros x y Hx. unfold step in Hx. cbn [eps_remover w_arcs] in Hx. apply (in_arc_set _ nat_strict), in_flat_map in Hx as (r & _ & Hx).
          apply filter_In in Hx as [_ Hx]. cbn in Hx. discriminate. }
        subst p1. apply (eps_remover_step v p a p2 Hv Hp) in J3 as (_ & r & J5 & J6).
        assert (L2 : p2 < v_size v) by now apply (vw_arcs _ Hv) in J6.
        destruct (proj1 (IH p2 L2)) as (q' & Q1 & Q2); [now exists q|].
        exists q'. split; [assumption|]. apply path_head. exists r, p2. tauto.
      + intros (q & K1 & K2). apply path_head in K2 as (r & p2 & J1 & J2 & J3 & J4).
        assert (L2 : p2 < v_size v) by now apply (vw_arcs _ Hv) in J3.
        destruct (proj2 (IH p2 L2)) as (q' & Q1 & Q2); [now exists q|].
        exists q'. split; [assumption|]. apply (path_cons _ _ p a p2); [assumption| |assumption].
        apply (eps_remover_step v p a p2 Hv Hp). split; [assumption|]. now exists r. }
  split.
  - intros (p & q & H1 & H2 & H3). cbn [eps_remover w_start] in H1.
    destruct (proj1 (G p (vw_starts _ Hv _ H1))) as (q' & Q1 & Q2); [now exists q|]. now exists p, q'.
  - intros (p & q & H1 & H2 & H3).
    destruct (proj2 (G p (vw_starts _ Hv _ H1))) as (q' & Q1 & Q2); [now exists q|]. now exists p, q'.
Qed.
Lemma eps_remover_free v p q : ~ step (eps_remover v) p EPS q.
Proof.
  unfold step. cbn [eps_remover w_arcs]. intros K. apply (in_arc_set _ nat_strict), in_flat_map in K as (r & _ & K).
  apply filter_In in K as [_ K]. cbn in K. discriminate.
Qed.
Lemma eps_remover_reach v : v_wf v -> forall p, reach (eps_remover v) p -> In p (seq 0 (v_size v)).
Proof.
  intros H. apply reach_seq; [apply H|]. intros p a q K. unfold step in K. cbn [eps_remover w_arcs] in K.
  apply (in_arc_set _ nat_strict), in_flat_map in K as (r & _ & K). apply filter_In in K as [K _].
  now apply (vw_arcs _ H) in K.
Qed.

(** ** Reversing *)
Lemma reverser_step v p a q : v_wf v -> (step (reverser v) p a q <-> v_step v q a p).
Proof.
  intros Hv. unfold step. cbn [reverser w_arcs]. unfold reversed_arcs. rewrite (in_arc_set _ nat_strict), in_flat_map. split.
  - intros (r & _ & K). apply in_map_iff in K as ([b s] & E & K). apply filter_In in K as [K1 K2]. cbn in *.
    apply Nat.eqb_eq in K2. injection E as -> ->. now subst s.
  - intros K. exists q. split.
    + apply in_seq. apply (vw_arcs _ Hv) in K. lia.
    + apply in_map_iff. exists (a, p). split; [reflexivity|]. apply filter_In. split; [exact K|]. cbn. apply Nat.eqb_refl.
Qed.
Lemma reverser_lang v : v_wf v -> same (w_lang (reverser v)) (mirror (v_lang v)).
Proof.
  intros Hv u. unfold mirror. split.
  - intros (p & q & H1 & H2 & H3). cbn in H1, H2. exists q, p. repeat split.
    + now apply (vw_is_start _ Hv).
    + now apply (vw_is_end _ Hv).
    + apply (path_mirror EPS (step (reverser v))); [|assumption]. intros x a y K. now apply (reverser_step v).
  - intros (p & q & H1 & H2 & H3). exists q, p. cbn [reverser w_start w_final]. repeat split.
    + now apply (vw_is_end _ Hv).
    + now apply (vw_is_start _ Hv).
    + rewrite <- (rev_involutive u). apply (path_mirror EPS (v_step v)); [|assumption]. intros x a y K. now apply (reverser_step v).
Qed.
Lemma reverser_reach v : v_wf v -> forall p, reach (reverser v) p -> In p (seq 0 (v_size v)).
Proof.
  intros H. apply reach_seq; [apply H|]. intros p a q K. apply (reverser_step v _ _ _ H) in K.
  now apply (vw_arcs _ H) in K.
Qed.

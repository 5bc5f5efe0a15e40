(** Determinisation, acceptance, and the operations that add epsilon arcs. *)
From Coq Require Import List ZArith Bool Sorted Permutation Lia PeanoNat.
From Verif Require Import M_OrdSet L_OrdSet M_Fsa S_Fsa L_Fsa L_FsaTraverse L_FsaLang.
Import ListNotations.
Local Open Scope nat_scope.

(** ** Determinisation *)
Record map_inv (m : list (symbol * list nat)) (l : list arc) : Prop := {
  mi_sorted : StronglySorted (fun x y => (fst x < fst y)%Z) m;
  mi_set : forall a s, In (a, s) m -> increasing Nat.ltb s /\ s <> [] /\ forall q, In q s <-> In (a, q) l;
  mi_all : forall a q, In (a, q) l -> exists s, In (a, s) m
}.
Lemma map_insert_sym x m a s : In (a, s) (arcs_map_insert x m) -> a = fst x \/ In a (map fst m).
Proof.
  induction m as [|[b t] m IH]; cbn [arcs_map_insert].
  - intros [E|[]]. injection E as <- <-. now left.
  - destruct (Z.ltb_spec (fst x) b).
    + intros [E|K]; [injection E as <- <-; now left|right; now apply (in_map fst) in K].
    + destruct (Z.ltb_spec b (fst x)).
      * intros [E|K]; [injection E as <- <-; right; now left|]. apply IH in K as [K|K]; [now left|right; now right].
      * intros [E|K]; [injection E as <- <-; right; now left|]. right. right. now apply (in_map fst) in K.
Qed.
Lemma map_insert_inv x m l : map_inv m l -> map_inv (arcs_map_insert x m) (l ++ [x]).
Proof.
  intros [H1 H2 H3].
  assert (G : StronglySorted (fun x y => (fst x < fst y)%Z) (arcs_map_insert x m) /\
    (forall a s, In (a, s) (arcs_map_insert x m) ->
       (a <> fst x /\ In (a, s) m) \/
       (a = fst x /\ (exists t, In (a, t) m /\ s = set_insert Nat.ltb (snd x) t \/
                       s = [snd x] /\ ~ In a (map fst m)))) /\
    (forall a, In a (map fst m) -> In a (map fst (arcs_map_insert x m))) /\
    In (fst x) (map fst (arcs_map_insert x m))).
  { clear H2 H3. induction H1 as [|[b t] m Hm IH Hb].
    - cbn. repeat split; [repeat constructor| |intros a []|now left].
      intros a s [E|[]]. injection E as <- <-. right. split; [reflexivity|]. exists []. right. split; auto.
    - rewrite Forall_forall in Hb. cbn [arcs_map_insert]. destruct IH as (I1 & I2 & I3 & I4).
      assert (Hsym : forall a, In a (map fst m) -> (b < a)%Z).
      { intros a Ha. apply in_map_iff in Ha as (y & <- & Hy). now apply Hb in Hy. }
      destruct (Z.ltb_spec (fst x) b) as [L|L]; [|destruct (Z.ltb_spec b (fst x)) as [L'|L']].
      + split; [|split; [|split]].
        * constructor; [constructor; [assumption|now apply Forall_forall]|].
          constructor; [assumption|]. apply Forall_forall. intros y Hy. apply Hb in Hy. cbn in *. lia.
        * intros a s [E|K].
          -- injection E as <- <-. right. split; [reflexivity|]. exists []. right. split; [reflexivity|].
             cbn. intros [K|K]; [lia|]. apply Hsym in K. lia.
          -- left. split; [|assumption]. destruct K as [E|K]; [injection E as <- <-; lia|].
             apply (in_map fst) in K. apply Hsym in K. cbn in K. lia.
        * intros a K. now right.
        * now left.
      + split; [|split; [|split]].
        * constructor; [assumption|]. apply Forall_forall. intros [a s] Hy. cbn.
          apply map_insert_sym in Hy as [-> |Hy]; [assumption|]. now apply Hsym.
        * intros a s [E|K].
          -- injection E as <- <-. left. split; [lia|now left].
          -- apply I2 in K as [[K1 K2]|[K1 (t' & [[K2 K3]|[K2 K3]])]].
             ++ left. split; [assumption|now right].
             ++ right. split; [assumption|]. exists t'. left. split; [now right|assumption].
             ++ right. split; [assumption|]. exists t'. right. split; [assumption|].
                intros [K|K]; [cbn in K; lia|contradiction].
        * intros a [K|K]; [now left|right; now apply I3].
        * right. exact I4.
      + assert (b = fst x) by lia. subst b. split; [|split; [|split]].
        * constructor; [assumption|]. now apply Forall_forall.
        * intros a s [E|K].
          -- injection E as <- <-. right. split; [reflexivity|]. exists t. left. split; [now left|reflexivity].
          -- left. split; [|now right]. apply (in_map fst) in K. apply Hsym in K. cbn in K. lia.
        * intros a K. exact K.
        * now left. }
  destruct G as (G1 & G2 & G3 & G4). constructor.
  - exact G1.
  - intros a s K. apply G2 in K as [[K1 K2]|[-> (t & [[K2 ->]|[-> K2]])]].
    + destruct (H2 a s K2) as (J1 & J2 & J3). split; [assumption|]. split; [assumption|].
      intros q. rewrite J3, in_app_iff. cbn. split; [now left|]. intros [K|[K|[]]]; [assumption|]. subst x. now cbn in K1.
    + destruct (H2 _ _ K2) as (J1 & J2 & J3). split; [now apply (increasing_insert _ nat_strict)|].
      split. { intros E. assert (K : In (snd x) []) by (rewrite <- E; apply (in_set_insert _ nat_strict); now left). destruct K. }
      intros q. rewrite (in_set_insert _ nat_strict), J3, in_app_iff. cbn. split.
      * intros [-> |K]; [right; left; now destruct x|now left].
      * intros [K|[K|[]]]; [now right|]. left. now rewrite K.
    + split; [repeat constructor|]. split; [discriminate|]. intros q. rewrite in_app_iff. cbn. split.
      * intros [<-|[]]. right. left. now destruct x.
      * intros [K|[K|[]]]; [|left; now rewrite K]. exfalso. apply K2. destruct (H3 _ _ K) as [s Hs]. now apply (in_map fst) in Hs.
  - intros a q K. apply in_app_iff in K as [K|[K|[]]].
    + destruct (H3 _ _ K) as [s Hs]. apply (in_map fst) in Hs. apply G3 in Hs. cbn in Hs.
      apply in_map_iff in Hs as ([b t] & E & Hs). cbn in E. subst b. now exists t.
    + subst x. apply in_map_iff in G4 as ([b t] & E & Hs). cbn in E. subst b. now exists t.
Qed.
Lemma arcs_map_inv v ps : map_inv (arcs_map v ps) (flat_map (v_arcs v) ps).
Proof.
  unfold arcs_map.
  enough (G : forall l m l0, map_inv m l0 -> map_inv (fold_left (fun m x => arcs_map_insert x m) l m) (l0 ++ l)).
  { apply (G (flat_map (v_arcs v) ps) [] []). constructor; [constructor|intros a s []|intros a q []]. }
  induction l as [|x l IH]; intros m l0 H; cbn [fold_left]; [now rewrite app_nil_r|].
  replace (l0 ++ x :: l) with ((l0 ++ [x]) ++ l) by now rewrite <- app_assoc. apply IH. now apply map_insert_inv.
Qed.
Lemma det_step v P a Q : step (determinizer v) P a Q <->
  Q <> [] /\ increasing Nat.ltb Q /\ forall q, In q Q <-> exists p, In p P /\ v_step v p a q.
Proof.
  unfold step. cbn [determinizer w_arcs]. rewrite (in_arc_set _ set_ltb_strict).
  destruct (arcs_map_inv v P) as [H1 H2 H3].
  assert (E : forall q, In (a, q) (flat_map (v_arcs v) P) <-> exists p, In p P /\ v_step v p a q).
  { intros q. rewrite in_flat_map. reflexivity. }
  split.
  - intros K. destruct (H2 a Q K) as (J1 & J2 & J3). split; [assumption|]. split; [assumption|]. intros q. now rewrite J3, E.
  - intros (K1 & K2 & K3). destruct Q as [|q Q]; [congruence|].
    destruct (H3 a q) as [s Hs]; [apply E, K3; now left|].
    destruct (H2 a s Hs) as (J1 & J2 & J3).
    assert (s = q :: Q); [|now subst s].
    apply (increasing_unique _ nat_strict); [assumption..|]. intros x. now rewrite J3, E, <- K3.
Qed.
Lemma det_step_unique v P a Q Q' : step (determinizer v) P a Q -> step (determinizer v) P a Q' -> Q = Q'.
Proof.
  rewrite !det_step. intros (_ & H1 & H2) (_ & H3 & H4). apply (increasing_unique _ nat_strict); [assumption..|].
  intros x. now rewrite H2, H4.
Qed.
Lemma det_exists v P a q p : v_wf v -> In p P -> v_step v p a q -> exists Q, step (determinizer v) P a Q /\ In q Q.
Proof.
  intros Hv Hp Hs. destruct (arcs_map_inv v P) as [H1 H2 H3].
  destruct (H3 a q) as [Q HQ]; [apply in_flat_map; now exists p|].
  exists Q. split; [|apply (H2 a Q HQ); apply in_flat_map; now exists p].
  unfold step. cbn [determinizer w_arcs]. now apply (in_arc_set _ set_ltb_strict).
Qed.
Definition free (v : view) : Prop := forall p q, ~ v_step v p EPS q.
Lemma det_free v : free v -> forall P Q, ~ step (determinizer v) P EPS Q.
Proof.
  intros F P Q K. apply det_step in K as (K1 & _ & K2). destruct Q as [|q Q]; [congruence|].
  destruct (proj1 (K2 q)) as (p & _ & Hp); [now left|]. now apply F in Hp.
Qed.
Lemma det_path v : v_wf v -> free v -> forall u P Q, path EPS (step (determinizer v)) P u Q ->
  forall q, In q Q <-> exists p, In p P /\ path EPS (v_step v) p u q.
Proof.
  intros Hv F. induction u as [|a u IH]; intros P Q K q.
  - apply (path_free _ _ (det_free v F)) in K. subst Q. split.
    + intros K. exists q. split; [assumption|constructor].
    + intros (p & K1 & K2). apply (path_free _ _ F) in K2. now subst.
  - assert (Ha : a <> EPS) by (intros ->; apply path_no_eps in K; apply K; now left).
    apply (path_free _ _ (det_free v F)) in K as (R & K1 & K2). rewrite (IH R Q K2 q).
    apply det_step in K1 as (_ & _ & K1). split.
    + intros (r & J1 & J2). apply K1 in J1 as (p & J3 & J4). exists p. split; [assumption|]. now apply (path_cons _ _ p a r).
    + intros (p & J1 & J2). apply (path_free _ _ F) in J2 as (r & J2 & J3). exists r. split; [|assumption]. apply K1. now exists p.
Qed.
Lemma det_path_exists v : v_wf v -> free v -> forall u P p q, In p P -> path EPS (v_step v) p u q ->
  exists Q, path EPS (step (determinizer v)) P u Q /\ In q Q.
Proof.
  intros Hv F. induction u as [|a u IH]; intros P p q Hp K.
  - apply (path_free _ _ F) in K. subst q. exists P. split; [constructor|assumption].
  - assert (Ha : a <> EPS) by (intros ->; apply path_no_eps in K; apply K; now left).
    apply (path_free _ _ F) in K as (r & K1 & K2).
    destruct (det_exists v P a r p Hv Hp K1) as (R & R1 & R2).
    destruct (IH R r q R2 K2) as (Q & Q1 & Q2). exists Q. split; [|assumption]. now apply (path_cons _ _ P a R).
Qed.
(** Paths that read every symbol, epsilon included. *)
Inductive lit {S : Type} (stp : S -> Z -> S -> Prop) : S -> word -> S -> Prop :=
| lit_nil p : lit stp p [] p
| lit_cons p a q r w : stp p a q -> lit stp q w r -> lit stp p (a :: w) r.
Lemma path_lit {S} eps (stp : S -> Z -> S -> Prop) p u q :
  path eps stp p u q <-> exists x, lit stp p x q /\ u = filter (fun a => negb (a =? eps)%Z) x.
Proof.
  split.
  - induction 1 as [p|p q r w K _ (x & I1 & I2)|p a q r w Ha K _ (x & I1 & I2)].
    + exists []. split; [constructor|reflexivity].
    + exists (eps :: x). split; [now apply (lit_cons _ p eps q)|]. cbn. now rewrite Z.eqb_refl.
    + exists (a :: x). split; [now apply (lit_cons _ p a q)|]. cbn. apply Z.eqb_neq in Ha. rewrite Ha. cbn. now f_equal.
  - intros (x & K & ->). induction K as [p|p a q r w K _ IH]; [constructor|]. cbn. destruct (Z.eqb_spec a eps) as [->|Ha]; cbn.
    + now apply (path_eps _ _ p q).
    + now apply (path_cons _ _ p a q).
Qed.
Lemma det_lit v : forall u P Q, lit (step (determinizer v)) P u Q ->
  forall q, In q Q <-> exists p, In p P /\ lit (v_step v) p u q.
Proof.
  induction u as [|a u IH]; intros P Q K q; inversion K as [|? ? R ? ? K1 K2]; subst.
  - split; [intros J; exists q; split; [assumption|constructor]|]. intros (p & J1 & J2). now inversion J2; subst.
  - rewrite (IH R Q K2 q). apply det_step in K1 as (_ & _ & K1). split.
    + intros (r & J1 & J2). apply K1 in J1 as (p & J3 & J4). exists p. split; [assumption|]. now apply (lit_cons _ p a r).
    + intros (p & J1 & J2). inversion J2 as [|? ? r ? ? J3 J4]; subst. exists r. split; [|assumption]. apply K1. now exists p.
Qed.
Lemma det_lit_exists v : v_wf v -> forall u P p q, In p P -> lit (v_step v) p u q ->
  exists Q, lit (step (determinizer v)) P u Q /\ In q Q.
Proof.
  intros Hv. induction u as [|a u IH]; intros P p q Hp K; inversion K as [|? ? r ? ? K1 K2]; subst.
  - exists P. split; [constructor|assumption].
  - destruct (det_exists v P a r p Hv Hp K1) as (R & R1 & R2).
    destruct (IH R r q R2 K2) as (Q & Q1 & Q2). exists Q. split; [|assumption]. now apply (lit_cons _ P a R).
Qed.
Lemma determinizer_lang v : v_wf v -> same (w_lang (determinizer v)) (v_lang v).
Proof.
  intros Hv u. split.
  - intros (P & Q & [<-|[]] & H2 & H3). cbn [determinizer w_final] in H2. apply existsb_exists in H2 as (q & K1 & K2).
    apply path_lit in H3 as (x & H3 & ->).
    apply (det_lit v _ _ _ H3) in K1 as (p & K3 & K4). exists p, q. repeat split; try assumption. apply path_lit. now exists x.
  - intros (p & q & H1 & H2 & H3). apply path_lit in H3 as (x & H3 & ->).
    destruct (det_lit_exists v Hv x (v_starts v) p q H1 H3) as (Q & Q1 & Q2).
    exists (v_starts v), Q. split; [now left|]. split; [|apply path_lit; now exists x]. cbn. apply existsb_exists. now exists q.
Qed.
(** The sets of states: sublists of the list of all states. *)
Fixpoint sublists (l : list nat) : list (list nat) :=
  match l with
  | [] => [[]]
  | x :: l' => map (cons x) (sublists l') ++ sublists l'
  end.
Lemma in_sublists n : forall s P, increasing Nat.ltb P -> (forall x, In x P -> s <= x < s + n) -> In P (sublists (seq s n)).
Proof.
  induction n as [|n IH]; intros s P HP B; cbn [seq sublists].
  - destruct P as [|x P]; [now left|]. specialize (B x (or_introl eq_refl)). lia.
  - apply in_app_iff. destruct P as [|x P].
    + right. apply IH; [constructor|intros x []].
    + inversion HP as [|? ? HP' Hx]; subst. rewrite Forall_forall in Hx.
      pose proof (B x (or_introl eq_refl)) as Bx. destruct (Nat.eq_dec x s) as [->|N].
      * left. apply in_map. apply IH; [assumption|]. intros y Hy. pose proof (B y (or_intror Hy)).
        apply Hx in Hy. apply Nat.ltb_lt in Hy. lia.
      * right. apply IH; [assumption|]. intros y [<-|Hy]; [lia|]. pose proof (B y (or_intror Hy)).
        apply Hx in Hy. apply Nat.ltb_lt in Hy. lia.
Qed.
Lemma det_reach v : v_wf v -> forall P, reach (determinizer v) P -> In P (sublists (seq 0 (v_size v))).
Proof.
  intros Hv P K. apply in_sublists; destruct K as [P [<-|[]]|P a Q _ K].
  - apply Hv.
  - now apply det_step in K.
  - intros x Hx. apply (vw_starts _ Hv) in Hx. lia.
  - intros x Hx. apply det_step in K as (_ & _ & K). apply K in Hx as (p & _ & Hx).
    apply (vw_arcs _ Hv) in Hx. cbn in Hx. lia.
Qed.

(** ** Acceptance *)
Lemma find_arc_spec l a : sorted_arcs l -> forall q, In (a, q) l <-> In q (same_symbol a (find_arc l a) []).
Proof.
  intros Hl.
  assert (S1 : forall k acc q, In q acc -> In q (same_symbol a k acc)).
  { induction k as [|x k IH]; intros acc q Hq; cbn [same_symbol]; [assumption|].
    destruct (fst x =? a)%Z; [|assumption]. apply IH. apply (in_set_insert _ nat_strict). now right. }
  assert (S2 : forall k acc q, In q (same_symbol a k acc) -> In q acc \/ In (a, q) k).
  { induction k as [|x k IH]; intros acc q Hq; cbn [same_symbol] in Hq; [now left|].
    destruct (Z.eqb_spec (fst x) a) as [E|E]; [|now left].
    apply IH in Hq as [Hq|Hq]; [|right; now right]. apply (in_set_insert _ nat_strict) in Hq as [-> |Hq]; [|now left].
    right. left. destruct x. cbn in *. now subst. }
  assert (S3 : forall k acc q, sorted_arcs k -> (forall x, In x k -> (a <= fst x)%Z) -> In (a, q) k -> In q (same_symbol a k acc)).
  { induction k as [|x k IH]; intros acc q Hk Hb Hq; [destruct Hq|]. cbn [same_symbol].
    inversion Hk as [|? ? Hk' Hx]; subst. rewrite Forall_forall in Hx.
    destruct (Z.eqb_spec (fst x) a) as [E|E].
    - destruct Hq as [->|Hq].
      + apply S1. apply (in_set_insert _ nat_strict). now left.
      + apply IH; [assumption| |assumption]. intros y Hy. apply Hb. now right.
    - exfalso. assert (a < fst x)%Z by (specialize (Hb x (or_introl eq_refl)); lia).
      destruct Hq as [->|Hq]; [cbn in *; lia|]. apply Hx in Hq. rewrite arc_le_spec in Hq. cbn in Hq. lia. }
  assert (S4 : exists pre, l = pre ++ lower_bound Nat.ltb (a, 0) l /\ (forall x, In x pre -> (fst x < a)%Z) /\
                forall x, In x (lower_bound Nat.ltb (a, 0) l) -> (a <= fst x)%Z).
  { induction Hl as [|x l Hl IH Hx]; [exists []; cbn; repeat split; intros ? []|].
    cbn [lower_bound]. destruct (arc_ltb Nat.ltb x (a, 0)) eqn:E.
    - destruct IH as (pre & E1 & E2 & E3). exists (x :: pre). split; [cbn; now rewrite <- E1|]. split; [|assumption].
      intros y [<-|Hy]; [|auto]. unfold arc_ltb in E. cbn in E.
      rewrite orb_true_iff, andb_true_iff, Z.ltb_lt in E. destruct E as [E|[_ E]]; [assumption|]. discriminate.
    - exists []. split; [reflexivity|]. split; [intros ? []|]. rewrite Forall_forall in Hx.
      assert (Ex : (a <= fst x)%Z).
      { unfold arc_ltb in E. cbn [fst snd] in E. apply orb_false_iff in E as [E _]. now apply Z.ltb_ge in E. }
      intros y [<-|Hy]; [assumption|]. apply Hx in Hy. rewrite arc_le_spec in Hy. lia. }
  destruct S4 as (pre & E1 & E2 & E3). intros q. unfold find_arc.
  assert (Hs : sorted_arcs (lower_bound Nat.ltb (a, 0) l)).
  { rewrite E1 in Hl. clear -Hl. unfold sorted_arcs in Hl. induction pre as [|x pre IH]; [exact Hl|].
    cbn in Hl. inversion Hl; subst. auto. }
  assert (E4 : In (a, q) l <-> In (a, q) (lower_bound Nat.ltb (a, 0) l)).
  { split; intros K.
    - rewrite E1 in K. apply in_app_iff in K as [K|K]; [|assumption]. apply E2 in K. cbn in K. lia.
    - rewrite E1. apply in_app_iff. now right. }
  rewrite E4. destruct (lower_bound Nat.ltb (a, 0) l) as [|x k] eqn:El; [cbn; tauto|].
  destruct (Z.eqb_spec a (fst x)) as [Ea|Ea].
  - split; [now apply S3|]. intros K. apply S2 in K as [[]|K]. exact K.
  - cbn. split; [|tauto]. intros [->|K]; [now cbn in Ea|]. exfalso.
    inversion Hs as [|? ? _ Hx]; subst. rewrite Forall_forall in Hx. apply Hx in K. rewrite arc_le_spec in K. cbn in K.
    specialize (E3 x (or_introl eq_refl)). lia.
Qed.
Lemma delta_spec f ps a q : wf f -> In q (delta f ps a) <-> exists p, In p ps /\ f_step f p a q.
Proof.
  intros Hwf. unfold delta.
  assert (Hd : forall p, In q (delta_prime f p a) <-> f_step f p a q).
  { intros p. unfold delta_prime. destruct (Nat.ltb_spec (n_size f) p) as [L|L].
    - unfold f_step. rewrite n_arcs_out by lia. cbn. tauto.
    - symmetry. apply find_arc_spec. apply Hwf. }
  enough (G : forall s, In q (fold_left (fun s p => insert_all Nat.ltb (delta_prime f p a) s) ps s) <->
    In q s \/ exists p, In p ps /\ f_step f p a q).
  { rewrite G. cbn. intuition. }
  induction ps as [|p ps IH]; intros s; cbn [fold_left].
  - split; [now left|]. intros [K|(p & [] & _)]. exact K.
  - rewrite IH, (in_insert_all _ nat_strict), Hd. split.
    + intros [[K|K]|(r & K1 & K2)]; [right; exists p; split; [now left|assumption]|now left|right; exists r; split; [now right|assumption]].
    + intros [K|(r & [->|K1] & K2)]; [left; now right|left; now left|right; now exists r].
Qed.
Definition nd_free (f : ndfsa) : Prop := forall p q, ~ f_step f p EPS q.
Lemma in_from_spec f : wf f -> nd_free f -> forall u ps, in_from f ps u = true <->
  exists p q, In p ps /\ In q (n_ends f) /\ path EPS (f_step f) p u q.
Proof.
  intros Hwf F. induction u as [|a u IH]; intros ps; cbn [in_from].
  - rewrite existsb_exists. split.
    + intros (p & K1 & K2). apply (set_count_in _ nat_strict) in K2. exists p, p. repeat split; try assumption. constructor.
    + intros (p & q & K1 & K2 & K3). apply (path_free _ _ F) in K3. subst q. exists p. split; [assumption|]. now apply (set_count_in _ nat_strict).
  - assert (Ed : in_from f (delta f ps a) u = true <-> match delta f ps a with [] => false | qs => in_from f qs u end = true).
    { destruct (delta f ps a); [|reflexivity]. rewrite IH. split; [intros (p & q & [] & _)|discriminate]. }
    assert (Em : match delta f ps a with [] => false | n :: l => in_from f (n :: l) u end =
                 match delta f ps a with [] => false | qs => in_from f qs u end) by reflexivity.
    rewrite <- Ed, IH. split.
    + intros (r & q & K1 & K2 & K3). apply (delta_spec f ps a r Hwf) in K1 as (p & K1 & K4).
      exists p, q. split; [assumption|]. split; [assumption|]. apply (path_cons _ _ p a r); [|assumption..].
      intros ->. now apply F in K4.
    + intros (p & q & K1 & K2 & K3). apply (path_free _ _ F) in K3 as (r & K3 & K4). exists r, q.
      split; [apply delta_spec; [assumption|now exists p]|]. now split.
Qed.
Lemma in_spec f u : wf f -> nd_free f -> (in_ f u = true <-> nd_lang f u).
Proof. intros H F. unfold in_. rewrite (in_from_spec f H F). reflexivity. Qed.

(** ** Adding epsilon arcs *)
Lemma fold_add_arcs (g : nat -> nat * arc) : forall l f, wf f -> (forall q, In q l -> fst (g q) < n_size f /\ snd (snd (g q)) < n_size f) ->
  let h := fold_left (fun f q => add_arc (fst (g q)) (snd (g q)) f) l f in
  wf h /\ n_size h = n_size f /\ n_starts h = n_starts f /\ n_ends h = n_ends f /\
  forall p x, In x (n_arcs h p) <-> In x (n_arcs f p) \/ exists q, In q l /\ g q = (p, x).
Proof.
  induction l as [|q l IH]; intros f Hwf B; cbn [fold_left].
  - cbn. repeat split; try assumption; try reflexivity; try apply Hwf. + now left. + intros [K|(q & [] & _)]. exact K.
  - destruct (B q (or_introl eq_refl)) as [B1 B2].
    destruct (IH (add_arc (fst (g q)) (snd (g q)) f)) as (H1 & H2 & H3 & H4 & H5).
    + now apply add_arc_wf.
    + intros r Hr. rewrite add_arc_size. apply B. now right.
    + cbv zeta. rewrite add_arc_size in H2. do 4 (split; [assumption|]).
      intros p x. rewrite H5, add_arc_in by assumption. split.
      * intros [[K|[-> ->]]|(r & K1 & K2)]; [now left|right; exists q; split; [now left|now destruct (g q)]|right; exists r; split; [now right|assumption]].
      * intros [K|(r & [->|K1] & K2)]; [left; now left|left; right; now rewrite K2|right; now exists r].
Qed.
Lemma kleene_plus_spec f : wf f ->
  let h := kleene_plus f in
  wf h /\ n_size h = n_size f /\ n_starts h = n_starts f /\ n_ends h = n_ends f /\
  forall p a q, f_step h p a q <-> f_step f p a q \/ a = EPS /\ In p (n_ends f) /\ In q (n_starts f).
Proof.
  intros Hwf. unfold kleene_plus.
  enough (G : forall l f0, wf f0 -> n_size f0 = n_size f -> n_starts f0 = n_starts f -> n_ends f0 = n_ends f -> incl l (n_ends f) ->
    let h := fold_left (fun f p => fold_left (fun f q => add_arc p (EPS, q) f) (n_starts f) f) l f0 in
    wf h /\ n_size h = n_size f /\ n_starts h = n_starts f /\ n_ends h = n_ends f /\
    forall p a q, f_step h p a q <-> f_step f0 p a q \/ a = EPS /\ In p l /\ In q (n_starts f)).
  { exact (G (n_ends f) f Hwf eq_refl eq_refl eq_refl (incl_refl _)). }
  induction l as [|p l IH]; intros f0 W0 E1 E2 E3 I; cbn [fold_left].
  - cbn. do 4 (split; [assumption|]). intros x a y. tauto.
  - destruct (fold_add_arcs (fun q => (p, (EPS, q))) (n_starts f0) f0) as (H1 & H2 & H3 & H4 & H5); [assumption| |].
    + intros q Hq. cbn. split; [rewrite E1; apply (wf_ends _ Hwf), I; now left|now apply (wf_starts _ W0)].
    + cbn [fst snd] in *. set (f1 := fold_left _ (n_starts f0) f0) in *.
      destruct (IH f1) as (G1 & G2 & G3 & G4 & G5); [assumption|congruence|congruence|congruence|intros x Hx; apply I; now right|].
      cbv zeta. do 4 (split; [assumption|]). intros x a y. rewrite G5. unfold f_step at 1. rewrite H5. cbn [In]. rewrite E2.
      split.
      * intros [[K|(q & K1 & K2)]|(K1 & K2 & K3)]; [now left| |right; auto].
        injection K2 as <- <- <-. right. auto.
      * intros [K|(K1 & [K2|K2] & K3)]; [left; now left| |right; auto]. subst. left. right. now exists y.
Qed.
Lemma kleene_plus_lang f : wf f -> same (nd_lang (kleene_plus f)) (closure (nd_lang f)).
Proof.
  intros Hwf. destruct (kleene_plus_spec f Hwf) as (_ & _ & Es & Ee & Hs). set (h := kleene_plus f) in *. clearbody h.
  assert (M : forall p u q, path EPS (f_step f) p u q -> path EPS (f_step h) p u q).
  { apply path_mono. intros p a q K. apply Hs. now left. }
  assert (G : forall p u q, path EPS (f_step h) p u q -> In q (n_ends f) ->
    exists x e, In e (n_ends f) /\ path EPS (f_step f) p x e /\
      (u = x \/ exists y, u = x ++ y /\ closure (nd_lang f) y)).
  { induction 1 as [p|p q r u K _ IH|p a q r u Ha K _ IH]; intros Hr.
    - exists [], p. split; [assumption|]. split; [constructor|now left].
    - destruct (IH Hr) as (x & e & J1 & J2 & J3). apply Hs in K as [K|(_ & K1 & K2)].
      + exists x, e. split; [assumption|]. split; [now apply (path_eps _ _ p q)|assumption].
      + exists [], p. split; [assumption|]. split; [constructor|]. right. exists u. split; [reflexivity|].
        assert (L : nd_lang f x) by now exists q, e.
        destruct J3 as [->|(y & -> & J3)]; [now constructor|now apply closure_more].
    - destruct (IH Hr) as (x & e & J1 & J2 & J3). apply Hs in K as [K|(K & _)]; [|congruence].
      exists (a :: x), e. split; [assumption|]. split; [now apply (path_cons _ _ p a q)|].
      destruct J3 as [->|(y & -> & J3)]; [now left|right; now exists y]. }
  intros u. split.
  - intros (p & q & H1 & H2 & H3). rewrite Es in H1. rewrite Ee in H2.
    destruct (G p u q H3 H2) as (x & e & J1 & J2 & J3). assert (L : nd_lang f x) by now exists p, e.
    destruct J3 as [->|(y & -> & J3)]; [now constructor|now apply closure_more].
  - induction 1 as [u (p & q & H1 & H2 & H3)|u v (p & q & H1 & H2 & H3) _ (p' & q' & H1' & H2' & H3')].
    + exists p, q. rewrite Es, Ee. auto.
    + exists p, q'. rewrite Es. split; [assumption|]. split; [assumption|].
      apply (path_app _ _ p u q); [now apply M|]. apply (path_eps _ _ q p'); [|assumption].
      apply Hs. right. rewrite Es in H1'. auto.
Qed.

Lemma kleene_option_spec f : wf f ->
  let h := kleene_option f in
  wf h /\ n_starts h = [n_size f] /\ n_ends h = [S (n_size f)] /\
  forall p a q, f_step h p a q <-> f_step f p a q \/
    a = EPS /\ (p = n_size f /\ In q (n_starts f) \/ In p (n_ends f) /\ q = S (n_size f)).
Proof.
  intros Hwf. unfold kleene_option.
  set (ns := n_size f). set (f1 := snd (add_state false f)).
  change (add_state false f) with (ns, f1). cbn [fst snd].
  assert (W1 : wf f1) by now apply add_state_wf.
  assert (S1 : n_size f1 = S ns) by apply add_state_size.
  assert (W2 : wf (set_start ns f1)) by (apply set_start_wf; [assumption|lia]).
  set (f2 := set_start ns f1) in *.
  assert (S2 : n_size f2 = S ns) by exact S1.
  set (f3 := snd (add_state false f2)). replace (add_state false f2) with (S ns, f3) by (rewrite <- S2; reflexivity).
  cbn [fst snd].
  assert (W3 : wf f3) by now apply add_state_wf.
  assert (S3 : n_size f3 = S (S ns)) by (unfold f3; now rewrite add_state_size, S2).
  assert (W4 : wf (set_end (S ns) f3)) by (apply set_end_wf; [assumption|lia]).
  set (f4 := set_end (S ns) f3) in *.
  assert (S4 : n_size f4 = S (S ns)) by exact S3.
  assert (A4 : forall p, n_arcs f4 p = n_arcs f p).
  { intros p. unfold f4. change (n_arcs (set_end (S ns) f3) p) with (n_arcs f3 p). unfold f3. rewrite add_state_arcs.
    change (n_arcs f2 p) with (n_arcs f1 p). apply add_state_arcs. }
  assert (T4 : forall p, In p (n_starts f4) <-> In p (n_starts f) \/ p = ns).
  { intros p. change (n_starts f4) with (n_starts f2). unfold f2. rewrite set_start_in. reflexivity. }
  assert (E4 : forall p, In p (n_ends f4) <-> In p (n_ends f) \/ p = S ns).
  { intros p. unfold f4. rewrite set_end_in. reflexivity. }
  clearbody f4. clear f1 W1 S1 f2 W2 S2 f3 W3 S3.
  (* the start states *)
  assert (G1 : forall l g, wf g -> n_size g = S (S ns) -> incl l (n_starts f) ->
    let h := fold_left (fun f p => add_arc ns (EPS, p) (unset_start p f)) l g in
    wf h /\ n_size h = S (S ns) /\ n_ends h = n_ends g /\
    (forall p, In p (n_starts h) <-> In p (n_starts g) /\ ~ In p l) /\
    forall p x, In x (n_arcs h p) <-> In x (n_arcs g p) \/ p = ns /\ exists q, In q l /\ x = (EPS, q)).
  { induction l as [|s l IH]; intros g Wg Sg I; cbn [fold_left].
    - cbn. do 3 (split; [assumption || reflexivity|]). split; [tauto|]. intros p x. split; [tauto|].
      intros [K|(_ & q & [] & _)]. exact K.
    - assert (Ls : s < ns) by (apply (wf_starts _ Hwf), I; now left).
      destruct (IH (add_arc ns (EPS, s) (unset_start s g))) as (H1 & H2 & H3 & H4 & H5).
      + apply add_arc_wf; [now apply unset_start_wf|]. change (n_size (unset_start s g)) with (n_size g). cbn. lia.
      + rewrite add_arc_size. exact Sg.
      + intros x Hx. apply I. now right.
      + cbv zeta. split; [assumption|]. split; [assumption|]. split; [exact H3|]. split.
        * intros p. rewrite H4. change (n_starts (add_arc ns (EPS, s) (unset_start s g))) with (n_starts (unset_start s g)).
          rewrite unset_start_in. cbn [In]. intuition.
        * intros p x. rewrite H5, add_arc_in by (change (n_size (unset_start s g)) with (n_size g); lia).
          change (n_arcs (unset_start s g) p) with (n_arcs g p). split.
          -- intros [[K|[-> ->]]|(K1 & q & K2 & K3)]; [now left|right|right].
             ++ split; [reflexivity|]. exists s. split; [now left|reflexivity].
             ++ split; [assumption|]. exists q. split; [now right|assumption].
          -- intros [K|(-> & q & [<-|K2] & ->)]; [left; now left|left; now right|right].
             split; [reflexivity|]. now exists q. }
  (* the end states *)
  assert (G2 : forall l g, wf g -> n_size g = S (S ns) -> incl l (n_ends f) ->
    let h := fold_left (fun f p => add_arc p (EPS, S ns) (unset_end p f)) l g in
    wf h /\ n_size h = S (S ns) /\ n_starts h = n_starts g /\
    (forall p, In p (n_ends h) <-> In p (n_ends g) /\ ~ In p l) /\
    forall p x, In x (n_arcs h p) <-> In x (n_arcs g p) \/ In p l /\ x = (EPS, S ns)).
  { induction l as [|s l IH]; intros g Wg Sg I; cbn [fold_left].
    - cbn. do 3 (split; [assumption || reflexivity|]). split; intros; tauto.
    - assert (Ls : s < ns) by (apply (wf_ends _ Hwf), I; now left).
      destruct (IH (add_arc s (EPS, S ns) (unset_end s g))) as (H1 & H2 & H3 & H4 & H5).
      + apply add_arc_wf; [now apply unset_end_wf|]. change (n_size (unset_end s g)) with (n_size g). cbn. lia.
      + rewrite add_arc_size. exact Sg.
      + intros x Hx. apply I. now right.
      + cbv zeta. split; [assumption|]. split; [assumption|]. split; [exact H3|]. split.
        * intros p. rewrite H4. change (n_ends (add_arc s (EPS, S ns) (unset_end s g))) with (n_ends (unset_end s g)).
          rewrite unset_end_in. cbn [In]. intuition.
        * intros p x. rewrite H5, add_arc_in by (change (n_size (unset_end s g)) with (n_size g); lia).
          change (n_arcs (unset_end s g) p) with (n_arcs g p). cbn [In]. intuition. }
  destruct (G1 (n_starts f) f4 W4 S4 (incl_refl _)) as (H1 & H2 & H3 & H4 & H5).
  set (f5 := fold_left _ (n_starts f) f4) in *.
  destruct (G2 (n_ends f) f5 H1 H2 (incl_refl _)) as (J1 & J2 & J3 & J4 & J5).
  set (f6 := fold_left _ (n_ends f) f5) in *. cbv zeta. split; [assumption|]. split; [|split].
  - apply (increasing_unique _ nat_strict); [apply J1|repeat constructor|].
    intros p. rewrite J3, H4, T4. cbn. split.
    + intros [[K|K] N]; [contradiction|]. left. congruence.
    + intros [<-|[]]. split; [now right|]. intros K. apply (wf_starts _ Hwf) in K. unfold ns in K. lia.
  - apply (increasing_unique _ nat_strict); [apply J1|repeat constructor|].
    intros p. rewrite J4, H3, E4. cbn. split.
    + intros [[K|K] N]; [contradiction|]. left. congruence.
    + intros [<-|[]]. split; [now right|]. intros K. apply (wf_ends _ Hwf) in K. unfold ns in K. lia.
  - intros p a q. unfold f_step. rewrite J5, H5, A4. split.
    + intros [[K|(K1 & r & K2 & K3)]|[K1 K2]]; [now left| |].
      * injection K3 as -> ->. right. auto.
      * injection K2 as -> ->. right. auto.
    + intros [K|[-> [[-> K]|[K ->]]]]; [left; now left|left; right|now right]. split; [reflexivity|]. now exists q.
Qed.
Lemma kleene_option_lang f : wf f -> same (nd_lang (kleene_option f)) (nd_lang f).
Proof.
  intros Hwf. destruct (kleene_option_spec f Hwf) as (_ & Es & Ee & Hs). set (h := kleene_option f) in *. clearbody h.
  set (ns := n_size f) in *.
  assert (M : forall p u q, path EPS (f_step f) p u q -> path EPS (f_step h) p u q).
  { apply path_mono. intros p a q K. apply Hs. now left. }
  assert (G0 : forall u q, path EPS (f_step h) (S ns) u q -> u = [] /\ q = S ns).
  { intros u q K. remember (S ns) as p eqn:E. destruct K as [p|p q r u K _|p a q r u Ha K _]; subst p; [auto|..];
      apply Hs in K as [K|(_ & [[K _]|[K _]])]; try lia;
      try (apply (f_step_wf f _ _ _ Hwf) in K; fold ns in K; lia); apply (wf_ends _ Hwf) in K; fold ns in K; lia. }
  assert (G : forall p u q, path EPS (f_step h) p u q -> p < ns -> q = S ns ->
    exists e, In e (n_ends f) /\ path EPS (f_step f) p u e).
  { induction 1 as [p|p q r u K Kp IH|p a q r u Ha K _ IH]; intros Lp Eq.
    - lia.
    - apply Hs in K as [K|(_ & [[K _]|[K1 K2]])]; [|lia|].
      + destruct IH as (e & J1 & J2); [now apply (f_step_wf f _ _ _ Hwf) in K|assumption|].
        exists e. split; [assumption|]. now apply (path_eps _ _ p q).
      + subst q. apply G0 in Kp as [-> _]. exists p. split; [assumption|constructor].
    - apply Hs in K as [K|(K & _)]; [|congruence].
      destruct IH as (e & J1 & J2); [now apply (f_step_wf f _ _ _ Hwf) in K|assumption|].
      exists e. split; [assumption|]. now apply (path_cons _ _ p a q). }
  intros u. split.
  - intros (p & q & H1 & H2 & H3). rewrite Es in H1. rewrite Ee in H2. destruct H1 as [<-|[]], H2 as [<-|[]].
    inversion H3 as [p E1 E2 E3|p q r v K Kp E1 E2 E3|p c q r v Ha K Kp E1 E2 E3]; subst.
    + exfalso. lia.
    + apply Hs in K as [K|(_ & [[_ K]|[K _]])].
      * exfalso. apply (f_step_wf f _ _ _ Hwf) in K. fold ns in K. lia.
      * destruct (G q u (S ns) Kp) as (e & J1 & J2); [now apply (wf_starts _ Hwf)|reflexivity|]. now exists q, e.
      * exfalso. apply (wf_ends _ Hwf) in K. fold ns in K. lia.
    + exfalso. apply Hs in K as [K|(K & _)]; [|congruence]. apply (f_step_wf f _ _ _ Hwf) in K. fold ns in K. lia.
  - intros (p & q & H1 & H2 & H3). exists ns, (S ns). rewrite Es, Ee. split; [now left|]. split; [now left|].
    apply (path_eps _ _ ns p); [apply Hs; right; auto|].
    rewrite <- (app_nil_r u). apply (path_app _ _ p u q); [now apply M|].
    apply (path_eps _ _ q (S ns)); [apply Hs; right; auto|constructor].
Qed.

(** ** Concatenation *)
Lemma join_ends_spec f S1 S2 E1 : wf f -> (forall q, In q S2 -> q < n_size f) -> (forall p, In p E1 -> p < n_size f) ->
  let h := join_ends S1 S2 E1 f in
  wf h /\ n_size h = n_size f /\
  (forall q, In q (n_starts h) <-> In q (n_starts f) /\ (E1 = [] \/ ~ In q S2 \/ In q S1)) /\
  (forall q, In q (n_ends h) <-> In q (n_ends f) /\ ~ In q E1) /\
  forall p a q, f_step h p a q <-> f_step f p a q \/ a = EPS /\ In p E1 /\ In q S2 /\ ~ In q S1.
Proof.
  intros Hwf B2 B1. unfold join_ends.
  assert (I : forall p l g, p < n_size g -> wf g -> (forall q, In q l -> q < n_size g) ->
    let h := fold_left (fun f q => if set_count Nat.ltb q S1 then f else unset_start q (add_arc p (EPS, q) f)) l g in
    wf h /\ n_size h = n_size g /\ n_ends h = n_ends g /\
    (forall q, In q (n_starts h) <-> In q (n_starts g) /\ (~ In q l \/ In q S1)) /\
    forall x a q, f_step h x a q <-> f_step g x a q \/ a = EPS /\ x = p /\ In q l /\ ~ In q S1).
  { intros p. induction l as [|s l IH]; intros g Lp Wg B; cbn [fold_left].
    - cbn. do 3 (split; [assumption || reflexivity|]). split; intros; tauto.
    - destruct (set_count Nat.ltb s S1) eqn:C.
      + apply (set_count_in _ nat_strict) in C. destruct (IH g Lp Wg) as (H1 & H2 & H3 & H4 & H5); [intros q Hq; apply B; now right|].
        cbv zeta. do 3 (split; [assumption|]). split.
        * intros q. rewrite H4. cbn [In]. split; [|tauto]. intros [K1 [K2|K2]]; [|tauto]. split; [assumption|].
          destruct (Nat.eq_dec q s) as [->|N]; [now right|left]. intros [K|K]; congruence.
        * intros x a q. rewrite H5. cbn [In]. split; [tauto|]. intros [K|(K1 & K2 & [K3|K3] & K4)]; [tauto| |tauto]. congruence.
      + assert (C' : ~ In s S1) by (intros K; apply (set_count_in _ nat_strict) in K; congruence).
        destruct (IH (unset_start s (add_arc p (EPS, s) g))) as (H1 & H2 & H3 & H4 & H5).
        * change (n_size (unset_start s (add_arc p (EPS, s) g))) with (n_size (add_arc p (EPS, s) g)). now rewrite add_arc_size.
        * apply unset_start_wf, add_arc_wf; [assumption|]. apply B. now left.
        * intros q Hq. change (n_size (unset_start s (add_arc p (EPS, s) g))) with (n_size (add_arc p (EPS, s) g)).
          rewrite add_arc_size. apply B. now right.
        * change (n_size (unset_start s (add_arc p (EPS, s) g))) with (n_size (add_arc p (EPS, s) g)) in H2. rewrite add_arc_size in H2.
          cbv zeta. do 3 (split; [assumption|]). split.
          -- intros q. rewrite H4, unset_start_in. change (n_starts (add_arc p (EPS, s) g)) with (n_starts g). cbn [In].
             split; [intros [[K1 K2] [K3|K3]]; intuition|]. intros [K1 [K2|K2]]; [intuition|].
             split; [|now right]. split; [assumption|]. intros ->. contradiction.
          -- intros x a q. rewrite H5. unfold f_step. change (n_arcs (unset_start s (add_arc p (EPS, s) g)) x) with (n_arcs (add_arc p (EPS, s) g) x).
             rewrite add_arc_in by assumption. cbn [In]. split.
             ++ intros [[K|[-> K]]|K]; [now left| |right; tauto]. injection K as -> ->. right. tauto.
             ++ intros [K|(-> & -> & [<-|K] & K')]; [left; now left|left; now right|right; tauto]. }
  enough (G : forall l g, wf g -> n_size g = n_size f -> (forall p, In p l -> p < n_size f) ->
    let h := fold_left (fun f p => unset_end p (fold_left (fun f q => if set_count Nat.ltb q S1 then f
                                       else unset_start q (add_arc p (EPS, q) f)) S2 f)) l g in
    wf h /\ n_size h = n_size f /\
    (forall q, In q (n_starts h) <-> In q (n_starts g) /\ (l = [] \/ ~ In q S2 \/ In q S1)) /\
    (forall q, In q (n_ends h) <-> In q (n_ends g) /\ ~ In q l) /\
    forall p a q, f_step h p a q <-> f_step g p a q \/ a = EPS /\ In p l /\ In q S2 /\ ~ In q S1).
  { exact (G E1 f Hwf eq_refl B1). }
  induction l as [|p l IH]; intros g Wg Sg B; cbn [fold_left].
  - cbn. do 2 (split; [assumption|]). split; [|split]; intros; tauto.
  - destruct (I p S2 g) as (H1 & H2 & H3 & H4 & H5); [rewrite Sg; apply B; now left|assumption|rewrite Sg; assumption|].
    set (g1 := fold_left _ S2 g) in *.
    destruct (IH (unset_end p g1)) as (J1 & J2 & J3 & J4 & J5).
    + now apply unset_end_wf.
    + change (n_size (unset_end p g1)) with (n_size g1). congruence.
    + intros q Hq. apply B. now right.
    + cbv zeta. do 2 (split; [assumption|]). split; [|split].
      * intros q. rewrite J3. change (n_starts (unset_end p g1)) with (n_starts g1). rewrite H4. split.
        -- intros [[K1 K2] _]. split; [assumption|now right].
        -- intros [K1 [K2|K2]]; [discriminate|]. tauto.
      * intros q. rewrite J4, unset_end_in, H3. cbn [In]. intuition.
      * intros x a q. rewrite J5. unfold f_step. change (n_arcs (unset_end p g1) x) with (n_arcs g1 x).
        fold (f_step g1 x a q). rewrite H5. cbn [In]. unfold f_step. split.
        -- intros [[K|(-> & -> & K)]|(-> & K1 & K2)]; [now left|right; tauto|right; tauto].
        -- intros [K|(-> & [<-|K1] & K2)]; [left; now left|left; right; tauto|right; tauto].
Qed.
Lemma concatenate_lang fuel dst src f : wf dst -> v_wf src -> concatenate fuel dst src = Some f ->
  wf f /\ same (nd_lang f) (match n_ends dst with [] => v_lang src | _ => concat (nd_lang dst) (v_lang src) end).
Proof.
  intros Hwf Hv. unfold concatenate. destruct (traverse (copier src) fuel dst) as [g|] eqn:E; [|discriminate].
  cbn [bind]. intros K. injection K as <-.
  assert (Hnd : NoDup (w_start (copier src))) by (apply (increasing_nodup _ nat_strict), Hv).
  destruct (traverse_spec (copier src) nat_strict dst fuel g Hwf Hnd E) as [m B].
  assert (Wg : wf g) by apply (b_wf _ _ _ _ B).
  assert (Sg : n_size dst <= n_size g) by (destruct (b_num _ _ _ _ B) as (_ & K & _); lia).
  destruct (join_ends_spec g (n_starts dst) (n_starts g) (n_ends dst)) as (H1 & H2 & H3 & H4 & H5);
    [assumption|apply Wg|intros p Hp; apply (wf_ends _ Hwf) in Hp; lia|].
  set (h := join_ends _ _ _ g) in *. split; [assumption|].
  assert (Ns : forall p, (In p (n_starts g) /\ ~ In p (n_starts dst)) <-> exists s, In (s, p) m /\ In s (v_starts src)).
  { intros p. rewrite (b_starts _ _ _ _ B). split; [intros [[K|K] N]; [contradiction|exact K]|].
    intros (s & K1 & K2). split; [right; now exists s|]. intros C. apply (wf_starts _ Hwf) in C.
    exact (old_not_new _ _ _ _ B s p C K1). }
  assert (Ne : forall p, In p (n_ends h) <-> exists s, In (s, p) m /\ v_is_end src s = true).
  { intros p. rewrite H4, (b_ends _ _ _ _ B). split; [intros [[K|K] N]; [contradiction|exact K]|].
    intros (s & K1 & K2). split; [right; now exists s|]. intros C. apply (wf_ends _ Hwf) in C.
    exact (old_not_new _ _ _ _ B s p C K1). }
  assert (New : forall s n u q, In (s, n) m -> (path EPS (f_step h) n u q <-> path EPS (f_step g) n u q)).
  { intros s n u q Hs. split; intros K.
    - revert s Hs. induction K as [p|p q r u K _ IH|p a q r u Ha K _ IH]; intros s Hs; [constructor|..];
        apply H5 in K as [K|(_ & K & _)]; try (exfalso; apply (wf_ends _ Hwf) in K; exact (old_not_new _ _ _ _ B s p K Hs));
        destruct (proj2 (beside_arcs _ _ _ _ B s p Hs) _ _ K) as (t & Ht & _).
      + apply (path_eps _ _ p q); [assumption|]. now apply (IH t).
      + apply (path_cons _ _ p a q); [assumption..|]. now apply (IH t).
    - revert K. apply path_mono. intros x a y K. apply H5. now left. }
  assert (L2 : forall u, (exists n q, In q (n_ends h) /\ (exists s, In (s, n) m /\ In s (v_starts src)) /\ path EPS (f_step h) n u q)
                 <-> v_lang src u).
  { intros u. rewrite <- (copier_lang src u). split.
    - intros (n & q & K1 & (s & K2 & K3) & K4). apply (New s n u q K2) in K4. apply Ne in K1 as (t & K5 & K6).
      exists s, t. split; [assumption|]. split; [assumption|]. now apply (beside_new _ _ _ _ B s n u t q).
    - intros (s & t & K1 & K2 & K3). assert (Rs : reach (copier src) s) by now apply reach_start.
      destruct (in_dom _ _ _ _ B s Rs) as [n Hn].
      destruct (in_dom _ _ _ _ B t (reach_path _ _ _ _ Rs K3)) as [k Hk]. exists n, k.
      split; [apply Ne; now exists t|]. split; [now exists s|].
      apply (New s n u k Hn). now apply (beside_new _ _ _ _ B s n u t k). }
  destruct (n_ends dst) as [|e0 E1'] eqn:Ed.
  - (* no end states: the start states stay *)
    intros u. rewrite <- (L2 u). split.
    + intros (p & q & K1 & K2 & K3). exists p, q. split; [assumption|]. split; [|assumption].
      apply H3 in K1 as [K1 _]. apply Ns. split; [assumption|]. intros C.
      assert (Lq : q < n_size dst).
      { pose proof (wf_starts _ Hwf _ C) as Lp. clear -K3 Lp H5 B Hwf. induction K3 as [p|p q r u K _ IH|p a q r u Ha K _ IH]; [assumption|..];
          apply H5 in K as [K|(_ & [] & _)]; apply (beside_old_step _ _ _ _ B _ _ _ Lp) in K;
          apply IH; now apply (f_step_wf _ _ _ _ Hwf) in K. }
      apply Ne in K2 as (t & K2 & _). exact (old_not_new _ _ _ _ B t q Lq K2).
    + intros (n & q & K1 & K2 & K3). exists n, q. split; [|now split]. apply H3. apply Ns in K2 as [K2 _]. split; [assumption|now left].
  - rewrite <- Ed in *. assert (Nn : n_ends dst <> []) by congruence. clear Ed.
    assert (G : forall p u q, path EPS (f_step h) p u q -> p < n_size dst -> In q (n_ends h) ->
      exists x y e, u = x ++ y /\ In e (n_ends dst) /\ path EPS (f_step dst) p x e /\ v_lang src y).
    { induction 1 as [p|p q r u K Kp IH|p a q r u Ha K _ IH]; intros Lp Hq.
      - exfalso. apply Ne in Hq as (t & Hq & _). exact (old_not_new _ _ _ _ B t p Lp Hq).
      - apply H5 in K as [K|(_ & K1 & K2 & K3)].
        + apply (beside_old_step _ _ _ _ B _ _ _ Lp) in K.
          destruct IH as (x & y & e & J1 & J2 & J3 & J4); [now apply (f_step_wf _ _ _ _ Hwf) in K|assumption|].
          exists x, y, e. split; [assumption|]. split; [assumption|]. split; [|assumption]. now apply (path_eps _ _ p q).
        + exists [], u, p. split; [reflexivity|]. split; [assumption|]. split; [constructor|].
          apply L2. exists q, r. split; [assumption|]. split; [|assumption]. now apply Ns.
      - apply H5 in K as [K|(K & _)]; [|congruence]. apply (beside_old_step _ _ _ _ B _ _ _ Lp) in K.
        destruct IH as (x & y & e & J1 & J2 & J3 & J4); [now apply (f_step_wf _ _ _ _ Hwf) in K|assumption|].
        exists (a :: x), y, e. split; [cbn; now rewrite J1|]. split; [assumption|]. split; [|assumption]. now apply (path_cons _ _ p a q). }
    intros u. split.
    + intros (p & q & K1 & K2 & K3). apply H3 in K1 as [K1 [K|K]]; [contradiction|].
      assert (K' : In p (n_starts dst)) by (destruct K; [contradiction|assumption]).
      destruct (G p u q K3 (wf_starts _ Hwf _ K') K2) as (x & y & e & J1 & J2 & J3 & J4).
      exists x, y. split; [assumption|]. split; [now exists p, e|assumption].
    + intros (x & y & -> & (p & e & K1 & K2 & K3) & K4). apply L2 in K4 as (n & q & J1 & J2 & J3).
      exists p, q. split.
      * apply H3. split; [apply (b_starts _ _ _ _ B); now left|]. right. now right.
      * split; [assumption|]. apply (path_app _ _ p x e).
        -- apply (path_mono _ (f_step g)); [intros; apply H5; now left|].
           apply (beside_old _ _ _ _ Hwf B); [now apply (wf_starts _ Hwf)|assumption].
        -- apply (path_eps _ _ e n); [|assumption]. apply H5. right. apply Ns in J2. tauto.
Qed.

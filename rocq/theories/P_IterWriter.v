(** C43: what the iterating writer puts out. *)
From Coq Require Import ZArith List Bool Lia Sorted.
From Verif Require Import M_OrdSet L_OrdSet M_Lattice M_Tags P_Tags P_Cutter L_Lattice S_Lattice L_LatticeOps L_LatticeTidy.
From Verif Require Import P_Lattice M_LatticeWalk L_LatticeNodes P_LatticeWalk P_LatticeVertices M_IterWriter.
Import ListNotations.
Local Open Scope nat_scope.

(** * Specification *)
(** Texts of calls in which alternatives are opened and closed in pairs, elements are put
    only into them, groups are not opened or closed inside, with the list of alternatives. *)
Inductive written : list (list item) -> list event -> Prop :=
  | W_nil : written [] []
  | W_open t a r : written a r -> written a (OpenGroup t :: r)
  | W_close t a r : written a r -> written a (CloseGroup t :: r)
  | W_alt is a r : is <> [] -> written a r -> written (is :: a) (OpenAlternative :: map PutElement is ++ CloseAlternative :: r).
(** The openings (true) and closings (false) of the groups of a tag. *)
Definition group (t : str) (es : list event) : list bool :=
  flat_map (fun e => match e with
                     | OpenGroup x => if str_eqb t x then [true] else []
                     | CloseGroup x => if str_eqb t x then [false] else []
                     | _ => []
                     end) es.
Definition pairs (k : nat) : list bool := concat (repeat [true; false] k).
(** An edge has the tag with this name. *)
Definition carries (L : lattice) (t : str) (d : desc) : bool :=
  match index (names (tags L)) t with Some i => N.testbit (edge_tags L d) (N.of_nat i) | None => false end.
Definition kept (L : lattice) (d : desc) : bool := negb (is_discarded L d).
Definition outs (L : lattice) (v : vertex) : list desc := match all_out_edges L v with Ok l => l | _ => [] end.
(** The edges that count: those that are not to be left out as blank. *)
Definition visible_edge (L : lattice) (c : config) (d : desc) : bool :=
  with_blank c || match edge_text L d with Ok s => negb (blank s) | _ => false end.
Definition first_nonempty {A} (ls : list (list A)) : list A := hd [] (filter (fun l => negb (is_nil l)) ls).
(** The elements at a vertex: of the basic tag or of the first fallback tag there is. *)
Definition chosen (L : lattice) (c : config) (v : vertex) : list desc :=
  let pick p := filter (fun d => kept L d && visible_edge L c d && p d) (outs L v) in
  first_nonempty (pick (fun d => matches (edge_tags L d) (basic c)) :: map (fun f => pick (carries L f)) (fallback c)).
Definition item_of (L : lattice) (d : desc) : item := match annotation_item L d with Ok i => i | _ => M_Items.new_item [] [] end.
Definition elements (L : lattice) (c : config) (v : vertex) : list item :=
  map (item_of L) (if no_alts c then firstn 1 (chosen L c v) else chosen L c v).
Fixpoint from_start (vs : list vertex) : list vertex :=
  match vs with [] => [] | v :: r => if vertex_eqb v (Text 0) then vs else from_start r end.
(** Some group begins at the start of the text. *)
Definition begun (L : lattice) (c : config) : bool :=
  existsb (fun t => existsb (fun d => kept L d && carries L t d) (outs L (Text 0))) (handled c).
Definition printed (L : lattice) (c : config) (vs : list vertex) : list vertex :=
  match handled c with [] => vs | _ => if begun L c then from_start vs else [] end.
(** The path that takes the first edge at every vertex. *)
Inductive first_walk (L : lattice) : vertex -> list vertex -> Prop :=
  | F_end v : outs L v = [] -> first_walk L v [v]
  | F_step v d ds u vs : outs L v = d :: ds -> target L d = Ok u -> first_walk L u vs -> first_walk L v (v :: vs).
Definition visited topo (L : lattice) (c : config) (vs : list vertex) : Prop :=
  if linear c then exists v, snd (get_first_vertex topo L) = Ok v /\ first_walk L v vs else vertices topo true L = Ok vs.
(** An edge that counts with this tag from one of the vertices. *)
Definition carried (L : lattice) (vs : list vertex) (t : str) : Prop :=
  exists v d, In v vs /\ In d (outs L v) /\ kept L d = true /\ carries L t d = true.

(** * Keys and names *)
Lemma str_eqb_refl t : str_eqb t t = true.
Proof. now apply str_eqb_spec. Qed.
Lemma str_eqb_sym a b : str_eqb a b = str_eqb b a.
Proof. apply eq_true_iff_eq. rewrite !str_eqb_spec. split; congruence. Qed.
Lemma memb_spec t l : memb t l = true <-> In t l.
Proof.
  unfold memb. rewrite existsb_exists. split; [intros [x [H E]]; apply str_eqb_spec in E; now subst|].
  intros H. exists t. split; [assumption|apply str_eqb_refl].
Qed.
Lemma find_set {A} t (a : A) l : find_key t (set_key t a l) = Some a.
Proof.
  induction l as [|[k b] l IH]; cbn; [now rewrite str_eqb_refl|]. destruct (str_eqb t k) eqn:E; cbn; [now rewrite E|].
  destruct (str_ltb t k); cbn; [now rewrite str_eqb_refl|]. now rewrite E.
Qed.
Lemma find_set_other {A} t t' (a : A) l : str_eqb t t' = false -> find_key t (set_key t' a l) = find_key t l.
Proof.
  intros Hn. induction l as [|[k b] l IH]; cbn; [now rewrite Hn|]. destruct (str_eqb t' k) eqn:E; cbn.
  - apply str_eqb_spec in E. subst. now rewrite Hn.
  - destruct (str_ltb t' k); cbn; [now rewrite Hn|]. now rewrite IH.
Qed.
Lemma set_keys {A} t (a : A) l : map fst (set_key t a l) = set_insert str_ltb t (map fst l).
Proof.
  induction l as [|[k b] l IH]; cbn; [reflexivity|]. destruct (str_eqb t k) eqn:E.
  - apply str_eqb_spec in E. subst. cbn. now rewrite (st_irrefl _ str_ltb_strict).
  - destruct (str_ltb t k) eqn:E1; [reflexivity|]. cbn. destruct (str_ltb k t) eqn:E2; [now rewrite IH|].
    exfalso. rewrite (st_total _ str_ltb_strict t k E1 E2), str_eqb_refl in E. discriminate.
Qed.
Lemma find_key_in {A} t (l : list (str * A)) : find_key t l = None <-> ~ In t (map fst l).
Proof.
  induction l as [|[k b] l IH]; cbn; [tauto|]. destruct (str_eqb t k) eqn:E.
  - apply str_eqb_spec in E. subst. split; [discriminate|]. intros H. exfalso. apply H. now left.
  - rewrite IH. split; [|tauto]. intros H [->|K]; [rewrite str_eqb_refl in E; discriminate|tauto].
Qed.
Lemma carries_spec L t d : good L -> carries L t d = true <-> P_Tags.has (tags L) (edge_tags L d) t.
Proof.
  intros G. pose proof (ok_nodup _ (P_Tags.reachable_ok _ (g_tags _ G))) as Hd. unfold carries, has. split.
  - destruct (index (names (tags L)) t) as [i|] eqn:E; [|discriminate]. intros H. exists i. split; [now apply index_some|assumption].
  - intros [i [H1 H2]]. now rewrite (nth_error_index _ _ _ Hd H1).
Qed.
Lemma names_ok L d : good L -> exists ns, names_of_tags L d = Ok ns /\ NoDup ns /\ forall t, memb t ns = carries L t d.
Proof.
  intros G. pose proof (P_Tags.reachable_ok _ (g_tags _ G)) as Hok. pose proof (edge_tags_proper L d G) as [D2 _].
  destruct (collect_spec (names (tags L)) (edge_tags L d) (seq 0 CAPACITY) (ok_nodup _ Hok) (seq_NoDup _ _)) as [r [Er [Hr Hin]]].
  { intros i _ Hb. destruct (D2 _ Hb) as [n Hn]. rewrite Nnat.Nat2N.id in Hn. congruence. }
  exists (sort r). unfold names_of_tags, get_names. rewrite Er. cbn [option_map]. split; [reflexivity|]. split.
  - eapply Permutation.Permutation_NoDup; [apply Permutation.Permutation_sym, P_Tags.sort_perm|assumption].
  - intros t. apply eq_true_iff_eq. rewrite memb_spec, (carries_spec _ _ _ G). split.
    + intros Hn. apply (Permutation.Permutation_in _ (P_Tags.sort_perm r)) in Hn. apply Hin in Hn as [i [_ Hi]]. now exists i.
    + intros [i Hi]. apply (Permutation.Permutation_in _ (Permutation.Permutation_sym (P_Tags.sort_perm r))). apply Hin. exists i.
      split; [|assumption]. apply in_seq. unfold CAPACITY. destruct Hi as [Hi _].
      assert (i < length (names (tags L))) by (apply nth_error_Some; congruence). pose proof (ok_size _ Hok). lia.
Qed.

(** * One tag at a time *)
Record view := View { seen : bool; at_vertex : vertex; is_open : bool }.
Definition view_of (t : str) (s : state) : view :=
  View (match find_key t (targets s) with Some _ => true | None => false end) (target_of (targets s) t) (memb t (opened s)).
Definition tag_step (x : view * list bool) (e : vertex * vertex) : view * list bool :=
  let '(w, es) := x in
  if vertex_eqb (at_vertex w) (fst e) then (View true (snd e) true, es ++ (if is_open w then [false] else []) ++ [true])
  else (View true (at_vertex w) (is_open w), es).
Definition tag_run (w : view) (l : list (vertex * vertex)) : view * list bool := fold_left tag_step l (w, []).
Lemma tag_fold l : forall w es, fold_left tag_step l (w, es) = (fst (tag_run w l), es ++ snd (tag_run w l)).
Proof.
  unfold tag_run. induction l as [|e l IH]; intros w es; cbn [fold_left]; [now rewrite app_nil_r|].
  unfold tag_step at 2 4 6. destruct (vertex_eqb (at_vertex w) (fst e)); rewrite IH; [|reflexivity].
  rewrite (IH _ ([] ++ _)). cbn [fst snd app]. now rewrite !app_assoc.
Qed.
Lemma tag_run_app w l l' : tag_run w (l ++ l') = (fst (tag_run (fst (tag_run w l)) l'), snd (tag_run w l) ++ snd (tag_run (fst (tag_run w l)) l')).
Proof. unfold tag_run at 1. rewrite fold_left_app. fold (tag_run w l). rewrite (surjective_pairing (tag_run w l)) at 1. apply tag_fold. Qed.
Lemma group_app t a b : group t (a ++ b) = group t a ++ group t b.
Proof. apply flat_map_app. Qed.
Definition only_groups (es : list event) : Prop := Forall (fun e => exists t, e = OpenGroup t \/ e = CloseGroup t) es.

Section Careful.
Variable L : lattice.
Variable c : config.
Hypothesis G : good L.
Hypothesis T : tidy L.

Definition tgt (d : desc) : vertex := match target L d with Ok u => u | _ => Text 0 end.
Definition push (w : bool) (d : desc) (t : str) (qs : list (str * list desc)) : list (str * list desc) :=
  if w && negb (is_nil (fallback c)) then match find_key t qs with Some q => set_key t (q ++ [d]) qs | None => qs end else qs.
Lemma one_tag_spec v w d s t' : is_edge L d ->
  exists es s', one_tag L c v w d s t' = (es, Ok s') /\ only_groups es /\ queues s' = push w d t' (queues s) /\
    (L_OrdSet.increasing str_ltb (map fst (targets s)) -> L_OrdSet.increasing str_ltb (map fst (targets s'))) /\
    forall t, (view_of t s', group t es) =
      if memb t (handled c) && str_eqb t t' then tag_step (view_of t s, []) (v, tgt d) else (view_of t s, []).
Proof.
  intros He. destruct (edge_ends L d He) as [a [u [_ Eu]]]. unfold one_tag. fold (push w d t' (queues s)).
  assert (Et : tgt d = u) by (unfold tgt; now rewrite Eu).
  assert (K : target_of (touch t' (targets s)) t' = target_of (targets s) t') by (unfold target_of at 1, touch; now rewrite find_set).
  assert (Hother : forall t x o q, str_eqb t t' = false -> view_of t (State (set_key t' x (targets s)) o q) = View (match find_key t (targets s) with Some _ => true | None => false end) (target_of (targets s) t) (memb t o)).
  { intros t x o q Hn. unfold view_of, target_of. cbn [targets opened]. now rewrite (find_set_other _ _ _ _ Hn). }
  destruct (memb t' (handled c)) eqn:Eh.
  2: { exists [], (State (targets s) (opened s) (push w d t' (queues s))). split; [reflexivity|]. split; [constructor|]. split; [reflexivity|]. split; [auto|].
       intros t. destruct (memb t (handled c) && str_eqb t t') eqn:E; [|reflexivity]. apply andb_true_iff in E as [E1 E2]. apply str_eqb_spec in E2. congruence. }
  rewrite K. destruct (vertex_eqb (target_of (targets s) t') v) eqn:Ev.
  - unfold next_out, need, put, done. rewrite Eu. cbn [fst snd app].
    exists ((if memb t' (opened s) then [CloseGroup t'] else []) ++ [OpenGroup t']). eexists. split; [destruct (memb t' (opened s)); reflexivity|]. split.
    { unfold only_groups. destruct (memb t' (opened s)); cbn; repeat constructor; eauto. }
    cbn [queues targets]. split; [reflexivity|]. split.
    { intros Hi. unfold touch. rewrite !set_keys. now apply increasing_insert, increasing_insert; [apply str_ltb_strict|apply str_ltb_strict|]. }
    intros t. destruct (str_eqb t t') eqn:E.
    + apply str_eqb_spec in E. subst t'. rewrite Eh. cbn [andb tag_step fst snd]. unfold view_of at 1 2. cbn [at_vertex targets opened].
      rewrite Ev, find_set. unfold target_of at 1. rewrite find_set. cbn [memb existsb]. rewrite str_eqb_refl, Et. cbn [orb].
      f_equal. rewrite group_app. destruct (memb t (opened s)) eqn:Eo; cbn; rewrite str_eqb_refl; unfold view_of; cbn [is_open]; rewrite Eo; reflexivity.
    + rewrite andb_false_r. f_equal.
      * unfold touch, view_of, target_of. cbn [targets opened]. rewrite !(find_set_other _ _ _ _ E). f_equal. cbn. now rewrite E.
      * rewrite group_app. destruct (memb t' (opened s)); cbn; rewrite E; reflexivity.
  - exists []. eexists. split; [reflexivity|]. split; [constructor|]. cbn [queues targets]. split; [reflexivity|]. split.
    { intros Hi. unfold touch. rewrite set_keys. apply increasing_insert; [apply str_ltb_strict|assumption]. }
    intros t. cbn [group flat_map]. destruct (str_eqb t t') eqn:E.
    + apply str_eqb_spec in E. subst t'. rewrite Eh. cbn [andb tag_step fst snd]. unfold view_of at 2. cbn [at_vertex]. rewrite Ev.
      unfold view_of. cbn [targets opened at_vertex is_open]. rewrite K. unfold touch. rewrite find_set. reflexivity.
    + rewrite andb_false_r. f_equal. unfold touch. rewrite (Hother t _ _ _ E). reflexivity.
Qed.
Lemma next_ok {A B} es a (f : A -> out B) : next_out (es, Ok a) f = (es ++ fst (f a), snd (f a)).
Proof. reflexivity. Qed.
Definition marks (t : str) : bool := memb t (handled c).
Lemma only_app a b : only_groups a -> only_groups b -> only_groups (a ++ b).
Proof. intros Ha Hb. apply Forall_app. auto. Qed.
Lemma all_tags_spec v w d : is_edge L d -> forall ns s, NoDup ns ->
  exists es s', all_tags L c v w d s ns = (es, Ok s') /\ only_groups es /\
    queues s' = fold_left (fun qs t => push w d t qs) ns (queues s) /\
    (L_OrdSet.increasing str_ltb (map fst (targets s)) -> L_OrdSet.increasing str_ltb (map fst (targets s'))) /\
    forall t, (view_of t s', group t es) = if marks t && memb t ns then tag_step (view_of t s, []) (v, tgt d) else (view_of t s, []).
Proof.
  intros He. induction ns as [|t' ns IH]; intros s Hd; cbn [all_tags].
  - exists [], s. split; [reflexivity|]. split; [constructor|]. split; [reflexivity|]. split; [auto|]. intros t. cbn [memb existsb]. now rewrite andb_false_r.
  - inversion Hd as [|? ? D1 D2]; subst. destruct (one_tag_spec v w d s t' He) as [es1 [s1 [E1 [O1 [Q1 [I1 V1]]]]]].
    destruct (IH s1 D2) as [es2 [s2 [E2 [O2 [Q2 [I2 V2]]]]]]. rewrite E1, next_ok, E2. exists (es1 ++ es2), s2. split; [reflexivity|].
    split; [now apply only_app|]. split; [cbn [fold_left]; now rewrite Q2, Q1|]. split; [auto|].
    intros t. specialize (V1 t). specialize (V2 t). unfold marks in *. rewrite group_app. cbn [memb existsb]. fold (memb t ns).
    destruct (memb t (handled c)) eqn:Eh; cbn [andb] in *.
    2: { apply pair_equal_spec in V1 as [V1 ->]. apply pair_equal_spec in V2 as [V2 ->]. now rewrite V2, V1. }
    destruct (str_eqb t t') eqn:Et; cbn [orb].
    + assert (En : memb t ns = false).
      { apply str_eqb_spec in Et. subst t'. destruct (memb t ns) eqn:E; [|reflexivity]. apply memb_spec in E. contradiction. }
      rewrite En in V2. apply pair_equal_spec in V2 as [-> ->]. rewrite app_nil_r. exact V1.
    + apply pair_equal_spec in V1 as [V1 ->]. rewrite V1 in V2. exact V2.
Qed.
Lemma push_key w d t t' qs : (find_key t (push w d t' qs) = None <-> find_key t qs = None) /\
  queue_of (push w d t' qs) t = queue_of qs t ++
    (if w && negb (is_nil (fallback c)) && str_eqb t t' then match find_key t qs with Some _ => [d] | None => [] end else []).
Proof.
  unfold push, queue_of. destruct (w && negb (is_nil (fallback c))); cbn [andb]; [|rewrite app_nil_r; tauto].
  destruct (str_eqb t t') eqn:E.
  - apply str_eqb_spec in E. subst t'. destruct (find_key t qs) as [q|] eqn:Eq; [rewrite find_set; split; [split; discriminate|reflexivity]|].
    rewrite Eq. split; [tauto|reflexivity].
  - rewrite app_nil_r. destruct (find_key t' qs) as [q|]; [|tauto]. rewrite (find_set_other _ _ _ _ E). tauto.
Qed.
Lemma push_all w d : forall ns qs t, NoDup ns ->
  (find_key t (fold_left (fun qs t => push w d t qs) ns qs) = None <-> find_key t qs = None) /\
  queue_of (fold_left (fun qs t => push w d t qs) ns qs) t = queue_of qs t ++
    (if w && negb (is_nil (fallback c)) && memb t ns then match find_key t qs with Some _ => [d] | None => [] end else []).
Proof.
  induction ns as [|t' ns IH]; intros qs t Hd; cbn [fold_left].
  - cbn [memb existsb]. rewrite andb_false_r, app_nil_r. tauto.
  - inversion Hd as [|? ? D1 D2]; subst. destruct (IH (push w d t' qs) t D2) as [I1 I2]. destruct (push_key w d t t' qs) as [P1 P2].
    split; [now rewrite I1|]. rewrite I2, P2, <- app_assoc. f_equal. cbn [memb existsb]. fold (memb t ns).
    destruct (w && negb (is_nil (fallback c))); cbn [andb]; [|reflexivity]. destruct (str_eqb t t') eqn:E; cbn [orb].
    + assert (En : memb t ns = false).
      { apply str_eqb_spec in E. subst t'. destruct (memb t ns) eqn:E'; [|reflexivity]. apply memb_spec in E'. contradiction. }
      rewrite En. apply app_nil_r.
    + cbn [app]. destruct (memb t ns); [|reflexivity].
      destruct (find_key t (push w d t' qs)) eqn:F1, (find_key t qs) eqn:F2; try reflexivity.
      * pose proof (proj2 P1 eq_refl). discriminate.
      * pose proof (proj1 P1 eq_refl). discriminate.
Qed.
Lemma edge_text_ok d : is_edge L d -> exists s, edge_text L d = Ok s.
Proof.
  intros He. destruct (edge_ends L d He) as [a [b [Ea Eb]]]. unfold edge_text. rewrite Ea, Eb. destruct a as [p|k]; [|eauto]. destruct b as [q|k]; [|eauto].
  assert (El : exists n, edge_length L d = Ok n) by (unfold edge_length; rewrite Ea, Eb; destruct d; eauto). destruct El as [n ->].
  destruct (edge_place L d _ _ G T He Ea Eb) as [Hp _]. apply boundary_wf in Hp as [_ Hp]. destruct (Nat.leb_spec p (length (text L))); [eauto|lia].
Qed.
Lemma wanted_ok d : is_edge L d -> wanted L c d = Ok (visible_edge L c d).
Proof.
  intros He. unfold wanted, visible_edge. destruct (with_blank c); [reflexivity|]. destruct (edge_text_ok d He) as [s ->]. reflexivity.
Qed.
Definition counted (t : str) (ds : list desc) : list desc := filter (fun d => kept L d && carries L t d) ds.
Lemma gather_spec v : forall ds q s, (forall d, In d ds -> is_edge L d) ->
  exists es s', gather L c v ds q s = (es, Ok (q ++ filter (fun d => kept L d && visible_edge L c d && matches (edge_tags L d) (basic c)) ds, s')) /\
    only_groups es /\
    (forall f, find_key f (queues s') = None <-> find_key f (queues s) = None) /\
    (fallback c <> [] -> forall f, find_key f (queues s) <> None ->
       queue_of (queues s') f = queue_of (queues s) f ++ filter (fun d => kept L d && visible_edge L c d && carries L f d) ds) /\
    (L_OrdSet.increasing str_ltb (map fst (targets s)) -> L_OrdSet.increasing str_ltb (map fst (targets s'))) /\
    forall t, (view_of t s', group t es) = if marks t then tag_run (view_of t s) (map (fun d => (v, tgt d)) (counted t ds)) else (view_of t s, []).
Proof.
  induction ds as [|d ds IH]; intros q s He; cbn [gather].
  - exists [], s. cbn [filter]. rewrite app_nil_r. split; [reflexivity|]. split; [constructor|]. split; [tauto|]. split; [intros; now rewrite app_nil_r|]. split; [auto|].
    intros t. destruct (marks t); reflexivity.
  - assert (Hd : is_edge L d) by (apply He; now left). assert (Hds : forall x, In x ds -> is_edge L x) by (intros; apply He; now right).
    destruct (is_discarded L d) eqn:Ed; [assert (Ek : kept L d = false) by (unfold kept; now rewrite Ed)|assert (Ek : kept L d = true) by (unfold kept; now rewrite Ed)].
    + destruct (IH q s Hds) as [es [s' [E [O [Q1 [Q2 [I V]]]]]]]. exists es, s'. cbn [filter]. rewrite Ek. cbn [andb].
      split; [exact E|]. split; [assumption|]. split; [assumption|]. split; [|split; [assumption|]].
      * exact Q2.
      * intros t. rewrite V. unfold counted. cbn [filter]. now rewrite Ek.
    + destruct (names_ok L d G) as [ns [En [Dn Cn]]]. rewrite En, (wanted_ok d Hd). unfold need. rewrite next_ok. cbn [fst snd app].
      rewrite next_ok. cbn [fst snd app]. cbv zeta. destruct (all_tags_spec v (visible_edge L c d) d Hd ns s Dn) as [es1 [s1 [E1 [O1 [Q1 [I1 V1]]]]]].
      rewrite E1, next_ok.
      destruct (IH (if visible_edge L c d && matches (edge_tags L d) (basic c) then q ++ [d] else q) s1 Hds) as [es2 [s2 [E2 [O2 [Q2 [Q3 [I2 V2]]]]]]].
      rewrite E2. exists (es1 ++ es2), s2. cbn [fst snd]. split.
      { do 3 f_equal. cbn [filter]. rewrite Ek. cbn [andb].
        destruct (visible_edge L c d && matches (edge_tags L d) (basic c)); [now rewrite <- app_assoc|reflexivity]. }
      split; [now apply only_app|]. split.
      { intros f. rewrite Q2, Q1. apply push_all, Dn. }
      split.
      { intros Hf f Hk. destruct (push_all (visible_edge L c d) d ns (queues s) f Dn) as [P1 P2]. rewrite Q3; [|assumption|rewrite Q1, P1; assumption].
        rewrite Q1, P2, <- app_assoc. f_equal. cbn [filter]. rewrite Ek, <- Cn. cbn [andb].
        assert (Ef : negb (is_nil (fallback c)) = true) by (destruct (fallback c); [congruence|reflexivity]). rewrite Ef, andb_true_r.
        destruct (find_key f (queues s)); [|congruence]. destruct (visible_edge L c d && memb f ns); reflexivity. }
      split; [auto|]. intros t. specialize (V1 t). specialize (V2 t). rewrite group_app. destruct (marks t); cbn [andb] in V1.
      2: { apply pair_equal_spec in V1 as [V1 ->]. apply pair_equal_spec in V2 as [V2 ->]. now rewrite V2, V1. }
      unfold counted. cbn [filter]. rewrite Ek, <- Cn. cbn [andb]. fold (counted t ds). destruct (memb t ns).
      * cbn [map]. change ((v, tgt d) :: map (fun x => (v, tgt x)) (counted t ds)) with ([(v, tgt d)] ++ map (fun x => (v, tgt x)) (counted t ds)).
        rewrite tag_run_app. change (tag_run (view_of t s) [(v, tgt d)]) with (tag_step (view_of t s, []) (v, tgt d)). rewrite <- V1. cbn [fst snd].
        rewrite <- V2. reflexivity.
      * apply pair_equal_spec in V1 as [V1 ->]. rewrite V1 in V2. exact V2.
Qed.
(** Fallback edges. *)
Lemma queue_set f g q qs : queue_of (set_key f q qs) g = if str_eqb g f then q else queue_of qs g.
Proof.
  unfold queue_of. destruct (str_eqb g f) eqn:E; [apply str_eqb_spec in E; subst; now rewrite find_set|now rewrite (find_set_other _ _ _ _ E)].
Qed.
Lemma first_cons (l : list desc) ls : first_nonempty (l :: ls) = if is_nil l then first_nonempty ls else l.
Proof. unfold first_nonempty. destruct l; reflexivity. Qed.
Lemma take_fallback_fst : forall fs q qs, fst (take_fallback fs q qs) = first_nonempty (q :: map (queue_of qs) fs).
Proof.
  induction fs as [|f fs IH]; intros q qs; cbn [take_fallback].
  - unfold first_nonempty. destruct q; reflexivity.
  - destruct q as [|d q]; cbn [is_nil]; rewrite IH; [|reflexivity]. rewrite (first_cons []). cbn [is_nil map]. rewrite !first_cons.
    destruct (queue_of qs f) as [|x y] eqn:E; [|reflexivity]. cbn [is_nil]. f_equal. apply map_ext. intros g. rewrite queue_set.
    destruct (str_eqb g f) eqn:E2; [|reflexivity]. apply str_eqb_spec in E2. congruence.
Qed.
Lemma take_fallback_snd : forall fs q qs g,
  (find_key g qs <> None -> find_key g (snd (take_fallback fs q qs)) <> None) /\
  (In g fs \/ queue_of qs g = [] -> queue_of (snd (take_fallback fs q qs)) g = []).
Proof.
  induction fs as [|f fs IH]; intros q qs g; cbn [take_fallback]; [split; [auto|now intros [[]|H]]|].
  assert (K : forall q', (find_key g qs <> None -> find_key g (snd (take_fallback fs q' (set_key f [] qs))) <> None) /\
    (In g (f :: fs) \/ queue_of qs g = [] -> queue_of (snd (take_fallback fs q' (set_key f [] qs))) g = [])).
  { intros q'. destruct (IH q' (set_key f [] qs) g) as [I1 I2]. split.
    - intros H. apply I1. destruct (str_eqb g f) eqn:E; [apply str_eqb_spec in E; subst; rewrite find_set; discriminate|now rewrite (find_set_other _ _ _ _ E)].
    - intros H. apply I2. rewrite queue_set. destruct (str_eqb g f) eqn:E; [now right|]. destruct H as [[->|H]|H]; [rewrite str_eqb_refl in E; discriminate|now left|now right]. }
  destruct (is_nil q); apply K.
Qed.
(** Printing. *)
Lemma item_ok d : is_edge L d -> annotation_item L d = Ok (item_of L d).
Proof.
  intros He. unfold item_of. destruct d as [p|e].
  - pose proof (t_bits _ T p He) as Hb. pose proof (g_bits _ G p He) as Hp. pose proof (symbol_len_pos L p). destruct (item_at L p Hb) as [cp [_ [_ ->]]]; [lia|reflexivity].
  - cbn in *. destruct (nth_error (edges L) e) eqn:Ee; [reflexivity|]. apply nth_error_None in Ee. lia.
Qed.
Definition limited (q : list desc) : list desc := if no_alts c then firstn 1 q else q.
Lemma print_edges_spec p : forall q o, (forall d, In d q -> is_edge L d) ->
  print_edges L c p q o = if p then ((if o || is_nil q then [] else [OpenAlternative]) ++ map PutElement (map (item_of L) (limited q)), Ok (o || negb (is_nil q))) else ([], Ok o).
Proof.
  induction q as [|d q IH]; intros o He; cbn [print_edges].
  - unfold limited. destruct p; [|reflexivity]. cbn [is_nil negb firstn map]. rewrite orb_true_r, orb_false_r. destruct (no_alts c); reflexivity.
  - assert (Hd : is_edge L d) by (apply He; now left). assert (Hq : forall x, In x q -> is_edge L x) by (intros; apply He; now right).
    destruct p.
    + rewrite (item_ok d Hd). unfold need, put, done. unfold limited. cbn [is_nil negb]. rewrite orb_false_r, orb_true_r.
      destruct o; cbn [next_out fst snd app]; destruct (no_alts c) eqn:En; cbn [fst snd firstn map app].
      * reflexivity.
      * rewrite (IH true Hq). unfold limited. rewrite En. reflexivity.
      * reflexivity.
      * rewrite (IH true Hq). unfold limited. rewrite En. reflexivity.
    + unfold done. rewrite next_ok. cbn [app]. destruct (no_alts c); [reflexivity|]. now rewrite (IH o Hq).
Qed.
Definition alternative (is : list item) : list event :=
  match is with [] => [] | _ => OpenAlternative :: map PutElement is ++ [CloseAlternative] end.
Definition steady (s : state) : Prop :=
  L_OrdSet.increasing str_ltb (map fst (targets s)) /\ forall f, In f (fallback c) -> find_key f (queues s) <> None /\ queue_of (queues s) f = [].
Lemma visit_spec v s : valid L v = true -> steady s ->
  exists es s', visit L c v s = (es ++ alternative (if print_elements c s' then elements L c v else []), Ok s') /\ only_groups es /\ steady s' /\
    forall t, (view_of t s', group t es) = if marks t then tag_run (view_of t s) (map (fun d => (v, tgt d)) (counted t (outs L v))) else (view_of t s, []).
Proof.
  intros Hv [S1 S2]. unfold visit. assert (Ho : out_edges v (mask_const true) L = (L, Ok (outs L v))).
  { unfold out_edges. rewrite Hv. cbn [negb any mask_const]. unfold ask. unfold outs. now rewrite (all_out_form _ _ G Hv). }
  rewrite Ho. cbn [snd]. unfold need at 1. rewrite next_ok. cbn [snd fst app].
  assert (He : forall d, In d (outs L v) -> is_edge L d).
  { intros d Hd. assert (A : all_out_edges L v = Ok (outs L v)) by (unfold outs; now rewrite (all_out_form _ _ G Hv)).
    destruct (all_out_spec _ _ _ G A) as [_ M]. now apply M. }
  destruct (gather_spec v (outs L v) [] s He) as [es [s' [E [O [Q1 [Q2 [I V]]]]]]]. rewrite E, next_ok. cbn [fst snd app]. clear E.
  set (q := filter _ (outs L v)). set (x := if is_nil (fallback c) then (q, queues s') else take_fallback (fallback c) q (queues s')).
  assert (Eq : fst x = chosen L c v).
  { unfold x, chosen. destruct (is_nil (fallback c)) eqn:En.
    - destruct (fallback c); [|discriminate]. cbn [map fst]. rewrite first_cons. fold q. destruct q; reflexivity.
    - rewrite take_fallback_fst. do 2 f_equal. apply map_ext_in. intros f Hf. destruct (S2 f Hf) as [F1 F2].
      rewrite Q2, F2; [reflexivity| |assumption]. destruct (fallback c); [discriminate|congruence]. }
  assert (Es : forall f, In f (fallback c) -> find_key f (snd x) <> None /\ queue_of (snd x) f = []).
  { intros f Hf. unfold x. destruct (is_nil (fallback c)) eqn:En; [destruct (fallback c); [destruct Hf|discriminate]|].
    destruct (take_fallback_snd (fallback c) q (queues s') f) as [K1 K2]. split; [|now apply K2; left]. apply K1. rewrite Q1. now apply S2. }
  assert (Hc : forall d, In d (fst x) -> is_edge L d).
  { rewrite Eq. unfold chosen. intros d Hd. apply He. revert Hd. unfold first_nonempty.
    assert (K : forall ls : list (list desc), (forall l, In l ls -> incl l (outs L v)) -> In d (hd [] (filter (fun l => negb (is_nil l)) ls)) -> In d (outs L v)).
    { induction ls as [|l ls IH]; intros Hl; [intros []|]. cbn [filter]. destruct (negb (is_nil l)); [apply Hl; now left|]. apply IH. intros; apply Hl; now right. }
    apply K. intros l [<-|Hl]; [apply incl_filter|]. apply in_map_iff in Hl as [f [<- _]]. apply incl_filter. }
  destruct x as [q' qs] eqn:Ex. cbn [fst snd] in *. rewrite (print_edges_spec _ q' false Hc). subst q'.
  exists es, (State (targets s') (opened s') qs).
  assert (Ep : print_elements c (State (targets s') (opened s') qs) = print_elements c s') by reflexivity. rewrite Ep.
  split; [|split; [assumption|split; [split; [now apply I|assumption]|]]].
  - destruct (print_elements c s'); cbn [orb].
    + rewrite next_ok. cbn [fst snd]. unfold elements, limited. destruct (chosen L c v) as [|d ds]; [destruct (no_alts c); reflexivity|]. cbn [is_nil negb].
      unfold put. rewrite next_ok. cbn [fst snd done]. do 2 f_equal. rewrite app_nil_r.
      destruct (no_alts c); cbn [firstn map alternative app]; rewrite <- ?app_assoc; reflexivity.
    + reflexivity.
  - intros t. rewrite <- V. reflexivity.
Qed.
(** The rounds. *)
Definition edges_from (t : str) (vs : list vertex) : list (vertex * vertex) :=
  flat_map (fun v => map (fun d => (v, tgt d)) (counted t (outs L v))) vs.
Lemma tag_open l : forall w, (is_open w = true \/ at_vertex w = Text 0) ->
  is_open (fst (tag_run w l)) = is_open w || existsb (fun e => vertex_eqb (fst e) (Text 0)) l /\
  (is_open (fst (tag_run w l)) = true \/ at_vertex (fst (tag_run w l)) = Text 0).
Proof.
  induction l as [|e l IH]; intros w Hw; [cbn; now rewrite orb_false_r|].
  change (e :: l) with ([e] ++ l). rewrite tag_run_app. cbn [fst]. change (tag_run w [e]) with (tag_step (w, []) e). cbn [tag_step existsb app].
  destruct (vertex_eqb (at_vertex w) (fst e)) eqn:E; cbn [fst].
  - destruct (IH (View true (snd e) true) (or_introl eq_refl)) as [I1 I2]. rewrite I1. split; [|rewrite I1 in I2; exact I2]. cbn [is_open orb].
    destruct Hw as [->|Hw]; [reflexivity|]. apply vertex_eqb_spec in E. rewrite <- E, Hw. now rewrite orb_true_r.
  - destruct (IH (View true (at_vertex w) (is_open w)) Hw) as [I1 I2]. split; [|exact I2]. rewrite I1. cbn [is_open].
    destruct (is_open w) eqn:Eo; [reflexivity|]. destruct Hw as [Hw|Hw]; [discriminate|]. destruct (vertex_eqb (fst e) (Text 0)) eqn:E0; [|reflexivity].
    apply vertex_eqb_spec in E0. rewrite Hw, E0 in E. discriminate.
Qed.
Definition on_track (s : state) : Prop := forall t, is_open (view_of t s) = true \/ at_vertex (view_of t s) = Text 0.
Lemma counted_begun t : existsb (fun d => kept L d && carries L t d) (outs L (Text 0)) = negb (is_nil (counted t (outs L (Text 0)))).
Proof.
  unfold counted. induction (outs L (Text 0)) as [|d ds IH]; [reflexivity|]. cbn [existsb filter]. rewrite IH. destruct (kept L d && carries L t d); reflexivity.
Qed.
Lemma from_one t v : existsb (fun e => vertex_eqb (fst e) (Text 0)) (map (fun d => (v, tgt d)) (counted t (outs L v))) =
  vertex_eqb v (Text 0) && existsb (fun d => kept L d && carries L t d) (outs L (Text 0)).
Proof.
  destruct (vertex_eqb v (Text 0)) eqn:E; cbn [andb].
  - apply vertex_eqb_spec in E. subst v. rewrite counted_begun. destruct (counted t (outs L (Text 0))); reflexivity.
  - induction (counted t (outs L v)) as [|d ds IH]; [reflexivity|]. cbn [map existsb fst]. now rewrite E.
Qed.
Lemma existsb_or {A} (f g : A -> bool) l : existsb (fun x => f x || g x) l = existsb f l || existsb g l.
Proof. induction l as [|x l IH]; [reflexivity|]. cbn. rewrite IH. destruct (f x), (g x), (existsb f l); reflexivity. Qed.
Lemma existsb_and {A} (b : bool) (g : A -> bool) l : existsb (fun x => b && g x) l = b && existsb g l.
Proof. destruct b; cbn [andb]; [reflexivity|]. induction l; [reflexivity|assumption]. Qed.
Lemma existsb_ext_in {A} (f g : A -> bool) l : (forall x, In x l -> f x = g x) -> existsb f l = existsb g l.
Proof. induction l as [|x l IH]; intros H; [reflexivity|]. cbn. rewrite (H x (or_introl eq_refl)), IH; [reflexivity|]. intros; apply H; now right. Qed.
Fixpoint alternatives (b : bool) (vs : list vertex) : list (list item) :=
  match vs with
  | [] => []
  | v :: r =>
      let b' := b || (vertex_eqb v (Text 0) && begun L c) in
      (if b' then (if is_nil (elements L c v) then [] else [elements L c v]) else []) ++ alternatives b' r
  end.
Lemma written_groups es : forall a r, only_groups es -> written a r -> written a (es ++ r).
Proof. induction es as [|e es IH]; intros a r H Hr; [assumption|]. inversion H as [|? ? [t [->| ->]] He]; subst; constructor; auto. Qed.
Lemma written_alternative is a r : written a r -> written ((if is_nil is then [] else [is]) ++ a) (alternative is ++ r).
Proof.
  intros H. destruct is as [|i is]; [exact H|]. change (written ((i :: is) :: a) (OpenAlternative :: (map PutElement (i :: is) ++ [CloseAlternative]) ++ r)). rewrite <- app_assoc. apply (W_alt (i :: is)); [discriminate|assumption].
Qed.
Lemma visit_all_spec : forall vs s, (forall v, In v vs -> valid L v = true) -> steady s -> on_track s ->
  exists es s', visit_all L c vs s = (es, Ok s') /\ steady s' /\ on_track s' /\
    (forall a r, written a r -> written (alternatives (print_elements c s) vs ++ a) (es ++ r)) /\
    forall t, (view_of t s', group t es) = if marks t then tag_run (view_of t s) (edges_from t vs) else (view_of t s, []).
Proof.
  induction vs as [|v vs IH]; intros s Hv Hs Ht; cbn [visit_all].
  - exists [], s. split; [reflexivity|]. split; [assumption|]. split; [assumption|]. split; [auto|]. intros t. destruct (marks t); reflexivity.
  - destruct (visit_spec v s (Hv v (or_introl eq_refl)) Hs) as [es1 [s1 [E1 [O1 [S1 V1]]]]].
    assert (T1 : on_track s1 /\ forall t, marks t = true -> is_open (view_of t s1) = is_open (view_of t s) || (vertex_eqb v (Text 0) && existsb (fun d => kept L d && carries L t d) (outs L (Text 0)))).
    { split; intros t.
      - specialize (V1 t). destruct (marks t); apply pair_equal_spec in V1 as [V1 _] || (rewrite (surjective_pairing (tag_run _ _)) in V1; apply pair_equal_spec in V1 as [V1 _]); rewrite V1; [|apply Ht].
        apply tag_open, Ht.
      - intros Hm. specialize (V1 t). rewrite Hm in V1. rewrite (surjective_pairing (tag_run _ _)) in V1. apply pair_equal_spec in V1 as [V1 _]. rewrite V1.
        destruct (tag_open (map (fun d => (v, tgt d)) (counted t (outs L v))) (view_of t s) (Ht t)) as [K _]. now rewrite K, from_one. }
    destruct T1 as [T1 P1].
    assert (Ep : print_elements c s1 = print_elements c s || (vertex_eqb v (Text 0) && begun L c)).
    { unfold print_elements, begun. destruct (is_nil (handled c)); [reflexivity|]. rewrite <- existsb_and, <- existsb_or. apply existsb_ext_in. intros t Hm.
      apply (P1 t). now apply memb_spec. }
    destruct (IH s1 (fun x H => Hv x (or_intror H)) S1 T1) as [es2 [s2 [E2 [S2 [T2 [W2 V2]]]]]]. rewrite E1, next_ok, E2. eexists. exists s2. split; [reflexivity|].
    split; [assumption|]. split; [assumption|]. cbn [fst]. split.
    + intros a r Hr. cbn [alternatives]. rewrite <- Ep. rewrite <- !app_assoc. apply written_groups; [assumption|].
      destruct (print_elements c s1); [apply written_alternative|]; now apply W2.
    + intros t. specialize (V1 t). specialize (V2 t). rewrite !group_app.
      assert (Ea : forall is, group t (alternative is) = []).
      { clear. intros [|i is]; [reflexivity|]. unfold alternative. change (OpenAlternative :: map PutElement (i :: is) ++ [CloseAlternative]) with ([OpenAlternative] ++ map PutElement (i :: is) ++ [CloseAlternative]).
        rewrite !group_app. cbn [group flat_map app]. rewrite app_nil_r. induction (i :: is); [reflexivity|assumption]. }
      rewrite Ea, app_nil_r. destruct (marks t).
      * unfold edges_from. cbn [flat_map]. rewrite tag_run_app. rewrite <- V1. cbn [fst snd]. fold (edges_from t vs). rewrite <- V2. reflexivity.
      * apply pair_equal_spec in V1 as [V1 ->]. rewrite V1 in V2. exact V2.
Qed.
Lemma alternatives_true vs : alternatives true vs = filter (fun l => negb (is_nil l)) (map (elements L c) vs).
Proof. induction vs as [|v vs IH]; [reflexivity|]. cbn [alternatives orb map filter]. rewrite IH. destruct (is_nil (elements L c v)); reflexivity. Qed.
Lemma alternatives_spec vs : alternatives (is_nil (handled c)) vs = filter (fun l => negb (is_nil l)) (map (elements L c) (printed L c vs)).
Proof.
  unfold printed. destruct (handled c) eqn:Eh; cbn [is_nil]; [apply alternatives_true|]. induction vs as [|v vs IH]; [destruct (begun L c); reflexivity|].
  cbn [alternatives orb]. destruct (begun L c) eqn:Eb; [|rewrite andb_false_r; exact IH]. cbn [from_start]. destruct (vertex_eqb v (Text 0)); cbn [andb]; [|exact IH].
  rewrite alternatives_true. cbn [map filter]. destruct (is_nil (elements L c v)); reflexivity.
Qed.
End Careful.

(** * The groups of a tag *)
Lemma tag_seen l : forall w, seen (fst (tag_run w l)) = seen w || negb (is_nil l).
Proof.
  induction l as [|e l IH]; intros w; [cbn; now rewrite orb_false_r|].
  change (e :: l) with ([e] ++ l). rewrite tag_run_app. cbn [fst]. rewrite IH. change (tag_run w [e]) with (tag_step (w, []) e). cbn [tag_step is_nil negb app].
  rewrite orb_true_r. destruct (vertex_eqb (at_vertex w) (fst e)); reflexivity.
Qed.
Lemma tag_events l : forall w, exists k,
  snd (tag_run w l) ++ (if is_open (fst (tag_run w l)) then [false] else []) = (if is_open w then [false] else []) ++ pairs k /\
  length (filter (fun b => b) (snd (tag_run w l))) = k /\
  (is_open w = false -> is_open (fst (tag_run w l)) = negb (k =? 0)).
Proof.
  induction l as [|e l IH]; intros w.
  - exists 0. cbn. destruct (is_open w); auto.
  - change (e :: l) with ([e] ++ l). rewrite tag_run_app. cbn [fst snd]. change (tag_run w [e]) with (tag_step (w, []) e). cbn [tag_step app].
    destruct (vertex_eqb (at_vertex w) (fst e)); cbn [fst snd].
    + destruct (IH (View true (snd e) true)) as [k [K1 [K2 _]]]. exists (S k). cbn [is_open] in K1.
      assert (O : is_open (fst (tag_run (View true (snd e) true) l)) = true).
      { clear. assert (K : forall w, is_open w = true -> is_open (fst (tag_run w l)) = true); [|now apply K].
        induction l as [|x l IH]; intros w Hw; [exact Hw|]. change (x :: l) with ([x] ++ l). rewrite tag_run_app. cbn [fst]. apply IH.
        change (tag_run w [x]) with (tag_step (w, []) x). cbn [tag_step]. destruct (vertex_eqb (at_vertex w) (fst x)); [reflexivity|exact Hw]. }
      rewrite O in *. cbn [app] in K1. split; [|split].
      * rewrite <- !app_assoc. rewrite K1. reflexivity.
      * rewrite !filter_app, !app_length, K2. destruct (is_open w); reflexivity.
      * intros _. reflexivity.
    + destruct (IH (View true (at_vertex w) (is_open w))) as [k [K1 [K2 K3]]]. exists k. cbn [is_open] in *. auto.
Qed.

(** * The whole run *)
Lemma close_all_spec ts : exists es, close_all ts = (es ++ [Flush], Ok tt) /\ only_groups es /\
  forall t, NoDup (map fst ts) -> group t (es ++ [Flush]) = match find_key t ts with Some _ => [false] | None => [] end.
Proof.
  induction ts as [|[k v] ts [es [E [O Gr]]]]; cbn [close_all].
  - exists []. split; [reflexivity|]. split; [constructor|]. reflexivity.
  - exists (CloseGroup k :: es). rewrite E. split; [reflexivity|]. split; [constructor; [eauto|assumption]|]. intros t Hd. cbn [map fst] in Hd. inversion Hd as [|? ? D1 D2]; subst.
    cbn [app group flat_map find_key]. specialize (Gr t D2). unfold group in Gr. rewrite Gr. destruct (str_eqb t k) eqn:Ek; [|reflexivity].
    apply str_eqb_spec in Ek. subst k. apply find_key_in in D1. now rewrite D1.
Qed.
Lemma initial_steady c : steady c (initial_state c).
Proof.
  split; [constructor|]. unfold initial_state. cbn [queues].
  assert (K : forall fs qs f, (In f fs \/ find_key f qs <> None) -> (forall g, queue_of qs g = []) ->
    let qs' := fold_left (fun qs f => match find_key f qs with Some _ => qs | None => set_key f [] qs end) fs qs in
    find_key f qs' <> None /\ queue_of qs' f = []).
  { induction fs as [|g fs IH]; intros qs f Hf He; cbn; [destruct Hf as [[]|Hf]; auto|]. apply IH.
    - destruct (find_key g qs) eqn:Eg.
      + destruct Hf as [[->|Hf]|Hf]; [right; congruence|now left|now right].
      + destruct Hf as [[->|Hf]|Hf]; [right; rewrite find_set; discriminate|now left|]. right. destruct (str_eqb f g) eqn:E; [apply str_eqb_spec in E; subst; rewrite find_set; discriminate|].
        now rewrite (find_set_other _ _ _ _ E).
    - intros x. destruct (find_key g qs); [apply He|]. rewrite queue_set. destruct (str_eqb x g); [reflexivity|apply He]. }
  intros f Hf. apply K; [now left|reflexivity].
Qed.
Lemma next_inv {A B} (m : out A) (f : A -> out B) es b : next_out m f = (es, Ok b) ->
  exists es1 a es2, m = (es1, Ok a) /\ f a = (es2, Ok b) /\ es = es1 ++ es2.
Proof.
  unfold next_out. destruct m as [es1 [a|e|]]; try discriminate. intros H. apply pair_equal_spec in H as [H1 H2]. exists es1, a, (fst (f a)).
  split; [reflexivity|]. split; [rewrite <- H2; apply surjective_pairing|]. congruence.
Qed.
Lemma outs_ok L v : good L -> valid L v = true -> all_out_edges L v = Ok (outs L v).
Proof. intros G Hv. unfold outs. now rewrite (all_out_form _ _ G Hv). Qed.
Lemma out_any L v : good L -> valid L v = true -> out_edges v (mask_const true) L = (L, Ok (outs L v)).
Proof. intros G Hv. unfold out_edges. rewrite Hv. cbn [negb any mask_const]. unfold ask. now rewrite (outs_ok _ _ G Hv). Qed.
Lemma target_valid L d u : good L -> tidy L -> is_edge L d -> target L d = Ok u -> valid L u = true.
Proof.
  intros G T He Eu. destruct d as [p|e]; cbn [target] in Eu.
  - injection Eu as <-. cbn. apply Nat.leb_le. now apply (g_bits _ G).
  - destruct (nth_error (edges L) e) as [ed|] eqn:Ee; [|discriminate]. injection Eu as <-. apply (g_names _ G). now apply (g_edges _ G _ _ Ee).
Qed.
Lemma linear_visits L c (G : good L) (T : tidy L) : forall n v s es s', valid L v = true -> steady c s -> visit_linear L c n v s = (es, Ok s') ->
  exists vs, first_walk L v vs /\ (forall x, In x vs -> valid L x = true) /\ visit_all L c vs s = (es, Ok s').
Proof.
  induction n as [|n IH]; intros v s es s' Hv Hs E; cbn [visit_linear] in E; [discriminate|].
  apply next_inv in E as [es1 [s1 [es2 [E1 [E2 ->]]]]]. unfold first_out_edge, bind in E2. rewrite (out_any _ _ G Hv) in E2.
  destruct (visit_spec L c G T v s Hv Hs) as [x1 [x2 [X [_ [S1 _]]]]]. rewrite E1 in X. apply pair_equal_spec in X as [X1 X2]. injection X2 as <-. clear X1.
  destruct (outs L v) as [|d ds] eqn:Eo; cbn [first throw ret snd] in E2.
  - apply pair_equal_spec in E2 as [<- E2]. injection E2 as <-. exists [v]. split; [now constructor|]. split; [intros x [<-|[]]; assumption|].
    cbn [visit_all]. rewrite E1. cbn. now rewrite app_nil_r.
  - apply next_inv in E2 as [es3 [u [es4 [E3 [E4 ->]]]]]. apply pair_equal_spec in E3 as [<- Eu].
    assert (He : is_edge L d).
    { destruct (all_out_spec _ _ _ G (outs_ok _ _ G Hv)) as [_ M]. apply M. rewrite Eo. now left. }
    destruct (IH u s1 es4 s' (target_valid _ _ _ G T He Eu) S1 E4) as [vs [F [Vv E5]]]. exists (v :: vs). split; [econstructor; eassumption|]. split; [intros x [<-|Hx]; auto|].
    cbn [visit_all]. rewrite E1, next_ok, E5. reflexivity.
Qed.
Lemma vertices_valid topo L vs : sorts topo -> careful_program L -> vertices topo true L = Ok vs -> forall v, In v vs -> valid L v = true.
Proof. intros Ht HL E v Hv. destruct (vertices_cover topo L vs Ht HL E) as [_ [V _]]. now apply V. Qed.
Lemma write_spec topo L c n es : sorts topo -> careful_program L -> write topo L c n = (es, Ok tt) ->
  exists vs s es1 es2, visited topo L c vs /\ (forall v, In v vs -> valid L v = true) /\ visit_all L c vs (initial_state c) = (es1, Ok s) /\ close_all (targets s) = (es2, Ok tt) /\ es = es1 ++ es2.
Proof.
  intros Ht HL E. destruct (careful_tidy _ HL) as [G T]. unfold write in E. apply next_inv in E as [x1 [vs [x2 [E1 [E ->]]]]]. apply pair_equal_spec in E1 as [<- E1].
  apply next_inv in E as [x3 [v [x4 [E2 [E ->]]]]]. apply pair_equal_spec in E2 as [<- E2]. apply next_inv in E as [x5 [s [x6 [E3 [E ->]]]]]. cbn [app].
  unfold visited. destruct (linear c).
  - assert (Hv : valid L v = true).
    { unfold get_first_vertex, bind, ask in E2. destruct (all_in_edges L (Text 0)) as [[|d l]|e|]; try discriminate; [injection E2 as <-; reflexivity|].
      rewrite E1 in E2. destruct vs as [|w vs]; [discriminate|]. cbn [snd ret] in E2. injection E2 as <-. eapply vertices_valid; try eassumption. now left. }
    destruct (linear_visits L c G T n v (initial_state c) x5 s Hv (initial_steady c) E3) as [ws [F [Vv E4]]]. exists ws, s, x5, x6. split; [eauto|]. auto.
  - exists vs, s, x5, x6. split; [assumption|]. split; [eapply vertices_valid; eassumption|]. auto.
Qed.
Lemma initial_track c : on_track (initial_state c).
Proof. intros t. now right. Qed.

(** * C43 *)
(** The elements: for every visited vertex (once a group is open, if there are groups) one
    alternative with its elements, unless there are none. *)
Theorem C43_elements topo L c n es : sorts topo -> careful_program L -> write topo L c n = (es, Ok tt) ->
  exists vs es', visited topo L c vs /\ es = es' ++ [Flush] /\
    written (filter (fun l => negb (is_nil l)) (map (elements L c) (printed L c vs))) es'.
Proof.
  intros Ht HL E. destruct (careful_tidy _ HL) as [G T]. destruct (write_spec topo L c n es Ht HL E) as [vs [s [es1 [es2 [V1 [V2 [V3 [V4 ->]]]]]]]].
  destruct (visit_all_spec L c G T vs _ V2 (initial_steady c) (initial_track c)) as [x1 [x2 [X [_ [_ [W _]]]]]]. rewrite V3 in X. apply pair_equal_spec in X as [<- _].
  destruct (close_all_spec (targets s)) as [es3 [E3 [O3 _]]]. rewrite V4 in E3. apply pair_equal_spec in E3 as [-> _].
  exists vs, (es1 ++ es3). split; [assumption|]. split; [apply app_assoc|].
  rewrite <- (alternatives_spec L c vs). assert (Ep : is_nil (handled c) = print_elements c (initial_state c)).
  { unfold print_elements, initial_state. destruct (handled c) as [|x l]; [reflexivity|]. cbn. induction l; [reflexivity|assumption]. }
  rewrite Ep, <- (app_nil_r (alternatives _ _ _ _)). apply W. rewrite <- (app_nil_r es3). apply written_groups; [assumption|constructor].
Qed.
Print Assumptions C43_elements.
(** The groups of a tag: opened and closed in turn, as often as edges with the tag follow
    one another from the start; a group that was never opened is closed once if there are
    such edges elsewhere. *)
Theorem C43_groups topo L c n es : sorts topo -> careful_program L -> write topo L c n = (es, Ok tt) ->
  exists vs, visited topo L c vs /\
    forall t,
      (~ In t (handled c) -> group t es = []) /\
      (In t (handled c) ->
        (~ carried L vs t -> group t es = []) /\
        (carried L vs t -> ~ carried L (filter (vertex_eqb (Text 0)) vs) t -> group t es = [false]) /\
        (carried L (filter (vertex_eqb (Text 0)) vs) t -> exists k, 1 <= k /\ group t es = pairs k)).
Proof.
  intros Ht HL E. destruct (careful_tidy _ HL) as [G T]. destruct (write_spec topo L c n es Ht HL E) as [vs [s [es1 [es2 [V1 [V2 [V3 [V4 ->]]]]]]]].
  destruct (visit_all_spec L c G T vs _ V2 (initial_steady c) (initial_track c)) as [x1 [x2 [X [S1 [_ [_ V]]]]]]. rewrite V3 in X. apply pair_equal_spec in X as [<- X]. injection X as <-.
  destruct (close_all_spec (targets s)) as [es3 [E3 [O3 G3]]]. rewrite V4 in E3. apply pair_equal_spec in E3 as [-> _].
  exists vs. split; [assumption|]. intros t. specialize (V t). specialize (G3 t). rewrite group_app, G3; [|apply (L_OrdSet.increasing_nodup _ str_ltb_strict), S1]. clear G3.
  assert (Es : forall A (a b : A), match find_key t (targets s) with Some _ => a | None => b end = if seen (view_of t s) then a else b).
  { intros A a b. unfold view_of. cbn [seen]. destruct (find_key t (targets s)); reflexivity. }
  rewrite (Es (list bool)). clear Es. unfold marks in V. change (view_of t (initial_state c)) with (View false (Text 0) false) in V.
  split; intros Hm.
  - destruct (memb t (handled c)) eqn:Em; [apply memb_spec in Em; contradiction|]. apply pair_equal_spec in V as [-> ->]. reflexivity.
  - apply memb_spec in Hm. rewrite Hm in V. rewrite (surjective_pairing (tag_run _ _)) in V. apply pair_equal_spec in V as [-> ->]. set (l := edges_from L t vs).
    destruct (tag_events l (View false (Text 0) false)) as [k [K1 [_ K2]]]. cbn [is_open app] in K1. specialize (K2 eq_refl).
    destruct (tag_open l (View false (Text 0) false) (or_intror eq_refl)) as [K3 _]. cbn [is_open orb] in K3. rewrite tag_seen. cbn [seen orb].
    assert (C1 : forall ws, carried L ws t <-> edges_from L t ws <> []).
    { intros ws. split.
      - intros [v [d [H1 [H2 [H3 H4]]]]] K. assert (J : In (v, tgt L d) (edges_from L t ws)); [|rewrite K in J; destruct J].
        apply in_flat_map. exists v. split; [assumption|]. apply in_map_iff. exists d. split; [reflexivity|]. apply filter_In. now rewrite H3, H4.
      - intros H. destruct (edges_from L t ws) as [|e r] eqn:Ee; [congruence|]. assert (J : In e (edges_from L t ws)) by (rewrite Ee; now left).
        apply in_flat_map in J as [v [J1 J2]]. apply in_map_iff in J2 as [d [_ J2]]. apply filter_In in J2 as [J2 J3]. apply andb_true_iff in J3 as [J3 J4]. now exists v, d. }
    assert (C2 : carried L (filter (vertex_eqb (Text 0)) vs) t <-> existsb (fun e => vertex_eqb (fst e) (Text 0)) l = true).
    { rewrite existsb_exists. split.
      - intros [v [d [H1 [H2 [H3 H4]]]]]. apply filter_In in H1 as [H1 H0]. apply vertex_eqb_spec in H0. subst v. exists (Text 0, tgt L d). split; [|reflexivity].
        apply in_flat_map. exists (Text 0). split; [assumption|]. apply in_map_iff. exists d. split; [reflexivity|]. apply filter_In. now rewrite H3, H4.
      - intros [e [J J0]]. apply in_flat_map in J as [v [J1 J2]]. apply in_map_iff in J2 as [d [<- J2]]. apply filter_In in J2 as [J2 J3]. apply andb_true_iff in J3 as [J3 J4].
        cbn [fst] in J0. exists v, d. split; [|auto]. apply filter_In. split; [assumption|]. apply vertex_eqb_spec in J0. now subst. }
    rewrite (C1 vs), C2. fold l. split; [|split].
    + intros H. destruct l as [|e r]; [reflexivity|]. destruct H. discriminate.
    + intros H1 H2. assert (Ek : existsb (fun e => vertex_eqb (fst e) (Text 0)) l = false) by (destruct (existsb _ l); [now destruct H2|reflexivity]).
      rewrite K3, Ek in K1, K2. rewrite app_nil_r in K1. destruct k; [|discriminate]. cbn in K1. rewrite K1. destruct l; [congruence|reflexivity].
    + intros H. rewrite K3, H in K1, K2. exists k. split; [destruct k; [discriminate|lia]|]. rewrite <- K1. destruct l; [discriminate|reflexivity].
Qed.
Print Assumptions C43_groups.

(** However the run ends, the calls up to then can be completed to well-bracketed ones. *)
Definition fits {A} (m : out A) : Prop :=
  match snd m with Ok _ => exists a, written a (fst m) | _ => exists a r, written a (fst m ++ r) end.
Lemma written_app a a' x y : written a x -> written a' y -> written (a ++ a') (x ++ y).
Proof.
  intros H Hy. induction H as [|t a r H IH|t a r H IH|is a r Hn H IH]; cbn [app]; [assumption|now constructor|now constructor|].
  rewrite <- app_assoc. now constructor.
Qed.
Lemma fits_next {A B} (m : out A) (f : A -> out B) : fits m -> (forall a, snd m = Ok a -> fits (f a)) -> fits (next_out m f).
Proof.
  destruct m as [es [a|e|]]; cbn; intros Hm Hf; [|exact Hm|exact Hm]. destruct Hm as [x Hx]. specialize (Hf a eq_refl). unfold fits in *. cbn [snd fst].
  destruct (snd (f a)).
  - destruct Hf as [y Hy]. exists (x ++ y). now apply written_app.
  - destruct Hf as [y [r Hy]]. exists (x ++ y), r. rewrite <- app_assoc. now apply written_app.
  - destruct Hf as [y [r Hy]]. exists (x ++ y), r. rewrite <- app_assoc. now apply written_app.
Qed.
Lemma fits_need {A} (r : res A) : fits (need r).
Proof. unfold fits. destruct r; cbn; [exists []|exists [], []|exists [], []]; constructor. Qed.
Lemma fits_done {A} (a : A) : fits (done a).
Proof. exists []. constructor. Qed.
Lemma fits_open t : fits (put (OpenGroup t)).
Proof. exists []. repeat constructor. Qed.
Lemma fits_close t : fits (put (CloseGroup t)).
Proof. exists []. repeat constructor. Qed.
Lemma next_assoc {A B C} (m : out A) (f : A -> out B) (g : B -> out C) : next_out (next_out m f) g = next_out m (fun a => next_out (f a) g).
Proof.
  destruct m as [es [a|e|]]; cbn; [|reflexivity|reflexivity]. destruct (f a) as [es' [b|e|]]; cbn; [|reflexivity|reflexivity].
  now rewrite app_assoc.
Qed.
(** The elements of one alternative: [o] tells whether it is open before. *)
Lemma print_edges_fits L c p : forall q o,
  match print_edges L c p q o with
  | (es, Ok o') => exists is, es = (if o then [] else if o' then [OpenAlternative] else []) ++ map PutElement is /\
                     (if o then o' = true else o' = negb (is_nil is))
  | (es, _) => exists is (b : bool), es = (if b then [OpenAlternative] else []) ++ map PutElement is /\ (if o then b = false else b = false -> is = [])
  end.
Proof.
  induction q as [|d q IH]; intros o; cbn [print_edges].
  - cbn. exists []. split; [destruct o; reflexivity|destruct o; reflexivity].
  - destruct p; cbn [next_out done put need fst snd app].
    + destruct (annotation_item L d) as [i|e|] eqn:Ei.
      2, 3: destruct o; cbn; exists []; [exists false|exists true]; split; try reflexivity; discriminate.
      assert (J : forall o' : bool, next_out (next_out (if o' then done tt else put OpenAlternative) (fun _ : unit => next_out (need (Ok i)) (fun i => next_out (put (PutElement i)) (fun _ : unit => done true))))
        (fun o' => if no_alts c then done o' else print_edges L c true q o') =
        ((if o' then [] else [OpenAlternative]) ++ [PutElement i] ++ fst (if no_alts c then done true else print_edges L c true q true), snd (if no_alts c then done true else print_edges L c true q true))).
      { intros [|]; reflexivity. }
      rewrite J. clear J. destruct (no_alts c).
      * cbn. exists [i]. destruct o; split; reflexivity.
      * specialize (IH true). destruct (print_edges L c true q true) as [es [o'|e|]]; cbn [fst snd].
        -- destruct IH as [is [-> ->]]. exists (i :: is). destruct o; split; reflexivity.
        -- destruct IH as [is [b [-> ->]]]. exists (i :: is), (negb o). destruct o; split; try reflexivity; discriminate.
        -- destruct IH as [is [b [-> ->]]]. exists (i :: is), (negb o). destruct o; split; try reflexivity; discriminate.
    + destruct (no_alts c).
      * cbn. exists []. destruct o; split; reflexivity.
      * specialize (IH o). destruct (print_edges L c false q o) as [es [o'|e|]]; exact IH.
Qed.
Lemma alternative_fits L c p q : fits (next_out (print_edges L c p q false) (fun o => if o then put CloseAlternative else done tt)).
Proof.
  pose proof (print_edges_fits L c p q false) as H. destruct (print_edges L c p q false) as [es [o'|e|]]; cbn [next_out].
  - destruct H as [is [-> ->]]. destruct is as [|i is]; unfold fits; cbn -[map]; [exists []; constructor|]. exists [i :: is]. apply (W_alt (i :: is)); [discriminate|constructor].
  - destruct H as [is [b [-> Hb]]]. unfold fits. cbn [fst snd]. destruct b.
    + exists [is ++ [M_Items.new_item [] []]], [PutElement (M_Items.new_item [] []); CloseAlternative]. cbn [app]. change [PutElement (M_Items.new_item [] []); CloseAlternative] with (map PutElement [M_Items.new_item [] []] ++ [CloseAlternative]).
      rewrite app_assoc, <- map_app. apply W_alt; [now destruct is|constructor].
    + rewrite (Hb eq_refl). exists [], []. constructor.
  - destruct H as [is [b [-> Hb]]]. unfold fits. cbn [fst snd]. destruct b.
    + exists [is ++ [M_Items.new_item [] []]], [PutElement (M_Items.new_item [] []); CloseAlternative]. cbn [app]. change [PutElement (M_Items.new_item [] []); CloseAlternative] with (map PutElement [M_Items.new_item [] []] ++ [CloseAlternative]).
      rewrite app_assoc, <- map_app. apply W_alt; [now destruct is|constructor].
    + rewrite (Hb eq_refl). exists [], []. constructor.
Qed.
Lemma all_tags_fits L c v w d ts : forall s, fits (all_tags L c v w d s ts).
Proof.
  induction ts as [|t ts IH]; intros s; cbn [all_tags]; [apply fits_done|]. apply fits_next; [|auto]. unfold one_tag.
  destruct (memb t (handled c)); [|apply fits_done]. cbv zeta. destruct (vertex_eqb _ v); [|apply fits_done].
  apply fits_next; [apply fits_need|]. intros u _. apply fits_next; [destruct (memb t (opened s)); [apply fits_close|apply fits_done]|].
  intros _ _. apply fits_next; [apply fits_open|]. intros. apply fits_done.
Qed.
Lemma gather_fits L c v ds : forall q s, fits (gather L c v ds q s).
Proof.
  induction ds as [|d ds IH]; intros q s; cbn [gather]; [apply fits_done|]. destruct (is_discarded L d); [auto|].
  apply fits_next; [apply fits_need|]. intros ns _. apply fits_next; [apply fits_need|]. intros w _. apply fits_next; [apply all_tags_fits|]. auto.
Qed.
Lemma visit_fits L c v s : fits (visit L c v s).
Proof.
  unfold visit. apply fits_next; [apply fits_need|]. intros ds _. apply fits_next; [apply gather_fits|]. intros x _. cbv zeta.
  destruct (if is_nil (fallback c) then _ else _) as [q qs]. rewrite <- next_assoc. apply fits_next; [apply alternative_fits|]. intros. apply fits_done.
Qed.
Lemma visit_all_fits L c vs : forall s, fits (visit_all L c vs s).
Proof. induction vs as [|v vs IH]; intros s; cbn [visit_all]; [apply fits_done|]. apply fits_next; [apply visit_fits|auto]. Qed.
Lemma visit_linear_fits L c n : forall v s, fits (visit_linear L c n v s).
Proof.
  induction n as [|n IH]; intros v s; cbn [visit_linear]; [apply fits_need|]. apply fits_next; [apply visit_fits|]. intros s' _.
  destruct (snd (first_out_edge v (mask_const true) L)) as [d|[]|]; try apply fits_need; try apply fits_done.
  apply fits_next; [apply fits_need|auto].
Qed.
Theorem C43_brackets topo L c n :
  match write topo L c n with
  | (es, Ok _) => exists a es', es = es' ++ [Flush] /\ written a es'
  | (es, _) => exists a r, written a (es ++ r)
  end.
Proof.
  unfold write. destruct (vertices topo true L) as [vs|e|]; cbn [need next_out app fst snd]; [|exists [], []; constructor|exists [], []; constructor].
  destruct (snd (get_first_vertex topo L)) as [v|e|]; cbn [next_out app fst snd]; [|exists [], []; constructor|exists [], []; constructor].
  set (m := if linear c then _ else _). assert (F : fits m) by (subst m; destruct (linear c); [apply visit_linear_fits|apply visit_all_fits]).
  destruct m as [es [s|e|]]; cbn [next_out]; [|exact F|exact F]. destruct F as [a Ha]. destruct (close_all_spec (targets s)) as [es' [E [O _]]]. rewrite E.
  exists a, (es ++ es'). split; [apply app_assoc|]. rewrite <- (app_nil_r a). apply written_app; [assumption|]. rewrite <- (app_nil_r es'). apply written_groups; [assumption|constructor].
Qed.
Print Assumptions C43_brackets.

(** The run comes to an end: over all vertices whenever they can be put in order, and along
    the first edges if all vertices are places in the text. *)
Lemma first_vertex_ok topo L vs : sorts topo -> careful_program L -> vertices topo true L = Ok vs ->
  exists v, snd (get_first_vertex topo L) = Ok v /\ valid L v = true.
Proof.
  intros Ht HL E. destruct (careful_tidy _ HL) as [G T]. destruct (vertices_cover topo L vs Ht HL E) as [_ [V C]]. unfold get_first_vertex, bind, ask.
  destruct (all_in_edges L (Text 0)) as [l|e|] eqn:Ea.
  - destruct l as [|d l]; [exists (Text 0); split; reflexivity|]. rewrite E. destruct (all_in_spec _ _ _ G T (boundary_0 _ (t_text _ T) : place L (Text 0)) Ea) as [_ M].
    assert (Hd : In d (d :: l)) by now left. apply M in Hd as [He Hd]. pose proof (C d (Text 0) He (or_intror Hd)) as K. destruct vs as [|v vs]; [destruct K|].
    exists v. split; [reflexivity|]. apply V. now left.
  - destruct (all_in_form L (Text 0) G T eq_refl (boundary_0 _ (t_text _ T))) as [q [Eq _]]. congruence.
  - destruct (all_in_form L (Text 0) G T eq_refl (boundary_0 _ (t_text _ T))) as [q [Eq _]]. congruence.
Qed.
Lemma edge_onwards L d p : good L -> tidy L -> n_loose L = 0 -> is_edge L d -> source L d = Ok (Text p) -> exists q, target L d = Ok (Text q) /\ p < q <= length (text L).
Proof.
  intros G T H0 He Es. destruct d as [r|e]; cbn [source target] in *.
  - injection Es as ->. pose proof (symbol_len_pos L p). pose proof (g_bits _ G _ He). exists (p + symbol_len L p). split; [reflexivity|lia].
  - destruct (nth_error (edges L) e) as [ed|] eqn:Ee; [|discriminate]. injection Es as Es. destruct (g_edges _ G _ _ Ee) as [_ [K2 [K3 K4]]].
    apply (g_names _ G) in K2. destruct (e_to ed) as [q|k]; cbn [valid] in K2; [|apply Nat.ltb_lt in K2; lia]. apply Nat.leb_le in K2.
    exists q. split; [reflexivity|]. rewrite Es in K3, K4. cbn [reversed] in K4. apply Nat.ltb_ge in K4. assert (p <> q) by congruence. lia.
Qed.
Lemma linear_ends L c : good L -> tidy L -> n_loose L = 0 -> forall n p s, p <= length (text L) -> length (text L) < n + p -> steady c s ->
  exists es s', visit_linear L c n (Text p) s = (es, Ok s').
Proof.
  intros G T H0. induction n as [|n IH]; intros p s Hp Hn Hs; [lia|]. cbn [visit_linear].
  assert (Hv : valid L (Text p) = true) by now apply Nat.leb_le.
  destruct (visit_spec L c G T (Text p) s Hv Hs) as [e1 [s1 [E1 [_ [S1 _]]]]]. rewrite E1, next_ok.
  unfold first_out_edge, bind. rewrite (out_any _ _ G Hv). destruct (outs L (Text p)) as [|d ds] eqn:Eo; cbn [first throw ret snd fst].
  - eexists. exists s1. reflexivity.
  - destruct (all_out_spec _ _ _ G (outs_ok _ _ G Hv)) as [_ M]. assert (Hd : In d (outs L (Text p))) by (rewrite Eo; now left). apply M in Hd as [He Es].
    destruct (edge_onwards L d p G T H0 He Es) as [q [Et Hq]]. rewrite Et. destruct (IH q s1) as [es2 [s2 E2]]; [lia|lia|assumption|].
    cbn [need next_out app]. rewrite E2. eexists. exists s2. reflexivity.
Qed.
Theorem C43_total topo L c n vs : sorts topo -> careful_program L -> vertices topo true L = Ok vs ->
  (linear c = true -> n_loose L = 0 /\ length (text L) < n) -> exists es, write topo L c n = (es, Ok tt).
Proof.
  intros Ht HL E Hl. destruct (careful_tidy _ HL) as [G T]. destruct (first_vertex_ok topo L vs Ht HL E) as [v [Ev Vv]]. unfold write. rewrite E, Ev. cbn [need next_out app fst snd].
  assert (K : exists es s, (if linear c then visit_linear L c n v (initial_state c) else visit_all L c vs (initial_state c)) = (es, Ok s)).
  { destruct (linear c).
    - destruct (Hl eq_refl) as [H0 Hn]. destruct v as [p|k]; cbn [valid] in Vv; [apply Nat.leb_le in Vv|apply Nat.ltb_lt in Vv; lia].
      apply (linear_ends L c G T H0); [assumption|lia|apply initial_steady].
    - destruct (visit_all_spec L c G T vs _ (vertices_valid topo L vs Ht HL E) (initial_steady c) (initial_track c)) as [es [s [K _]]]. eauto. }
  destruct K as [es [s ->]]. destruct (close_all_spec (targets s)) as [es' [E' _]]. rewrite next_ok, E'. eexists. reflexivity.
Qed.
Print Assumptions C43_total.

(** How many groups there are: the edges with the tag are followed from the start of the
    text, at every vertex the first one. *)
Inductive followed (L : lattice) (t : str) : vertex -> nat -> Prop :=
  | Fo_end v : filter (fun d => kept L d && carries L t d) (outs L v) = [] -> followed L t v 0
  | Fo_step v d ds u k : filter (fun d => kept L d && carries L t d) (outs L v) = d :: ds -> target L d = Ok u -> followed L t u k -> followed L t v (S k).
Lemma stay l : forall w, (forall e, In e l -> fst e <> at_vertex w) -> at_vertex (fst (tag_run w l)) = at_vertex w /\ snd (tag_run w l) = [].
Proof.
  induction l as [|e l IH]; intros w H; [split; reflexivity|]. change (e :: l) with ([e] ++ l). rewrite tag_run_app. cbn [fst snd].
  change (tag_run w [e]) with (tag_step (w, []) e). cbn [tag_step]. destruct (vertex_eqb (at_vertex w) (fst e)) eqn:Ev.
  - apply vertex_eqb_spec in Ev. destruct (H e (or_introl eq_refl)). congruence.
  - cbn [fst snd app]. apply (IH (View true (at_vertex w) (is_open w))). intros x Hx. apply H. now right.
Qed.
Lemma opens_app a b : length (filter (fun b : bool => b) (a ++ b)) = length (filter (fun b => b) a) + length (filter (fun b => b) b).
Proof. now rewrite filter_app, app_length. Qed.
Lemma follow L t : good L -> tidy L -> n_loose L = 0 -> forall ps, (forall p, In p ps -> p <= length (text L)) ->
  StronglySorted lt ps -> forall w q, at_vertex w = Text q ->
  (counted L t (outs L (Text q)) <> [] -> In q ps) ->
  (forall p r, In p ps -> p < r -> counted L t (outs L (Text r)) <> [] -> In r ps) ->
  followed L t (Text q) (length (filter (fun b : bool => b) (snd (tag_run w (edges_from L t (map Text ps)))))).
Proof.
  intros G T H0. induction ps as [|p ps IH]; intros Hv Hs w q Hw Hq Hc.
  - cbn. constructor. fold (counted L t (outs L (Text q))). destruct (counted L t (outs L (Text q))); [reflexivity|]. now destruct Hq.
  - inversion Hs as [|? ? S1 S2]; subst. rewrite Forall_forall in S2. cbn [map]. unfold edges_from. cbn [flat_map]. fold (edges_from L t (map Text ps)).
    fold (counted L t (outs L (Text p))). rewrite tag_run_app. cbn [snd]. rewrite opens_app. set (l := map _ _).
    assert (Hl : forall e, In e l -> fst e = Text p) by (intros e He; apply in_map_iff in He as [d [<- _]]; reflexivity).
    assert (Hc' : forall p' r, In p' ps -> p' < r -> counted L t (outs L (Text r)) <> [] -> In r ps).
    { intros p' r H1 H2 H3. destruct (Hc p' r (or_intror H1) H2 H3) as [<-|K]; [|assumption]. specialize (S2 _ H1). lia. }
    destruct (Nat.eq_dec p q) as [->|Hn].
    + destruct (counted L t (outs L (Text q))) as [|d ds] eqn:Ec.
      * subst l. cbn [map]. change (tag_run w []) with (w, @nil bool). cbn [fst snd filter length Nat.add]. apply IH; try assumption; [intros; apply Hv; now right|]. rewrite Ec. congruence.
      * assert (Hd : In d (outs L (Text q)) /\ kept L d && carries L t d = true) by (apply (filter_In (fun d => kept L d && carries L t d)); fold (counted L t (outs L (Text q))); rewrite Ec; now left).
        destruct Hd as [Hd _]. assert (Vq : valid L (Text q) = true) by (apply Nat.leb_le, Hv; now left).
        destruct (all_out_spec _ _ _ G (outs_ok _ _ G Vq)) as [_ M]. apply M in Hd as [He Es].
        destruct (edge_onwards L d q G T H0 He Es) as [r [Et Hr]]. subst l. cbn [map] in *. set (l := map (fun d => (Text q, tgt L d)) ds) in *.
        change ((Text q, tgt L d) :: l) with ([(Text q, tgt L d)] ++ l). rewrite tag_run_app. cbn [fst snd]. change (tag_run w [(Text q, tgt L d)]) with (tag_step (w, []) (Text q, tgt L d)). cbn [tag_step fst snd].
        rewrite Hw. replace (vertex_eqb (Text q) (Text q)) with true by (symmetry; now apply vertex_eqb_spec). cbn [fst snd].
        assert (Eu : tgt L d = Text r) by (unfold tgt; now rewrite Et). rewrite Eu.
        destruct (stay l (View true (Text r) true)) as [K1 K2].
        { intros e He'. cbn [at_vertex]. rewrite (Hl e) by now right. intros [= J]. lia. }
        rewrite K2, app_nil_r. assert (K3 : length (filter (fun b : bool => b) ([] ++ (if is_open w then [false] else []) ++ [true])) = 1) by (destruct (is_open w); reflexivity).
        replace (length (filter (fun b : bool => b) _)) with 1 by (symmetry; exact K3). cbn [Nat.add].
        apply (Fo_step L t (Text q) d ds (Text r)); [exact Ec|assumption|]. apply IH; try assumption; [intros; apply Hv; now right|].
        intros Hne. destruct (Hc q r (or_introl eq_refl)) as [K|K]; [lia|assumption|lia|assumption].
    + destruct (stay l w) as [K1 K2]; [intros e He; rewrite (Hl e He), Hw; congruence|]. rewrite K2. cbn [filter length Nat.add].
      apply IH; try assumption; [intros; apply Hv; now right|congruence|]. intros Hne. destruct (Hq Hne); [lia|assumption].
Qed.
Theorem C43_follow topo L c n es t : sorts topo -> careful_program L -> n_loose L = 0 -> linear c = false -> In t (handled c) ->
  write topo L c n = (es, Ok tt) -> followed L t (Text 0) (length (filter (fun b : bool => b) (group t es))).
Proof.
  intros Ht HL H0 Hl Hm E. destruct (careful_tidy _ HL) as [G T]. destruct (write_spec topo L c n es Ht HL E) as [vs [s [es1 [es2 [V1 [V2 [V3 [V4 ->]]]]]]]].
  unfold visited in V1. rewrite Hl in V1. destruct (C42_text topo true L HL H0) as [ps [E1 [I1 M1]]]. rewrite V1 in E1. injection E1 as ->.
  destruct (visit_all_spec L c G T _ _ V2 (initial_steady c) (initial_track c)) as [x1 [x2 [X [_ [_ [_ V]]]]]]. rewrite V3 in X. apply pair_equal_spec in X as [<- X]. injection X as <-.
  specialize (V t). unfold marks in V. apply memb_spec in Hm. rewrite Hm in V. change (view_of t (initial_state c)) with (View false (Text 0) false) in V.
  rewrite (surjective_pairing (tag_run _ _)) in V. apply pair_equal_spec in V as [_ V]. rewrite group_app, opens_app.
  assert (Z : length (filter (fun b : bool => b) (group t es2)) = 0).
  { clear E. revert es2 V4. generalize (targets s). clear. intros ts. induction ts as [|[k v] ts IH]; intros es H; cbn [close_all] in H.
    - injection H as <-. reflexivity.
    - apply next_inv in H as [x1 [[] [x2 [H1 [H2 ->]]]]]. injection H1 as <-. rewrite group_app, opens_app, (IH _ H2). cbn. destruct (str_eqb t k); reflexivity. }
  rewrite Z, Nat.add_0_r, V.
  assert (U : forall r, counted L t (outs L (Text r)) <> [] -> In r ps).
  { intros r Hr. destruct (counted L t (outs L (Text r))) as [|d ds] eqn:Ec; [congruence|].
    assert (Hd : In d (outs L (Text r)) /\ kept L d && carries L t d = true) by (apply (filter_In (fun d => kept L d && carries L t d)); fold (counted L t (outs L (Text r))); rewrite Ec; now left).
    destruct Hd as [Hd _]. unfold outs in Hd. destruct (all_out_edges L (Text r)) as [l|e|] eqn:Ea; try destruct Hd. destruct (all_out_spec _ _ _ G Ea) as [_ M]. apply M in Hd as [He Es].
    destruct (vertices_cover topo L _ Ht HL V1) as [_ [_ C]]. pose proof (C d (Text r) He (or_introl Es)) as K. apply in_map_iff in K as [x [[= ->] K]]. exact K. }
  apply (follow L t G T H0); try assumption; [|reflexivity|auto|auto]. intros p Hp. assert (K : In (Text p) (map Text ps)) by now apply in_map. apply V2 in K. now apply Nat.leb_le in K.
Qed.
Print Assumptions C43_follow.

(** * Examples *)
Definition p_tag : str := [112]%Z.
Definition q_tag : str := [113]%Z.
Definition group_calls : list op :=
  [AppendString ex_text; AddSymbols (Text 0) (Text 4); TagCall (M_Tags.Create [p_tag; q_tag]);
   AddEdge (Text 0) (Text 1) (ex_item WORD [97]%Z) 8%N empty_sequence 5%Z (-1) (-1);
   AddEdge (Text 1) (Text 2) (ex_item WORD [98]%Z) 8%N empty_sequence 5%Z (-1) (-1);
   AddEdge (Text 0) (Text 2) (ex_item WORD [97; 98]%Z) 16%N empty_sequence 5%Z (-1) (-1)].
Definition group_lattice : lattice := after group_calls new_lattice.
Definition symbols_of (ts : list str) : config := Config false false true symbol_mask ts [].
Definition sym (s : str) : item := ex_item (39%Z :: s) s.
Definition one_of (is : list item) : list event := OpenAlternative :: map PutElement is ++ [CloseAlternative].
Example group_careful : careful_program group_lattice.
Proof. unfold group_lattice, group_calls. careful. Qed.
Example C43_example : write some_order group_lattice (symbols_of [p_tag]) 0 =
  ([OpenGroup p_tag] ++ one_of [sym [97]%Z] ++ [CloseGroup p_tag; OpenGroup p_tag] ++ one_of [sym [98]%Z] ++ one_of [sym [196; 133]%Z] ++ [CloseGroup p_tag; Flush], Ok tt).
Proof. vm_compute. reflexivity. Qed.
(** Words, and symbols where there is no word; along the first edges; one element each. *)
Example C43_example_fallback :
  let alts b := write some_order group_lattice (Config false b false (mask_of [24%N; 8%N; 16%N]) [] [p_tag; [115; 121; 109; 98; 111; 108]%Z]) 0 in
  alts false = (one_of [ex_item WORD [97]%Z; ex_item WORD [97; 98]%Z] ++ one_of [ex_item WORD [98]%Z] ++ one_of [sym [196; 133]%Z] ++ [Flush], Ok tt) /\
  alts true = (one_of [ex_item WORD [97]%Z] ++ one_of [ex_item WORD [98]%Z] ++ one_of [sym [196; 133]%Z] ++ [Flush], Ok tt) /\
  write some_order group_lattice (Config true true false symbol_mask [q_tag] []) 5 =
    ([OpenGroup q_tag] ++ one_of [sym [97]%Z] ++ one_of [sym [98]%Z] ++ one_of [sym [196; 133]%Z] ++ [CloseGroup q_tag; Flush], Ok tt).
Proof. repeat split; vm_compute; reflexivity. Qed.
Example C43_example_follow : followed group_lattice p_tag (Text 0) 2 /\ followed group_lattice q_tag (Text 0) 1.
Proof.
  split; repeat (eapply Fo_step; [vm_compute; reflexivity|vm_compute; reflexivity|]); apply Fo_end; vm_compute; reflexivity.
Qed.

(** * What does not hold *)
(** The group of a tag that no edge from the start of the text has is closed though it was
    never opened. *)
Definition late_calls : list op :=
  [AppendString ex_text; AddSymbols (Text 0) (Text 4); TagCall (M_Tags.Create [p_tag; q_tag]);
   AddEdge (Text 1) (Text 2) (ex_item WORD [98]%Z) 8%N empty_sequence 5%Z (-1) (-1)].
Definition late_lattice : lattice := after late_calls new_lattice.
Theorem C43_balance_refuted :
  ~ (forall topo L c n es t, sorts topo -> careful_program L -> write topo L c n = (es, Ok tt) -> exists k, group t es = pairs k).
Proof.
  intros H. assert (HL : careful_program late_lattice) by (unfold late_lattice, late_calls; careful).
  destruct (H some_order late_lattice (symbols_of [p_tag]) 0 [CloseGroup p_tag; Flush] p_tag some_order_sorts HL) as [k K]; [vm_compute; reflexivity|].
  destruct k; discriminate.
Qed.
Print Assumptions C43_balance_refuted.
(** Groups of different tags need not be nested. *)
Inductive nested : list event -> Prop :=
  | N_nil : nested []
  | N_group t a b : nested a -> nested b -> nested (OpenGroup t :: a ++ CloseGroup t :: b)
  | N_other e r : (forall t, e <> OpenGroup t /\ e <> CloseGroup t) -> nested r -> nested (e :: r).
Fixpoint stack_check (st : list str) (es : list event) : bool :=
  match es with
  | [] => is_nil st
  | OpenGroup t :: r => stack_check (t :: st) r
  | CloseGroup t :: r => match st with x :: st' => str_eqb t x && stack_check st' r | [] => false end
  | _ :: r => stack_check st r
  end.
Lemma nested_check es : nested es -> forall st r, stack_check st (es ++ r) = stack_check st r.
Proof.
  induction 1 as [|t a b Ha IHa Hb IHb|e r' He Hr IH]; intros st r; [reflexivity| |].
  - cbn [app stack_check]. rewrite <- app_assoc. rewrite IHa. cbn [app stack_check]. rewrite str_eqb_refl. apply IHb.
  - cbn [app]. destruct e as [t|t| | | |]; cbn [stack_check]; try apply IH; destruct (He t) as [K1 K2]; congruence.
Qed.
Theorem C43_nesting_refuted :
  ~ (forall topo L c n es, sorts topo -> careful_program L -> write topo L c n = (es, Ok tt) ->
       (forall t, exists k, group t es = pairs k) -> nested es).
Proof.
  intros H. set (es := fst (write some_order group_lattice (symbols_of [p_tag; q_tag]) 0)).
  assert (N : nested es).
  { apply (H some_order group_lattice (symbols_of [p_tag; q_tag]) 0 es some_order_sorts group_careful); [vm_compute; reflexivity|]. intros t.
    destruct (str_eqb t p_tag) eqn:Ep; [exists 2; apply str_eqb_spec in Ep; subst; vm_compute; reflexivity|].
    destruct (str_eqb t q_tag) eqn:Eq; [exists 1; apply str_eqb_spec in Eq; subst; vm_compute; reflexivity|]. exists 0.
    assert (Ees : es = OpenGroup p_tag :: OpenGroup q_tag :: one_of [sym [97]%Z] ++ CloseGroup p_tag :: OpenGroup p_tag :: one_of [sym [98]%Z] ++ one_of [sym [196; 133]%Z] ++ [CloseGroup p_tag; CloseGroup q_tag; Flush]) by (vm_compute; reflexivity).
    rewrite Ees. cbn [group flat_map one_of map app]. rewrite Ep, Eq. reflexivity. }
  pose proof (nested_check es N [] []) as K. rewrite app_nil_r in K. vm_compute in K. discriminate.
Qed.
Print Assumptions C43_nesting_refuted.
(** Elements after the end of the last edge with a handled tag are put out as well, inside
    the group that is still open. *)
Theorem C43_inside_refuted :
  ~ (forall topo L c n es vs a p, sorts topo -> careful_program L -> write topo L c n = (es, Ok tt) -> visited topo L c vs -> handled c = [a] ->
       In (Text p) (printed L c vs) -> elements L c (Text p) <> [] ->
       exists d i j, is_edge L d /\ carries L a d = true /\ source L d = Ok (Text i) /\ target L d = Ok (Text j) /\ i <= p < j).
Proof.
  intros H. set (es := fst (write some_order group_lattice (symbols_of [q_tag]) 0)).
  destruct (H some_order group_lattice (symbols_of [q_tag]) 0 es [Text 0; Text 1; Text 2; Text 4] q_tag 2 some_order_sorts group_careful) as [d [i [j [K1 [K2 [K3 [K4 K5]]]]]]];
    try (vm_compute; reflexivity).
  - vm_compute. tauto.
  - vm_compute. discriminate.
  - destruct d as [r|e].
    + unfold carries in K2. assert (Ei : index (names (tags group_lattice)) q_tag = Some 4) by (vm_compute; reflexivity). rewrite Ei in K2. vm_compute in K2. discriminate K2.
    + do 3 (destruct e as [|e]; [vm_compute in K2, K3, K4; try discriminate K2; injection K4 as <-; lia|]).
      assert (En : length (edges group_lattice) = 3) by (vm_compute; reflexivity). unfold is_edge in K1. rewrite En in K1. lia.
Qed.
Print Assumptions C43_inside_refuted.

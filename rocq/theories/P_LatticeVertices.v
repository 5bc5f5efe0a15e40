(** C42: what the iteration over vertices visits. *)
From Coq Require Import ZArith List Bool Lia Permutation Sorted.
From Verif Require Import M_Utf8 S_Utf8 L_Utf8 M_Tags M_Items M_Cutter M_Lattice P_Tags P_Cutter L_Lattice S_Lattice L_LatticeOps L_LatticeTidy.
From Verif Require Import P_Lattice M_LatticeWalk L_LatticeNodes P_LatticeWalk.
Import ListNotations.
Local Open Scope nat_scope.

(** * Specification *)
(** A text position where an edge begins or ends. *)
Definition used (L : lattice) (p : nat) : Prop :=
  exists d, is_edge L d /\ (source L d = Ok (Text p) \/ target L d = Ok (Text p)).
(** a stands before b in l. *)
Inductive before {A} : list A -> A -> A -> Prop :=
  | B_here a b l : In b l -> before (a :: l) a b
  | B_next x a b l : before l a b -> before (x :: l) a b.
(** [v] can be reached from position [p] through loose vertices. *)
Inductive hangs (L : lattice) (p : nat) : vertex -> Prop :=
  | H_text : hangs L p (Text p)
  | H_loose e ed k : nth_error (edges L) e = Some ed -> e_to ed = Loose k -> hangs L p (e_from ed) -> hangs L p (Loose k).
(** The greatest such position, -1 if there is none. *)
Definition stands_at (L : lattice) (v : vertex) (z : Z) : Prop :=
  (z = (-1)%Z /\ (forall p, ~ hangs L p v)) \/
  (exists p, z = Z.of_nat p /\ hangs L p v /\ forall q, hangs L q v -> q <= p).
(** What boost::topological_sort promises. *)
Definition ordered {A} (E : list (A * A)) (l : list A) : Prop := forall a b, In (a, b) E -> before l a b.
Definition sorts {A} (topo : list A -> list (A * A) -> option (list A)) : Prop :=
  forall V E, NoDup V -> (forall a b, In (a, b) E -> In a V /\ In b V) ->
  match topo V E with
  | Some l => Permutation V l /\ ordered E l
  | None => ~ exists l, Permutation V l /\ ordered E l
  end.

(** * Without loose vertices *)
Lemma next_boundary T p q : boundary T p -> boundary T q -> p < q -> p + symbol_length T p <= q.
Proof.
  intros Hp Hq Hlt. pose proof (boundary_wf _ _ Hq) as [_ Hle]. destruct (char_at T p Hp) as [cp [rest [Hs [E [-> _]]]]]; [lia|].
  assert (W : well_formed (sub T p (q - p))) by (apply boundary_between; [assumption|now replace (p + (q - p)) with q by lia]).
  destruct W as [cps [Hc Ec]]. destruct cps as [|c cps].
  - apply (f_equal (@length Z)) in Ec. unfold sub in Ec. rewrite firstn_length, skipn_length in Ec. cbn in Ec. lia.
  - assert (K : skipn p T = enc c ++ (flat_map enc cps ++ skipn (q - p) (skipn p T))).
    { rewrite app_assoc. cbn [flat_map] in Ec. rewrite <- Ec. unfold sub. now rewrite firstn_skipn. }
    inversion Hc as [|? ? Hc1 Hc2]; subst. rewrite E in K. pose proof (next_enc _ rest Hs) as N. rewrite K, (next_enc _ _ Hc1) in N.
    injection N as -> _. apply (f_equal (@length Z)) in Ec. unfold sub in Ec. cbn [flat_map] in Ec. rewrite firstn_length, skipn_length, app_length in Ec. lia.
Qed.
Lemma node_used L p : good L -> noded L -> In (Text p) (names_of L) -> used L p.
Proof.
  intros G N H. destruct (N _ H) as [|[e [ed [E1 E2]]]]; [discriminate|]. exists (Explicit e). split.
  - cbn. apply nth_error_Some. congruence.
  - cbn. rewrite E1. destruct E2 as [->| ->]; auto.
Qed.
Lemma used_inv L p : good L -> used L p ->
  In (Text p) (names_of L) \/ bit (implicit L) p = true \/ exists q, bit (implicit L) q = true /\ q + symbol_len L q = p.
Proof.
  intros G [[q|e] [H1 H2]]; cbn in H1, H2.
  - destruct H2 as [[= ->]|[= E]]; eauto.
  - destruct (nth_error (edges L) e) as [ed|] eqn:E; [|apply nth_error_None in E; lia]. destruct (g_edges _ G _ _ E) as [K1 [K2 _]].
    left. destruct H2 as [[= <-]|[= <-]]; assumption.
Qed.
Lemma bit_in_text L p : good L -> bit (implicit L) p = true -> p < length (text L).
Proof. intros G H. pose proof (g_bits _ G _ H). pose proof (symbol_len_pos L p). lia. Qed.
Lemma skipped_spec skip L p : good L -> tidy L -> noded L -> boundary (text L) p ->
  exists b, should_be_skipped skip L p = Ok b /\ (b = false <-> skip = false \/ used L p).
Proof.
  intros G T N Hb. unfold should_be_skipped. destruct skip; cbn [negb]; [|exists false; tauto].
  destruct (find_node L (Text p)) as [n|] eqn:En.
  - exists false. split; [reflexivity|]. split; [|reflexivity]. intros _. right. apply node_used; try assumption. apply find_node_in. eauto.
  - apply find_node_none in En. destruct (bit (implicit L) p) eqn:Eb.
    + exists false. split; [reflexivity|]. split; [|reflexivity]. intros _. right. exists (Implicit p). cbn. auto.
    + destruct (Nat.eqb_spec p 0) as [->|Hp].
      * exists true. split; [reflexivity|]. split; [discriminate|]. intros [|U]; [discriminate|].
        destruct (used_inv _ _ G U) as [K|[K|[q [K1 K2]]]]; [tauto|congruence|]. pose proof (symbol_len_pos L q). lia.
      * destruct (prior_vertex_ok L p Hb) as [q [-> [Hq Eq]]]; [lia|]. exists (negb (bit (implicit L) q)). split; [reflexivity|].
        destruct (bit (implicit L) q) eqn:Ebq; cbn [negb].
        -- split; [|reflexivity]. intros _. right. exists (Implicit q). cbn. rewrite Eq. auto.
        -- split; [discriminate|]. intros [|U]; [discriminate|]. destruct (used_inv _ _ G U) as [K|[K|[q' [K1 K2]]]]; [tauto|congruence|].
           pose proof (bit_in_text _ _ G K1). pose proof (t_bits _ T _ K1) as Hq'. exfalso.
           destruct (Nat.lt_trichotomy q q') as [Hlt|[->|Hlt]]; [| congruence |].
           ++ pose proof (next_boundary _ _ _ Hq Hq' Hlt). unfold symbol_len in *. pose proof (symbol_len_pos L q'). unfold symbol_len in *. lia.
           ++ pose proof (next_boundary _ _ _ Hq' Hq Hlt). unfold symbol_len in *. pose proof (symbol_len_pos L q). unfold symbol_len in *. lia.
Qed.
Definition increasing := StronglySorted lt.
Lemma later L p q : boundary (text L) p -> p < length (text L) -> boundary (text L) q ->
  p <= q <-> q = p \/ p + symbol_len L p <= q.
Proof.
  intros H1 H2 H3. pose proof (symbol_len_pos L p). split; [|lia]. intros H4. destruct (Nat.eq_dec q p); [auto|]. right. apply next_boundary; try assumption. lia.
Qed.
Lemma text_vertices_spec skip L : good L -> tidy L -> noded L -> forall n p, boundary (text L) p -> length (text L) + 1 < n + p ->
  exists ps, text_vertices n skip L p = Ok (map Text ps) /\ increasing ps /\
    forall q, In q ps <-> p <= q /\ boundary (text L) q /\ (skip = false \/ used L q).
Proof.
  intros G T N. induction n as [|n IH]; intros p Hb Hn; pose proof (boundary_wf _ _ Hb) as [_ Hle]; [lia|].
  cbn [text_vertices]. destruct (Nat.leb_spec p (length (text L))); [|lia].
  destruct (skipped_spec skip L p G T N Hb) as [b [-> Hskip]].
  assert (K : exists ps, text_vertices n skip L (if p <? length (text L) then p + symbol_len L p else S p) = Ok (map Text ps) /\ increasing ps /\
      forall q, In q ps <-> p < q /\ boundary (text L) q /\ (skip = false \/ used L q)).
  { destruct (Nat.ltb_spec p (length (text L))) as [Hl|Hl].
    - pose proof (symbol_len_pos L p). destruct (IH (p + symbol_len L p)) as [ps [E1 [E2 E3]]].
      + apply boundary_step; [apply T|assumption|assumption].
      + lia.
      + exists ps. split; [assumption|]. split; [assumption|]. intros q. rewrite E3. split.
        * intros [A [B C]]. split; [lia|auto].
        * intros [A [B C]]. split; [|auto]. destruct (proj1 (later L p q Hb Hl B)); lia.
    - exists []. split; [|split; [constructor|]].
      + destruct n; cbn [text_vertices]; [reflexivity|]. destruct (Nat.leb_spec (S p) (length (text L))); [lia|reflexivity].
      + intros q. split; [intros []|]. intros [A [B _]]. apply boundary_wf in B. lia. }
  destruct K as [ps [-> [E2 E3]]]. destruct b.
  - exists ps. split; [reflexivity|]. split; [assumption|]. intros q. rewrite E3. split; [intros [A [B C]]; split; [lia|auto]|].
    intros [A [B C]]. split; [|auto]. destruct (Nat.eq_dec p q) as [<-|]; [|lia]. apply Hskip in C. discriminate.
  - exists (p :: ps). split; [reflexivity|]. split.
    + constructor; [assumption|]. apply Forall_forall. intros q Hq. now apply E3 in Hq.
    + intros q. cbn [In]. rewrite E3. split.
      * intros [<-|[A [B C]]]; [|split; [lia|auto]]. split; [lia|]. split; [assumption|]. now apply Hskip.
      * intros [A [B C]]. destruct (Nat.eq_dec p q) as [->|]; [auto|]. right. split; [lia|auto].
Qed.
Lemma other_vertices_spec skip L : good L -> tidy L -> noded L -> forall n p, boundary (text L) p -> length (text L) < n + p ->
  exists ps, other_vertices n skip L p = Ok ps /\ increasing ps /\
    forall q, In q ps <-> p <= q /\ boundary (text L) q /\ ~ In (Text q) (names_of L) /\ (skip = false \/ used L q \/ q = length (text L)).
Proof.
  intros G T N. induction n as [|n IH]; intros p Hb Hn; pose proof (boundary_wf _ _ Hb) as [_ Hle]; [lia|].
  cbn [other_vertices]. destruct (Nat.ltb_spec p (length (text L))) as [Hl|Hl].
  - assert (S : exists b, match find_node L (Text p) with Some _ => Ok true | None => should_be_skipped skip L p end = Ok b /\
                 (b = false <-> ~ In (Text p) (names_of L) /\ (skip = false \/ used L p))).
    { destruct (find_node L (Text p)) as [nd|] eqn:En.
      - exists true. split; [reflexivity|]. split; [discriminate|]. intros [A _]. destruct A. apply find_node_in. eauto.
      - destruct (skipped_spec skip L p G T N Hb) as [b [-> Hs]]. exists b. split; [reflexivity|]. apply find_node_none in En. tauto. }
    destruct S as [b [-> Hs]]. pose proof (symbol_len_pos L p). destruct (IH (p + symbol_len L p)) as [ps [-> [E2 E3]]].
    + apply boundary_step; [apply T|assumption|assumption].
    + lia.
    + destruct b.
      * exists ps. split; [reflexivity|]. split; [assumption|]. intros q. rewrite E3. split; [intros [A B]; split; [lia|auto]|].
        intros [A [B [C D]]]. split; [|auto]. destruct (proj1 (later L p q Hb Hl B) A) as [->|]; [|assumption].
        exfalso. assert (false = true); [|discriminate]. symmetry. apply Hs. split; [assumption|]. destruct D as [D|[D|D]]; [auto|auto|lia].
      * exists (p :: ps). split; [reflexivity|]. split.
        -- constructor; [assumption|]. apply Forall_forall. intros q Hq. apply E3 in Hq. lia.
        -- intros q. cbn [In]. rewrite E3. split.
           ++ intros [<-|[A B]]; [|split; [lia|auto]]. split; [lia|]. split; [assumption|]. apply proj1 in Hs. destruct (Hs eq_refl) as [A [B|B]]; auto.
           ++ intros [A [B [C D]]]. destruct (proj1 (later L p q Hb Hl B) A); auto.
  - assert (p = length (text L)) as -> by lia. destruct (find_node L (Text (length (text L)))) as [nd|] eqn:En.
    + exists []. split; [reflexivity|]. split; [constructor|]. intros q. split; [intros []|]. intros [A [B [C D]]].
      apply boundary_wf in B as [_ B]. assert (q = length (text L)) as -> by lia. apply C. apply find_node_in. eauto.
    + exists [length (text L)]. split; [reflexivity|]. split; [repeat constructor|]. apply find_node_none in En. intros q. cbn [In]. split.
      * intros [<-|[]]. repeat split; auto.
      * intros [A [B _]]. apply boundary_wf in B as [_ B]. left. lia.
Qed.

Lemma careful_is_program L : careful_program L -> lattice_of_program L.
Proof. induction 1 as [|L L' o r H IH Ha Ho E Hr]; [constructor|]. econstructor; eassumption. Qed.
(** Without loose vertices the positions between characters are visited from left to right,
    each once: all of them, or those where an edge begins or ends. *)
Theorem C42_text topo skip L : careful_program L -> n_loose L = 0 ->
  exists ps, vertices topo skip L = Ok (map Text ps) /\ increasing ps /\
    forall p, In p ps <-> boundary (text L) p /\ (skip = false \/ used L p).
Proof.
  intros H H0. assert (N : noded L) by now apply program_noded, careful_is_program.
  apply careful_tidy in H as [G T]. unfold vertices. rewrite H0. cbn [Nat.eqb].
  destruct (text_vertices_spec skip L G T N (S (S (length (text L)))) 0) as [ps [E1 [E2 E3]]].
  - apply boundary_0, T.
  - lia.
  - exists ps. split; [assumption|]. split; [assumption|]. intros p. rewrite E3. split; [tauto|]. intros H. split; [lia|assumption].
Qed.
Print Assumptions C42_text.

(** * With loose vertices *)
Lemma hangs_text L p q : hangs L p (Text q) -> p = q.
Proof. intros H. inversion H. reflexivity. Qed.
Lemma before_in {A} (l : list A) a b : before l a b -> In a l /\ In b l.
Proof. induction 1; cbn; tauto. Qed.
Lemma before_index {A} (l : list A) a b : before l a b -> NoDup l -> forall i, nth_error l i = Some b -> exists j, j < i /\ nth_error l j = Some a.
Proof.
  induction 1 as [a b l H|x a b l H IH]; intros Hd i Hi; inversion Hd as [|? ? D1 D2]; subst.
  - destruct i as [|i]; [injection Hi as ->; tauto|]. exists 0. split; [lia|reflexivity].
  - destruct i as [|i]; [injection Hi as ->; apply before_in in H; tauto|]. destruct (IH D2 i Hi) as [j [J1 J2]]. exists (S j). split; [lia|assumption].
Qed.
Lemma before_map {A B} (f : A -> B) l a b : before l a b -> before (map f l) (f a) (f b).
Proof. induction 1; cbn; [apply B_here; now apply in_map|now apply B_next]. Qed.
Lemma before_app {A} (l l' : list A) a b : before l a b -> before (l ++ l') a b.
Proof. induction 1; cbn; [apply B_here; apply in_app_iff; auto|now apply B_next]. Qed.
Lemma vertex_dec (a b : vertex) : {a = b} + {a <> b}.
Proof. decide equality; apply Nat.eq_dec. Qed.
Definition best_of (L : lattice) (es : list nat) (z0 z : Z) : Prop :=
  (z0 <= z)%Z /\ (forall e ed p, In e es -> nth_error (edges L) e = Some ed -> hangs L p (e_from ed) -> (Z.of_nat p <= z)%Z) /\
  (z = z0 \/ exists e ed p, In e es /\ nth_error (edges L) e = Some ed /\ hangs L p (e_from ed) /\ z = Z.of_nat p).
Lemma fold_places L n es : forall z0, (-1 <= z0)%Z ->
  (forall e, In e es -> exists ed z, nth_error (edges L) e = Some ed /\ place_of n L (e_from ed) = Some z /\ stands_at L (e_from ed) z) ->
  exists z, fold_left (fun m e => match nth_error (edges L) e with
                        | Some ed => max_place m (place_of n L (e_from ed))
                        | None => None
                        end) es (Some z0) = Some z /\ best_of L es z0 z.
Proof.
  induction es as [|e es IH]; intros z0 H0 H; cbn [fold_left].
  - exists z0. split; [reflexivity|]. split; [lia|]. split; [intros ? ? ? []|]. now left.
  - destruct (H e (or_introl eq_refl)) as [ed [z [E1 [E2 E3]]]]. rewrite E1, E2. cbn [max_place].
    set (z1 := if Z.ltb z0 z then z else z0). assert (Hz1 : (z0 <= z1 /\ z <= z1 /\ (z1 = z0 \/ z1 = z /\ z0 < z))%Z) by (unfold z1; destruct (Z.ltb_spec z0 z); lia).
    destruct (IH z1) as [z' [-> [B1 [B2 B3]]]]; [lia|intros; apply H; now right|]. exists z'. split; [reflexivity|]. split; [lia|]. split.
    + intros e' ed' p [<-|He'] K1 K2; [|now apply (B2 e' ed')]. rewrite E1 in K1. injection K1 as <-.
      destruct E3 as [[_ E3]|[q [-> [_ E3]]]]; [now destruct (E3 p)|]. apply E3 in K2. lia.
    + destruct B3 as [->|[e' [ed' [p [K1 [K2 [K3 K4]]]]]]]; [|right; exists e', ed', p; cbn; auto].
      destruct Hz1 as [_ [_ [->|[-> Hlt]]]]; [now left|]. right. destruct E3 as [[-> E3]|[q [-> [E3 _]]]]; [lia|].
      exists e, ed, q. cbn. auto.
Qed.
Lemma place_spec L order : NoDup order -> ordered (map (fun e => (e_from e, e_to e)) (edges L)) order ->
  forall n i v, nth_error order i = Some v -> i < n -> exists z, place_of n L v = Some z /\ stands_at L v z.
Proof.
  intros Hd Ho. induction n as [|n IH]; intros i v Hi Hn; [lia|]. destruct v as [p|k].
  - exists (Z.of_nat p). split; [reflexivity|]. right. exists p. split; [reflexivity|]. split; [constructor|]. intros q Hq. apply hangs_text in Hq. lia.
  - cbn [place_of]. destruct (fold_places L n (graph_in L (Loose k)) (-1)%Z) as [z [E [B1 [B2 B3]]]]; [lia| |].
    + intros e He. apply graph_in_spec in He as [ed [E1 E2]]. destruct (before_index order (e_from ed) (Loose k)) with (i := i) as [j [J1 J2]]; try assumption.
      { apply Ho. apply in_map_iff. exists ed. rewrite E2. split; [reflexivity|]. eapply nth_error_In, E1. }
      destruct (IH j _ J2) as [z [E3 E4]]; [lia|]. exists ed, z. auto.
    + exists z. split; [assumption|]. destruct B3 as [->|[e [ed [p [K1 [K2 [K3 ->]]]]]]].
      * left. split; [reflexivity|]. intros p H. inversion H as [|e ed k' K1 K2 K3]; subst.
        assert (K : In e (graph_in L (Loose k))) by (apply graph_in_spec; eauto). pose proof (B2 e ed p K K1 K3). lia.
      * right. exists p. split; [reflexivity|]. apply graph_in_spec in K1 as [ed' [K1 K4]]. rewrite K2 in K1. injection K1 as <-. split.
        -- eapply H_loose; eassumption.
        -- intros q H. inversion H as [|e' ed' k' Q1 Q2 Q3]; subst.
           assert (K : In e' (graph_in L (Loose k))) by (apply graph_in_spec; eauto). pose proof (B2 e' ed' q K Q1 Q3). lia.
Qed.
Lemma with_places_spec n L vs : (forall v, In v vs -> exists z, place_of n L v = Some z /\ stands_at L v z) ->
  exists l, with_places n L vs = Some l /\ map fst l = vs /\ Forall (fun x => stands_at L (fst x) (snd x)) l.
Proof.
  induction vs as [|v vs IH]; intros H; cbn [with_places]; [exists []; repeat split; constructor|].
  destruct (H v (or_introl eq_refl)) as [z [-> Hz]]. destruct IH as [l [-> [E1 E2]]]; [intros; apply H; now right|].
  exists ((v, z) :: l). cbn. rewrite E1. repeat split. now constructor.
Qed.
(** Sorting. *)
Lemma insert_perm x l : Permutation (x :: l) (insert_stable x l).
Proof.
  induction l as [|y l IH]; cbn; [reflexivity|]. destruct (Z.ltb _ _); [|reflexivity]. rewrite perm_swap. now constructor.
Qed.
Lemma sort_perm l : Permutation l (stable_sort l).
Proof. induction l as [|x l IH]; cbn; [reflexivity|]. rewrite <- insert_perm. now constructor. Qed.
Definition le2 (x y : vertex * Z) : Prop := (snd x <= snd y)%Z.
Lemma insert_sorted x l : StronglySorted le2 l -> StronglySorted le2 (insert_stable x l).
Proof.
  induction 1 as [|y l H IH Hf]; cbn; [repeat constructor|]. destruct (Z.ltb_spec (snd y) (snd x)).
  - constructor; [assumption|]. rewrite Forall_forall in *. intros w Hw.
    apply (Permutation_in w (Permutation_sym (insert_perm x l))) in Hw. destruct Hw as [<-|Hw]; [unfold le2; lia|auto].
  - constructor; [now constructor|]. constructor; [unfold le2; lia|]. rewrite Forall_forall in *. intros w Hw. specialize (Hf w Hw). unfold le2 in *. lia.
Qed.
Lemma sort_sorted l : StronglySorted le2 (stable_sort l).
Proof. induction l; cbn; [constructor|now apply insert_sorted]. Qed.
Lemma insert_before x l a b : before l a b -> before (insert_stable x l) a b.
Proof.
  induction 1 as [a b l H|y a b l H IH]; cbn.
  - destruct (Z.ltb _ _); [|apply B_next; now apply B_here]. apply B_here. apply (Permutation_in b (insert_perm x l)). now right.
  - destruct (Z.ltb _ _); [now apply B_next|]. now do 2 apply B_next.
Qed.
Lemma insert_first x l y : In y l -> (snd x <= snd y)%Z -> before (insert_stable x l) x y.
Proof.
  induction l as [|w l IH]; intros H1 H2; [destruct H1|]. cbn. destruct (Z.ltb_spec (snd w) (snd x)); [|now apply B_here].
  destruct H1 as [->|H1]; [lia|]. apply B_next. auto.
Qed.
Lemma sort_before l a b : before l a b -> (snd a <= snd b)%Z -> before (stable_sort l) a b.
Proof.
  induction 1 as [a b l H|x a b l H IH]; intros Hle; cbn.
  - apply insert_first; [|assumption]. now apply (Permutation_in b (sort_perm l)).
  - apply insert_before. auto.
Qed.
Lemma sorted_before l a b : StronglySorted le2 l -> before l a b -> (snd a <= snd b)%Z.
Proof.
  intros H. induction 1 as [a b l Hb|x a b l Hb IH]; inversion H as [|? ? H1 H2]; subst; [|auto].
  rewrite Forall_forall in H2. now apply H2.
Qed.
Lemma before_total {A} (l : list A) a b : In a l -> In b l -> a <> b -> before l a b \/ before l b a.
Proof.
  induction l as [|x l IH]; intros Ha Hb Hn; [destruct Ha|]. destruct Ha as [->|Ha], Hb as [->|Hb].
  - now destruct Hn.
  - left. now apply B_here.
  - right. now apply B_here.
  - destruct IH as [K|K]; auto; [left|right]; now apply B_next.
Qed.
Lemma before_map_inv {A B} (f : A -> B) l a b : before (map f l) a b -> exists x y, f x = a /\ f y = b /\ before l x y.
Proof.
  remember (map f l) as m. intros H. revert l Heqm. induction H as [a b m H|z a b m H IH]; intros [|x l]; intros E; try discriminate; injection E as -> ->.
  - apply in_map_iff in H as [y [<- Hy]]. exists x, y. repeat split. now apply B_here.
  - destruct (IH l eq_refl) as [u [v [<- [<- K]]]]. exists u, v. repeat split. now apply B_next.
Qed.
Lemma stands_unique L v z z' : stands_at L v z -> stands_at L v z' -> z = z'.
Proof.
  intros [[-> H]|[p [-> [H1 H2]]]] [[-> K]|[q [-> [K1 K2]]]]; [reflexivity|now destruct (H q)|now destruct (K p)|].
  apply H2 in K1 as H3. apply K2 in H1 as H4. lia.
Qed.
Lemma increasing_nodup l : increasing l -> NoDup l.
Proof.
  induction 1 as [|x l H IH Hf]; [constructor|]. constructor; [|assumption]. intros K. rewrite Forall_forall in Hf. specialize (Hf _ K). lia.
Qed.
Lemma nodup_app {A} (l l' : list A) : NoDup l -> NoDup l' -> (forall x, In x l -> ~ In x l') -> NoDup (l ++ l').
Proof.
  induction 1 as [|x l H1 H2 IH]; intros H3 H4; cbn; [assumption|]. constructor.
  - rewrite in_app_iff. intros [K|K]; [tauto|]. apply (H4 x); cbn; auto.
  - apply IH; [assumption|]. intros y Hy. apply H4. now right.
Qed.

(** With loose vertices: when the graph has no topological order, NotADag is thrown.
    Otherwise every loose vertex, and every used position and the end of the text is visited
    exactly once (with skip = false: every position between characters), ordered by the
    position from which it hangs; the source of an edge comes before its target unless the
    edge leads back to an earlier position. *)
Theorem C42_loose topo skip L : sorts topo -> careful_program L -> n_loose L <> 0 ->
  match vertices topo skip L with
  | Ok l =>
      NoDup l /\
      (forall v, In v l <-> match v with
                            | Loose k => k < n_loose L
                            | Text p => boundary (text L) p /\ (skip = false \/ used L p \/ p = length (text L))
                            end) /\
      (forall v, In v l -> exists z, stands_at L v z) /\
      (forall u v x y, before l u v -> stands_at L u x -> stands_at L v y -> (x <= y)%Z) /\
      (forall d u v x y, is_edge L d -> source L d = Ok u -> target L d = Ok v -> In u l -> In v l ->
         stands_at L u x -> stands_at L v y -> (x <= y)%Z -> before l u v)
  | Throw e => e = NotADag /\ ~ exists l, Permutation (names_of L) l /\ forall e ed, nth_error (edges L) e = Some ed -> before l (e_from ed) (e_to ed)
  | Undefined => False
  end.
Proof.
  intros Ht H H0. assert (N : noded L) by now apply program_noded, careful_is_program. apply careful_tidy in H as [G T].
  unfold vertices. destruct (Nat.eqb_spec (n_loose L) 0); [tauto|]. clear H0.
  set (E := map (fun e => (e_from e, e_to e)) (edges L)). fold (names_of L).
  assert (HE : forall a b, In (a, b) E <-> exists e ed, nth_error (edges L) e = Some ed /\ e_from ed = a /\ e_to ed = b).
  { intros a b. unfold E. rewrite in_map_iff. split.
    - intros [ed [[= <- <-] K]]. apply In_nth_error in K as [e K]. eauto 6.
    - intros [e [ed [K [<- <-]]]]. exists ed. split; [reflexivity|]. eapply nth_error_In, K. }
  specialize (Ht (names_of L) E (g_nodup _ G)). destruct (topo (names_of L) E) as [order|].
  2:{ split; [reflexivity|]. intros [l [P K]]. destruct Ht.
      - intros a b Hab. apply HE in Hab as [e [ed [K1 [<- <-]]]]. destruct (g_edges _ G _ _ K1); tauto.
      - exists l. split; [assumption|]. intros a b Hab. apply HE in Hab as [e [ed [K1 [<- <-]]]]. eauto. }
  destruct Ht as [P O]. { intros a b Hab. apply HE in Hab as [e [ed [K1 [<- <-]]]]. destruct (g_edges _ G _ _ K1); tauto. }
  assert (D : NoDup order) by (eapply Permutation_NoDup; [exact P|apply G]).
  destruct (with_places_spec (S (length (nodes L))) L order) as [c1 [-> [C1 C2]]].
  { intros v Hv. apply In_nth_error in Hv as [i Hi]. apply (place_spec L order D O _ i v Hi).
    assert (i < length order) by (apply nth_error_Some; congruence). rewrite <- (Permutation_length P) in *. unfold names_of in *. rewrite map_length in *. lia. }
  destruct (other_vertices_spec skip L G T N (S (S (length (text L)))) 0) as [ps [-> [E2 E3]]]; [apply boundary_0, T|lia|].
  set (rest := map (fun p => (Text p, Z.of_nat p)) ps). set (all := c1 ++ rest).
  assert (Hall : map fst all = order ++ map Text ps).
  { unfold all, rest. rewrite map_app, C1, map_map. reflexivity. }
  assert (Hst : Forall (fun x => stands_at L (fst x) (snd x)) all).
  { unfold all. apply Forall_app. split; [assumption|]. unfold rest. apply Forall_forall. intros x Hx. apply in_map_iff in Hx as [p [<- Hp]].
    cbn. right. exists p. split; [reflexivity|]. split; [constructor|]. intros q Hq. apply hangs_text in Hq. lia. }
  assert (Psort : Permutation (order ++ map Text ps) (map fst (stable_sort all))) by (rewrite <- Hall; apply Permutation_map, sort_perm).
  assert (Hst' : forall x, In x (stable_sort all) -> stands_at L (fst x) (snd x)).
  { intros x Hx. rewrite Forall_forall in Hst. apply Hst. eapply Permutation_in; [|exact Hx]. apply Permutation_sym, sort_perm. }
  assert (Hin : forall v, In v order <-> In v (names_of L)).
  { intros v. split; apply Permutation_in; [now apply Permutation_sym|assumption]. }
  assert (Dall : NoDup (map fst (stable_sort all))).
  { eapply Permutation_NoDup; [exact Psort|]. apply nodup_app; [assumption| |].
    - apply FinFun.Injective_map_NoDup; [intros a b [= ->]; reflexivity|now apply increasing_nodup].
    - intros x Hx K. apply in_map_iff in K as [p [<- Hp]]. apply E3 in Hp. apply Hin in Hx. tauto. }
  split; [exact Dall|]. split; [|split; [|split]].
  - intros v. transitivity (In v (order ++ map Text ps)).
    { split; apply Permutation_in; [now apply Permutation_sym|assumption]. }
    rewrite in_app_iff, Hin, in_map_iff. destruct v as [p|k].
    + split.
      * intros [K|[q [[= ->] K]]].
        -- split; [|right; left; now apply node_used]. destruct (N _ K) as [|[e [ed [K1 K2]]]]; [discriminate|].
           destruct (t_edges _ T _ _ K1) as [Q1 Q2]. destruct K2 as [K2|K2]; rewrite K2 in *; assumption.
        -- apply E3 in K. tauto.
      * intros [K1 K2]. destruct (in_dec vertex_dec (Text p) (names_of L)) as [K|K]; [now left|]. right. exists p. split; [reflexivity|].
        apply E3. split; [lia|]. tauto.
    + split; [|intros K; left; now apply (g_loose _ G)]. intros [K|[q [K _]]]; [|discriminate]. apply (g_names _ G) in K. cbn in K. now apply Nat.ltb_lt in K.
  - intros v Hv. apply in_map_iff in Hv as [[w z] [<- Hw]]. exists z. exact (Hst' _ Hw).
  - intros u v x y K Ku Kv. apply before_map_inv in K as [a [b [<- [<- K]]]]. pose proof (sorted_before _ _ _ (sort_sorted all) K) as Q.
    apply before_in in K as [K1 K2]. rewrite (stands_unique _ _ _ _ Ku (Hst' _ K1)), (stands_unique _ _ _ _ Kv (Hst' _ K2)). exact Q.
  - intros d u v x y Hd Hsrc Htgt Hu Hv Ku Kv Hle.
    apply in_map_iff in Hu as [a [<- Ha]]. apply in_map_iff in Hv as [b [<- Hb]].
    rewrite (stands_unique _ _ _ _ Ku (Hst' _ Ha)), (stands_unique _ _ _ _ Kv (Hst' _ Hb)) in Hle. apply before_map.
    destruct (Z.eq_dec (snd a) (snd b)) as [Heq|Hneq].
    + apply sort_before; [|lia]. unfold all. destruct d as [p|e].
      * exfalso. cbn in Hsrc, Htgt. injection Hsrc as Hsrc. injection Htgt as Htgt. pose proof (symbol_len_pos L p).
        pose proof (Hst' _ Ha) as S1. pose proof (Hst' _ Hb) as S2. rewrite <- Hsrc in S1. rewrite <- Htgt in S2.
        assert (S0 : forall q, stands_at L (Text q) (Z.of_nat q)) by (intros q; right; exists q; split; [reflexivity|]; split; [constructor|]; intros q' Hq'; apply hangs_text in Hq'; lia).
        rewrite (stands_unique _ _ _ _ S1 (S0 _)), (stands_unique _ _ _ _ S2 (S0 _)) in Heq. lia.
      * cbn in Hsrc, Htgt. destruct (nth_error (edges L) e) as [ed|] eqn:Ee; [|discriminate]. injection Hsrc as Hsrc. injection Htgt as Htgt.
        assert (K : before order (fst a) (fst b)) by (apply O, HE; eauto 6).
        apply before_app. rewrite <- C1 in K. apply before_map_inv in K as [a' [b' [A1 [B1 K]]]].
        apply before_in in K as K'. destruct K' as [K1 K2]. rewrite Forall_forall in C2.
        assert (a' = a). { destruct a, a'. cbn in A1. subst. f_equal. eapply stands_unique; [apply (C2 _ K1)|exact (Hst' _ Ha)]. }
        assert (b' = b). { destruct b, b'. cbn in B1. subst. f_equal. eapply stands_unique; [apply (C2 _ K2)|exact (Hst' _ Hb)]. }
        now subst.
    + destruct (before_total (stable_sort all) a b Ha Hb) as [K|K]; [intros ->; tauto|assumption|].
      pose proof (sorted_before _ _ _ (sort_sorted all) K). lia.
Qed.
Print Assumptions C42_loose.

(** A sort that keeps the promise: the first of the permutations that is in order. *)
Fixpoint inserts {A} (x : A) (l : list A) : list (list A) :=
  match l with [] => [[x]] | y :: l' => (x :: l) :: map (cons y) (inserts x l') end.
Fixpoint perms {A} (l : list A) : list (list A) :=
  match l with [] => [[]] | x :: l' => flat_map (inserts x) (perms l') end.
Fixpoint beforeb (l : list vertex) (a b : vertex) : bool :=
  match l with [] => false | x :: l' => vertex_eqb x a && existsb (vertex_eqb b) l' || beforeb l' a b end.
Definition some_order (V : list vertex) (E : list (vertex * vertex)) : option (list vertex) :=
  find (fun l => forallb (fun e => beforeb l (fst e) (snd e)) E) (perms V).
Lemma inserts_spec {A} (x : A) l m : In m (inserts x l) <-> exists a b, l = a ++ b /\ m = a ++ x :: b.
Proof.
  revert m. induction l as [|y l IH]; intros m; cbn [inserts].
  - split; [intros [<-|[]]; exists [], []; auto|]. intros [[|] [b [E1 E2]]]; [|discriminate]. cbn in *. subst. now left.
  - cbn [In]. rewrite in_map_iff. split.
    + intros [<-|[n [<- H]]]; [exists [], (y :: l); auto|]. apply IH in H as [a [b [-> ->]]]. exists (y :: a), b. auto.
    + intros [[|z a] [b [E1 E2]]]; cbn in E1, E2; [left; congruence|]. right. injection E1 as <- ->. exists (a ++ x :: b). split; [auto|]. apply IH. eauto.
Qed.
Lemma perms_spec {A} (l : list A) m : In m (perms l) <-> Permutation l m.
Proof.
  revert m. induction l as [|x l IH]; intros m; cbn [perms].
  - cbn. split; [intros [<-|[]]; constructor|]. intros H. apply Permutation_nil in H. auto.
  - rewrite in_flat_map. split.
    + intros [n [H1 H2]]. apply IH in H1. apply inserts_spec in H2 as [a [b [-> ->]]]. now apply Permutation_cons_app.
    + intros H. assert (K : In x m) by (eapply Permutation_in; [exact H|now left]). apply in_split in K as [a [b ->]].
      exists (a ++ b). split; [apply IH; eapply Permutation_cons_app_inv, H|]. apply inserts_spec. eauto.
Qed.
Lemma beforeb_spec l a b : beforeb l a b = true <-> before l a b.
Proof.
  induction l as [|x l IH]; cbn; [split; [discriminate|intros H; inversion H]|].
  rewrite orb_true_iff, andb_true_iff, vertex_eqb_spec, existsb_exists, IH. split.
  - intros [[-> [y [H1 H2]]]|H]; [|now apply B_next]. apply vertex_eqb_spec in H2. subst. now apply B_here.
  - intros H. inversion H; subst; [left|now right]. split; [reflexivity|]. exists b. split; [assumption|]. now apply vertex_eqb_spec.
Qed.
Example some_order_sorts : sorts some_order.
Proof.
  intros V E _ _. unfold some_order. destruct (find _ _) as [l|] eqn:F.
  - apply find_some in F as [F1 F2]. split; [now apply perms_spec|]. rewrite forallb_forall in F2. intros a b H. apply beforeb_spec. exact (F2 _ H).
  - intros [l [P O]]. apply find_none with (x := l) in F; [|now apply perms_spec]. apply not_true_iff_false in F. apply F.
    apply forallb_forall. intros [a b] H. apply beforeb_spec. now apply O.
Qed.
(** "ab\196\133": two loose vertices between 1 and 2, a third one alone, an edge back. *)
Definition loose_calls : list op :=
  [AppendString ex_text; AddSymbols (Text 0) (Text 1); AddLooseVertex; AddLooseVertex; AddLooseVertex;
   AddEdge (Text 1) (Loose 1) (ex_item WORD [98]%Z) 4%N empty_sequence 0%Z (-1)%Z (-1)%Z;
   AddEdge (Loose 1) (Loose 0) (ex_item WORD [98]%Z) 4%N empty_sequence 0%Z (-1)%Z (-1)%Z;
   AddEdge (Loose 0) (Text 2) (ex_item WORD [98]%Z) 4%N empty_sequence 0%Z (-1)%Z (-1)%Z].
Definition loose_lattice : lattice := after loose_calls new_lattice.
Example loose_careful : careful_program loose_lattice.
Proof. unfold loose_lattice, loose_calls. careful. Qed.
Example C42_example :
  n_loose loose_lattice = 3 /\
  vertices some_order true loose_lattice = Ok [Loose 2; Text 0; Text 1; Loose 1; Loose 0; Text 2; Text 4] /\
  vertices some_order true seq_lattice = Ok [Text 0; Text 1; Text 2; Text 4] /\
  n_loose seq_lattice = 0 /\ careful_program seq_lattice.
Proof. repeat split; try (vm_compute; reflexivity). apply seq_careful. Qed.
(** A cycle through loose vertices is refused. *)
Definition cycle_lattice : lattice :=
  after [AddEdge (Text 2) (Loose 2) (ex_item WORD [98]%Z) 4%N empty_sequence 0%Z (-1)%Z (-1)%Z;
         AddEdge (Loose 2) (Text 0) (ex_item WORD [98]%Z) 4%N empty_sequence 0%Z (-1)%Z (-1)%Z;
         AddEdge (Text 0) (Text 1) (ex_item WORD [98]%Z) 4%N empty_sequence 0%Z (-1)%Z (-1)%Z] loose_lattice.
Example C42_cycle : vertices some_order true cycle_lattice = Throw NotADag.
Proof. vm_compute. reflexivity. Qed.
(** The order is not topological when an edge leads from a loose vertex to an earlier
    position: here from what hangs at 2 to 0. *)
Definition back_calls : list op :=
  [AppendString ex_text; AddLooseVertex;
   AddEdge (Text 2) (Loose 0) (ex_item WORD [98]%Z) 4%N empty_sequence 0%Z (-1)%Z (-1)%Z;
   AddEdge (Loose 0) (Text 0) (ex_item WORD [98]%Z) 4%N empty_sequence 0%Z (-1)%Z (-1)%Z].
Definition back_lattice : lattice := after back_calls new_lattice.
Theorem C42_order_refuted :
  ~ (forall topo L l e ed, sorts topo -> careful_program L -> vertices topo true L = Ok l -> nth_error (edges L) e = Some ed ->
       before l (e_from ed) (e_to ed)).
Proof.
  intros H. assert (P : careful_program back_lattice) by (unfold back_lattice, back_calls; careful).
  pose (X := nth_error (edges back_lattice) 1). destruct X as [ed|] eqn:E; [|vm_compute in E; discriminate].
  specialize (H some_order back_lattice [Text 0; Text 2; Loose 0; Text 4] 1 ed some_order_sorts P).
  assert (K : before [Text 0; Text 2; Loose 0; Text 4] (e_from ed) (e_to ed)) by (apply H; [vm_compute; reflexivity|exact E]).
  apply beforeb_spec in K. vm_compute in E. injection E as <-. vm_compute in K. discriminate.
Qed.
Print Assumptions C42_order_refuted.
(** An edge that ends inside a character makes a vertex that is not visited. *)
Definition inside_calls : list op :=
  [AppendString ex_text; AddEdge (Text 0) (Text 3) (ex_item WORD [98]%Z) 4%N empty_sequence 0%Z (-1)%Z (-1)%Z].
Definition inside_lattice : lattice := after inside_calls new_lattice.
Theorem C42_inside_refuted :
  ~ (forall topo L l v, lattice_of_program L -> n_loose L = 0 -> vertices topo true L = Ok l -> In v (names_of L) -> In v l).
Proof.
  intros H. assert (P : lattice_of_program inside_lattice) by (unfold inside_lattice, inside_calls; program).
  assert (K : In (Text 3) [Text 0]).
  { apply (H some_order inside_lattice [Text 0] (Text 3) P); vm_compute; auto. }
  destruct K as [K|[]]. discriminate.
Qed.
Print Assumptions C42_inside_refuted.

(** * C53: all edges in the order of their sources, or of their targets *)
Lemma numbers_le f es : forall i e, In e (numbers f i es) -> i <= e.
Proof. intros i e H. apply numbers_spec in H as [ed [H _]]. lia. Qed.
Lemma numbers_nodup f es : forall i, NoDup (numbers f i es).
Proof.
  induction es as [|x es IH]; intros i; cbn [numbers]; [constructor|]. destruct (f x); [|apply IH]. constructor; [|apply IH].
  intros H. apply numbers_le in H. lia.
Qed.
Lemma implicit_first_nodup (q : list desc) (l : list nat) : (forall d, In d q -> exists p, d = Implicit p) -> NoDup q -> NoDup l ->
  NoDup (q ++ map Explicit l).
Proof.
  intros H1 H2 H3. apply nodup_app; [assumption| |].
  - apply FinFun.Injective_map_NoDup; [intros a b [= ->]; reflexivity|assumption].
  - intros d Hd K. apply H1 in Hd as [p ->]. apply in_map_iff in K as [e [K _]]. discriminate.
Qed.
Lemma when_nodup b p : NoDup (when b p).
Proof. destruct b; cbn; repeat constructor. intros []. Qed.
Lemma all_out_form L v : good L -> valid L v = true ->
  all_out_edges L v = Ok (match v with Text p => when (bit (implicit L) p) p | Loose _ => [] end ++ map Explicit (graph_out L v)).
Proof.
  intros G Hv. unfold all_out_edges. rewrite Hv. destruct v as [p|j]; [|reflexivity].
  destruct (find_node L (Text p)) as [n|] eqn:En; [reflexivity|]. apply find_node_none in En. rewrite (graph_out_foreign _ _ G En). reflexivity.
Qed.
Lemma all_in_form L v : good L -> tidy L -> valid L v = true -> place L v ->
  exists q, all_in_edges L v = Ok (q ++ map Explicit (graph_in L v)) /\ NoDup q /\
    forall d, In d q <-> exists p, d = Implicit p /\ bit (implicit L) p = true /\ Text (p + symbol_len L p) = v.
Proof.
  intros G T Hv Hp. unfold all_in_edges. rewrite Hv. destruct v as [p|j].
  - assert (K : match find_node L (Text p) with Some _ => map Explicit (graph_in L (Text p)) | None => [] end = map Explicit (graph_in L (Text p))).
    { destruct (find_node L (Text p)) as [n|] eqn:En; [reflexivity|]. apply find_node_none in En. rewrite (graph_in_foreign _ _ G En). reflexivity. }
    rewrite K. clear K. destruct (Nat.eq_dec p 0) as [->|H0].
    + exists []. split; [reflexivity|]. split; [constructor|]. intros d. split; [intros []|]. intros [q [-> [H1 [= H2]]]]. pose proof (symbol_len_pos L q). lia.
    + destruct (prior_vertex_ok L p Hp) as [q [E [Hq Eq]]]; [lia|]. unfold implicit_in. rewrite E. eexists. split; [reflexivity|].
      split; [apply when_nodup|]. intros d. split.
      * intros H. destruct (bit (implicit L) q) eqn:Eb; [|destruct H]. destruct H as [<-|[]]. exists q. split; [reflexivity|]. split; [assumption|]. now rewrite Eq.
      * intros [q' [-> [H1 [= H2]]]]. pose proof (bit_in_text _ _ G H1). pose proof (implicit_in_at L q' (t_bits _ T _ H1) H) as K.
        rewrite H2 in K. unfold implicit_in in K. rewrite E in K. injection K as ->. rewrite H1. now left.
  - exists []. split; [reflexivity|]. split; [constructor|]. intros d. split; [intros []|]. now intros [q [-> [H1 H2]]].
Qed.
Lemma all_out_spec L v l : good L -> all_out_edges L v = Ok l -> NoDup l /\ forall d, In d l <-> is_edge L d /\ source L d = Ok v.
Proof.
  intros G H. assert (Hv : valid L v = true) by (unfold all_out_edges in H; destruct (valid L v); [reflexivity|discriminate]).
  rewrite (all_out_form _ _ G Hv) in H. injection H as <-. split.
  - apply implicit_first_nodup; [|destruct v; [apply when_nodup|constructor]|apply numbers_nodup].
    destruct v; [|intros d []]. intros d. apply when_implicit.
  - intros d. rewrite in_app_iff, in_map_iff. split.
    + intros [H|[e [<- H]]].
      * destruct v as [p|]; [|destruct H]. destruct (bit (implicit L) p) eqn:E; [|destruct H]. destruct H as [<-|[]]. cbn. auto.
      * apply graph_out_spec in H as [ed [H1 H2]]. cbn. rewrite H1, H2. split; [|reflexivity]. apply nth_error_Some. congruence.
    + intros [H1 H2]. destruct d as [p|e]; cbn in H1, H2.
      * injection H2 as <-. left. rewrite H1. now left.
      * right. exists e. split; [reflexivity|]. apply graph_out_spec. destruct (nth_error (edges L) e) as [ed|]; [|discriminate].
        exists ed. split; [reflexivity|congruence].
Qed.
Lemma all_in_spec L v l : good L -> tidy L -> place L v -> all_in_edges L v = Ok l -> NoDup l /\ forall d, In d l <-> is_edge L d /\ target L d = Ok v.
Proof.
  intros G T Hp H. assert (Hv : valid L v = true) by (unfold all_in_edges in H; destruct (valid L v); [reflexivity|discriminate]).
  destruct (all_in_form _ _ G T Hv Hp) as [q [E [Q1 Q2]]]. rewrite E in H. injection H as <-. split.
  - apply implicit_first_nodup; [|assumption|apply numbers_nodup]. intros d Hd. apply Q2 in Hd as [p [-> _]]. eauto.
  - intros d. rewrite in_app_iff, in_map_iff, Q2. split.
    + intros [[p [-> [H1 <-]]]|[e [<- H]]]; [cbn; auto|].
      apply graph_in_spec in H as [ed [H1 H2]]. cbn. rewrite H1, H2. split; [|reflexivity]. apply nth_error_Some. congruence.
    + intros [H1 H2]. destruct d as [p|e]; cbn in H1, H2.
      * left. injection H2 as <-. eauto.
      * right. exists e. split; [reflexivity|]. apply graph_in_spec. destruct (nth_error (edges L) e) as [ed|]; [|discriminate].
        exists ed. split; [reflexivity|congruence].
Qed.
(** Specification: [l] lists edges by their end [en] in the order of [vs]. *)
Record sorted_listing (L : lattice) (m : mask) (en : desc -> res vertex) (vs : list vertex) (l : list desc) : Prop := {
  sl_once : NoDup l;
  sl_sound : forall d, In d l -> is_edge L d /\ M_Tags.matches (edge_tags L d) m = true;
  sl_complete : forall d, is_edge L d -> M_Tags.matches (made_with L d) m = true ->
    (forall p, d = Implicit p -> Forall (fun a => M_Tags.is_empty a = false) (M_Tags.alts m)) -> In d l;
  sl_order : forall d e, before l d e -> exists v w, en d = Ok v /\ en e = Ok w /\ (v = w \/ before vs v w)
}.
Lemma before_app_inv {A} (l l' : list A) a b : before (l ++ l') a b -> before l a b \/ before l' a b \/ In a l /\ In b l'.
Proof.
  induction l as [|x l IH]; cbn; intros H; [auto|]. inversion H as [? ? ? K|? ? ? ? K]; subst.
  - apply in_app_iff in K as [K|K]; [left; now apply B_here|auto].
  - destruct (IH K) as [K'|[K'|[K1 K2]]]; [left; now apply B_next|auto|auto].
Qed.
Lemma Forall2_in {A B} (R S : A -> B -> Prop) l l' : (forall a b, In a l -> R a b -> S a b) -> Forall2 R l l' -> Forall2 S l l'.
Proof. intros H F. induction F as [|a b l l' K F IH]; constructor; [apply H; [now left|assumption]|]. apply IH. intros x y Hx. apply H. now right. Qed.
Definition whole (L : lattice) (en : desc -> res vertex) (v : vertex) (all : list desc) : Prop :=
  NoDup all /\ forall d, In d all <-> is_edge L d /\ en d = Ok v.
Lemma listing L m (en : desc -> res vertex) :
  forall vs ls, NoDup vs -> Forall2 (fun v l => exists all, whole L en v all /\ selection L m l all) vs ls ->
  NoDup (concat ls) /\ (forall d, In d (concat ls) -> is_edge L d /\ M_Tags.matches (edge_tags L d) m = true /\ exists v, In v vs /\ en d = Ok v) /\
  (forall d v, In v vs -> en d = Ok v -> is_edge L d -> M_Tags.matches (made_with L d) m = true ->
    (forall p, d = Implicit p -> Forall (fun a => M_Tags.is_empty a = false) (M_Tags.alts m)) -> In d (concat ls)) /\
  (forall d e, before (concat ls) d e -> exists v w, en d = Ok v /\ en e = Ok w /\ (v = w \/ before vs v w)).
Proof.
  intros vs ls Hd H. induction H as [|v l vs ls [all [[A1 A2] [[sel ->] S2 S3]]] H IH]; cbn [concat].
  - split; [constructor|]. split; [intros d []|]. split; [intros d v []|]. intros d e K. inversion K.
  - inversion Hd as [|? ? D1 D2]; subst. destruct (IH D2) as [I1 [I2 [I3 I4]]].
    assert (F : forall d, In d (filter sel all) -> is_edge L d /\ en d = Ok v) by (intros d K; apply filter_In in K as [K _]; now apply A2 in K).
    split; [|split; [|split]].
    + apply nodup_app; [now apply NoDup_filter|assumption|]. intros d K1 K2. apply F in K1 as [_ K1]. apply I2 in K2 as [_ [_ [w [K2 K3]]]].
      rewrite K1 in K3. injection K3 as <-. tauto.
    + intros d K. apply in_app_iff in K as [K|K].
      * pose proof (F _ K) as [F1 F2]. split; [assumption|]. split; [auto|]. exists v. split; [now left|assumption].
      * apply I2 in K as [K1 [K2 [w [K3 K4]]]]. split; [assumption|]. split; [assumption|]. exists w. split; [now right|assumption].
    + intros d w [<-|Hw] Hen He Hm Hi; apply in_app_iff.
      * left. apply S3; [apply A2; auto|assumption|assumption].
      * right. now apply (I3 d w).
    + intros d e K. apply before_app_inv in K as [K|[K|[K1 K2]]].
      * apply before_in in K as [K1 K2]. apply F in K1 as [_ K1]. apply F in K2 as [_ K2]. exists v, v. auto.
      * destruct (I4 _ _ K) as [a [b [B1 [B2 B3]]]]. exists a, b. split; [assumption|]. split; [assumption|]. destruct B3; [now left|]. right. now apply B_next.
      * apply F in K1 as [_ K1]. apply I2 in K2 as [_ [_ [w [K3 K4]]]]. exists v, w. split; [assumption|]. split; [assumption|]. right. now apply B_here.
Qed.
Definition core_careful L L' := careful_program L' /\ core L L'.
Lemma query_op L L' (o : op) {A} (m : act A) (a : A) : query m -> exec o = drop m -> careful_program L -> allowed L o -> tidy_op L o -> m L = (L', Ok a) ->
  careful_program L' /\ core L L'.
Proof.
  intros Q Eo HL Ha Ho E. destruct (careful_tidy _ HL) as [G T]. split.
  - apply (C_call L L' o (Ok tt)); try assumption; [|discriminate]. rewrite Eo. unfold drop, bind. now rewrite E.
  - destruct (Q _ _ _ G E) as [_ C]; [discriminate|assumption].
Qed.
Lemma out_edges_total L v m : valid L v = true -> exists L' l, out_edges v m L = (L', Ok l).
Proof.
  intros Hv. unfold out_edges. rewrite Hv. cbn [negb]. destruct (M_Tags.any m).
  - unfold ask, all_out_edges. rewrite Hv. eauto.
  - unfold bind, add_tag_mask_index. destruct (mask_index _ _); unfold ask; eauto.
Qed.
Lemma in_edges_total L v m : good L -> valid L v = true -> place L v -> exists L' l, in_edges v m L = (L', Ok l).
Proof.
  intros G Hv Hp. unfold in_edges. rewrite Hv. cbn [negb]. destruct (M_Tags.any m).
  - destruct (all_in_ok L v Hv Hp) as [l Hl]. unfold ask. rewrite Hl. eauto.
  - unfold bind. destruct (add_tag_mask_index m L) as [L1 [ix|x|]] eqn:Ei; try (unfold add_tag_mask_index in Ei; destruct (mask_index _ _); discriminate).
    unfold ask. destruct v as [p|k]; [|eauto]. destruct (implicit_in_ok L1 p) as [l ->]; [|eauto]. rewrite (index_text _ _ _ _ Ei). exact Hp.
Qed.
Lemma core_place L L' v : core L L' -> place L v -> place L' v.
Proof. intros C. apply place_text, C. Qed.
Lemma core_valid L L' v : core L L' -> valid L' v = valid L v.
Proof. intros C. unfold valid. now rewrite (c_text _ _ C), (c_loose _ _ C). Qed.
Lemma core_all_out L L' v : good L -> good L' -> core L L' -> all_out_edges L' v = all_out_edges L v.
Proof.
  intros G G' C. destruct (valid L v) eqn:Hv.
  - rewrite !all_out_form; try assumption; [|now rewrite (core_valid _ _ _ C)]. now rewrite (c_implicit _ _ C), (core_graph_out _ _ _ C).
  - unfold all_out_edges. now rewrite (core_valid _ _ _ C), Hv.
Qed.
Lemma core_all_in L L' v : good L -> good L' -> core L L' -> all_in_edges L' v = all_in_edges L v.
Proof.
  intros G G' C. unfold all_in_edges. rewrite (core_valid _ _ _ C). destruct (valid L v); [|reflexivity]. rewrite (core_graph_in _ _ _ C). destruct v as [p|k]; [|reflexivity].
  assert (E : implicit_in L' p = implicit_in L p) by (unfold implicit_in, prior_vertex; now rewrite (c_implicit _ _ C), (c_text _ _ C)). rewrite E.
  destruct (implicit_in L p); try reflexivity.
  destruct (find_node L (Text p)) eqn:E1, (find_node L' (Text p)) eqn:E2; try reflexivity.
  - apply find_node_none in E2. destruct E2. rewrite (c_names _ _ C). apply find_node_in. eauto.
  - apply find_node_none in E1. destruct E1. rewrite <- (c_names _ _ C). apply find_node_in. eauto.
Qed.
Lemma edges_of_out m : P_Tags.made m -> forall vs L, careful_program L -> (forall v, In v vs -> valid L v = true /\ place L v) ->
  exists L' ls, edges_of out_edges vs m L = (L', Ok (concat ls)) /\ Forall2 (fun v l => exists all, all_out_edges L v = Ok all /\ selection L m l all) vs ls.
Proof.
  intros Hm. induction vs as [|v vs IH]; intros L HL Hv; cbn [edges_of].
  - exists L, []. split; [reflexivity|constructor].
  - destruct (Hv v (or_introl eq_refl)) as [V1 V2]. destruct (out_edges_total L v m V1) as [L1 [l E]].
    destruct (query_op L L1 (OutEdges v m) (out_edges v m) l (out_edges_query v m Hm) eq_refl HL Hm V2 E) as [HL1 C].
    destruct (IH L1 HL1) as [L' [ls [E' F]]].
    { intros w Hw. destruct (Hv w (or_intror Hw)). rewrite (core_valid _ _ _ C). split; [assumption|now apply (core_place L)]. }
    exists L', (l :: ls). split.
    + unfold bind. rewrite E. unfold bind in E'. rewrite E'. reflexivity.
    + constructor; [apply (C17_out L v m L1 l); [now apply careful_is_program|assumption|assumption]|].
      destruct (careful_tidy _ HL) as [G _]. destruct (careful_tidy _ HL1) as [G1 _].
      eapply Forall2_in; [|exact F]. intros w k _ [all [K1 K2]]. exists all. split; [now rewrite <- (core_all_out L L1)|].
      now apply (core_selection L L1).
Qed.
Lemma edges_of_in m : P_Tags.made m -> forall vs L, careful_program L -> (forall v, In v vs -> valid L v = true /\ place L v) ->
  exists L' ls, edges_of in_edges vs m L = (L', Ok (concat ls)) /\ Forall2 (fun v l => exists all, all_in_edges L v = Ok all /\ selection L m l all) vs ls.
Proof.
  intros Hm. induction vs as [|v vs IH]; intros L HL Hv; cbn [edges_of].
  - exists L, []. split; [reflexivity|constructor].
  - destruct (Hv v (or_introl eq_refl)) as [V1 V2]. destruct (careful_tidy _ HL) as [G T]. destruct (in_edges_total L v m G V1 V2) as [L1 [l E]].
    destruct (query_op L L1 (InEdges v m) (in_edges v m) l (in_edges_query v m Hm) eq_refl HL Hm V2 E) as [HL1 C].
    destruct (IH L1 HL1) as [L' [ls [E' F]]].
    { intros w Hw. destruct (Hv w (or_intror Hw)). rewrite (core_valid _ _ _ C). split; [assumption|now apply (core_place L)]. }
    exists L', (l :: ls). split.
    + unfold bind. rewrite E. unfold bind in E'. rewrite E'. reflexivity.
    + constructor; [apply (C17_in L v m L1 l); [now apply careful_is_program|assumption|assumption]|].
      destruct (careful_tidy _ HL1) as [G1 _].
      eapply Forall2_in; [|exact F]. intros w k _ [all [K1 K2]]. exists all. split; [now rewrite <- (core_all_in L L1)|].
      now apply (core_selection L L1).
Qed.
(** What the iteration visits, in both cases. *)
Lemma vertices_cover topo L vs : sorts topo -> careful_program L -> vertices topo true L = Ok vs ->
  NoDup vs /\ (forall v, In v vs -> valid L v = true /\ place L v) /\
  (forall d v, is_edge L d -> source L d = Ok v \/ target L d = Ok v -> In v vs).
Proof.
  intros Ht HL E. destruct (careful_tidy _ HL) as [G T].
  assert (Hend : forall d v, is_edge L d -> source L d = Ok v \/ target L d = Ok v -> valid L v = true /\ place L v).
  { intros d v He Hv. assert (exists a b, source L d = Ok a /\ target L d = Ok b) as [a [b [Ea Eb]]].
    { destruct d as [p|e]; cbn; [eauto|]. cbn in He. destruct (nth_error (edges L) e) eqn:Ee; [eauto|]. apply nth_error_None in Ee. lia. }
    destruct (edge_place L d a b G T He Ea Eb) as [P1 P2].
    assert (V : valid L a = true /\ valid L b = true).
    { destruct d as [p|e]; cbn in Ea, Eb, He.
      - injection Ea as <-. injection Eb as <-. pose proof (g_bits _ G _ He). cbn. split; apply Nat.leb_le; lia.
      - destruct (nth_error (edges L) e) as [ed|] eqn:Ee; [|discriminate]. injection Ea as <-. injection Eb as <-.
        destruct (g_edges _ G _ _ Ee) as [K1 [K2 _]]. split; now apply (g_names _ G). }
    destruct Hv as [Hv|Hv]; [rewrite Ea in Hv|rewrite Eb in Hv]; injection Hv as <-; tauto. }
  destruct (Nat.eq_dec (n_loose L) 0) as [H0|H0].
  - destruct (C42_text topo true L HL H0) as [ps [E1 [E2 E3]]]. rewrite E1 in E. injection E as <-. split; [|split].
    + apply FinFun.Injective_map_NoDup; [intros a b [= ->]; reflexivity|now apply increasing_nodup].
    + intros v Hv. apply in_map_iff in Hv as [p [<- Hp]]. apply E3 in Hp as [Hp _]. split; [|assumption].
      cbn. apply Nat.leb_le. apply boundary_wf in Hp. tauto.
    + intros d v He Hv. destruct (Hend d v He Hv) as [V1 V2]. destruct v as [p|k]; [|cbn in V1; apply Nat.ltb_lt in V1; lia].
      apply in_map. apply E3. split; [assumption|]. right. now exists d.
  - pose proof (C42_loose topo true L Ht HL H0) as K. rewrite E in K. destruct K as [K1 [K2 _]]. split; [assumption|]. split.
    + intros v Hv. apply K2 in Hv. destruct v as [p|k]; [|split; [now apply Nat.ltb_lt|exact I]]. destruct Hv as [Hv _]. split; [|assumption].
      cbn. apply Nat.leb_le. apply boundary_wf in Hv. tauto.
    + intros d v He Hv. apply K2. destruct (Hend d v He Hv) as [V1 V2]. destruct v as [p|k]; [|now apply Nat.ltb_lt].
      split; [assumption|]. right. left. now exists d.
Qed.
Lemma edge_ends L d : is_edge L d -> exists a b, source L d = Ok a /\ target L d = Ok b.
Proof. intros He. destruct d as [p|e]; cbn; [eauto|]. cbn in He. destruct (nth_error (edges L) e) eqn:Ee; [eauto|]. apply nth_error_None in Ee. lia. Qed.
Theorem C53_by_source topo L m vs : sorts topo -> careful_program L -> P_Tags.made m -> vertices topo true L = Ok vs ->
  exists L' l, edges_by_source topo m L = (L', Ok l) /\ sorted_listing L m (source L) vs l.
Proof.
  intros Ht HL Hm E. destruct (careful_tidy _ HL) as [G T]. destruct (vertices_cover topo L vs Ht HL E) as [D [V C]].
  unfold edges_by_source, bind, ask. rewrite E.
  assert (V0 : valid L (Text 0) = true) by reflexivity. assert (P0 : place L (Text 0)) by (apply boundary_0, T).
  destruct (out_edges_total L (Text 0) m V0) as [L1 [l0 E0]]. rewrite E0.
  destruct (query_op L L1 (OutEdges (Text 0) m) (out_edges (Text 0) m) l0 (out_edges_query _ m Hm) eq_refl HL Hm P0 E0) as [HL1 C1].
  destruct (careful_tidy _ HL1) as [G1 _].
  destruct (edges_of_out m Hm vs L1 HL1) as [L2 [ls [E2 F]]].
  { intros v Hv. destruct (V v Hv). rewrite (core_valid _ _ _ C1). split; [assumption|now apply (core_place L)]. }
  destruct (listing L m (source L) vs ls D) as [K1 [K2 [K3 K4]]].
  { eapply Forall2_in; [|exact F]. intros w k _ [all [K1 K2]]. exists all. split; [|now apply (core_selection L L1)].
    apply all_out_spec; [assumption|]. now rewrite <- (core_all_out L L1). }
  assert (S : sorted_listing L m (source L) vs (concat ls)).
  { split; [assumption| | |assumption].
    - intros d Hd. apply K2 in Hd. tauto.
    - intros d He. destruct (edge_ends L d He) as [a [b [Ea _]]]. apply (K3 d a); [|assumption|assumption]. apply (C d); auto. }
  destruct vs as [|v vs].
  - inversion F; subst. exists L1, l0. split; [reflexivity|]. cbn [concat] in S.
    assert (l0 = []) as ->; [|assumption]. destruct (C17_out L (Text 0) m L1 l0 (careful_is_program _ HL) Hm E0) as [all [A1 [[sel ->] _ _]]].
    destruct all as [|d all]; [reflexivity|]. apply (all_out_spec _ _ _ G) in A1 as [_ A1]. destruct (proj1 (A1 d) (or_introl eq_refl)) as [A2 A3].
    destruct (C d (Text 0) A2 (or_introl A3)).
  - rewrite E2. eauto.
Qed.
Print Assumptions C53_by_source.
Theorem C53_by_target topo L m vs : sorts topo -> careful_program L -> P_Tags.made m -> vertices topo true L = Ok vs ->
  exists L' l, edges_by_target topo m L = (L', Ok l) /\ sorted_listing L m (target L) vs l.
Proof.
  intros Ht HL Hm E. destruct (careful_tidy _ HL) as [G T]. destruct (vertices_cover topo L vs Ht HL E) as [D [V C]].
  unfold edges_by_target, bind, ask. rewrite E.
  assert (V0 : valid L (Text 0) = true) by reflexivity. assert (P0 : place L (Text 0)) by (apply boundary_0, T).
  destruct (in_edges_total L (Text 0) m G V0 P0) as [L1 [l0 E0]]. rewrite E0.
  destruct (query_op L L1 (InEdges (Text 0) m) (in_edges (Text 0) m) l0 (in_edges_query _ m Hm) eq_refl HL Hm P0 E0) as [HL1 C1].
  destruct (careful_tidy _ HL1) as [G1 _].
  destruct (edges_of_in m Hm vs L1 HL1) as [L2 [ls [E2 F]]].
  { intros v Hv. destruct (V v Hv). rewrite (core_valid _ _ _ C1). split; [assumption|now apply (core_place L)]. }
  destruct (listing L m (target L) vs ls D) as [K1 [K2 [K3 K4]]].
  { eapply Forall2_in; [|exact F]. intros w k Hw [all [K1 K2]]. exists all. split; [|now apply (core_selection L L1)].
    apply all_in_spec; [assumption|assumption|apply V, Hw|]. now rewrite <- (core_all_in L L1). }
  assert (S : sorted_listing L m (target L) vs (concat ls)).
  { split; [assumption| | |assumption].
    - intros d Hd. apply K2 in Hd. tauto.
    - intros d He. destruct (edge_ends L d He) as [a [b [_ Eb]]]. apply (K3 d b); [|assumption|assumption]. apply (C d); auto. }
  destruct vs as [|v vs].
  - inversion F; subst. exists L1, l0. split; [reflexivity|]. cbn [concat] in S.
    assert (l0 = []) as ->; [|assumption]. destruct (C17_in L (Text 0) m L1 l0 (careful_is_program _ HL) Hm E0) as [all [A1 [[sel ->] _ _]]].
    destruct all as [|d all]; [reflexivity|]. apply (all_in_spec _ _ _ G T P0) in A1 as [_ A1]. destruct (proj1 (A1 d) (or_introl eq_refl)) as [A2 A3].
    destruct (C d (Text 0) A2 (or_intror A3)).
  - rewrite E2. eauto.
Qed.
Print Assumptions C53_by_target.
(** For the mask that admits everything the list is exact. *)
Corollary C53_any topo L vs : sorts topo -> careful_program L -> vertices topo true L = Ok vs ->
  exists L1 l1 L2 l2, edges_by_source topo (M_Tags.mask_const true) L = (L1, Ok l1) /\ edges_by_target topo (M_Tags.mask_const true) L = (L2, Ok l2) /\
    NoDup l1 /\ NoDup l2 /\ (forall d, In d l1 <-> is_edge L d) /\ (forall d, In d l2 <-> is_edge L d).
Proof.
  intros Ht HL E. assert (Hm : P_Tags.made (M_Tags.mask_const true)) by (right; now exists true).
  destruct (C53_by_source topo L _ vs Ht HL Hm E) as [L1 [l1 [E1 [A1 A2 A3 _]]]].
  destruct (C53_by_target topo L _ vs Ht HL Hm E) as [L2 [l2 [E2 [B1 B2 B3 _]]]].
  exists L1, l1, L2, l2. split; [assumption|]. split; [assumption|]. split; [assumption|]. split; [assumption|]. split.
  - intros d. split; [intros H; apply A2, H|]. intros H. apply A3; [assumption|reflexivity|]. intros. constructor.
  - intros d. split; [intros H; apply B2, H|]. intros H. apply B3; [assumption|reflexivity|]. intros. constructor.
Qed.
Print Assumptions C53_any.
Example C53_example :
  snd (edges_by_source some_order token_mask loose_lattice) = Ok [Explicit 0; Explicit 1; Explicit 2] /\
  snd (edges_by_target some_order (M_Tags.mask_of [4%N; 1%N]) loose_lattice) = Ok [Implicit 0; Explicit 0; Explicit 1; Explicit 2] /\
  vertices some_order true loose_lattice = Ok [Loose 2; Text 0; Text 1; Loose 1; Loose 0; Text 2; Text 4] /\ P_Tags.made token_mask.
Proof. repeat split; try (vm_compute; reflexivity). left. eexists. reflexivity. Qed.

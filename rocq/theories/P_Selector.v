(** C79: which edges the selector and the antiselector add. *)
From Coq Require Import ZArith List Bool Lia PeanoNat.
From Verif Require Import M_Items M_Unumsunt M_Selector.
Import ListNotations.
Local Open Scope nat_scope.

(** ** Conditions *)
(** [p] stands between delimiters (or the ends) of [s] and has none of its own. *)
Definition piece (d : Z) (s p : str) : Prop :=
  ~ In d p /\ exists a b, s = a ++ p ++ b /\ (a = [] \/ exists a', a = a' ++ [d]) /\ (b = [] \/ exists b', b = d :: b').
(** A condition is a list of alternatives between bars, an alternative a list of descriptions between ampersands; a description
    is a category or an attribute with its value. *)
Definition describes (j : str) (t : annotation) : Prop :=
  j = cat t \/ exists a z, In (a, z) (vals t) /\ j = a ++ [61%Z] ++ M_Items.to_string z.
Definition meets (t : annotation) (c : str) : Prop :=
  exists alt, piece 124 c alt /\ forall j, piece 38 alt j -> describes j t.

Lemma str_eqb_iff a b : str_eqb a b = true <-> a = b.
Proof. unfold str_eqb. destruct (list_eq_dec Z.eq_dec a b); split; congruence. Qed.
Lemma split_nonempty d s : exists p ps, split_at d s = p :: ps.
Proof. induction s as [|c s (p & ps & E)]; cbn; [eauto|]. destruct (Z.eqb c d); [eauto|]. rewrite E. eauto. Qed.
(** The first piece, and the others. *)
Lemma split_first d s p ps : split_at d s = p :: ps ->
  ~ In d p /\ ((ps = [] /\ s = p) \/ exists s', s = p ++ d :: s' /\ ps = split_at d s').
Proof.
  revert p ps. induction s as [|c s IH]; intros p ps E.
  - cbn in E. injection E as <- <-. split; [easy|auto].
  - cbn [split_at] in E. destruct (Z.eqb_spec c d) as [->|N].
    + injection E as <- <-. split; [easy|right; exists s; auto].
    + destruct (split_nonempty d s) as (q & qs & Q). rewrite Q in E. injection E as <- <-.
      destruct (IH _ _ Q) as (N1 & [[-> ->]|(s' & -> & ->)]).
      * split; [intros [K|K]; [congruence|auto]|auto].
      * split; [intros [K|K]; [congruence|auto]|right; exists s'; auto].
Qed.
Lemma piece_nil d b p : ~ In d p -> (b = [] \/ exists b', b = d :: b') -> piece d (p ++ b) p.
Proof. intros N B. split; [exact N|]. exists [], b. auto. Qed.
Lemma no_delim_prefix d (p q r s : str) : ~ In d p -> ~ In d q -> p ++ d :: r = q ++ d :: s -> p = q /\ r = s.
Proof.
  revert q. induction p as [|x p IH]; intros [|y q] P Q E; cbn in E.
  - injection E as <-. auto.
  - injection E as -> _. exfalso. apply Q. now left.
  - injection E as -> _. exfalso. apply P. now left.
  - injection E as -> E. destruct (IH q) as [-> ->]; auto; intros K; [apply P|apply Q]; now right.
Qed.
Lemma split_pieces d s p : In p (split_at d s) <-> piece d s p.
Proof.
  remember (length s) as n eqn:Len. revert s Len p. induction n as [n IH] using lt_wf_ind. intros s -> p.
  destruct (split_nonempty d s) as (q & qs & E). destruct (split_first _ _ _ _ E) as (N & [[-> ->]|(s' & -> & ->)]).
  - rewrite E. split.
    + intros [<-|[]]. split; [exact N|]. exists [], []. rewrite app_nil_r. auto.
    + intros (Np & a & b & Ea & A & B). left. rewrite Ea in N.
      destruct A as [->|(a' & ->)]; [|exfalso; apply N; rewrite !in_app_iff; cbn; auto].
      destruct B as [->|(b' & ->)]; [|exfalso; apply N; rewrite !in_app_iff; cbn; auto].
      rewrite Ea. cbn. now rewrite app_nil_r.
  - rewrite E. cbn [In]. rewrite (IH (length s')); [|rewrite app_length; cbn; lia|reflexivity]. split.
    + intros [<-|(Np & a & b & -> & A & B)]; [apply piece_nil; eauto|].
      split; [exact Np|]. exists (q ++ d :: a), b. rewrite <- !app_assoc. split; [reflexivity|]. split; [|exact B]. right.
      destruct A as [->|(a' & ->)]; [now exists q|]. exists (q ++ d :: a'). now rewrite <- app_assoc.
    + intros (Np & a & b & Ea & A & B). destruct A as [->|(a' & ->)].
      * left. cbn in Ea. destruct B as [->|(b' & ->)].
        -- exfalso. apply Np. rewrite app_nil_r in Ea. rewrite <- Ea, in_app_iff. cbn. auto.
        -- now apply no_delim_prefix in Ea as [-> _].
      * right. split; [exact Np|]. destruct (in_dec Z.eq_dec d a') as [I|I].
        -- apply in_split in I as (a1 & a2 & ->).
           assert (Q : exists a1 a2, ~ In d a1 /\ q ++ d :: s' = (a1 ++ d :: a2 ++ [d]) ++ p ++ b).
           { clear - Ea.
             enough (forall a1 a2, exists x y, a1 ++ d :: a2 = x ++ d :: y /\ ~ In d x) as K.
             { destruct (K a1 a2) as (x & y & Exy & I). exists x, y. split; [exact I|]. rewrite Ea, Exy, <- (app_assoc x). reflexivity. }
             clear. induction a1 as [|z a1 IH]; intros a2; [exists [], a2; auto|].
             destruct (Z.eq_dec z d) as [->|Nz]; [exists [], (a1 ++ d :: a2); auto|].
             destruct (IH a2) as (x & y & Exy & I). exists (z :: x), y. cbn. rewrite Exy. split; [reflexivity|]. intros [K|K]; [congruence|auto]. }
           destruct Q as (x & y & Nx & Q). rewrite <- app_assoc in Q. cbn [app] in Q. apply no_delim_prefix in Q as [-> ->]; [|exact N|exact Nx].
           exists (y ++ [d]), b. split; [reflexivity|]. split; [right; now exists y|exact B].
        -- rewrite <- app_assoc in Ea. cbn [app] in Ea. apply no_delim_prefix in Ea as [_ ->]; [|exact N|exact I].
           exists [], b. auto.
Qed.
Lemma atom_iff t j : atom_holds t j = true <-> describes j t.
Proof.
  unfold atom_holds, describes. rewrite orb_true_iff, str_eqb_iff, existsb_exists. split.
  - intros [->|([a z] & I & E)]; [now left|]. apply str_eqb_iff in E. cbn [fst snd] in E. subst j. right. now exists a, z.
  - intros [->|(a & z & I & ->)]; [now left|]. right. exists (a, z). split; [exact I|]. now apply str_eqb_iff.
Qed.
(** The code of conditions means what it should. *)
Theorem C79_condition t c : condition_met t c = true <-> meets t c.
Proof.
  unfold condition_met, meets. rewrite existsb_exists. split.
  - intros (alt & I & F). exists alt. split; [now apply split_pieces|]. intros j J. apply atom_iff.
    rewrite forallb_forall in F. now apply F, split_pieces.
  - intros (alt & I & F). exists alt. split; [now apply split_pieces|]. apply forallb_forall. intros j J. now apply atom_iff, F, split_pieces.
Qed.
Print Assumptions C79_condition.
(** noun&case=nom|verb *)
Definition w_noun : str := [110; 111; 117; 110]%Z.
Definition w_verb : str := [118; 101; 114; 98]%Z.
Definition w_case : str := [99; 97; 115; 101]%Z.
Definition w_nom : str := [110; 111; 109]%Z.
Definition w_condition : str := w_noun ++ [38%Z] ++ w_case ++ [61%Z] ++ w_nom ++ [124%Z] ++ w_verb.
Example condition_example :
  condition_met (Annotation w_noun [] [(w_case, ZSym w_nom)]) w_condition = true
  /\ condition_met (Annotation w_noun [] []) w_condition = false
  /\ condition_met (Annotation w_verb [] []) w_condition = true.
Proof. repeat split; vm_compute; reflexivity. Qed.

Section Select.
Context {L V E : Type} (veqb : V -> V -> bool).
Context (first_fallback : L -> V -> option E) (first_in : L -> V -> option E) (ins tests : L -> V -> list E).
Context (from to : L -> E -> V) (item_of : L -> E -> annotation) (with_text : L -> E -> annotation).
Context (add : L -> V -> V -> annotation -> L) (with_blank : bool).
Context (veqb_iff : forall a b, veqb a b = true <-> a = b).
Notation satisfied := (satisfied veqb tests from to item_of).
Notation sequence := (sequence veqb first_in tests from to item_of).
Notation sequences := (sequences veqb first_in tests from to item_of).
Notation calls := (calls veqb first_fallback first_in ins tests from to item_of with_text with_blank).
Notation shown := (shown with_blank).
Notation run := (run veqb first_fallback first_in ins tests from to item_of with_text add with_blank).
Notation add_all := (add_all add).

(** The condition of an edge: none, a star, or one that an edge with the same ends meets. *)
Definition allowed (l : L) (e : E) : Prop :=
  get (item_of l e) CONDITION = ZNull
  \/ M_Items.to_string (get (item_of l e) CONDITION) = ALWAYS /\ get (item_of l e) CONDITION <> ZNull
  \/ get (item_of l e) CONDITION <> ZNull
     /\ exists t, In t (tests l (from l e)) /\ to l t = to l e /\ meets (item_of l t) (M_Items.to_string (get (item_of l e) CONDITION)).
Theorem C79_satisfied l e : satisfied l e = true <-> allowed l e.
Proof.
  unfold M_Selector.satisfied, allowed. set (z := get (item_of l e) CONDITION).
  assert (K : forall c, str_eqb c ALWAYS || existsb (fun t => veqb (to l t) (to l e) && condition_met (item_of l t) c) (tests l (from l e)) = true
    <-> c = ALWAYS \/ exists t, In t (tests l (from l e)) /\ to l t = to l e /\ meets (item_of l t) c).
  { intros c. rewrite orb_true_iff, str_eqb_iff, existsb_exists. apply or_iff_compat_l. split; intros (t & I & T); exists t.
    - apply andb_true_iff in T as [T1 T2]. split; [exact I|]. split; [now apply veqb_iff|now apply C79_condition].
    - destruct T as [T1 T2]. split; [exact I|]. apply andb_true_iff. split; [now apply veqb_iff|now apply C79_condition]. }
  destruct z; [split; auto| | |]; rewrite K; (split; [intros [H|H]; [right; left|right; right]; split; easy|intros [H|[[H _]|[_ H]]]; [easy|now left|now right]]).
Qed.

(** The edges after [e]: always the first one, up to the target or as far as there are any. *)
Inductive walk (l : L) (t : V) : E -> list E -> Prop :=
  | walk_reached e : to l e = t -> walk l t e [e]
  | walk_stuck e : to l e <> t -> first_in l (to l e) = None -> walk l t e [e]
  | walk_on e e' es : to l e <> t -> first_in l (to l e) = Some e' -> walk l t e' es -> walk l t e (e :: es).
Lemma walk_unique l t e es es' : walk l t e es -> walk l t e es' -> es = es'.
Proof.
  intros W. revert es'. induction W; intros es' W'; inversion W'; subst; try easy; try congruence.
  f_equal. apply IHW. congruence.
Qed.
(** What the loop gives: the walk if all its edges are allowed. *)
Lemma sequence_walk fuel l t e s : sequence fuel l t e = Some (Some s) -> walk l t e s /\ Forall (allowed l) s.
Proof.
  revert e s. induction fuel as [|fuel IH]; intros e s; cbn [M_Selector.sequence]; [easy|].
  destruct (satisfied l e) eqn:A; cbn [negb]; [|easy]. apply C79_satisfied in A.
  destruct (veqb (to l e) t) eqn:T.
  - apply veqb_iff in T. intros Q. injection Q as <-. split; [now constructor|now constructor].
  - assert (N : to l e <> t) by (intros K; apply veqb_iff in K; congruence).
    destruct (first_in l (to l e)) as [e'|] eqn:F.
    + destruct (sequence fuel l t e') as [[s'|]|] eqn:Q; cbn; try easy. intros K. injection K as <-.
      apply IH in Q as [W AA]. split; [now apply walk_on with e'|now constructor].
    + intros Q. injection Q as <-. split; [now apply walk_stuck|now constructor].
Qed.
Lemma sequence_stopped fuel l t e : sequence fuel l t e = Some None -> forall s, walk l t e s -> ~ Forall (allowed l) s.
Proof.
  revert e. induction fuel as [|fuel IH]; intros e; cbn [M_Selector.sequence]; [easy|].
  destruct (satisfied l e) eqn:A; cbn [negb].
  - destruct (veqb (to l e) t) eqn:T; [easy|].
    destruct (first_in l (to l e)) as [e'|] eqn:F; [|easy].
    destruct (sequence fuel l t e') as [[s'|]|] eqn:Q; cbn; try easy. intros _ s W AA.
    inversion W; subst; try congruence; [rewrite (proj2 (veqb_iff _ _) eq_refl) in T; easy|].
    assert (e'0 = e') as -> by congruence. inversion AA; subst. now apply (IH _ Q es).
  - intros _ s W AA. assert (In e s) by (inversion W; now left). rewrite Forall_forall in AA.
    apply AA, C79_satisfied in H. congruence.
Qed.
Lemma sequence_enough fuel l t e s : walk l t e s -> length s <= fuel -> sequence fuel l t e <> None.
Proof.
  intros W. revert fuel. induction W; intros fuel Len; cbn in Len; destruct fuel as [|fuel]; try lia; cbn [M_Selector.sequence];
    destruct (satisfied l e); cbn [negb]; try easy; destruct (veqb (to l e) t) eqn:T; try easy.
  - apply veqb_iff in H. congruence.
  - now rewrite H0.
  - rewrite H0. specialize (IHW fuel ltac:(lia)). now destruct (sequence fuel l t e') as [[?|]|].
Qed.
Lemma sequences_spec fuel l t es r : sequences fuel l t es = Some r ->
  forall x, In x r <-> exists e s, In e es /\ walk l t e s /\ Forall (allowed l) s /\ In x s.
Proof.
  revert r. induction es as [|e es IH]; intros r; cbn [M_Selector.sequences].
  - intros Q. injection Q as <-. intros x. split; [easy|now intros (e & s & [] & _)].
  - destruct (sequence fuel l t e) as [[s|]|] eqn:S, (sequences fuel l t es) as [r'|] eqn:R; try easy; intros Q; injection Q as <-; intros x.
    + apply sequence_walk in S as [W A]. rewrite in_app_iff, (IH _ eq_refl). split.
      * intros [I|(e' & s' & I & K)]; [exists e, s; split; [now left|auto]|exists e', s'; split; [now right|auto]].
      * intros (e' & s' & [<-|I] & W' & A' & X); [left; now rewrite (walk_unique _ _ _ _ _ W W')|right; now exists e', s'].
    + rewrite (IH _ eq_refl). split.
      * intros (e' & s' & I & K). exists e', s'. split; [now right|auto].
      * intros (e' & s' & [<-|I] & W' & A' & X); [now destruct (sequence_stopped _ _ _ _ S _ W')|now exists e', s'].
Qed.
Lemma walk_nonempty l t e s : walk l t e s -> exists r, s = e :: r.
Proof. intros W. inversion W; eauto. Qed.

(** What is added at a vertex: the edges of the walks that are allowed as a whole; the fallback edge if there is no such walk. *)
Definition chosen (l : L) (v : V) (f : E) (s : list E) : Prop := exists e, In e (ins l v) /\ walk l (to l f) e s /\ Forall (allowed l) s.
Theorem C79_vertex fuel l v f cs : first_fallback l v = Some f -> calls fuel l v = Some cs ->
  (forall a b i, In (a, b, i) cs <->
     (exists s x, chosen l v f s /\ In x s /\ shown (item_of l x) = true /\ (a, b, i) = (from l x, to l x, item_of l x))
     \/ ((forall s, ~ chosen l v f s) /\ shown (item_of l f) = true /\ (a, b, i) = (v, to l f, with_text l f))).
Proof.
  intros F. unfold M_Selector.calls. rewrite F. destruct (sequences fuel l (to l f) (ins l v)) as [es|] eqn:S; [|easy].
  pose proof (sequences_spec _ _ _ _ _ S) as Sp. intros Q a b i.
  destruct es as [|x0 es].
  - assert (NC : forall s, ~ chosen l v f s).
    { intros s (e & I & W & A). destruct (walk_nonempty _ _ _ _ W) as (r & ->). apply (Sp e). exists e, (e :: r). repeat split; auto. now left. }
    destruct (M_Selector.shown with_blank (item_of l f)) eqn:Sh; injection Q as <-.
    + split.
      * intros [K|[]]. right. repeat split; auto.
      * intros [(s & x & C & _)|(_ & _ & K)]; [now destruct (NC s)|now left].
    + split; [easy|]. intros [(s & x & C & _)|(_ & K & _)]; [now destruct (NC s)|easy].
  - remember (x0 :: es) as xs eqn:Xs. injection Q as <-. rewrite in_map_iff. split.
    + intros (x & K & I). apply filter_In in I as [I Sh]. apply Sp in I as (e & s & Ie & W & A & X). left. exists s, x.
      split; [now exists e|auto].
    + intros [(s & x & (e & Ie & W & A) & X & Sh & K)|(NC & _)].
      * exists x. split; [now rewrite K|]. apply filter_In. split; [|exact Sh]. apply Sp. now exists e, s.
      * destruct (proj1 (Sp x0)) as (e & s & Ie & W & A & X); [rewrite Xs; now left|]. destruct (NC s). now exists e.
Qed.

(** The loop ends if edges lead forward; vertices have a rank for that. *)
Theorem C79_ends l v f (rank : V -> nat) top : first_fallback l v = Some f ->
  (forall w e, In e (ins l w) \/ first_in l w = Some e -> rank w < rank (to l e) <= top) ->
  calls (S top) l v <> None.
Proof.
  intros F Up.
  assert (Walks : forall n e, rank (to l e) <= top -> top - rank (to l e) <= n -> exists s, walk l (to l f) e s /\ length s <= S n).
  { induction n as [n IH] using lt_wf_ind. intros e Top Le.
    destruct (veqb (to l e) (to l f)) eqn:T; [exists [e]; split; [apply walk_reached; now apply veqb_iff|cbn; lia]|].
    assert (N : to l e <> to l f) by (intros K; apply veqb_iff in K; congruence).
    destruct (first_in l (to l e)) as [e'|] eqn:G; [|exists [e]; split; [now apply walk_stuck|cbn; lia]].
    destruct (Up (to l e) e' (or_intror G)) as [Up1 Up2].
    destruct (IH (top - rank (to l e')) ltac:(lia) e' Up2 ltac:(lia)) as (s & W & Len).
    exists (e :: s). split; [now apply walk_on with e'|cbn; lia]. }
  unfold M_Selector.calls. rewrite F.
  assert (K : forall es, incl es (ins l v) -> sequences (S top) l (to l f) es <> None).
  { induction es as [|e es IH]; intros Inc; cbn [M_Selector.sequences]; [easy|].
    destruct (Up v e (or_introl (Inc e (or_introl eq_refl)))) as [U1 U2].
    destruct (Walks (top - rank (to l e)) e U2 ltac:(lia)) as (s & W & Len).
    pose proof (sequence_enough (S top) l (to l f) e s W ltac:(lia)) as Q. specialize (IH (fun x I => Inc x (or_intror I))).
    destruct (sequence (S top) l (to l f) e) as [[?|]|], (sequences (S top) l (to l f) es); easy. }
  specialize (K _ (incl_refl _)). destruct (sequences (S top) l (to l f) (ins l v)) as [[|]|]; easy.
Qed.

(** Walks fit together, and reach the end of the fallback edge if no edge leads over it and no vertex before it is a dead end. *)
Definition ends_at (l : L) (t : V) (s : list E) : Prop := exists r x, s = r ++ [x] /\ to l x = t.
Fixpoint joined (l : L) (s : list E) : Prop :=
  match s with x :: (y :: _) as s' => from l y = to l x /\ joined l s' | _ => True end.
Theorem C79_cover l v f s (rank : V -> nat) : chosen l v f s ->
  (forall a b, rank a = rank b -> a = b) ->
  (forall w e, In e (ins l w) \/ first_in l w = Some e -> from l e = w) ->
  (forall w e, In e (ins l w) \/ first_in l w = Some e -> rank w < rank (to l f) -> rank (to l e) <= rank (to l f)) ->
  (forall w e, In e (ins l w) \/ first_in l w = Some e -> rank (to l e) < rank (to l f) -> first_in l (to l e) <> None) ->
  rank v < rank (to l f) ->
  joined l s /\ (exists x r, s = x :: r /\ from l x = v) /\ ends_at l (to l f) s.
Proof.
  intros (e & I & W & _) Inj From Over Dead Lt.
  assert (K : forall e s, walk l (to l f) e s -> (exists w, In e (ins l w) \/ first_in l w = Some e) -> rank (to l e) <= rank (to l f) -> joined l s /\ ends_at l (to l f) s).
  { clear e s I W. intros e s W. induction W as [e T|e T N|e e' es T N W IH]; intros (w & S) Le.
    - split; [exact Logic.I|]. now exists [], e.
    - destruct (Dead _ _ S); [|exact N]. enough (rank (to l e) <> rank (to l f)) by lia. intros K. now apply T, Inj.
    - assert (rank (to l e) < rank (to l f)) by (enough (rank (to l e) <> rank (to l f)) by lia; intros K; now apply T, Inj).
      destruct (IH (ex_intro _ _ (or_intror N)) (Over _ _ (or_intror N) H)) as (J & r & x & -> & X). split.
      + cbn. destruct (r ++ [x]) as [|y r'] eqn:R; [exact Logic.I|]. split; [|exact J]. destruct (walk_nonempty _ _ _ _ W) as (r'' & R').
        injection R' as -> _. apply From. now right.
      + now exists (e :: r), x. }
  destruct (K e s W (ex_intro _ v (or_introl I)) (Over _ _ (or_introl I) Lt)) as [J En]. split; [exact J|]. split; [|exact En].
  destruct (walk_nonempty _ _ _ _ W) as (r & ->). exists e, r. split; [reflexivity|]. apply From. now left.
Qed.

(** The whole run, if what is added is not seen by the questions that are asked: the calls are those for the lattice as it was. *)
Definition unseen (l l' : L) : Prop :=
  (forall v, first_fallback l' v = first_fallback l v) /\ (forall v, first_in l' v = first_in l v) /\ (forall v, ins l' v = ins l v)
  /\ (forall v, tests l' v = tests l v) /\ (forall e, from l' e = from l e) /\ (forall e, to l' e = to l e)
  /\ (forall e, item_of l' e = item_of l e) /\ (forall e, with_text l' e = with_text l e).
Lemma unseen_satisfied l l' e : unseen l l' -> satisfied l' e = satisfied l e.
Proof.
  intros (_ & _ & _ & T & F & To & I & _). unfold M_Selector.satisfied. rewrite I, F, T.
  assert (Q : forall c ts, existsb (fun t => veqb (to l' t) (to l' e) && condition_met (item_of l' t) c) ts
                           = existsb (fun t => veqb (to l t) (to l e) && condition_met (item_of l t) c) ts).
  { intros c ts. induction ts as [|t ts IH]; cbn; [reflexivity|]. now rewrite IH, !To, I. }
  destruct (get (item_of l e) CONDITION); now rewrite ?Q.
Qed.
Lemma unseen_sequence l l' t fuel e : unseen l l' -> sequence fuel l' t e = sequence fuel l t e.
Proof.
  intros U. revert e. induction fuel as [|fuel IH]; intros e; cbn [M_Selector.sequence]; [reflexivity|].
  rewrite (unseen_satisfied _ _ _ U). pose proof U as (_ & F & _ & _ & _ & To & _). rewrite To, F.
  destruct (negb (satisfied l e)); [reflexivity|]. destruct (veqb (to l e) t); [reflexivity|].
  destruct (first_in l (to l e)); [|reflexivity]. now rewrite IH.
Qed.
Lemma unseen_sequences l l' t fuel es : unseen l l' -> sequences fuel l' t es = sequences fuel l t es.
Proof.
  intros U. induction es as [|e es IH]; cbn [M_Selector.sequences]; [reflexivity|]. now rewrite (unseen_sequence _ _ _ _ _ U), IH.
Qed.
Lemma unseen_calls l l' fuel v : unseen l l' -> calls fuel l' v = calls fuel l v.
Proof.
  intros U. pose proof U as (Ff & _ & In & _ & F & To & It & Wt). unfold M_Selector.calls. rewrite Ff.
  destruct (first_fallback l v) as [f|]; [|reflexivity]. rewrite To, In, (unseen_sequences _ _ _ _ _ U), It, Wt.
  destruct (sequences fuel l (to l f) (ins l v)) as [[|e es]|]; [reflexivity| |reflexivity].
  f_equal. assert (K : filter (fun e => shown (item_of l' e)) (e :: es) = filter (fun e => shown (item_of l e)) (e :: es)) by (apply filter_ext; intros x; now rewrite It).
  rewrite K. apply map_ext. intros x. now rewrite F, To, It.
Qed.
Lemma unseen_trans l l' l'' : unseen l l' -> unseen l' l'' -> unseen l l''.
Proof.
  intros (A1 & A2 & A3 & A4 & A5 & A6 & A7 & A8) (B1 & B2 & B3 & B4 & B5 & B6 & B7 & B8).
  repeat split; intros; congruence.
Qed.
Lemma unseen_refl l : unseen l l.
Proof. now repeat split. Qed.
Fixpoint all_calls (fuel : nat) (l : L) (vs : list V) : option (list (V * V * annotation)) :=
  match vs with
  | [] => Some []
  | v :: vs => match calls fuel l v, all_calls fuel l vs with Some c, Some r => Some (c ++ r) | _, _ => None end
  end.
Theorem C79_run fuel vs l : (forall l a b i, unseen l (add l a b i)) ->
  run fuel vs l = option_map (add_all l) (all_calls fuel l vs).
Proof.
  intros U. assert (Ua : forall cs l, unseen l (add_all l cs)).
  { induction cs as [|c cs IH]; intros l0; cbn; [apply unseen_refl|]. apply unseen_trans with (add l0 (fst (fst c)) (snd (fst c)) (snd c)); [apply U|apply IH]. }
  enough (K : forall vs l0, unseen l l0 -> run fuel vs l0 = option_map (add_all l0) (all_calls fuel l vs)) by (apply K, unseen_refl).
  clear vs. induction vs as [|v vs IH]; intros l0 U0; cbn [M_Selector.run all_calls]; [reflexivity|].
  rewrite (unseen_calls _ _ _ _ U0). destruct (calls fuel l v) as [c|]; [|reflexivity].
  rewrite IH; [|apply unseen_trans with l0; [exact U0|apply Ua]]. destruct (all_calls fuel l vs) as [r|]; [|reflexivity].
  cbn. f_equal. unfold M_Selector.add_all. now rewrite fold_left_app.
Qed.

(** The antiselector adds the fallback edges that have no edge of the other kind beside them. *)
Notation anti_calls := (anti_calls veqb ins from to item_of with_blank).
Notation anti_run := (anti_run veqb ins from to item_of add with_blank).
Theorem C79_anti l e a b i : In (a, b, i) (anti_calls l e) <->
  (a, b, i) = (from l e, to l e, item_of l e) /\ shown (item_of l e) = true /\ (forall x, In x (ins l a) -> to l x <> b).
Proof.
  unfold M_Selector.anti_calls. destruct (existsb (fun i0 => veqb (to l i0) (to l e)) (ins l (from l e))) eqn:X; cbn [negb andb].
  - apply existsb_exists in X as (x & I & T). apply veqb_iff in T. split; [easy|]. intros (Q & _ & N). destruct (N x); congruence.
  - assert (N : forall x, In x (ins l (from l e)) -> to l x <> to l e).
    { intros x I T. assert (existsb (fun i0 => veqb (to l i0) (to l e)) (ins l (from l e)) = true) by (apply existsb_exists; exists x; split; [exact I|now apply veqb_iff]). congruence. }
    destruct (M_Selector.shown with_blank (item_of l e)); (split; [|]).
    + intros [Q|[]]. split; [easy|]. split; [reflexivity|]. injection Q as <- <- _. exact N.
    + intros (Q & _). now left.
    + easy.
    + intros (_ & K & _). easy.
Qed.
Theorem C79_anti_run es l : (forall l a b i, unseen l (add l a b i)) -> anti_run es l = add_all l (flat_map (anti_calls l) es).
Proof.
  intros U. assert (Ua : forall cs l, unseen l (add_all l cs)).
  { induction cs as [|c cs IH]; intros l0; cbn; [apply unseen_refl|]. apply unseen_trans with (add l0 (fst (fst c)) (snd (fst c)) (snd c)); [apply U|apply IH]. }
  enough (K : forall es l0, unseen l l0 -> anti_run es l0 = add_all l0 (flat_map (anti_calls l) es)) by (apply K, unseen_refl).
  clear es. unfold M_Selector.anti_run. induction es as [|e es IH]; intros l0 U0; [reflexivity|]. cbn [fold_left flat_map].
  assert (Q : anti_calls l0 e = anti_calls l e).
  { destruct U0 as (_ & _ & In & _ & F & To & It & _). unfold M_Selector.anti_calls. rewrite F, In, It, To.
    assert (K : existsb (fun i => veqb (to l0 i) (to l e)) (ins l (from l e)) = existsb (fun i => veqb (to l i) (to l e)) (ins l (from l e))).
    { induction (ins l (from l e)) as [|x xs IHx]; cbn; [reflexivity|]. now rewrite IHx, To. }
    now rewrite K. }
  rewrite IH; [|apply unseen_trans with l0; [exact U0|apply Ua]]. rewrite Q. unfold M_Selector.add_all. now rewrite fold_left_app.
Qed.
End Select.
Print Assumptions C79_satisfied.
Print Assumptions C79_vertex.
Print Assumptions C79_ends.
Print Assumptions C79_cover.
Print Assumptions C79_run.
Print Assumptions C79_anti.
Print Assumptions C79_anti_run.

(** ** A small lattice *)
(** Edges with ends, an annotation and three tags; an edge with ends and a category that are there already gets the tags. *)
Record edge := Edge { x_from : nat; x_to : nat; x_item : annotation; x_in : bool; x_token : bool; x_test : bool }.
Definition lattice := list edge.
Definition same (x : edge) (a b : nat) (i : annotation) : bool := (x_from x =? a) && (x_to x =? b) && str_eqb (cat (x_item x)) (cat i).
Fixpoint put (token : bool) (l : lattice) (a b : nat) (i : annotation) : lattice :=
  match l with
  | [] => [Edge a b i false token false]
  | x :: l' => if same x a b i then Edge a b (x_item x) (x_in x) (x_token x || token) (x_test x) :: l' else x :: put token l' a b i
  end.
Definition outs (p : edge -> bool) (l : lattice) (v : nat) : list edge := filter (fun x => (x_from x =? v) && p x) l.
Definition first (p : edge -> bool) (l : lattice) (v : nat) : option edge := hd_error (outs p l v).
Notation small_calls := (calls (L := lattice) Nat.eqb (first x_token) (first x_in) (outs x_in) (outs x_test) (fun _ => x_from) (fun _ => x_to) (fun _ => x_item) (fun _ => x_item) false).
Notation small_run token := (run (L := lattice) Nat.eqb (first x_token) (first x_in) (outs x_in) (outs x_test) (fun _ => x_from) (fun _ => x_to) (fun _ => x_item) (fun _ => x_item) (put token) false).
Notation small_anti := (anti_calls (L := lattice) Nat.eqb (outs x_in) (fun _ => x_from) (fun _ => x_to) (fun _ => x_item) false).
Notation small_chosen := (chosen (L := lattice) (first x_in) (outs x_in) (outs x_test) (fun _ => x_from) (fun _ => x_to) (fun _ => x_item)).
Definition named (c : Z) : annotation := Annotation [c] [] [].
Definition needing (c : Z) (cond : str) : annotation := Annotation [c] [] [(CONDITION, ZSym cond)].
Definition token (a b : nat) (c : Z) : edge := Edge a b (named c) false true true.
(** A compound 0-4 of 0-2, which has to be a noun, and 2-4. *)
Definition compound (kind : str) : lattice :=
  [token 0 4 116; Edge 0 2 (Annotation kind [] []) false false true; Edge 0 2 (needing 97 w_noun) true false false; Edge 2 4 (named 98) true false false].
Example small_example :
  small_calls 5 (compound w_noun) 0 = Some [(0, 2, needing 97 w_noun); (2, 4, named 98)]
  /\ small_calls 5 (compound w_verb) 0 = Some [(0, 4, named 116)]
  /\ small_anti (compound w_noun) (token 0 4 116) = [(0, 4, named 116)]
  /\ small_anti (Edge 0 4 (named 97) true false false :: compound w_noun) (token 0 4 116) = [].
Proof. repeat split; vm_compute; reflexivity. Qed.
(** The hypotheses of C79_ends and C79_cover hold there. *)
Example small_cover : exists s, small_chosen (compound w_noun) 0 (token 0 4 116) s /\ length s = 2.
Proof.
  exists [Edge 0 2 (needing 97 w_noun) true false false; Edge 2 4 (named 98) true false false]. split; [|reflexivity].
  exists (Edge 0 2 (needing 97 w_noun) true false false). split; [vm_compute; auto|]. split.
  - apply walk_on with (Edge 2 4 (named 98) true false false); [discriminate|reflexivity|]. apply walk_reached. reflexivity.
  - assert (V : forall a b : nat, (a =? b) = true <-> a = b) by apply Nat.eqb_eq.
    repeat (first [apply Forall_nil|apply Forall_cons]); apply (C79_satisfied _ _ _ _ _ V); vm_compute; reflexivity.
Qed.
Lemma compound_edges k w x : In x (outs x_in (compound k) w) \/ first x_in (compound k) w = Some x ->
  (w = 0 /\ x = Edge 0 2 (needing 97 w_noun) true false false) \/ (w = 2 /\ x = Edge 2 4 (named 98) true false false).
Proof.
  intros H. assert (In x (outs x_in (compound k) w)) as I.
  { destruct H as [H|H]; [exact H|]. unfold first in H. destruct (outs x_in (compound k) w); [easy|]. injection H as ->. now left. }
  unfold outs, compound in I. apply filter_In in I as [I P]. apply andb_true_iff in P as [P Q]. apply Nat.eqb_eq in P. subst w.
  destruct I as [<-|[<-|[<-|[<-|[]]]]]; try easy; auto.
Qed.
Example small_hypotheses k :
  (forall w x, In x (outs x_in (compound k) w) \/ first x_in (compound k) w = Some x -> w < x_to x <= 4)
  /\ (forall w x, In x (outs x_in (compound k) w) \/ first x_in (compound k) w = Some x -> x_from x = w)
  /\ (forall w x, In x (outs x_in (compound k) w) \/ first x_in (compound k) w = Some x -> w < 4 -> x_to x <= 4)
  /\ (forall w x, In x (outs x_in (compound k) w) \/ first x_in (compound k) w = Some x -> x_to x < 4 -> first x_in (compound k) (x_to x) <> None).
Proof.
  split; [|split; [|split]]; intros w x H; apply compound_edges in H as [[-> ->]|[-> ->]]; cbn; try lia; try easy.
Qed.

(** Chosen edges need not cover the fallback edge: a sequence may end before it, or beyond it. *)
Theorem C79_gap_refuted : exists l v cs,
  small_calls 5 l v = Some cs /\ first x_token l v = Some (token 0 4 116) /\ cs <> [] /\ (forall a b i, In (a, b, i) cs -> b <> 4).
Proof.
  exists [token 0 4 116; Edge 0 2 (named 97) true false false], 0. eexists. split; [vm_compute; reflexivity|]. split; [reflexivity|]. split; [easy|].
  intros a b i [Q|[]]. injection Q as <- <- <-. lia.
Qed.
Print Assumptions C79_gap_refuted.
Theorem C79_over_refuted : exists l v cs,
  small_calls 5 l v = Some cs /\ first x_token l v = Some (token 0 4 116) /\ (exists a b i, In (a, b, i) cs /\ 4 < b) /\ (forall a b i, In (a, b, i) cs -> b <> 4).
Proof.
  exists [token 0 4 116; Edge 0 2 (named 97) true false false; Edge 2 6 (named 98) true false false], 0. eexists. split; [vm_compute; reflexivity|].
  split; [reflexivity|]. split.
  - exists 2, 6. eexists. split; [right; left; reflexivity|lia].
  - intros a b i [Q|[Q|[]]]; injection Q as <- <- <-; lia.
Qed.
Print Assumptions C79_over_refuted.
(** A vertex with a fallback edge that is not blank may get nothing at all: blank edges are chosen and then left out. *)
Theorem C79_blank_refuted : exists l v f, first x_token l v = Some f /\ cat (x_item f) <> BLANK /\ small_calls 5 l v = Some [].
Proof.
  exists [token 0 4 116; Edge 0 4 (named 66) true false false], 0. eexists. split; [vm_compute; reflexivity|]. split; [easy|]. vm_compute. reflexivity.
Qed.
Print Assumptions C79_blank_refuted.
(** With the default tags, which make fallback edges of what is added, more is chosen than for the lattice as it was: here the edge
    2-3, which is in no sequence for a vertex of the text as it was. *)
Definition has_token (o : option lattice) (a b : nat) (c : Z) : bool :=
  match o with Some l => existsb (fun x => (x_from x =? a) && (x_to x =? b) && str_eqb (cat (x_item x)) [c] && x_token x) l | None => false end.
Definition crossing : lattice :=
  [token 0 4 116; Edge 0 2 (named 97) true false false; Edge 2 4 (named 98) true false false; Edge 2 3 (named 99) true false false].
Theorem C79_default_refuted :
  (forall v cs a b i, small_calls 5 crossing v = Some cs -> In (a, b, i) cs -> (a, b) <> (2, 3))
  /\ has_token (small_run true 5 (seq 0 5) crossing) 2 3 99 = true.
Proof.
  split; [|vm_compute; reflexivity]. intros v cs a b i Q I.
  assert (v = 0 \/ v <> 0) as [->|N] by lia.
  - vm_compute in Q. injection Q as <-. destruct I as [I|[I|[]]]; injection I as <- <- <-; congruence.
  - assert (first x_token crossing v = None) as F by (destruct v; [easy|]; destruct v as [|[|[|]]]; reflexivity).
    unfold calls in Q. rewrite F in Q. injection Q as <-. destruct I.
Qed.
Print Assumptions C79_default_refuted.
(** Edges in a circle, which loose vertices make possible, are walked for ever. *)
Theorem C79_endless_refuted : exists l v, forall fuel, small_calls fuel l v = None.
Proof.
  exists [token 0 4 116; Edge 0 2 (named 97) true false false; Edge 2 0 (named 98) true false false], 0. intros fuel.
  set (l := [token 0 4 116; Edge 0 2 (named 97) true false false; Edge 2 0 (named 98) true false false]).
  set (e := Edge 0 2 (named 97) true false false). set (e' := Edge 2 0 (named 98) true false false).
  assert (K : forall n f, f <= n ->
    sequence (L := lattice) Nat.eqb (first x_in) (outs x_test) (fun _ => x_from) (fun _ => x_to) (fun _ => x_item) f l 4 e = None
    /\ sequence (L := lattice) Nat.eqb (first x_in) (outs x_test) (fun _ => x_from) (fun _ => x_to) (fun _ => x_item) f l 4 e' = None).
  { induction n as [|n IH]; intros [|f] Le; try lia; try (split; reflexivity). destruct (IH f ltac:(lia)) as [I1 I2].
    split; cbn [sequence].
    - change (option_map (option_map (cons e)) (sequence (L := lattice) Nat.eqb (first x_in) (outs x_test) (fun _ => x_from) (fun _ => x_to) (fun _ => x_item) f l 4 e') = None). now rewrite I2.
    - change (option_map (option_map (cons e')) (sequence (L := lattice) Nat.eqb (first x_in) (outs x_test) (fun _ => x_from) (fun _ => x_to) (fun _ => x_item) f l 4 e) = None). now rewrite I1. }
  unfold calls. change (first x_token l 0) with (Some (token 0 4 116)). change (outs x_in l 0) with [e]. cbn [sequences x_to token].
  now rewrite (proj1 (K fuel fuel (le_n _))).
Qed.
Print Assumptions C79_endless_refuted.
(** C79_run applies if the new edges are no fallback edges. *)
Lemma put_outs p l a b i v : (forall x y c, p (Edge x y c false false false) = false) -> outs p (put false l a b i) v = outs p l v.
Proof.
  intros P. unfold outs. induction l as [|x l IH]; cbn; [now rewrite P, andb_false_r|].
  destruct (same x a b i) eqn:S; [|cbn; now rewrite IH]. unfold same in S. apply andb_true_iff in S as [S _]. apply andb_true_iff in S as [A B].
  apply Nat.eqb_eq in A, B. destruct x as [xa xb xi x1 x2 x3]. cbn in A, B |- *. subst. now rewrite orb_false_r.
Qed.
Example small_unseen l a b i :
  unseen (L := lattice) (first x_token) (first x_in) (outs x_in) (outs x_test) (fun _ => x_from) (fun _ => x_to) (fun _ => x_item) (fun _ => x_item) l (put false l a b i).
Proof. repeat split; intros; unfold first; now rewrite ?put_outs. Qed.
Example small_run_example : small_run false 5 (seq 0 5) crossing =
  option_map (add_all (put false) crossing)
    (all_calls (L := lattice) Nat.eqb (first x_token) (first x_in) (outs x_in) (outs x_test) (fun _ => x_from) (fun _ => x_to) (fun _ => x_item) (fun _ => x_item) false 5 crossing (seq 0 5))
  /\ has_token (small_run false 5 (seq 0 5) crossing) 2 3 99 = false.
Proof. split; vm_compute; reflexivity. Qed.

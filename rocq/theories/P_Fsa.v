(** C29, C30, C51, C52: the automaton algebra of psi_query. *)
From Coq Require Import List ZArith Bool Sorted Permutation Lia PeanoNat.
From Verif Require Import M_OrdSet L_OrdSet M_Fsa S_Fsa L_Fsa L_FsaTraverse L_FsaLang L_FsaOps L_FsaMin L_FsaInter.
Import ListNotations.
Local Open Scope nat_scope.

(** The language of an automaton, from its arcs, start states and end states alone. *)
Definition accepts (f : ndfsa) : lang :=
  accepted EPS (fun p a q => In (a, q) (nth p (n_states f) [])) (fun p => In p (n_starts f)) (fun p => In p (n_ends f)).
Definition accepts_view (v : view) : lang :=
  accepted EPS (fun p a q => In (a, q) (v_arcs v p)) (fun p => In p (v_starts v)) (fun p => v_is_end v p = true).
(** What is accepted from a state on. *)
Definition accepts_from (f : ndfsa) (p : nat) : lang :=
  accepted EPS (fun p a q => In (a, q) (nth p (n_states f) [])) (fun q => q = p) (fun p => In p (n_ends f)).
(** No arc is labelled with the empty symbol. *)
Definition eps_free (f : ndfsa) : Prop := forall p q, ~ In (EPS, q) (nth p (n_states f) []).
Definition one_way (f : ndfsa) : Prop :=
  forall p a q q', In (a, q) (nth p (n_states f) []) -> In (a, q') (nth p (n_states f) []) -> q = q'.

(** Automata made by calls of the class with known state numbers. *)
Inductive made : ndfsa -> Prop :=
| made_empty : made empty
| made_state b f : made f -> made (snd (add_state b f))
| made_arc p a q f : made f -> q < n_size f -> made (add_arc p (a, q) f)
| made_set_start p f : made f -> p < n_size f -> made (set_start p f)
| made_unset_start p f : made f -> made (unset_start p f)
| made_set_end p f : made f -> p < n_size f -> made (set_end p f)
| made_unset_end p f : made f -> made (unset_end p f).
Theorem C29_calls_keep_the_form f : made f -> wf f.
Proof.
  induction 1; [apply empty_wf|now apply add_state_wf|now apply add_arc_wf|now apply set_start_wf|now apply unset_start_wf
    |now apply set_end_wf|now apply unset_end_wf].
Qed.
Print Assumptions C29_calls_keep_the_form.

(** The automaton of a word accepts this word and no other. *)
Theorem C29_word w : ~ In EPS w -> wf (of_word w) /\ same (accepts (of_word w)) (fun u => u = w).
Proof.
  intros N. split; [apply of_word_spec|]. intros u. fold (nd_lang (of_word w) u). rewrite (of_word_lang w u).
  replace (filter _ w) with w; [reflexivity|]. symmetry. induction w as [|a w IH]; [reflexivity|]. cbn.
  destruct (Z.eqb_spec a EPS) as [->|Na]; [exfalso; apply N; now left|]. cbn. f_equal. apply IH. intros K. apply N. now right.
Qed.
Print Assumptions C29_word.

(** unify: the union. *)
Theorem C29_unify f v : wf f -> v_wf v ->
  (exists fuel g, unify fuel f v = Some g) /\
  forall fuel g, unify fuel f v = Some g -> wf g /\ same (accepts g) (union (accepts f) (accepts_view v)).
Proof. intros H1 H2. split; [now apply unify_ends|]. intros fuel g. now apply unify_spec. Qed.
Print Assumptions C29_unify.
(** concatenate: the concatenation, provided the first automaton has an end state. *)
Theorem C29_concatenate f v : wf f -> v_wf v -> n_ends f <> [] ->
  (exists fuel g, concatenate fuel f v = Some g) /\
  forall fuel g, concatenate fuel f v = Some g -> wf g /\ same (accepts g) (concat (accepts f) (accepts_view v)).
Proof.
  intros H1 H2 N. split; [now apply concatenate_ends|]. intros fuel g E.
  destruct (concatenate_lang fuel f v g H1 H2 E) as [K1 K2]. split; [assumption|]. now destruct (n_ends f).
Qed.
Print Assumptions C29_concatenate.
(** Without end states the first automaton accepts nothing, but the result accepts what the
    second one does; buildSearchSuffix (fsa_multi_store.cpp lines 68-75) relies on this. *)
Theorem C29_concatenate_to_empty f v : wf f -> v_wf v -> n_ends f = [] ->
  forall fuel g, concatenate fuel f v = Some g -> wf g /\ same (accepts g) (accepts_view v) /\ forall u, ~ accepts f u.
Proof.
  intros H1 H2 N fuel g E. destruct (concatenate_lang fuel f v g H1 H2 E) as [K1 K2]. rewrite N in K2.
  split; [assumption|]. split; [assumption|]. intros u (p & q & _ & K & _). rewrite N in K. destruct K.
Qed.
Print Assumptions C29_concatenate_to_empty.
Theorem C29_concatenate_refuted : exists f v g, wf f /\ v_wf v /\ concatenate 10 f v = Some g /\
  ~ same (accepts g) (concat (accepts f) (accepts_view v)).
Proof.
  exists empty, (n_view (of_word [97%Z])). eexists. split; [apply empty_wf|]. split; [apply n_view_wf, of_word_spec|].
  split; [vm_compute; reflexivity|]. intros K. destruct (K [97%Z]) as [K1 _].
  destruct K1 as (u & v & _ & (p & q & [] & _) & _).
  exists 0, 1. split; [now left|]. split; [now left|].
  apply (path_cons _ _ 0 97%Z 1 1); [discriminate|now left|constructor].
Qed.
Print Assumptions C29_concatenate_refuted.
(** kleene_plus: the positive closure. *)
Theorem C29_kleene_plus f : wf f -> wf (kleene_plus f) /\ same (accepts (kleene_plus f)) (closure (accepts f)).
Proof. intros H. split; [apply (kleene_plus_spec f H)|now apply kleene_plus_lang]. Qed.
Print Assumptions C29_kleene_plus.
(** kleene_option changes nothing: the empty word is not added. *)
Theorem C29_kleene_option f : wf f -> wf (kleene_option f) /\ same (accepts (kleene_option f)) (accepts f).
Proof. intros H. split; [apply (kleene_option_spec f H)|now apply kleene_option_lang]. Qed.
Print Assumptions C29_kleene_option.
Lemma closure_same L M : same L M -> same (closure L) (closure M).
Proof.
  intros H u. split; induction 1 as [w K|x y K _ IH]; try (apply closure_one; now apply H); apply closure_more; try assumption; now apply H.
Qed.
(** kleene_star therefore gives the positive closure. *)
Theorem C29_kleene_star f : wf f -> wf (kleene_star f) /\ same (accepts (kleene_star f)) (closure (accepts f)).
Proof.
  intros H. destruct (C29_kleene_option f H) as [K1 K2]. destruct (C29_kleene_plus _ K1) as [K3 K4].
  split; [exact K3|]. intros u. unfold kleene_star. rewrite (K4 u). now apply closure_same.
Qed.
Print Assumptions C29_kleene_star.
Lemma closure_nil L : closure L [] -> L [].
Proof.
  intros H. remember [] as u eqn:E. induction H as [w K|x y K _ IH]; [now subst|]. apply app_eq_nil in E as [-> ->]. exact K.
Qed.
Theorem C29_option_and_star_refuted : exists f, wf f /\ ~ accepts (kleene_option f) [] /\ ~ accepts (kleene_star f) [].
Proof.
  exists (of_word [97%Z]). assert (W : wf (of_word [97%Z])) by apply of_word_spec. split; [assumption|].
  assert (N : ~ accepts (of_word [97%Z]) []).
  { intros K. apply (C29_word [97%Z]) in K; [discriminate|]. intros [K'|[]]. discriminate. }
  split.
  - intros K. apply N. now apply (C29_kleene_option _ W).
  - intros K. apply N, (closure_nil (accepts (of_word [97%Z]))). exact (proj1 (proj2 (C29_kleene_star _ W) []) K).
Qed.
Print Assumptions C29_option_and_star_refuted.
(** reverse: the mirror image; prune: the same words, and every state lies on the way of one. *)
Theorem C29_reverse f : wf f ->
  (exists fuel g, reverse fuel f = Some g) /\
  forall fuel g, reverse fuel f = Some g -> wf g /\ same (accepts g) (mirror (accepts f)).
Proof.
  intros H. split; [now apply reverse_ends|]. intros fuel g E. destruct (reverse_spec fuel f g H E) as (K1 & K2 & _). split; [exact K1|exact K2].
Qed.
Print Assumptions C29_reverse.
Theorem C29_prune f : wf f ->
  (exists fuel g, prune fuel f = Some g) /\
  forall fuel g, prune fuel f = Some g -> wf g /\ same (accepts g) (accepts f) /\
    forall p, p < n_size g -> exists s u v, In s (n_starts g) /\
      path EPS (fun p a q => In (a, q) (nth p (n_states g) [])) s u p /\ accepts_from g p v.
Proof.
  intros H. split; [now apply prune_ends|]. intros fuel g E. destruct (prune_spec fuel f g H E) as (K1 & K2 & K3 & K4).
  split; [assumption|]. split; [assumption|]. intros p L. destruct (K3 p L) as (s & u & J1 & J2). destruct (K4 p L) as (v & q & J3 & J4).
  exists s, u, v. split; [assumption|]. split; [assumption|]. now exists p, q.
Qed.
Print Assumptions C29_prune.

(** C30: removing epsilon arcs and determinising. *)
Theorem C30_eps_remove f : wf f ->
  (exists fuel g, eps_remove fuel f = Some g) /\
  forall fuel g, eps_remove fuel f = Some g -> wf g /\ same (accepts g) (accepts f) /\ eps_free g.
Proof. intros H. split; [now apply eps_remove_ends|]. intros fuel g. now apply eps_remove_spec. Qed.
Print Assumptions C30_eps_remove.
Theorem C30_determinize f : wf f ->
  (exists fuel g, determinize fuel f = Some g) /\
  forall fuel g, determinize fuel f = Some g ->
    wf g /\ same (accepts g) (accepts f) /\ n_starts g = [0] /\ one_way g /\ (eps_free f -> eps_free g).
Proof.
  intros H. split; [now apply determinize_ends|]. intros fuel g E. destruct (determinize_gen fuel f g H E) as (K1 & K2 & _ & K3 & K4).
  split; [assumption|]. split; [assumption|]. split; [exact (determinize_starts _ _ _ E)|]. split; [exact K3|].
  intros F. now destruct (K4 F) as [[K5 _] _].
Qed.
Print Assumptions C30_determinize.
(** determinize does not remove epsilon arcs by itself. *)
Theorem C30_determinize_keeps_epsilon_refuted : exists f g, wf f /\ determinize 10 f = Some g /\ ~ eps_free g.
Proof.
  exists (of_symbol EPS). eexists. split; [rewrite of_symbol_word; apply of_word_spec|]. split; [vm_compute; reflexivity|].
  intros K. apply (K 0 1). now left.
Qed.
Print Assumptions C30_determinize_keeps_epsilon_refuted.
(** NDFSA::in decides acceptance if there are no epsilon arcs. *)
Theorem C30_in f u : wf f -> eps_free f -> (in_ f u = true <-> accepts f u).
Proof. intros H F. now apply in_spec. Qed.
Print Assumptions C30_in.
(** It does not follow epsilon arcs: what concatenate builds is not recognised. *)
Theorem C30_in_epsilon_refuted : exists f g, wf f /\ concatenate 10 f (n_view f) = Some g /\ accepts g [97%Z; 97%Z] /\ in_ g [97%Z; 97%Z] = false.
Proof.
  exists (of_word [97%Z]). assert (W : wf (of_word [97%Z])) by apply of_word_spec.
  destruct (C29_concatenate (of_word [97%Z]) (n_view (of_word [97%Z])) W (n_view_wf _ W)) as [_ H]; [discriminate|].
  destruct (concatenate 10 (of_word [97%Z]) (n_view (of_word [97%Z]))) as [g|] eqn:E; [|discriminate].
  exists g. split; [assumption|]. split; [reflexivity|]. split.
  - apply (H 10 g E). exists [97%Z], [97%Z].
    assert (K : accepts (of_word [97%Z]) [97%Z]) by (apply (C29_word [97%Z]); [intros [K|[]]; discriminate|reflexivity]).
    split; [reflexivity|]. split; [exact K|]. now apply (n_view_lang (of_word [97%Z])).
  - vm_compute in E. injection E as <-. vm_compute. reflexivity.
Qed.
Print Assumptions C30_in_epsilon_refuted.
(** DFSA::in on a determinised automaton. *)
Theorem C30_dfsa_in f fuel g u : wf f -> eps_free f -> determinize fuel f = Some g -> (dfsa_in g u = true <-> accepts f u).
Proof.
  intros H F E. destruct (determinize_spec fuel f g H F E) as (K1 & K2 & K3 & _ & _).
  rewrite <- (K2 u). unfold dfsa_in. rewrite (dfsa_in_spec g K1 K3 u 0). unfold nd_lang, accepted.
  rewrite (determinize_starts _ _ _ E). split.
  - intros (q & J1 & J2). exists 0, q. split; [now left|]. now split.
  - intros (p & q & [<-|[]] & J1 & J2). now exists q.
Qed.
Print Assumptions C30_dfsa_in.

(** C51: intersection.  The pairs of start states are taken from the first automaton only. *)
Theorem C51_intersect f v : wf f -> v_wf v -> eps_free f -> (forall p q, ~ In (EPS, q) (v_arcs v p)) -> v_starts v = n_starts f ->
  (exists fuel g, intersect fuel f v false = Some g) /\
  forall fuel g, intersect fuel f v false = Some g -> wf g /\ same (accepts g) (inter (accepts f) (accepts_view v)).
Proof.
  intros H1 H2 F1 F2 S.
  assert (B : forall p, In p (n_starts f) -> p < v_size v) by (rewrite <- S; apply (vw_starts _ H2)).
  split; [now apply intersect_ends|]. intros fuel g E.
  destruct (intersect_spec fuel f v false g H1 H2 F1 F2 B E) as [K1 K2]. split; [assumption|].
  intros u. fold (nd_lang g u). rewrite (K2 u). unfold inter, accepts_view. rewrite S. split.
  - intros (x & y & J1 & J2 & J3). apply blend_exact in J1 as [-> ->]. now split.
  - intros [J1 J2]. exists u, u. split; [now apply blend_exact|]. now split.
Qed.
Print Assumptions C51_intersect.
(** With the joker symbol: words that agree letter by letter up to jokers, the other letter being kept. *)
Definition agree (b c a : Z) : Prop := (b = c /\ a = b) \/ (b = ANY /\ a = c) \/ (c = ANY /\ a = b).
Inductive agreeing : word -> word -> word -> Prop :=
| agreeing_nil : agreeing [] [] []
| agreeing_cons b c a x y u : agree b c a -> agreeing x y u -> agreeing (b :: x) (c :: y) (a :: u).
Lemma blend_agreeing x y u : blend true x y u <-> agreeing x y u.
Proof.
  split; induction 1 as [|b c a x y u K _ IH]; constructor; try assumption; unfold agree, meets in *.
  - intuition.
  - destruct K as [K|[[-> ->]|[-> ->]]]; [now left|right; split; [reflexivity|now left]|].
    destruct (Z.eq_dec b ANY) as [->|N]; [now left|]. right. split; [reflexivity|]. right. auto.
Qed.
Theorem C51_intersect_with_jokers f v : wf f -> v_wf v -> eps_free f -> (forall p q, ~ In (EPS, q) (v_arcs v p)) -> v_starts v = n_starts f ->
  (exists fuel g, intersect fuel f v true = Some g) /\
  forall fuel g, intersect fuel f v true = Some g ->
    wf g /\ same (accepts g) (fun u => exists x y, accepts f x /\ accepts_view v y /\ agreeing x y u).
Proof.
  intros H1 H2 F1 F2 S.
  assert (B : forall p, In p (n_starts f) -> p < v_size v) by (rewrite <- S; apply (vw_starts _ H2)).
  split; [now apply intersect_ends|]. intros fuel g E.
  destruct (intersect_spec fuel f v true g H1 H2 F1 F2 B E) as [K1 K2]. split; [assumption|].
  intros u. fold (nd_lang g u). rewrite (K2 u). unfold accepts_view. rewrite S.
  split; intros (x & y & J1 & J2 & J3); exists x, y; [apply blend_agreeing in J1|apply blend_agreeing in J3]; auto.
Qed.
Print Assumptions C51_intersect_with_jokers.
(** Without the condition on the start states the intersection is wrong: here the second automaton
    starts in state 1, and the common word "a" is lost. *)
Definition starts_later : ndfsa :=
  set_end 0 (add_arc 1 (97%Z, 0) (snd (add_state true (snd (add_state false empty))))).
Theorem C51_start_states_refuted : exists g, wf starts_later /\ intersect 10 (of_word [97%Z]) (n_view starts_later) false = Some g /\
  accepts (of_word [97%Z]) [97%Z] /\ accepts starts_later [97%Z] /\ ~ accepts g [97%Z].
Proof.
  eexists. split; [apply C29_calls_keep_the_form; repeat constructor|]. split; [vm_compute; reflexivity|].
  split; [|split].
  - apply (C29_word [97%Z]); [intros [K|[]]; discriminate|reflexivity].
  - exists 1, 0. split; [now left|]. split; [now left|]. apply (path_cons _ _ 1 97%Z 0 0); [discriminate|now left|constructor].
  - intros (p & q & _ & K & _). destruct K.
Qed.
Print Assumptions C51_start_states_refuted.
(** An end state that is reached only by an epsilon arc is not seen. *)
Definition ends_later : ndfsa := of_word [97%Z; EPS].
Theorem C51_epsilon_refuted : exists g, wf ends_later /\ n_starts ends_later = n_starts (of_word [97%Z]) /\
  intersect 10 (of_word [97%Z]) (n_view ends_later) false = Some g /\
  accepts (of_word [97%Z]) [97%Z] /\ accepts ends_later [97%Z] /\ ~ accepts g [97%Z].
Proof.
  eexists. split; [apply of_word_spec|]. split; [reflexivity|]. split; [vm_compute; reflexivity|]. split; [|split].
  - apply (C29_word [97%Z]); [intros [K|[]]; discriminate|reflexivity].
  - now apply (of_word_lang [97%Z; EPS]).
  - intros (p & q & _ & K & _). destruct K.
Qed.
Print Assumptions C51_epsilon_refuted.

(** C52: minimize (by reversing and determinising twice). *)
Theorem C52_minimize f : wf f ->
  (exists fuel g, minimize fuel f = Some g) /\
  forall fuel g, minimize fuel f = Some g ->
    wf g /\ same (accepts g) (accepts f) /\ n_starts g = [0] /\ one_way g /\ eps_free g /\
    forall p q, p < n_size g -> q < n_size g -> same (accepts_from g p) (accepts_from g q) -> p = q.
Proof.
  intros H. split; [now apply minimize_ends|]. intros fuel g E.
  destruct (minimize_spec fuel f g H E) as (K1 & K2 & [K3 K4] & _ & _ & K5 & _).
  split; [assumption|]. split; [assumption|]. split.
  - unfold minimize in E. destruct (eps_remove fuel f) as [f1|]; [|discriminate]. cbn [bind] in E.
    destruct (reverse fuel f1) as [f2|]; [|discriminate]. cbn [bind] in E.
    destruct (determinize fuel f2) as [f3|]; [|discriminate]. cbn [bind] in E.
    destruct (reverse fuel f3) as [f4|]; [|discriminate]. cbn [bind] in E. exact (determinize_starts _ _ _ E).
  - split; [exact K4|]. split; [exact K3|]. intros p q Lp Lq Eq. apply K5; [assumption..|].
    assert (A : forall x, same (accepts_from g x) (nd_right g x)).
    { intros x u. split; [intros (y & e & -> & J1 & J2); now exists e|intros (e & J1 & J2); now exists x, e]. }
    intros u. now rewrite <- (A p u), <- (A q u).
Qed.
Print Assumptions C52_minimize.
(** No deterministic automaton for the same words has fewer states. *)
Theorem C52_smallest f fuel g : wf f -> minimize fuel f = Some g ->
  forall (T : Type) (stp : T -> Z -> T -> Prop) (ini : T) (fin : T -> Prop) (states : list T),
    (forall p q, ~ stp p EPS q) -> (forall p a q q', stp p a q -> stp p a q' -> q = q') ->
    In ini states -> (forall p a q, In p states -> stp p a q -> In q states) ->
    same (accepted EPS stp (fun p => p = ini) fin) (accepts f) ->
    n_size g <= length states.
Proof.
  intros H E T stp ini fin states F D I C S. destruct (minimize_spec fuel f g H E) as (K1 & K2 & K3 & K4 & (s & Hs) & K5 & K6).
  rewrite <- (seq_length (n_size g) 0).
  apply (smallest EPS (f_step g) (fun p => In p (n_ends g)) s (seq 0 (n_size g)) stp fin ini states).
  - exact K3.
  - apply seq_NoDup.
  - intros x Hx. apply in_seq in Hx. destruct (K4 x) as (s' & u & J1 & J2); [lia|]. rewrite Hs in J1. destruct J1 as [<-|[]]. now exists u.
  - intros x Hx. apply in_seq in Hx. destruct (K6 x) as [J|J]; [lia| |now right]. rewrite Hs in J. destruct J as [<-|[]]. now left.
  - intros x y Hx Hy. apply in_seq in Hx. apply in_seq in Hy. apply K5; lia.
  - now split.
  - assumption.
  - assumption.
  - intros u. split.
    + intros (q & J1 & J2). assert (L : accepts f u) by (apply K2; exists s, q; rewrite Hs; split; [now left|now split]).
      apply S in L as (p & q' & -> & J3 & J4). now exists q'.
    + intros (q & J1 & J2). assert (L : accepts f u) by (apply S; now exists ini, q).
      apply K2 in L as (p & q' & J3 & J4 & J5). rewrite Hs in J3. destruct J3 as [<-|[]]. now exists q'.
Qed.
Print Assumptions C52_smallest.

(** Concrete cases. *)
Definition ab : ndfsa := of_word [97%Z; 98%Z].
Definition example_union : option ndfsa := unify 10 ab (n_view (of_word [99%Z; 98%Z])).
Example C29_example_union : match example_union with
  | Some g => in_ g [97%Z; 98%Z] = true /\ in_ g [99%Z; 98%Z] = true /\ in_ g [97%Z] = false /\ n_size g = 6
  | None => False end.
Proof. vm_compute. auto. Qed.
Example C29_example_made : made (of_symbol 97%Z).
Proof. unfold of_symbol. cbn. apply (made_set_end 1); [|cbn; auto]. apply (made_arc 0 97%Z 1); [|cbn; auto].
  change (Ndfsa [[]; []] [0] []) with (snd (add_state false (snd (add_state true empty)))). repeat constructor. Qed.
Example C29_example_concat : match concatenate 10 ab (n_view (of_word [99%Z])) with
  | Some g => match eps_remove 10 g with
              | Some h => in_ h [97%Z; 98%Z; 99%Z] = true /\ in_ h [97%Z; 98%Z] = false
              | None => False end
  | None => False end.
Proof. vm_compute. auto. Qed.
Example C29_example_plus : match eps_remove 10 (kleene_plus ab) with
  | Some h => in_ h [97%Z; 98%Z; 97%Z; 98%Z] = true /\ in_ h [] = false
  | None => False end.
Proof. vm_compute. auto. Qed.
Example C52_example : match example_union with
  | Some g => match minimize 40 g with
              | Some h => n_size h = 3 /\ dfsa_in h [97%Z; 98%Z] = true /\ dfsa_in h [99%Z; 98%Z] = true /\ dfsa_in h [98%Z] = false
              | None => False end
  | None => False end.
Proof. vm_compute. auto. Qed.
Example C51_example : match example_union with
  | Some g => match determinize 40 g with
              | Some h => match intersect 40 ab (n_view h) false with
                          | Some k => in_ k [97%Z; 98%Z] = true /\ in_ k [99%Z; 98%Z] = false /\ n_starts h = n_starts ab
                          | None => False end
              | None => False end
  | None => False end.
Proof. vm_compute. auto. Qed.
Example C51_example_joker : match intersect 40 (of_word [97%Z; ANY]) (n_view ab) true with
  | Some k => in_ k [97%Z; 98%Z] = true /\ in_ k [97%Z; ANY] = false
  | None => False end.
Proof. vm_compute. auto. Qed.

(** C83: the actions unify and delete of the puddle parser. *)
From Coq Require Import List Arith Bool Lia.
From Verif Require Import M_PuddleActions.
Import ListNotations.
Local Open Scope nat_scope.

Section Proofs.
Context {E V M P : Type}.
Variable disc : E -> bool.
Variable morph : E -> M.
Variable M_eqb : M -> M -> bool.
Variable V_eqb : V -> V -> bool.
Variable value : P -> E -> option V.
Variable fits : list (option V) -> E -> bool.
Hypothesis M_eqb_eq : forall a b, M_eqb a b = true <-> a = b.
Hypothesis V_eqb_eq : forall a b, V_eqb a b = true <-> a = b.

Notation column := (list E).
Notation element := (option (list column)).

(** * Specification *)

(** A token has a value of an attribute if one of its edges that are not
    discarded has it. *)
Definition has (p : P) (c : column) (v : V) : Prop :=
  exists e, In e c /\ disc e = false /\ value p e = Some v.
(** A value on which all tokens that have any agree. *)
Definition agreed (p : P) (cs : list column) (v : V) : Prop :=
  (exists c, In c cs /\ has p c v)
  /\ forall c, In c cs -> (exists w, has p c w) -> has p c v.

(** * The test of unify *)

Lemma values_spec p c v : In v (values disc value p c) <-> has p c v.
Proof.
  unfold values, has. rewrite in_flat_map. split.
  - intros (e & I & H). exists e. destruct (disc e); [destruct H|].
    destruct (value p e) as [w|]; [|destruct H]. destruct H as [->|[]]. auto.
  - intros (e & I & D & H). exists e. rewrite D, H. cbn. auto.
Qed.

Lemma step_spec p ref c v : In v (step disc V_eqb value p ref c) <->
  ((forall w, ~ has p c w) /\ In v ref)
  \/ ((exists w, has p c w) /\ ref = [] /\ has p c v)
  \/ (In v ref /\ has p c v).
Proof.
  unfold step. pose proof (values_spec p c) as VS.
  destruct (values disc value p c) as [|x vs].
  - split.
    + intro H. left. split; [|exact H]. intros w W. apply VS in W. destruct W.
    + intros [(_ & H)|[((w & W) & _)|(_ & W)]]; [exact H| |]; apply VS in W; destruct W.
  - assert (X : exists w, has p c w) by (exists x; apply VS; now left).
    destruct ref as [|y ref].
    + rewrite VS. split.
      * intro H. right. left. auto.
      * intros [(N & _)|[(_ & _ & H)|([] & _)]]; [|exact H]. destruct X as (w & W). now apply N in W.
    + rewrite filter_In, existsb_exists. split.
      * intros (I & w & W & Q). apply V_eqb_eq in Q. subst w. right. right. split; [exact I|].
        now apply VS.
      * intros [(N & _)|[(_ & Q & _)|(I & H)]].
        -- destruct X as (w & W). now apply N in W.
        -- discriminate.
        -- split; [exact I|]. exists v. split; [now apply VS|now apply V_eqb_eq].
Qed.

(** A value on which all agree is found. *)
Lemma ref_agreed p v cs : forall ref,
  (forall c, In c cs -> (exists w, has p c w) -> has p c v) ->
  (In v ref \/ ref = [] /\ exists c, In c cs /\ has p c v) ->
  In v (fold_left (step disc V_eqb value p) cs ref).
Proof.
  induction cs as [|c cs IH]; intros ref A H; cbn [fold_left].
  - destruct H as [H|(_ & c & [] & _)]. exact H.
  - apply IH; [intros d D; apply A; now right|].
    assert (DC : (exists w, has p c w) \/ (forall w, ~ has p c w)).
    { pose proof (values_spec p c) as VS. destruct (values disc value p c) as [|x vs].
      - right. intros w W. apply VS in W. destruct W.
      - left. exists x. apply VS. now left. }
    destruct H as [H|(-> & d & D & HD)].
    + left. apply step_spec. destruct DC as [DC|DC]; [|left; auto].
      right. right. split; [exact H|]. apply A; [now left|exact DC].
    + destruct DC as [DC|DC].
      * left. apply step_spec. right. left. split; [exact DC|]. split; [reflexivity|].
        apply A; [now left|exact DC].
      * destruct D as [->|D]; [now apply DC in HD|]. right. split.
        -- destruct (step disc V_eqb value p [] c) as [|y l] eqn:S; [reflexivity|].
           assert (In y (step disc V_eqb value p [] c)) as Y by (rewrite S; now left).
           apply step_spec in Y as [(_ & [])|[((w & W) & _)|([] & _)]]. now apply DC in W.
        -- exists d. auto.
Qed.

Lemma possible_spec ps els : possible disc V_eqb value ps els = true <->
  forall p, In p ps -> exists v, In v (ref_values disc V_eqb value p (columns els)).
Proof.
  induction ps as [|p ps IH]; cbn [possible].
  - split; [intros _ p []|reflexivity].
  - split.
    + intros H q [<-|Q].
      * destruct (ref_values disc V_eqb value p (columns els)) as [|v l]; [discriminate|].
        exists v. now left.
      * apply IH; [|exact Q]. now destruct (ref_values disc V_eqb value p (columns els)).
    + intro H. destruct (H p (or_introl eq_refl)) as (v & I).
      destruct (ref_values disc V_eqb value p (columns els)); [destruct I|].
      apply IH. intros q Q. apply H. now right.
Qed.

(** If the tokens agree in every attribute then the action is possible. *)
Theorem C83_possible : forall ps els,
  (forall p, In p ps -> exists v, agreed p (columns els) v) ->
  possible disc V_eqb value ps els = true.
Proof.
  intros ps els H. apply possible_spec. intros p I. destruct (H p I) as (v & X & A).
  exists v. unfold ref_values. apply ref_agreed; [exact A|right; auto].
Qed.

(** If no more than two of the tokens have values then they agree. *)
Theorem C83_possible_two : forall ps els a b,
  columns els = [a; b] ->
  possible disc V_eqb value ps els = true ->
  forall p, In p ps -> exists v, agreed p (columns els) v.
Proof.
  intros ps els a b C H p I. rewrite possible_spec in H. destruct (H p I) as (v & R).
  rewrite C in *. unfold ref_values in R. cbn [fold_left] in R. exists v. unfold agreed.
  apply step_spec in R as [(N & R)|[((w & W) & R & HV)|(R & HV)]].
  - apply step_spec in R as [(_ & [])|[(_ & _ & HA)|([] & _)]].
    split; [exists a; cbn; auto|]. intros c [<-|[<-|[]]] X; [exact HA|].
    destruct X as (w & W). now apply N in W.
  - split; [exists b; cbn; auto|]. intros c [<-|[<-|[]]] (x & X); [|exact HV].
    assert (In x (step disc V_eqb value p [] a)) as Y.
    { apply step_spec. right. left. split; [now exists x|auto]. }
    rewrite R in Y. destruct Y.
  - apply step_spec in R as [(_ & [])|[(_ & _ & HA)|([] & _)]].
    split; [exists b; cbn; auto|]. now intros c [<-|[<-|[]]] _.
Qed.

(** * The edges that unify keeps *)

Lemma sequences_spec i cs : forall acc s, acc <> [] ->
  (In s (sequences disc fits i cs acc) <->
   exists a r, In a acc /\ s = a ++ r
     /\ Forall2 (fun e c => In e c /\ disc e = false /\ fits i e = true) r cs).
Proof.
  induction cs as [|c cs IH]; intros acc s N; cbn [sequences].
  - split.
    + intro H. exists s, []. rewrite app_nil_r. auto.
    + intros (a & r & I & -> & F). inversion F. now rewrite app_nil_r.
  - set (m := filter (fun e => negb (disc e) && fits i e) c).
    assert (MS : forall e, In e m <-> In e c /\ disc e = false /\ fits i e = true).
    { intro e. unfold m. rewrite filter_In, andb_true_iff, negb_true_iff. tauto. }
    destruct m as [|x m'] eqn:ME.
    + split; [intros []|]. intros (a & r & I & -> & F). inversion F; subst.
      match goal with H : In ?y c /\ _ |- _ => apply MS in H as [] end.
    + destruct acc as [|a0 acc']; [congruence|]. rewrite <- ME in *. remember (a0 :: acc') as acc.
      rewrite IH.
      2:{ subst acc. cbn [flat_map]. rewrite ME. cbn. discriminate. }
      split.
      * intros (a & r & I & -> & F). apply in_flat_map in I as (l & L & I).
        apply in_map_iff in I as (e & <- & EM). exists l, (e :: r). split; [exact L|].
        split; [now rewrite <- app_assoc|]. constructor; [now apply MS|exact F].
      * intros (a & r & I & -> & F). inversion F as [|e ? r' ? HE HF]; subst r.
        exists (a ++ [e]), r'. split.
        -- apply in_flat_map. exists a. split; [exact I|]. apply in_map_iff. exists e.
           split; [reflexivity|now apply MS].
        -- split; [now rewrite <- app_assoc|exact HF].
Qed.

(** The sequences that are kept are all choices of one fitting edge for every
    token. *)
Theorem C83_sequences : forall i cs s, cs <> [] ->
  (In s (sequences disc fits i cs []) <->
   Forall2 (fun e c => In e c /\ disc e = false /\ fits i e = true) s cs).
Proof.
  intros i [|c cs] s N; [congruence|]. cbn [sequences].
  set (m := filter (fun e => negb (disc e) && fits i e) c).
  assert (MS : forall e, In e m <-> In e c /\ disc e = false /\ fits i e = true).
  { intro e. unfold m. rewrite filter_In, andb_true_iff, negb_true_iff. tauto. }
  destruct m as [|x m'] eqn:ME.
  - split; [intros []|]. intro F. inversion F; subst.
    match goal with H : In ?y c /\ _ |- _ => apply MS in H as [] end.
  - rewrite <- ME in *. rewrite sequences_spec by (rewrite ME; cbn; discriminate). split.
    + intros (a & r & I & -> & F). apply in_map_iff in I as (e & <- & EM). cbn.
      constructor; [now apply MS|exact F].
    + intro F. inversion F as [|e ? r ? HE HF]; subst. exists [e], r. split.
      * apply in_map_iff. exists e. split; [reflexivity|now apply MS].
      * split; [reflexivity|exact HF].
Qed.

Lemma In_existsb m l : existsb (M_eqb m) l = true <-> In m l.
Proof.
  rewrite existsb_exists. split.
  - intros (x & I & H). apply M_eqb_eq in H. now subst.
  - intro I. exists m. split; [exact I|now apply M_eqb_eq].
Qed.

Lemma discard_loop_spec cs : forall sets k0 keep,
  sets = map (fun k => flat_map (fun l => match nth_error l k with
                                          | Some e => [morph e] | None => [] end) keep)
             (seq k0 (length cs)) ->
  forall e, In e (discard_loop morph M_eqb (map (fun c => Some [c]) cs) sets) <->
    exists k c, nth_error cs k = Some c /\ In e c
      /\ forall l d, In l keep -> nth_error l (k0 + k) = Some d -> morph d <> morph e.
Proof.
  induction cs as [|c cs IH]; intros sets k0 keep -> e; cbn [map length seq discard_loop].
  - split; [intros []|]. intros (k & c & K & _). now destruct k.
  - rewrite in_app_iff. rewrite (IH _ (S k0) keep eq_refl). cbn [concat]. rewrite app_nil_r.
    rewrite filter_In, negb_true_iff, <- not_true_iff_false, In_existsb.
    split.
    + intros [(I & N)|(k & d & K & I & H)].
      * exists 0, c. split; [reflexivity|]. split; [exact I|]. intros l d L D Q. apply N.
        apply in_flat_map. exists l. split; [exact L|]. rewrite Nat.add_0_r in D. rewrite D, Q. now left.
      * exists (S k), d. split; [exact K|]. split; [exact I|]. intros l x L X. apply (H l); [exact L|].
        rewrite <- X. f_equal. lia.
    + intros (k & d & K & I & H). destruct k as [|k].
      * left. injection K as ->. split; [exact I|]. intro Q. apply in_flat_map in Q as (l & L & Q).
        destruct (nth_error l k0) as [x|] eqn:X; [|destruct Q]. destruct Q as [Q|[]].
        apply (H l x L); [now rewrite Nat.add_0_r|exact Q].
      * right. exists k, d. split; [exact K|]. split; [exact I|]. intros l x L X. apply (H l); [exact L|].
        rewrite <- X. f_equal. lia.
Qed.

(** Where every element matched one token: an edge is discarded if and only if
    for no interpretation a choice of fitting edges, one for every token, has at
    its place an edge of its morphology. *)
Theorem C83_unify : forall ps in_partition cs,
  cs <> [] ->
  let els := map (fun c => Some [c]) cs in
  let good i s := In i (map (interpretation disc value ps) (concat cs))
     /\ Forall2 (fun e c => In e c /\ disc e = false /\ fits i e = true) s cs in
  exists gone, unify disc morph M_eqb value fits ps in_partition els = Some gone
  /\ (forall e, In e gone ->
       exists k c, nth_error cs k = Some c /\ In e c
       /\ forall i s d, good i s -> nth_error s k = Some d -> morph d <> morph e)
  /\ (forall i s, good i s -> in_partition s = true ->
       forall e k c, nth_error cs k = Some c -> In e c ->
         (forall i s d, good i s -> nth_error s k = Some d -> morph d <> morph e) ->
         In e gone)
  /\ ((forall i s, good i s -> in_partition s = false) -> gone = []).
Proof.
  intros ps inp cs N els good.
  assert (CE : columns els = cs).
  { unfold els, columns. clear. induction cs as [|c cs IH]; [reflexivity|]. cbn [map flat_map app].
    now rewrite IH. }
  set (keep := to_keep disc fits (interpretations disc value ps els) els).
  assert (KS : forall s, In s keep <-> exists i, good i s).
  { intro s. unfold keep, to_keep. rewrite in_flat_map. unfold interpretations. rewrite CE.
    unfold good. split.
    - intros (i & I & S). exists i. split; [exact I|]. apply (proj1 (C83_sequences i cs s N) S).
    - intros (i & I & S). exists i. split; [exact I|]. apply (proj2 (C83_sequences i cs s N) S). }
  assert (LEN : forall s, In s keep -> length s = length cs).
  { intros s S. apply KS in S as (i & _ & F). clear - F. induction F; cbn; congruence. }
  assert (KA : kept_at morph keep (length els)
     = Some (map (fun k => flat_map (fun l => match nth_error l k with
                                              | Some e => [morph e] | None => [] end) keep)
                 (seq 0 (length cs)))).
  { unfold kept_at. unfold els. rewrite map_length.
    replace (forallb (fun l => length l <=? length cs) keep) with true; [reflexivity|].
    symmetry. apply forallb_forall. intros l L. apply Nat.leb_le. now rewrite (LEN l L). }
  unfold unify. fold keep. destruct (existsb inp keep) eqn:X.
  - unfold discarded. rewrite KA.
    exists (discard_loop morph M_eqb els
      (map (fun k => flat_map (fun l => match nth_error l k with
                                        | Some e => [morph e] | None => [] end) keep)
           (seq 0 (length cs)))).
    split; [reflexivity|].
    pose proof (discard_loop_spec cs _ 0 keep eq_refl) as DS. fold els in DS.
    split; [|split].
    + intros e G. apply DS in G as (k & c & K & I & H). exists k, c. split; [exact K|].
      split; [exact I|]. intros i s d S D. apply (H s d); [|exact D]. apply KS. now exists i.
    + intros i s _ _ e k c K I H. apply DS. exists k, c. split; [exact K|]. split; [exact I|].
      intros l d L D. apply KS in L as (j & J). now apply (H j l d).
    + intro F. exfalso. apply existsb_exists in X as (s & S & Y). apply KS in S as (i & S).
      rewrite (F i s S) in Y. discriminate.
  - exists []. split; [reflexivity|]. split; [intros e []|]. split; [|reflexivity].
    intros i s G Y. exfalso. apply not_true_iff_false in X. apply X. apply existsb_exists.
    exists s. split; [apply KS; now exists i|exact Y].
Qed.

(** * Delete *)

Variable B : Type.
Variable base_match morph_match : B -> E -> bool.

(** The edges that are deleted: those that are not yet discarded and for which
    one of the conditions asks: a morphology that matches, a base form that does
    not match or, with a negation, that does. *)
Theorem C83_delete : forall cs edges e,
  In e (deleted disc B base_match morph_match cs edges) <->
  In e edges /\ disc e = false
  /\ ((exists b, In (Morph B b) cs /\ morph_match b e = true)
      \/ (exists b, In (Base B false b) cs /\ base_match b e = false)
      \/ (exists b, In (Base B true b) cs /\ base_match b e = true)).
Proof.
  intros cs edges e. unfold deleted. rewrite filter_In, andb_true_iff, negb_true_iff, existsb_exists.
  split.
  - intros (I & D & c & C & H). split; [exact I|]. split; [exact D|]. destruct c as [[|] b|b]; cbn in H.
    + right. right. now exists b.
    + right. left. exists b. split; [exact C|]. now apply negb_true_iff.
    + left. now exists b.
  - intros (I & D & [(b & C & H)|[(b & C & H)|(b & C & H)]]);
      (split; [exact I|]; split; [exact D|]);
      [exists (Morph B b)|exists (Base B false b)|exists (Base B true b)]; (split; [exact C|]); cbn;
      [exact H|now rewrite H|exact H].
Qed.

(** The search for edges to delete does not look at the conditions: it finds
    whether there is any edge that is not discarded.  The test of the action
    always succeeds. *)
Theorem C83_found : forall cs edges,
  (found disc B base_match morph_match cs edges = true <-> exists e, In e edges /\ disc e = false)
  /\ forall count, delete_test disc B base_match morph_match count cs edges = true.
Proof.
  intros cs edges.
  assert (SL : forall e, satisfied_loop B base_match morph_match cs e true = true).
  { intro e. induction cs as [|c cs IH]; [reflexivity|]. cbn. destruct c as [[|] b|b].
    - now destruct (base_match b e).
    - now destruct (base_match b e).
    - now destruct (morph_match b e). }
  split.
  - unfold found.
    assert (FL : forall es f, found_loop disc B base_match morph_match cs es f = true
       <-> f = true \/ exists e, In e es /\ disc e = false).
    { induction es as [|e es IH]; intro f; cbn [found_loop].
      - split; [auto|]. intros [H|(e & [] & _)]. exact H.
      - destruct (disc e) eqn:D.
        + rewrite IH. split; (intros [H|(x & X & Y)]; [auto|]).
          * right. exists x. cbn. auto.
          * destruct X as [->|X]; [congruence|]. right. now exists x.
        + rewrite SL, IH. split; intros _; [right; exists e; cbn; auto|now left]. }
    rewrite FL. split; [intros [H|H]; [discriminate|exact H]|auto].
  - intro count. unfold delete_test. now destruct (count =? 0).
Qed.
End Proofs.
Print Assumptions C83_possible.
Print Assumptions C83_possible_two.
Print Assumptions C83_sequences.
Print Assumptions C83_unify.
Print Assumptions C83_delete.
Print Assumptions C83_found.

(** * Cases *)

(** Edges: a number for the morphology and the value of one attribute. *)
Definition edge := (nat * option nat)%type.
Definition val (_ : unit) (e : edge) : option nat := snd e.
Definition live (_ : edge) := false.
Definition fit (i : list (option nat)) (e : edge) : bool :=
  match i with
  | [Some v] => match snd e with Some w => v =? w | None => false end
  | _ => true
  end.

(** Two tokens, the first with the values 1 and 2, the second with 2 and 3. *)
Definition tok1 : list edge := [(10, Some 1); (11, Some 2)].
Definition tok2 : list edge := [(20, Some 2); (21, Some 3)].

Example ex_possible : possible live Nat.eqb val [tt] [Some [tok1]; Some [tok2]] = true.
Proof. vm_compute. reflexivity. Qed.
Example ex_agreed : agreed live val tt (columns [Some [tok1]; Some [tok2]]) 2.
Proof.
  unfold agreed, has, live, val. split.
  - exists tok1. split; [cbn; auto|]. exists (11, Some 2). cbn. auto.
  - cbn. intros c [<-|[<-|[]]] _; [exists (11, Some 2)|exists (20, Some 2)]; cbn; auto.
Qed.
Example ex_unify :
  unify live fst Nat.eqb val fit [tt] (fun _ => true) [Some [tok1]; Some [tok2]]
  = Some [(10, Some 1); (21, Some 3)].
Proof. vm_compute. reflexivity. Qed.
Example ex_delete :
  deleted live nat (fun b e => b =? fst e) (fun b e => match snd e with Some v => b =? v | None => false end)
    [Morph nat 1] tok1 = [(10, Some 1)].
Proof. vm_compute. reflexivity. Qed.

(** * What is not true *)

(** With three tokens the test succeeds though the first does not agree with the
    others: the set of common values that has become empty is filled again. *)
Theorem C83_possible_refuted :
  let els := [Some [[(1, Some 1)]]; Some [[(2, Some 2)]]; Some [[(3, Some 2)]]] in
  possible live Nat.eqb val [tt] els = true
  /\ ~ exists v, agreed live val tt (columns els) v.
Proof.
  split; [vm_compute; reflexivity|].
  intros (v & _ & A). unfold has, live, val in A. cbn [columns flat_map app] in A.
  assert (H1 := A [(1, Some 1)] (or_introl eq_refl)).
  assert (H2 := A [(2, Some 2)] (or_intror (or_introl eq_refl))).
  destruct H1 as (e & [<-|[]] & _ & E1); [exists 1, (1, Some 1); cbn; auto|].
  destruct H2 as (f & [<-|[]] & _ & E2); [exists 2, (2, Some 2); cbn; auto|].
  cbn in E1, E2. congruence.
Qed.
Print Assumptions C83_possible_refuted.

(** An element of the rule that matched nothing shifts the sets: all edges of
    the next one are discarded though they agree. *)
Theorem C83_skipped_refuted :
  unify live fst Nat.eqb val fit [tt] (fun _ => true) [None; Some [[(1, Some 1)]]; Some [[(2, Some 1)]]]
  = Some [(1, Some 1); (2, Some 1)].
Proof. vm_compute. reflexivity. Qed.
Print Assumptions C83_skipped_refuted.

(** An element that matched two tokens makes a sequence longer than the vector
    of sets, which is then written behind its end. *)
Theorem C83_repeated_refuted :
  unify live fst Nat.eqb val fit [tt] (fun _ => true)
    [Some [[(1, Some 1)]; [(2, Some 1)]]; Some [[(3, Some 1)]]] = None.
Proof. vm_compute. reflexivity. Qed.
Print Assumptions C83_repeated_refuted.

(** Of two conditions one is enough, and a condition on the base form deletes
    the edges that do not meet it. *)
Theorem C83_delete_refuted :
  let bm b (e : edge) := b =? fst e in
  let mm b (e : edge) := match snd e with Some v => b =? v | None => false end in
  deleted live nat bm mm [Morph nat 1; Base nat true 11] tok1 = tok1
  /\ deleted live nat bm mm [Base nat false 10] tok1 = [(11, Some 2)].
Proof. vm_compute. auto. Qed.
Print Assumptions C83_delete_refuted.

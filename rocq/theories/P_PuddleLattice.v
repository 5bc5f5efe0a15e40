(** C81: the top edges, the positions of tokens and the ranges of edges that the
    puddle parser works on. *)
From Coq Require Import List Arith Bool Lia.
From Verif Require Import M_PuddleLattice.
Import ListNotations.
Local Open Scope nat_scope.

Section Props.
Context {E A : Type}.
Variable out : nat -> list E.
Variables disc tok blank : E -> bool.
Variable parts : E -> list (list E).
Variables beg len : E -> nat.
Variable ann : E -> A.
Variable item_eqb : A -> A -> bool.
Variable edge_eqb : E -> E -> bool.
Variable last : nat.

Local Notation top := (top_edges out disc tok blank parts beg len ann item_eqb edge_eqb last).

(** * Specification *)

(** The edges that are considered at a vertex. *)
Definition considered (v : nat) (e : E) : Prop :=
  In e (out v) /\ disc e = false /\ ~ (tok e = true /\ blank e = true).

(** The edges inside them. *)
Definition inside (v : nat) (x : E) : Prop :=
  exists e p, considered v e /\ In p (parts e) /\ In x p.

Definition fin (e : E) : nat := beg e + len e.

(** A top edge: no edge inside begins before it or ends behind it, none is like
    it, and it is no token if there is another kind of edge. *)
Record is_top (v : nat) (e : E) : Prop := {
  t_cons : considered v e;
  t_last : beg e <= last;
  t_begin : forall x, inside v x -> beg e <= beg x;
  t_end : forall x, inside v x -> fin x <= fin e;
  t_like : forall x, inside v x -> beg x = beg e -> len x = len e ->
             item_eqb (ann e) (ann x) = false;
  t_tok : tok e = true -> forall x, considered v x -> tok x = true
}.

(** Equal edges have the same ends and annotations. *)
Hypothesis edge_eqb_ok : forall x y, edge_eqb x y = true -> x = y.

(** * Top edges *)

Lemma unique_from_in x l y : In y (unique_from edge_eqb x l) \/ y = x <-> In y l \/ y = x.
Proof.
  revert x. induction l as [|z l IH]; intro x; cbn; [tauto|].
  destruct (edge_eqb x z) eqn:Q.
  - apply edge_eqb_ok in Q. subst z. rewrite IH. intuition congruence.
  - cbn. specialize (IH z). intuition congruence.
Qed.

Lemma unique_in l y : In y (unique edge_eqb l) <-> In y l.
Proof.
  destruct l as [|x l]; [reflexivity|]. cbn. pose proof (unique_from_in x l y).
  intuition congruence.
Qed.

Lemma extent_spec l : forall s t,
  let (s', t') := extent beg len l s t in
  (forall b, b <= s' <-> b <= s /\ forall x, In x l -> b <= beg x)
  /\ (forall b, t' <= b <-> t <= b /\ forall x, In x l -> fin x <= b).
Proof.
  induction l as [|e l IH]; intros s t; cbn [extent].
  - split; intro b; (split; [intro; split; [lia|intros x []]|tauto]).
  - specialize (IH (if beg e <? s then beg e else s)
                   (if t <? beg e + len e then beg e + len e else t)).
    destruct (extent beg len l _ _) as (s', t'). destruct IH as (P & Q). split; intro b.
    + rewrite P. clear P Q. destruct (Nat.ltb_spec (beg e) s).
      * split; intros (B & X).
        -- split; [lia|]. intros x [<-|I]; auto.
        -- split; [apply X; now left|intros x I; apply X; now right].
      * split; intros (B & X).
        -- split; [lia|]. intros x [<-|I]; [lia|auto].
        -- split; [lia|intros x I; apply X; now right].
    + rewrite Q. clear P Q. unfold fin. destruct (Nat.ltb_spec t (beg e + len e)).
      * split; intros (B & X).
        -- split; [lia|]. intros x [<-|I]; auto.
        -- split; [apply (X e); now left|intros x I; apply X; now right].
      * split; intros (B & X).
        -- split; [lia|]. intros x [<-|I]; [lia|auto].
        -- split; [lia|intros x I; apply X; now right].
Qed.

Lemma non_top_spec l e :
  non_top beg len ann item_eqb last l e = false <->
  beg e <= last /\ (forall x, In x l -> beg e <= beg x)
  /\ (forall x, In x l -> fin x <= fin e)
  /\ (forall x, In x l -> beg x = beg e -> len x = len e -> item_eqb (ann e) (ann x) = false).
Proof.
  unfold non_top. pose proof (extent_spec l last 0) as X.
  destruct (extent beg len l last 0) as (s, t). destruct X as (P & Q).
  specialize (P (beg e)). specialize (Q (fin e)).
  destruct (Nat.ltb_spec s (beg e)) as [B|B].
  - split; [discriminate|]. intros (L & M & _).
    assert (beg e <= s) by (apply P; split; assumption). lia.
  - apply P in B as (B1 & B2).
    destruct (Nat.ltb_spec (beg e + len e) t) as [F|F].
    + split; [discriminate|]. intros (_ & _ & M & _).
      assert (t <= fin e) by (apply Q; split; [lia|exact M]). unfold fin in *. lia.
    + apply Q in F as (_ & F). split.
      * intro X. split; [exact B1|]. split; [exact B2|]. split; [exact F|].
        intros x I Eb El. destruct (item_eqb (ann e) (ann x)) eqn:Q'; [|reflexivity].
        assert (Y : existsb (fun x => (beg e =? beg x) && (len e =? len x)
                      && item_eqb (ann e) (ann x)) l = true).
        { apply existsb_exists. exists x. split; [exact I|].
          rewrite Eb, El, !Nat.eqb_refl, Q'. reflexivity. }
        congruence.
      * intros (_ & _ & _ & M). destruct (existsb _ l) eqn:X; [|reflexivity].
        apply existsb_exists in X as (x & I & X).
        apply andb_true_iff in X as (X & Q'). apply andb_true_iff in X as (X1 & X2).
        apply Nat.eqb_eq in X1, X2. rewrite M in Q'; [discriminate|exact I|auto|auto].
Qed.

Definition keep (e : E) : bool := negb (disc e) && negb (tok e && blank e).

Lemma top_loop_spec es : forall edges nontop nontoken,
  top_loop disc tok blank parts es edges nontop nontoken =
  (edges ++ filter keep es,
   nontop ++ flat_map (fun e => concat (parts e)) (filter keep es),
   nontoken || existsb (fun e => negb (tok e)) (filter keep es)).
Proof.
  induction es as [|e es IH]; intros edges nontop nontoken; cbn [top_loop filter flat_map existsb].
  - now rewrite !app_nil_r, orb_false_r.
  - assert (K : keep e = negb (disc e) && negb (tok e && blank e)) by reflexivity.
    destruct (disc e); cbn [negb andb] in K; [rewrite K; apply IH|].
    destruct (tok e && blank e) eqn:T; cbn [negb] in K; rewrite K; [apply IH|].
    rewrite IH, <- !app_assoc. cbn [app flat_map existsb]. f_equal.
    destruct (tok e), nontoken; reflexivity.
Qed.

Lemma considered_keep v e : considered v e <-> In e (filter keep (out v)).
Proof.
  unfold considered, keep. rewrite filter_In.
  destruct (disc e), (tok e), (blank e); cbn; intuition congruence.
Qed.

Lemma inside_in v x :
  inside v x <-> In x (flat_map (fun e => concat (parts e)) (filter keep (out v))).
Proof.
  unfold inside. rewrite in_flat_map. split.
  - intros (e & p & C & P & X). exists e. split; [now apply considered_keep|].
    apply in_concat. exists p. auto.
  - intros (e & C & X). apply in_concat in X as (p & P & X). exists e, p.
    split; [now apply considered_keep|]. auto.
Qed.

Lemma filter_filter {B} (f g : B -> bool) l :
  filter f (filter g l) = filter (fun x => g x && f x) l.
Proof.
  induction l as [|x l IH]; [reflexivity|]. cbn. destruct (g x); cbn; [|exact IH].
  destruct (f x); now rewrite IH.
Qed.

(** The top edges are those, in the order of the lattice. *)
Theorem C81_top : forall v,
  exists f, top v = filter f (out v)
    /\ forall e, In e (out v) -> (f e = true <-> is_top v e).
Proof.
  intro v. unfold top_edges. rewrite top_loop_spec. cbn [app orb].
  set (nt := unique edge_eqb _). set (K := filter keep (out v)).
  assert (NT : forall x, In x nt <-> inside v x).
  { intro x. unfold nt. rewrite unique_in. now rewrite inside_in. }
  assert (N : forall e, non_top beg len ann item_eqb last nt e = false <->
     beg e <= last /\ (forall x, inside v x -> beg e <= beg x)
     /\ (forall x, inside v x -> fin x <= fin e)
     /\ (forall x, inside v x -> beg x = beg e -> len x = len e ->
         item_eqb (ann e) (ann x) = false)).
  { intro e. rewrite non_top_spec. split; intros (L & B & F & M);
      (split; [exact L|]); (split; [intros x X; apply B; now apply NT|]);
      (split; [intros x X; apply F; now apply NT|intros x X; apply M; now apply NT]). }
  destruct (existsb (fun e => negb (tok e)) K) eqn:X.
  - exists (fun e => (keep e && negb (non_top beg len ann item_eqb last nt e)) && negb (tok e)).
    split; [unfold K; rewrite (filter_filter _ keep), filter_filter; reflexivity|].
    apply existsb_exists in X as (y & Y & TY). apply negb_true_iff in TY.
    intros e I. rewrite !andb_true_iff, !negb_true_iff, N. split.
    + intros ((KE & L & B & F & M) & T). constructor; auto.
      * apply considered_keep. apply filter_In. auto.
      * congruence.
    + intros [C L B F M T]. split.
      * split; [|auto]. apply considered_keep, filter_In in C. tauto.
      * destruct (tok e); [|reflexivity]. rewrite (T eq_refl y) in TY; [congruence|].
        now apply considered_keep.
  - exists (fun e => keep e && negb (non_top beg len ann item_eqb last nt e)).
    split; [unfold K; now rewrite !filter_filter|].
    intros e I. rewrite !andb_true_iff, !negb_true_iff, N. split.
    + intros (KE & L & B & F & M). constructor; auto.
      * apply considered_keep. apply filter_In. auto.
      * intros _ x C. apply considered_keep in C. destruct (tok x) eqn:TX; [reflexivity|].
        assert (existsb (fun e => negb (tok e)) K = true).
        { apply existsb_exists. exists x. split; [exact C|now rewrite TX]. }
        congruence.
    + intros [C L B F M T]. split; [|auto]. apply considered_keep, filter_In in C. tauto.
Qed.

Lemma top_in v e : In e (top v) <-> is_top v e.
Proof.
  destruct (C81_top v) as (f & F & S). rewrite F, filter_In. split.
  - intros (I & T). now apply S.
  - intro T. assert (I : In e (out v)) by apply (t_cons v e T). split; [exact I|now apply S].
Qed.

(** If what is inside reaches to the end, all top edges end where the longest
    of the edges considered does. *)
Theorem C81_same_end : forall v,
  (forall e, considered v e -> exists x, inside v x /\ fin x = fin e) ->
  forall e x, In e (top v) -> considered v x -> fin x <= fin e.
Proof.
  intros v H e x T C. apply top_in in T. destruct (H x C) as (y & Y & <-).
  now apply (t_end v e T).
Qed.

(** A vertex has top edges if its longest edge is none of those inside, and is
    a token only if all are. *)
Theorem C81_some : forall v e,
  considered v e -> beg e <= last ->
  (forall x, inside v x -> beg e <= beg x /\ fin x <= fin e) ->
  (forall x, inside v x -> beg x = beg e -> len x = len e -> item_eqb (ann e) (ann x) = false) ->
  (tok e = true -> forall x, considered v x -> tok x = true) ->
  top v <> [].
Proof.
  intros v e C L B M T Z. assert (I : In e (top v)).
  { apply top_in. constructor; auto; intros x X; now apply B. }
  rewrite Z in I. destruct I.
Qed.

(** * Positions *)

Local Notation sentence' :=
  (sentence out disc tok blank parts beg len ann item_eqb edge_eqb last).
Local Notation get_vertex' := (get_vertex out blank beg len last).

(** At a vertex the edges tell the same to both: either the edge asked is blank,
    one character wide, and there is no top edge, or it ends where the top edges
    do. *)
Definition regular (v : nat) : Prop :=
  match out v with
  | [] => True
  | e :: es =>
      let z := last_edge e es in
      blank e = blank z
      /\ if blank z then top v = [] /\ (S v < last -> top (S v) <> [])
         else exists t ts, top v = t :: ts /\ fin z = fin t /\ v < fin t <= last
  end.

Hypothesis all_regular : forall v, v < last -> regular v.
Hypothesis no_edges : forall v, last <= v -> out v = [].

Lemma top_out v : out v = [] -> top v = [].
Proof. intro O. unfold top_edges. now rewrite O. Qed.

Lemma sentence_end f v : last <= v -> sentence' f v = [].
Proof.
  intro L. destruct f; [reflexivity|]. cbn [sentence].
  destruct (Nat.ltb_spec v last); [lia|reflexivity].
Qed.

Lemma sentence_empty f v : v < last -> top v = [] -> sentence' (S f) v = sentence' f (S v).
Proof.
  intros L T. cbn [sentence]. destruct (Nat.ltb_spec v last); [|lia]. now rewrite T.
Qed.

Lemma sentence_top f v t ts : v < last -> top v = t :: ts ->
  sentence' (S f) v = (v, t :: ts) :: sentence' f (fin t).
Proof.
  intros L T. cbn [sentence]. destruct (Nat.ltb_spec v last); [|lia]. now rewrite T.
Qed.

Lemma sentence_fuel : forall f g v, last - v <= f -> last - v <= g ->
  sentence' f v = sentence' g v.
Proof.
  induction f as [|f IH]; intros g v F G.
  - rewrite !sentence_end by lia. reflexivity.
  - destruct g as [|g]; [rewrite !sentence_end by lia; reflexivity|].
    destruct (Nat.lt_ge_cases v last) as [L|L]; [|now rewrite !sentence_end by lia].
    destruct (top v) as [|t ts] eqn:T.
    + rewrite !sentence_empty by assumption. apply IH; lia.
    + rewrite (sentence_top f v t ts L T), (sentence_top g v t ts L T). f_equal.
      pose proof (all_regular v L) as R. unfold regular in R.
      destruct (out v) as [|e es] eqn:O; [rewrite (top_out v O) in T; discriminate|].
      destruct R as (_ & R). destruct (blank (last_edge e es)).
      * destruct R as (R & _). congruence.
      * destruct R as (t' & ts' & T' & _ & B). rewrite T in T'. injection T' as <- <-.
        apply IH; lia.
Qed.

Lemma first_position g v d :
  v < last -> top v <> [] -> last - v <= g ->
  nth 0 (map fst (sentence' g v)) d = v.
Proof.
  intros L T G. destruct g as [|g]; [lia|].
  destruct (top v) as [|t ts] eqn:Q; [congruence|].
  rewrite (sentence_top g v t ts L Q). reflexivity.
Qed.

Lemma skip_spec : forall f v, last - v < f -> v < last ->
  (skip out last f v = Some (inl last) /\ (forall w, v <= w < last -> out w = []))
  \/ (exists w, skip out last f v = Some (inr w) /\ v <= w < last /\ out w <> []
      /\ forall u, v <= u < w -> out u = []).
Proof.
  induction f as [|f IH]; intros v F L; [lia|]. cbn [skip].
  destruct (out v) as [|e es] eqn:O.
  - destruct (Nat.leb_spec last (S v)) as [B|B].
    + left. split; [reflexivity|]. intros w W. assert (w = v) by lia. now subst.
    + destruct (IH (S v)) as [(S1 & S2)|(w & S1 & S2 & S3 & S4)]; [lia|lia| |].
      * left. split; [exact S1|]. intros w W. destruct (Nat.eq_dec w v) as [->|]; [exact O|].
        apply S2. lia.
      * right. exists w. split; [exact S1|]. split; [lia|]. split; [exact S3|].
        intros u U. destruct (Nat.eq_dec u v) as [->|]; [exact O|]. apply S4. lia.
  - right. exists v. split; [reflexivity|]. split; [lia|]. split; [congruence|]. intros; lia.
Qed.

Lemma sentence_gap g : forall n v, v + n <= last -> (forall u, v <= u < v + n -> top u = []) ->
  sentence' (n + g) v = sentence' g (v + n).
Proof.
  induction n as [|n IH]; intros v L T; [now rewrite Nat.add_0_r|].
  cbn [Nat.add]. rewrite sentence_empty; [|lia|apply T; lia].
  rewrite IH; [f_equal; lia|lia|]. intros u U. apply T. lia.
Qed.

Lemma sentence_skip g v w : v <= w <= last -> (forall u, v <= u < w -> top u = []) ->
  last - v <= g -> sentence' g v = sentence' (last - w) w.
Proof.
  intros W T G. rewrite (sentence_fuel g ((w - v) + (last - w)) v) by lia.
  rewrite sentence_gap; [|lia|intros u U; apply T; lia]. f_equal; lia.
Qed.

Lemma final_spec f v : last - v < f -> v < last ->
  (match skip out last f v with
   | None => None
   | Some (inl w) => Some w
   | Some (inr w) =>
       match out w with
       | [] => Some w
       | e :: _ => if blank e then Some (if S w =? last then last else S w) else Some w
       end
   end) = Some (nth 0 (map fst (sentence' (last - v) v)) last).
Proof.
  intros F L. destruct (skip_spec f v F L) as [(-> & Z)|(w & -> & W & O & Z)].
  - rewrite (sentence_skip (last - v) v last); [|lia|intros u U; apply top_out, Z; lia|lia].
    rewrite sentence_end by lia. reflexivity.
  - rewrite (sentence_skip (last - v) v w); [|lia|intros u U; apply top_out, Z; lia|lia].
    pose proof (all_regular w (proj2 W)) as R. unfold regular in R.
    destruct (out w) as [|e es] eqn:Q; [congruence|]. destruct R as (B & R). rewrite B.
    destruct (blank (last_edge e es)).
    + destruct R as (T & N). destruct (Nat.eqb_spec (S w) last) as [X|X].
      * rewrite (sentence_skip (last - w) w last); [|lia| |lia].
        -- rewrite sentence_end by lia. reflexivity.
        -- intros u U. assert (u = w) by lia. now subst.
      * rewrite (sentence_skip (last - w) w (S w)); [|lia| |lia].
        -- rewrite first_position; [reflexivity|lia|apply N; lia|lia].
        -- intros u U. assert (u = w) by lia. now subst.
    + destruct R as (t & ts & T & _ & _). rewrite first_position; [reflexivity|lia|congruence|lia].
Qed.

(** The position with a number is that of the token with this number in the
    sentence, counted from the offset; the end of the text if there are fewer
    tokens. *)
Theorem C81_vertex : forall k fuel offset,
  offset < last -> last - offset < fuel ->
  get_vertex' fuel k offset
  = Some (nth k (map fst (sentence' (last - offset) offset)) last).
Proof.
  intros k fuel offset L F. unfold get_vertex.
  enough (J : forall f k v, v < last -> last - v < f ->
    match jump out blank beg len last f k v with
    | None => False
    | Some (inl w) => w = last /\ nth k (map fst (sentence' (last - v) v)) last = last
    | Some (inr w) => w < last /\ last - w <= last - v /\
        nth k (map fst (sentence' (last - v) v)) last
        = nth 0 (map fst (sentence' (last - w) w)) last
    end).
  { specialize (J fuel k offset L F).
    destruct (jump out blank beg len last fuel k offset) as [[w|w]|]; [| |contradiction].
    - destruct J as (-> & J). now rewrite J.
    - destruct J as (J1 & J2 & J3). rewrite J3. apply final_spec; lia. }
  clear k fuel offset L F. induction f as [|f IH]; intros k v L F; [lia|].
  destruct k as [|k]; [cbn; auto|]. cbn [jump].
  assert (STEP : top v = [] ->
    match (if S v =? last then Some (inl last) else jump out blank beg len last f (S k) (S v)) with
    | None => False
    | Some (inl w) => w = last /\ nth (S k) (map fst (sentence' (last - v) v)) last = last
    | Some (inr w) => w < last /\ last - w <= last - v /\
        nth (S k) (map fst (sentence' (last - v) v)) last
        = nth 0 (map fst (sentence' (last - w) w)) last
    end).
  { intro T. rewrite (sentence_skip (last - v) v (S v)); [|lia| |lia].
    2:{ intros u U. assert (u = v) by lia. now subst. }
    destruct (Nat.eqb_spec (S v) last) as [X|X].
    - split; [reflexivity|]. rewrite sentence_end by lia. reflexivity.
    - specialize (IH (S k) (S v)).
      destruct (jump out blank beg len last f (S k) (S v)) as [[w|w]|].
      + apply IH; lia.
      + destruct IH as (I1 & I2 & I3); [lia|lia|]. split; [exact I1|]. split; [lia|exact I3].
      + apply IH; lia. }
  pose proof (all_regular v L) as R. unfold regular in R.
  destruct (out v) as [|e es] eqn:O; [apply STEP; now apply top_out|].
  destruct R as (_ & R). destruct (blank (last_edge e es)); [now apply STEP|].
  destruct R as (t & ts & T & Z & B). cbv zeta. fold (fin (last_edge e es)). rewrite Z.
  replace (last - v) with (S (last - v - 1)) by lia.
  rewrite (sentence_top _ v t ts L T). cbn [map nth].
  destruct (Nat.eqb_spec (fin t) last) as [X|X].
  - split; [reflexivity|]. rewrite sentence_end by lia. now destruct k.
  - rewrite (sentence_fuel _ (last - fin t) (fin t)) by lia.
    specialize (IH k (fin t)).
    destruct (jump out blank beg len last f k (fin t)) as [[w|w]|].
    + apply IH; lia.
    + destruct IH as (I1 & I2 & I3); [lia|lia|]. split; [exact I1|]. split; [lia|exact I3].
    + apply IH; lia.
Qed.

End Props.

(** * Ranges *)

Section Ranges.
Context {E A : Type}.
Variable out : nat -> list E.
Variables disc tok blank : E -> bool.
Variable parts : E -> list (list E).
Variables beg len : E -> nat.
Variable ann : E -> A.
Variable item_eqb : A -> A -> bool.
Variable edge_eqb : E -> E -> bool.
Variable last : nat.

Local Notation top := (top_edges out disc tok blank parts beg len ann item_eqb edge_eqb last).

(** A way from one vertex to beyond another: where there is no top edge it goes
    one vertex on, otherwise over one of the top edges. *)
Inductive way (stop : nat) : nat -> list E -> Prop :=
| W_end v : stop < v -> way stop v []
| W_gap v s : v <= stop -> top v = [] -> way stop (S v) s -> way stop v s
| W_edge v e s : v <= stop -> In e (top v) -> way stop (v + len e) s -> way stop v (e :: s).

(** The same when every step is as long as the first top edge. *)
Inductive way1 (stop : nat) : nat -> list E -> Prop :=
| W1_end v : stop < v -> way1 stop v []
| W1_gap v s : v <= stop -> top v = [] -> way1 stop (S v) s -> way1 stop v s
| W1_edge v t ts e s : v <= stop -> top v = t :: ts -> In e (t :: ts) ->
    way1 stop (v + len t) s -> way1 stop v (e :: s).

Local Notation range_loop' :=
  (range_loop out disc tok blank parts beg len ann item_eqb edge_eqb last).
Local Notation edges_range' :=
  (edges_range out disc tok blank parts beg len ann item_eqb edge_eqb last).

Definition extends (ranges : list (list E)) (s : list E) : Prop :=
  exists a b, s = a ++ b /\ In a ranges.

Lemma range_loop_spec : forall fuel v stop ranges r,
  range_loop' fuel v stop ranges = Some r ->
  forall s, In s r <->
    (ranges = [] /\ way1 stop v s /\ s <> [])
    \/ (ranges <> [] /\ exists a b, s = a ++ b /\ In a ranges /\ way1 stop v b).
Proof.
  induction fuel as [|f IH]; intros v stop ranges r H s; [discriminate|].
  cbn [range_loop] in H. destruct (Nat.ltb_spec stop v) as [B|B].
  - injection H as <-. split.
    + intro I. right. split; [intros ->; destruct I|]. exists s, [].
      split; [now rewrite app_nil_r|]. split; [exact I|now constructor].
    + intros [(_ & W & N)|(_ & a & b & -> & I & W)].
      * inversion W; subst; try lia. congruence.
      * inversion W; subst; try lia. now rewrite app_nil_r.
  - destruct (top v) as [|t ts] eqn:T.
    + rewrite (IH _ _ _ _ H). split.
      * intros [(Z & W & N)|(Z & a & b & -> & I & W)].
        -- left. split; [exact Z|]. split; [now apply W1_gap|exact N].
        -- right. split; [exact Z|]. exists a, b. split; [reflexivity|]. split; [exact I|].
           now apply W1_gap.
      * intros [(Z & W & N)|(Z & a & b & -> & I & W)].
        -- left. split; [exact Z|]. split; [|exact N].
           inversion W; subst; try lia; [assumption|congruence].
        -- right. split; [exact Z|]. exists a, b. split; [reflexivity|]. split; [exact I|].
           inversion W; subst; try lia; [assumption|congruence].
    + rewrite (IH _ _ _ _ H). clear IH H.
      remember (t :: ts) as tt eqn:TT.
      assert (NE : match ranges with
                   | [] => map (fun x => [x]) tt
                   | _ => flat_map (fun x => map (fun s => s ++ [x]) ranges) tt
                   end <> []) by (destruct ranges; subst tt; discriminate).
      assert (MEM : forall a', In a' (match ranges with
                   | [] => map (fun x => [x]) tt
                   | _ => flat_map (fun x => map (fun s => s ++ [x]) ranges) tt
                   end) <-> exists a e, a' = a ++ [e] /\ In e tt
                             /\ (ranges = [] /\ a = [] \/ In a ranges)).
      { intro a'. destruct ranges as [|r0 rs].
        - rewrite in_map_iff. split.
          + intros (e & <- & I). exists [], e. auto.
          + intros (a & e & -> & I & [(_ & ->)|[]]). exists e. auto.
        - remember (r0 :: rs) as R. rewrite in_flat_map. split.
          + intros (e & I & M). apply in_map_iff in M as (a & <- & J). exists a, e. auto.
          + intros (a & e & -> & I & [(Z & _)|J]); [congruence|]. exists e.
            split; [exact I|]. apply in_map_iff. exists a. auto. }
      split.
      * intros [(Z & _)|(_ & a' & b & -> & I & W)]; [contradiction|].
        apply MEM in I as (a & e & -> & Ie & Ia).
        assert (W' : way1 stop v (e :: b)) by (eapply W1_edge; subst tt; eauto).
        rewrite <- app_assoc. cbn [app]. destruct Ia as [(Z & ->)|Ia].
        -- left. split; [exact Z|]. split; [exact W'|discriminate].
        -- right. split; [intros ->; destruct Ia|]. exists a, (e :: b). auto.
      * assert (INV : forall b, way1 stop v b ->
          exists e b', b = e :: b' /\ In e tt /\ way1 stop (v + len t) b').
        { intros b W. inversion W as [|? ? ? TV|? t' ts' e b' ? TV IE WW]; subst; try lia; [congruence|].
          rewrite T in TV. injection TV as <- <-. exists e, b'. auto. }
        intros [(Z & W & N)|(Z & a & b & -> & I & W)]; right; (split; [exact NE|]).
        -- destruct (INV _ W) as (e & b & -> & Ie & Wb). exists [e], b.
           split; [reflexivity|]. split; [|exact Wb]. apply MEM. exists [], e. auto.
        -- destruct (INV _ W) as (e & b' & -> & Ie & Wb). exists (a ++ [e]), b'.
           split; [now rewrite <- app_assoc|]. split; [|exact Wb]. apply MEM. exists a, e. auto.
Qed.

(** The ranges are the ways, if the top edges of a vertex have the same length. *)
Theorem C81_range : forall fuel start stop r,
  (forall v e x, In e (top v) -> In x (top v) -> len e = len x) ->
  edges_range' fuel start stop = Some r ->
  forall s, In s r <-> way stop start s /\ s <> [].
Proof.
  intros fuel start stop r SL H s. unfold edges_range in H.
  rewrite (range_loop_spec _ _ _ _ _ H).
  assert (EQ : forall v s, way1 stop v s <-> way stop v s).
  { intros v s'. split.
    - induction 1 as [v B|v s0 B T W IH|v t ts e s0 B T I W IH].
      + now constructor.
      + now apply W_gap.
      + apply W_edge; [exact B|now rewrite T|].
        rewrite (SL v e t); [exact IH|now rewrite T|rewrite T; now left].
    - induction 1 as [v B|v s0 B T W IH|v e s0 B I W IH].
      + now constructor.
      + now apply W1_gap.
      + destruct (top v) as [|t ts] eqn:T; [destruct I|].
        apply (W1_edge stop v t ts); auto.
        rewrite (SL v t e); [exact IH|rewrite T; now left|now rewrite T]. }
  split.
  - intros [(_ & W & N)|(Z & _)]; [|congruence]. split; [now apply EQ|exact N].
  - intros (W & N). left. split; [reflexivity|]. split; [now apply EQ|exact N].
Qed.

(** The search ends if no top edge is empty. *)
Theorem C81_range_ends : forall start stop fuel,
  (forall v e, In e (top v) -> 0 < len e) ->
  S stop - start < fuel -> exists r, edges_range' fuel start stop = Some r.
Proof.
  intros start stop fuel P. unfold edges_range. generalize (@nil (list E)) as ranges.
  revert start. induction fuel as [|f IH]; intros start ranges F; [lia|].
  cbn [range_loop]. destruct (Nat.ltb_spec stop start) as [B|B]; [now exists ranges|].
  destruct (top start) as [|t ts] eqn:T; apply IH; [lia|].
  pose proof (P start t). rewrite T in H. specialize (H (or_introl eq_refl)). lia.
Qed.

End Ranges.

Print Assumptions C81_top.
Print Assumptions C81_same_end.
Print Assumptions C81_some.
Print Assumptions C81_vertex.
Print Assumptions C81_range.
Print Assumptions C81_range_ends.

(** * Cases *)

(** An edge: number, begin, length, kind. *)
Inductive kind := Token | Form | Parse | Blank | Gone | Symbol.
Inductive edge := Ed (num b0 l0 : nat) (k0 : kind) (in0 : list edge).
Definition num (e : edge) := let (n, _, _, _, _) := e in n.
Definition b0 (e : edge) := let (_, b, _, _, _) := e in b.
Definition l0 (e : edge) := let (_, _, l, _, _) := e in l.
Definition k0 (e : edge) := let (_, _, _, k, _) := e in k.
Definition in0 (e : edge) := let (_, _, _, _, i) := e in i.

Definition is_disc e := match k0 e with Gone => true | _ => false end.
Definition is_tok e := match k0 e with Token | Blank => true | _ => false end.
Definition is_blank e := match k0 e with Blank => true | _ => false end.

Definition outs (l : list edge) (v : nat) : list edge := filter (fun e => b0 e =? v) l.
Definition ctop (l : list edge) (n : nat) :=
  top_edges (outs l) is_disc is_tok is_blank (fun e => [in0 e]) b0 l0 num Nat.eqb
            (fun x y => num x =? num y) n.
Definition cvertex (l : list edge) (n : nat) := get_vertex (outs l) is_blank b0 l0 n (S n).
Definition csentence (l : list edge) (n : nat) :=
  sentence (outs l) is_disc is_tok is_blank (fun e => [in0 e]) b0 l0 num Nat.eqb
           (fun x y => num x =? num y) n.
Definition crange (l : list edge) (n : nat) :=
  edges_range (outs l) is_disc is_tok is_blank (fun e => [in0 e]) b0 l0 num Nat.eqb
           (fun x y => num x =? num y) n (S (S n)).

(** "ab c": tokens, a blank, two forms of the first word, one of the second and
    a group over both. *)
Definition s0 := Ed 0 0 2 Symbol [].
Definition s1 := Ed 1 2 1 Symbol [].
Definition s2 := Ed 2 3 1 Symbol [].
Definition t0 := Ed 3 0 2 Token [s0].
Definition t1 := Ed 4 2 1 Blank [s1].
Definition t2 := Ed 5 3 1 Token [s2].
Definition f0 := Ed 6 0 2 Form [t0].
Definition f1 := Ed 7 0 2 Form [t0].
Definition f2 := Ed 8 3 1 Form [t2].
Definition g0 := Ed 9 0 4 Parse [f0; f2].

Definition words := [t0; t1; t2; f0; f1; f2].

Example top_case : map num (ctop words 4 0) = [6; 7] /\ ctop words 4 2 = []
  /\ map num (ctop (words ++ [g0]) 4 0) = [9].
Proof. vm_compute. auto. Qed.

Example vertex_case : map (fun k => cvertex words 4 k 0) [0; 1; 2] = [Some 0; Some 3; Some 4]
  /\ map fst (csentence words 4 4 0) = [0; 3].
Proof. vm_compute. auto. Qed.

Example words_regular : forall v, v < 4 ->
  regular (outs words) is_disc is_tok is_blank (fun e => [in0 e]) b0 l0 num Nat.eqb
          (fun x y => num x =? num y) 4 v.
Proof.
  intros v L. destruct v as [|[|[|[|]]]]; [| | | |lia]; vm_compute.
  - split; [reflexivity|]. exists f0, [f1]. split; [reflexivity|]. split; [reflexivity|]. split; repeat constructor.
  - exact Logic.I.
  - split; [reflexivity|]. split; [reflexivity|]. intros _. discriminate.
  - split; [reflexivity|]. exists f2, []. split; [reflexivity|]. split; [reflexivity|]. split; repeat constructor.
Qed.

Example words_empty : forall v, 4 <= v -> outs words v = [].
Proof.
  intros v L. do 4 (destruct v as [|v]; [lia|]). reflexivity.
Qed.

Example range_case : match crange words 4 0 3 with
                     | Some r => map (map num) r = [[6; 8]; [7; 8]]
                     | None => False
                     end.
Proof. vm_compute. reflexivity. Qed.

(** * What is not true *)

(** A vertex with an edge that is neither blank nor discarded can be without top
    edges: a form shorter than the token is not at the top, and the token is
    left out because there is a form. *)
Theorem C81_some_refuted :
  let l := [t0; Ed 10 0 1 Form [Ed 11 0 1 Symbol []]] in
  outs l 0 <> [] /\ ctop l 2 0 = [] /\ csentence l 2 2 0 = [].
Proof. vm_compute. split; [discriminate|auto]. Qed.
Print Assumptions C81_some_refuted.

(** Top edges with nothing inside can have different lengths; the ranges then
    have edges that overlap. *)
Theorem C81_range_refuted :
  let a := Ed 20 0 1 Form [] in let b := Ed 21 0 2 Form [] in let c := Ed 22 1 1 Form [] in
  ctop [a; b; c] 2 0 = [a; b]
  /\ crange [a; b; c] 2 0 1 = Some [[a; c]; [b; c]].
Proof. vm_compute. auto. Qed.
Print Assumptions C81_range_refuted.

(** A discarded edge that is the last one of its vertex is counted by getVertex
    though it is not in the sentence. *)
Theorem C81_vertex_refuted :
  let gone := Ed 12 0 4 Gone [f0; f2] in
  map fst (csentence (words ++ [gone]) 4 4 0) = [0; 3]
  /\ cvertex (words ++ [gone]) 4 1 0 = Some 4.
Proof. vm_compute. auto. Qed.
Print Assumptions C81_vertex_refuted.

(** Two blanks in a row: the position of the second word is a blank. *)
Theorem C81_blank_refuted :
  let l := [Ed 30 0 1 Form []; Ed 31 1 1 Blank []; Ed 32 2 1 Blank []; Ed 33 3 1 Form []] in
  map fst (csentence l 4 4 0) = [0; 3] /\ cvertex l 4 1 0 = Some 2.
Proof. vm_compute. auto. Qed.
Print Assumptions C81_blank_refuted.

(** At the end of the text the search for a further token does not end. *)
Theorem C81_endless_refuted : forall fuel k,
  get_vertex (outs words) is_blank b0 l0 4 fuel (S k) 4 = None.
Proof.
  intros fuel k. unfold get_vertex.
  enough (H : forall f v, 4 <= v -> jump (outs words) is_blank b0 l0 4 f (S k) v = None)
    by now rewrite H.
  induction f as [|f IH]; intros v L; [reflexivity|].
  cbn [jump]. rewrite (words_empty v L). destruct (Nat.eqb_spec (S v) 4); [lia|].
  apply IH. lia.
Qed.
Print Assumptions C81_endless_refuted.

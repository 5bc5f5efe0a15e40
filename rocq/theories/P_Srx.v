(** The SRX segmenter cuts where the first rule that speaks of a place says to
    break (C85).  The model is M_Srx. *)
From Coq Require Import String Ascii.
From Coq Require Import List Arith Bool Lia Sorted.
From Verif Require Import M_Srx.
Import ListNotations.
Local Open Scope nat_scope.

(** * What is meant *)

(** A rule speaks of a place if a match of it has its break there. *)
Definition speaks (r : rule) (b : nat) : Prop := exists p, r p = Some b.

(** The first rule, in the order of the rules, that speaks of the place is a
    breaking one. *)
Definition decided (rules : list (bool * rule)) (b : nat) : Prop :=
  exists l1 r l2, rules = l1 ++ (true, r) :: l2 /\ speaks r b
                  /\ Forall (fun x => ~ speaks (snd x) b) l1.

(** The beginnings of characters. *)
Inductive mark (next : nat -> nat) : nat -> Prop :=
| mark_0 : mark next 0
| mark_next p : mark next p -> mark next (next p).

(** A rule of a text: its matches begin and break between characters of the text,
    are not empty (so they begin before its end), and of two matches the one that
    begins later does not break earlier. *)
Definition fits (n : nat) (next : nat -> nat) (r : rule) : Prop :=
  (forall p b, r p = Some b -> mark next p /\ mark next b /\ p < n /\ p <= b <= n)
  /\ (forall p q b c, r p = Some b -> r q = Some c -> p <= q -> b <= c).

(** No match lies over the place. *)
Definition clear_at (rules : list (bool * rule)) (c : nat) : Prop :=
  forall k r p b, In (k, r) rules -> r p = Some b -> p < c -> b <= c.

(** * One rule *)

Section Proofs.
Variable n : nat.
Variable next : nat -> nat.
Hypothesis next_lt : forall p, p < next p.
Hypothesis mark_n : mark next n.

Lemma mark_iter p : mark next p -> exists k, p = Nat.iter k next 0.
Proof.
  induction 1 as [|p _ [k ->]]; [exists 0; reflexivity|exists (S k); reflexivity].
Qed.
Lemma iter_lt j k : j < k -> Nat.iter j next 0 < Nat.iter k next 0.
Proof.
  induction 1 as [|m _ IH]; [apply (next_lt (Nat.iter j next 0))|].
  change (Nat.iter (S m) next 0) with (next (Nat.iter m next 0)).
  pose proof (next_lt (Nat.iter m next 0)). lia.
Qed.
Lemma next_le p q : mark next p -> mark next q -> p < q -> next p <= q.
Proof.
  intros [j ->]%mark_iter [k ->]%mark_iter H.
  assert (j < k) as L.
  { destruct (Nat.lt_trichotomy j k) as [?|[->|L]]; [easy|lia|]. pose proof (iter_lt _ _ L). lia. }
  change (next (Nat.iter j next 0)) with (Nat.iter (S j) next 0).
  destruct (Nat.eq_dec (S j) k) as [->|D]; [lia|]. pose proof (iter_lt (S j) k ltac:(lia)). lia.
Qed.

Lemma find_in_some r k : forall s b, find_in r s k = Some b ->
  exists p, s <= p /\ r p = Some b /\ forall q, s <= q < p -> r q = None.
Proof.
  induction k as [|k IH]; cbn; [easy|]. intros s b H.
  destruct (r s) as [b'|] eqn:E.
  - injection H as <-. exists s. split; [lia|split; [easy|]]. intros; lia.
  - destruct (IH _ _ H) as (p & L & R & Q). exists p. split; [lia|split; [easy|]].
    intros q Hq. destruct (Nat.eq_dec q s) as [->|D]; [easy|]. apply Q; lia.
Qed.
Lemma find_in_none r k : forall s, find_in r s k = None -> forall p, s <= p < s + k -> r p = None.
Proof.
  induction k as [|k IH]; cbn; [intros; lia|]. intros s H p Hp.
  destruct (r s) eqn:E; [easy|]. destruct (Nat.eq_dec p s) as [->|D]; [easy|].
  apply (IH (S s)); [easy|lia].
Qed.

(** What is known of a rule that has been looked for. *)
Definition known (r : rule) (a : application) (low : nat) : Prop :=
  mark next (start a)
  /\ (forall p b, r p = Some b -> p < start a -> b < low \/ brk a = Some b)
  /\ (forall b, brk a = Some b -> exists p0, r p0 = Some b
        /\ forall p c, start a <= p -> r p = Some c -> p0 <= p).

Definition least (r : rule) (m : nat) (res : option nat) : Prop :=
  match res with
  | Some b => m <= b /\ speaks r b /\ forall c, speaks r c -> m <= c -> b <= c
  | None => forall c, speaks r c -> c < m
  end.

Lemma known_le r a low low' : low <= low' -> known r a low -> known r a low'.
Proof.
  intros L (M & A & B). split; [easy|split; [|easy]]. intros p b H1 H2.
  destruct (A _ _ H1 H2); [left; lia|now right].
Qed.
Lemma known_fresh r low : known r fresh low.
Proof. split; [constructor|split]; cbn; [lia|easy]. Qed.

Lemma update_loop_spec r min : fits n next r -> forall fuel a,
  known r a min -> n - start a < fuel ->
  known r (update_loop n next fuel r a min) min
  /\ (before (brk (update_loop n next fuel r a min)) min = true ->
      n <= start (update_loop n next fuel r a min)).
Proof.
  intros [F1 F2]. induction fuel as [|f IH]; intros a K L; [lia|]. cbn [update_loop].
  destruct (start a <? n) eqn:E1; cbn [andb].
  2:{ apply Nat.ltb_ge in E1. now split. }
  destruct (before (brk a) min) eqn:E2.
  2:{ split; [easy|congruence]. }
  apply Nat.ltb_lt in E1. pose proof (next_lt (start a)) as Nx.
  destruct K as (M & A & B).
  assert (forall p b, r p = Some b -> p < start a -> b < min) as A'.
  { intros p b H1 H2. destruct (A _ _ H1 H2) as [|E]; [easy|].
    rewrite E in E2. cbn in E2. now apply Nat.ltb_lt in E2. }
  destruct (find n r (start a)) as [b|] eqn:Ef.
  - apply find_in_some in Ef. destruct Ef as (p0 & P1 & P2 & P3).
    apply IH; cbn [start brk]; [|lia]. split; [now constructor|split]; cbn [start brk].
    + intros p c H1 H2. destruct (Nat.lt_ge_cases p (start a)) as [H|H].
      * left. eauto.
      * right. assert (p = start a) as ->.
        { destruct (Nat.eq_dec p (start a)) as [|D]; [easy|].
          pose proof (next_le _ _ M (proj1 (F1 _ _ H1)) ltac:(lia)). lia. }
        destruct (Nat.eq_dec p0 (start a)) as [->|D]; [congruence|].
        rewrite (P3 (start a)) in H1; [easy|lia].
    + intros c [= <-]. exists p0. split; [easy|]. intros p c H1 H2.
      destruct (Nat.lt_ge_cases p p0) as [H|H]; [|easy].
      rewrite (P3 p) in H2; [easy|lia].
  - apply IH; cbn [start brk]; [|lia]. split; [easy|split]; cbn [start brk]; [|easy].
    intros p b H1 H2. destruct (Nat.lt_ge_cases p (start a)) as [H|H]; [left; eauto|].
    unfold find in Ef. rewrite (find_in_none _ _ _ Ef p) in H1; [easy|lia].
Qed.

Lemma update_spec r a low min pos : fits n next r -> known r a low -> low <= min ->
  mark next pos -> (forall p b, r p = Some b -> p < pos -> b < min) ->
  known r (update n next r a min pos) min /\ least r min (brk (update n next r a min pos)).
Proof.
  intros F K L Mp C. unfold update.
  set (a1 := if start a <? pos then App pos (brk a) else a).
  assert (known r a1 min) as K1.
  { apply known_le with (low' := min) in K; [|easy]. unfold a1.
    destruct (start a <? pos) eqn:E; [|easy]. apply Nat.ltb_lt in E.
    destruct K as (M & A & B). split; [easy|split]; cbn [start brk].
    - intros p b H1 H2. left. eauto.
    - intros b H. destruct (B _ H) as (p0 & P1 & P2). exists p0. split; [easy|].
      intros p c H1. apply P2. lia. }
  destruct (update_loop_spec r min F (S n) a1 K1 ltac:(lia)) as [K2 E2].
  set (a2 := update_loop n next (S n) r a1 min) in *. clearbody a2.
  destruct K2 as (M & A & B). destruct F as [F1 F2].
  destruct (before (brk a2) min) eqn:Eb.
  - specialize (E2 eq_refl). cbn [brk].
    assert (forall p b, r p = Some b -> b < min) as A'.
    { intros p b H. destruct (F1 _ _ H) as (_ & _ & Hp & _).
      destruct (A _ _ H ltac:(lia)) as [|E]; [easy|].
      rewrite E in Eb. cbn in Eb. now apply Nat.ltb_lt in Eb. }
    split; [split; [easy|split]; cbn [start brk]|].
    + intros p b H _. left. eauto.
    + easy.
    + intros c [p H]. eauto.
  - split; [now split|]. destruct (brk a2) as [b|]; [|easy]. cbn in Eb. apply Nat.ltb_ge in Eb.
    destruct (B _ eq_refl) as (p0 & P1 & P2). cbn. split; [easy|split; [now exists p0|]].
    intros c [p H] Hc. destruct (Nat.lt_ge_cases p (start a2)) as [Hp|Hp].
    + destruct (A _ _ H Hp) as [?|[= ->]]; lia.
    + exact (F2 _ _ _ _ P1 H (P2 _ _ Hp H)).
Qed.

(** * All rules *)

Fixpoint pick (l : list (option nat * nat)) (best : option (nat * nat)) : option (nat * nat) :=
  match l with
  | [] => best
  | (o, k) :: l' =>
      pick l' match o with
              | None => best
              | Some b => match best with
                          | None => Some (b, k)
                          | Some (c, _) => if b <? c then Some (b, k) else best
                          end
              end
  end.

Lemma pick_none l : forall best, pick l best = None -> best = None /\ Forall (fun x => fst x = None) l.
Proof.
  induction l as [|[[b|] k] l IH]; cbn [pick]; intros best H.
  - now split.
  - apply IH in H. destruct H as [H _]. destruct best as [[c j]|]; [|easy]. revert H. destruct (b <? c); intros H; discriminate H.
  - apply IH in H. destruct H as [-> H]. split; [easy|]. now constructor.
Qed.
Lemma pick_some l : forall best b k, pick l best = Some (b, k) ->
  (best = Some (b, k) /\ Forall (fun x => forall c, fst x = Some c -> b <= c) l)
  \/ ((forall c j, best = Some (c, j) -> b < c)
      /\ exists l1 l2, l = l1 ++ (Some b, k) :: l2
         /\ Forall (fun x => forall c, fst x = Some c -> b < c) l1
         /\ Forall (fun x => forall c, fst x = Some c -> b <= c) l2).
Proof.
  induction l as [|[[d|] j] l IH]; cbn [pick]; intros best b k H.
  - left. now split.
  - assert (d = d) as _ by easy.
    destruct best as [[c i]|].
    + destruct (d <? c) eqn:E.
      * apply Nat.ltb_lt in E.
        destruct (IH _ _ _ H) as [[[= -> ->] F]|[C (l1 & l2 & -> & F1 & F2)]].
        -- right. split; [intros ? ? [= <- <-]; easy|]. exists [], l. split; [easy|split; [constructor|easy]].
        -- pose proof (C _ _ eq_refl). right. split; [intros ? ? [= <- <-]; lia|].
           exists ((Some d, j) :: l1), l2. split; [easy|split; [|easy]]. constructor; [|easy].
           cbn. intros ? [= <-]. lia.
      * apply Nat.ltb_ge in E.
        destruct (IH _ _ _ H) as [[[= -> ->] F]|[C (l1 & l2 & -> & F1 & F2)]].
        -- left. split; [easy|]. constructor; [|easy]. cbn. intros ? [= <-]. lia.
        -- pose proof (C _ _ eq_refl). right. split; [exact C|].
           exists ((Some d, j) :: l1), l2. split; [easy|split; [|easy]]. constructor; [|easy].
           cbn. intros ? [= <-]. lia.
    + destruct (IH _ _ _ H) as [[[= -> ->] F]|[C (l1 & l2 & -> & F1 & F2)]].
      * right. split; [easy|]. exists [], l. split; [easy|split; [constructor|easy]].
      * pose proof (C _ _ eq_refl). right. split; [easy|].
        exists ((Some d, j) :: l1), l2. split; [easy|split; [|easy]]. constructor; [|easy].
        cbn. intros ? [= <-]. lia.
  - destruct (IH _ _ _ H) as [[-> F]|[C (l1 & l2 & -> & F1 & F2)]].
    + left. split; [easy|]. now constructor.
    + right. split; [exact C|]. exists ((None, j) :: l1), l2. split; [easy|split; [|easy]].
      now constructor.
Qed.

(** No rule that has a match that begins before the place breaks at [min] or
    later. *)
Definition passed (r : rule) (pos min : nat) : Prop := forall p b, r p = Some b -> p < pos -> b < min.

Lemma candidates_spec low min pos rs : low <= min -> mark next pos ->
  forall apps best,
  Forall2 (fun x a => known (fst x) a low) rs apps ->
  Forall (fun x => fits n next (fst x) /\ passed (fst x) pos min) rs ->
  exists l, Forall2 (fun x a => known (fst x) a min) rs (fst (candidates n next rs apps min pos best))
    /\ Forall2 (fun (x : rule * nat) o => snd o = snd x /\ least (fst x) min (fst o)) rs l
    /\ snd (candidates n next rs apps min pos best) = pick l best.
Proof.
  intros L Mp. induction rs as [|[r k] rs IH]; intros apps best K F.
  - inversion K; subst. exists []. cbn. split; [constructor|split; [constructor|easy]].
  - inversion K as [|? a ? apps' K1 K2]; subst. inversion F as [|? ? [F1 F2] F3]; subst. cbn [fst] in *.
    destruct (update_spec r a low min pos F1 K1 L Mp F2) as [U1 U2]. cbn [candidates].
    set (a' := update n next r a min pos) in *.
    match goal with |- context [candidates n next rs apps' min pos ?x] => set (best' := x) end.
    destruct (IH apps' best' K2 F3) as (l & Q1 & Q2 & Q3).
    destruct (candidates n next rs apps' min pos best') as [apps'' res]. cbn [fst snd] in *.
    exists ((brk a', k) :: l). split; [now constructor|split; [now constructor|]]. cbn [pick]. exact Q3.
Qed.

Lemma check_spec low b pos : low <= b -> mark next pos -> forall k rs apps,
  Forall2 (fun r a => known r a low) rs apps ->
  Forall (fun r => fits n next r /\ passed r pos b) rs ->
  Forall2 (fun r a => known r a b) rs (fst (check n next k rs apps b pos))
  /\ (if snd (check n next k rs apps b pos) then Forall (fun r => ~ speaks r b) (firstn k rs)
      else Exists (fun r => speaks r b) (firstn k rs)).
Proof.
  intros L Mp. induction k as [|k IH]; intros rs apps K F.
  - cbn. split; [|constructor].
    clear F. induction K; constructor; [|easy]. now apply known_le with (low := low).
  - inversion K as [|r a rs' apps' K1 K2]; subst.
    + cbn. split; constructor.
    + inversion F as [|? ? [F1 F2] F3]; subst. cbn [check].
      destruct (update_spec r a low b pos F1 K1 L Mp F2) as [U1 U2].
      set (a' := update n next r a b pos) in *.
      destruct (match brk a' with Some c => c =? b | None => false end) eqn:E.
      * cbn [fst snd firstn]. split.
        -- constructor; [easy|]. clear F3 F K. induction K2; constructor; [|easy].
           now apply known_le with (low := low).
        -- left. destruct (brk a') as [c|]; [|easy]. apply Nat.eqb_eq in E. subst c.
           now destruct U2 as (_ & ? & _).
      * specialize (IH rs' apps' K2 F3). destruct (check n next k rs' apps' b pos) as [apps'' ok].
        cbn [fst snd firstn] in *. destruct IH as [IH1 IH2]. split; [now constructor|].
        assert (~ speaks r b) as N.
        { intros S. destruct (brk a') as [c|]; cbn in U2.
          - destruct U2 as (U3 & _ & U4). specialize (U4 b S ltac:(lia)).
            apply Nat.eqb_neq in E. lia.
          - specialize (U2 b S). lia. }
        destruct ok; [now constructor|now right].
Qed.

Definition accepted (bs : list (rule * nat)) (ns : list rule) (b : nat) : Prop :=
  exists l1 r k l2, bs = l1 ++ (r, k) :: l2 /\ speaks r b
    /\ Forall (fun x => ~ speaks (fst x) b) l1 /\ Forall (fun r => ~ speaks r b) (firstn k ns).

Lemma first_same {X} (P : X -> Prop) a x c : forall a' x' c',
  a ++ x :: c = a' ++ x' :: c' -> P x -> P x' ->
  Forall (fun y => ~ P y) a -> Forall (fun y => ~ P y) a' -> x = x'.
Proof.
  induction a as [|y a IH]; intros [|y' a'] x' c' E Px Px' F F'; cbn in E.
  - now injection E.
  - injection E as <- _. inversion F'; subst. contradiction.
  - injection E as -> _. inversion F; subst. contradiction.
  - injection E as _ E. inversion F; inversion F'; subst. eapply IH; eauto.
Qed.

Lemma Forall2_split {X Y} (R : X -> Y -> Prop) l1 y l2 : forall l,
  Forall2 R l (l1 ++ y :: l2) ->
  exists m1 x m2, l = m1 ++ x :: m2 /\ Forall2 R m1 l1 /\ R x y /\ Forall2 R m2 l2.
Proof.
  induction l1 as [|z l1 IH]; intros l H; inversion H as [|x ? m ? H1 H2]; subst.
  - exists [], x, m. repeat split; auto.
  - destruct (IH _ H2) as (m1 & x' & m2 & -> & A & B & C). exists (x :: m1), x', m2.
    repeat split; auto.
Qed.

Lemma cut_loop_spec bs ns pos : mark next pos ->
  Forall (fun x => fits n next (fst x)) bs -> Forall (fits n next) ns ->
  forall fuel st min low,
  S n - min < fuel -> low <= min ->
  Forall2 (fun x a => known (fst x) a low) bs (on_breaking st) ->
  Forall2 (fun r a => known r a low) ns (on_other st) ->
  Forall (fun x => passed (fst x) pos min) bs -> Forall (fun r => passed r pos min) ns ->
  match cut_loop n next fuel bs ns st min pos with
  | (st', Some c) =>
      min <= c /\ accepted bs ns c /\ (forall b, accepted bs ns b -> min <= b -> c <= b)
      /\ Forall2 (fun x a => known (fst x) a c) bs (on_breaking st')
      /\ Forall2 (fun r a => known r a c) ns (on_other st')
  | (_, None) => forall b, accepted bs ns b -> b < min
  end.
Proof.
  intros Mp Fb Fn. induction fuel as [|f IH]; intros st min low Lf Ll Kb Kn Pb Pn; [lia|].
  cbn [cut_loop].
  destruct (candidates_spec low min pos bs Ll Mp (on_breaking st) None Kb) as (l & C1 & C2 & C3).
  { rewrite Forall_forall in *. intros x Hx. split; auto. }
  destruct (candidates n next bs (on_breaking st) min pos None) as [ba best]. cbn [fst snd] in *.
  subst best. destruct (pick l None) as [[b k]|] eqn:Ep.
  - destruct (pick_some _ _ _ _ Ep) as [[? _]|[_ (l1 & l2 & -> & G1 & G2)]]; [easy|].
    destruct (Forall2_split _ _ _ _ _ C2) as (m1 & [r k'] & m2 & -> & D1 & (E1 & E2) & D2).
    cbn [fst snd] in *. subst k'. destruct E2 as (E3 & E4 & E5).
    assert (forall m l, Forall2 (fun (x : rule * nat) o => snd o = snd x /\ least (fst x) min (fst o)) m l ->
      Forall (fun x => forall c, fst x = Some c -> b < c) l ->
      forall x c, In x m -> speaks (fst x) c -> min <= c -> b < c) as Ab.
    { clear. intros m l H. induction H as [|x o m l [_ H1] H2 IH]; intros G y c [].
      - subst y. inversion G as [|? ? G1 G2]; subst. intros S Hc.
        destruct (fst o) as [d|]; cbn in H1.
        + destruct H1 as (_ & _ & H1). specialize (G1 _ eq_refl). specialize (H1 _ S Hc). lia.
        + specialize (H1 _ S). lia.
      - inversion G as [|? ? G1 G2]; subst. eauto. }
    assert (forall m l, Forall2 (fun (x : rule * nat) o => snd o = snd x /\ least (fst x) min (fst o)) m l ->
      Forall (fun x => forall c, fst x = Some c -> b <= c) l ->
      forall x c, In x m -> speaks (fst x) c -> min <= c -> b <= c) as Ab'.
    { clear. intros m l H. induction H as [|x o m l [_ H1] H2 IH]; intros G y c [].
      - subst y. inversion G as [|? ? G1 G2]; subst. intros S Hc.
        destruct (fst o) as [d|]; cbn in H1.
        + destruct H1 as (_ & _ & H1). specialize (G1 _ eq_refl). specialize (H1 _ S Hc). lia.
        + specialize (H1 _ S). lia.
      - inversion G as [|? ? G1 G2]; subst. eauto. }
    pose proof (Ab _ _ D1 G1) as A1. pose proof (Ab' _ _ D2 G2) as A2. clear Ab Ab'.
    assert (forall c, accepted (m1 ++ (r, k) :: m2) ns c -> min <= c -> b <= c) as Least.
    { intros c (n1 & r' & k' & n2 & E & S & _ & _) Hc.
      assert (In (r', k') (m1 ++ (r, k) :: m2)) as I by (rewrite E; apply in_elt).
      apply in_app_iff in I. destruct I as [I|[I|I]].
      - specialize (A1 _ _ I S Hc). lia.
      - injection I as -> ->. auto.
      - exact (A2 _ _ I S Hc). }
    assert (Forall (fun x => ~ speaks (fst x) b) m1) as N1.
    { apply Forall_forall. intros x Hx S. specialize (A1 _ _ Hx S E3). lia. }
    assert (Forall (fun r => fits n next r /\ passed r pos b) ns) as Fn'.
    { rewrite Forall_forall in *. intros x Hx. split; auto.
      intros p c H1 H2. specialize (Pn x Hx _ _ H1 H2). lia. }
    destruct (check_spec low b pos ltac:(lia) Mp k ns (on_other st) Kn Fn') as [H1 H2].
    destruct (check n next k ns (on_other st) b pos) as [na ok]. cbn [fst snd] in *.
    assert (mark next b /\ b <= n) as [Mb Bn].
    { rewrite Forall_forall in Fb. destruct (Fb (r, k)) as [Fr _]; [apply in_elt|]. cbn [fst] in Fr.
      destruct E4 as [p E4]. apply Fr in E4. easy. }
    destruct ok.
    + split; [easy|]. split; [|split; [easy|split; [|easy]]].
      * exists m1, r, k, m2. repeat split; auto.
      * cbn [on_breaking]. clear -C1 E3. induction C1; constructor; [|easy].
        now apply known_le with (low := min).
    + pose proof (next_lt b) as Nb.
      specialize (IH (State ba na) (next b) b ltac:(lia) ltac:(lia)). cbn [on_breaking on_other] in IH.
      assert (~ accepted (m1 ++ (r, k) :: m2) ns b) as NA.
      { intros (n1 & r' & k' & n2 & E & S & N2 & N3).
        assert ((r, k) = (r', k')) as [= <- <-].
        { eapply (first_same (fun x : rule * nat => speaks (fst x) b)); eauto. }
        rewrite Forall_forall in N3. apply Exists_exists in H2. destruct H2 as (x & I & Sx).
        exact (N3 _ I Sx). }
      assert (forall c, accepted (m1 ++ (r, k) :: m2) ns c -> min <= c -> next b <= c) as Up.
      { intros c Hc Lc. pose proof (Least _ Hc Lc) as L.
        destruct (Nat.eq_dec b c) as [->|D]; [contradiction|].
        apply next_le; [easy| |lia]. destruct Hc as (n1 & r' & k' & n2 & E & [p S] & _).
        rewrite Forall_forall in Fb. destruct (Fb (r', k')) as [Fr _]; [rewrite E; apply in_elt|].
        apply Fr in S. easy. }
      assert (match cut_loop n next f (m1 ++ (r, k) :: m2) ns (State ba na) (next b) pos with
              | (st', Some c) => next b <= c /\ accepted (m1 ++ (r, k) :: m2) ns c
                 /\ (forall b0, accepted (m1 ++ (r, k) :: m2) ns b0 -> next b <= b0 -> c <= b0)
                 /\ Forall2 (fun x a => known (fst x) a c) (m1 ++ (r, k) :: m2) (on_breaking st')
                 /\ Forall2 (fun r a => known r a c) ns (on_other st')
              | (_, None) => forall b0, accepted (m1 ++ (r, k) :: m2) ns b0 -> b0 < next b
              end) as IH'.
      { apply IH.
        - clear -C1 E3. induction C1; constructor; [|easy]. now apply known_le with (low := min).
        - exact H1.
        - eapply Forall_impl; [|exact Pb]. intros x Px p c X1 X2. specialize (Px _ _ X1 X2). lia.
        - eapply Forall_impl; [|exact Pn]. intros x Px p c X1 X2. specialize (Px _ _ X1 X2). lia. }
      clear IH. destruct (cut_loop n next f (m1 ++ (r, k) :: m2) ns (State ba na) (next b) pos) as [st' [c|]].
      * destruct IH' as (I1 & I2 & I3 & I4 & I5).
        split; [lia|split; [easy|split; [|easy]]]. intros d Hd Ld. apply I3; [easy|]. now apply Up.
      * intros c Hc. destruct (Nat.lt_ge_cases c min) as [|L]; [easy|].
        specialize (IH' _ Hc). specialize (Up _ Hc L). lia.
  - destruct (pick_none _ _ Ep) as [_ G]. intros b (l1 & r & k & l2 & -> & S & _).
    clear -C2 G S. remember (l1 ++ (r, k) :: l2) as bs eqn:E.
    assert (In (r, k) bs) as I by (subst; apply in_elt). clear E.
    induction C2 as [|x o bs l [_ H1] H2 IH]; [easy|].
    inversion G as [|? ? G1 G2]; subst. destruct I as [->|I]; [|auto].
    rewrite G1 in H1. cbn in H1. auto.
Qed.

(** * The order of the rules *)

Lemma process_accepted b rules : forall ns0,
  accepted (fst (process rules (length ns0))) (ns0 ++ snd (process rules (length ns0))) b
  <-> Forall (fun r => ~ speaks r b) ns0 /\ decided rules b.
Proof.
  induction rules as [|[[|] r] rules IH]; intros ns0; cbn [process].
  - cbn. split.
    + intros (l1 & r & k & l2 & E & _). now destruct l1.
    + intros [_ (l1 & r & l2 & E & _)]. now destruct l1.
  - specialize (IH ns0). destruct (process rules (length ns0)) as [bs ns]. cbn [fst snd] in *. split.
    + intros ([|x l1] & r' & k & l2 & E & S & N1 & N2); cbn in E.
      * injection E as <- <- <-. rewrite firstn_app, firstn_all, Nat.sub_diag in N2. cbn in N2.
        rewrite app_nil_r in N2. split; [easy|]. exists [], r, rules. repeat split; auto.
      * injection E as <- ->. inversion N1 as [|? ? N3 N4]; subst. cbn [fst] in N3.
        destruct (proj1 IH) as [I1 (m1 & r2 & m2 & -> & I2 & I3)]; [exists l1, r', k, l2; repeat split; auto|].
        split; [easy|]. exists ((true, r) :: m1), r2, m2. repeat split; auto.
    + intros [N ([|x l1] & r' & l2 & E & S & N1)]; cbn in E.
      * injection E as <- <-. exists [], r, (length ns0), bs. split; [easy|split; [easy|split; [constructor|]]].
        rewrite firstn_app, firstn_all, Nat.sub_diag. cbn. now rewrite app_nil_r.
      * injection E as <- ->. inversion N1 as [|? ? N3 N4]; subst. cbn [snd] in N3.
        destruct (proj2 IH) as (m1 & r2 & k & m2 & E2 & I2 & I3 & I4).
        { split; [easy|]. exists l1, r', l2. repeat split; auto. }
        exists ((r, length ns0) :: m1), r2, k, m2. rewrite E2. repeat split; auto.
  - specialize (IH (ns0 ++ [r])). rewrite app_length in IH. cbn [length] in IH. rewrite Nat.add_1_r in IH.
    destruct (process rules (S (length ns0))) as [bs ns]. cbn [fst snd] in *.
    rewrite <- app_assoc in IH. cbn [app] in IH. rewrite IH, Forall_app. split.
    + intros [[N1 N2] (l1 & r' & l2 & -> & S & N3)]. inversion N2; subst.
      split; [easy|]. exists ((false, r) :: l1), r', l2. repeat split; auto.
    + intros [N ([|x l1] & r' & l2 & E & S & N1)]; cbn in E; [discriminate E|].
      injection E as <- ->. inversion N1 as [|? ? N3 N4]; subst. cbn [snd] in N3.
      split; [split; [easy|now repeat constructor]|]. exists l1, r', l2. repeat split; auto.
Qed.

Lemma process_in rules : forall seen,
  (forall x, In x (fst (process rules seen)) -> In (true, fst x) rules)
  /\ (forall r, In r (snd (process rules seen)) -> In (false, r) rules).
Proof.
  induction rules as [|[[|] r] rules IH]; intros seen; cbn [process].
  - split; easy.
  - destruct (IH seen) as [I1 I2]. destruct (process rules seen) as [bs ns]. cbn [fst snd] in *. split.
    + intros x [<-|H]; [now left|right; auto].
    + intros x H. right. auto.
  - destruct (IH (S seen)) as [I1 I2]. destruct (process rules (S seen)) as [bs ns]. cbn [fst snd] in *. split.
    + intros x H. right. auto.
    + intros x [<-|H]; [now left|right; auto].
Qed.

(** * The whole text *)

Section Text.
Variable rules : list (bool * rule).
Hypothesis F : forall k r, In (k, r) rules -> fits n next r.

Lemma decided_at b : decided rules b -> mark next b /\ b <= n.
Proof.
  intros (l1 & r & l2 & E & [p S] & _). destruct (F true r) as [H _]; [rewrite E; apply in_elt|].
  apply H in S. easy.
Qed.

Lemma cut_off_spec st pos low bs ns : process rules 0 = (bs, ns) ->
  mark next pos -> pos <= n -> low <= next pos -> clear_at rules pos ->
  Forall2 (fun x a => known (fst x) a low) bs (on_breaking st) ->
  Forall2 (fun r a => known r a low) ns (on_other st) ->
  match cut_off n next bs ns st pos with
  | (st', Some c) =>
      pos < c /\ decided rules c /\ (forall b, decided rules b -> pos < b -> c <= b)
      /\ Forall2 (fun x a => known (fst x) a c) bs (on_breaking st')
      /\ Forall2 (fun r a => known r a c) ns (on_other st')
  | (_, None) => forall b, decided rules b -> b <= pos
  end.
Proof.
  intros E Mp Lp Ll C Kb Kn. pose proof (next_lt pos) as Np.
  pose proof (process_in rules 0) as [I1 I2]. rewrite E in I1, I2. cbn [fst snd] in *.
  assert (forall b, accepted bs ns b <-> decided rules b) as AD.
  { intros b. pose proof (process_accepted b rules []) as H. cbn [length] in H. rewrite E in H.
    cbn [fst snd app] in H. rewrite H. split; [easy|]. intros; split; [constructor|easy]. }
  assert (forall b, decided rules b -> pos < b -> next pos <= b) as Up.
  { intros b Hb Lb. apply next_le; [easy|now apply decided_at|easy]. }
  unfold cut_off.
  pose proof (cut_loop_spec bs ns pos Mp) as Sp.
  assert (Forall (fun x => fits n next (fst x)) bs) as S1.
  { apply Forall_forall. intros x Hx. apply (F true). auto. }
  assert (Forall (fits n next) ns) as S2.
  { apply Forall_forall. intros x Hx. apply (F false). auto. }
  assert (Forall (fun x => passed (fst x) pos (next pos)) bs) as S3.
  { apply Forall_forall. intros x Hx p b H1 H2. specialize (C _ _ _ _ (I1 _ Hx) H1 H2). lia. }
  assert (Forall (fun r => passed r pos (next pos)) ns) as S4.
  { apply Forall_forall. intros x Hx p b H1 H2. specialize (C _ _ _ _ (I2 _ Hx) H1 H2). lia. }
  specialize (Sp S1 S2 (S (S n)) st (next pos) low ltac:(lia) Ll Kb Kn S3 S4).
  destruct (cut_loop n next (S (S n)) bs ns st (next pos) pos) as [st' [c|]].
  - destruct Sp as (X1 & X2 & X3 & X4 & X5). split; [lia|]. split; [now apply AD|].
    split; [|now split]. intros b Hb Lb. apply X3; [now apply AD|auto].
  - intros b Hb. destruct (Nat.le_gt_cases b pos) as [|L]; [easy|].
    pose proof (Sp b (proj2 (AD b) Hb)). pose proof (Up _ Hb L). lia.
Qed.

Hypothesis C : forall c, decided rules c -> clear_at rules c.

Lemma cuts_loop_spec bs ns : process rules 0 = (bs, ns) -> forall fuel st pos low,
  n - pos < fuel -> (pos = 0 \/ decided rules pos) -> low <= next pos ->
  Forall2 (fun x a => known (fst x) a low) bs (on_breaking st) ->
  Forall2 (fun r a => known r a low) ns (on_other st) ->
  StronglySorted lt (cuts_loop n next fuel bs ns st pos)
  /\ forall b, In b (cuts_loop n next fuel bs ns st pos) <-> pos < b /\ decided rules b.
Proof.
  intros E. induction fuel as [|f IH]; intros st pos low Lf P Ll Kb Kn; [lia|]. cbn [cuts_loop].
  assert (mark next pos /\ pos <= n) as [Mp Lp].
  { destruct P as [->|P]; [split; [constructor|lia]|now apply decided_at]. }
  destruct (pos <? n) eqn:Ep.
  2:{ apply Nat.ltb_ge in Ep. split; [constructor|]. intros b. split; [easy|].
      intros [H1 H2]. apply decided_at in H2. lia. }
  apply Nat.ltb_lt in Ep.
  assert (clear_at rules pos) as Cp.
  { destruct P as [->|P]; [|auto]. intros k r p b _ _ H. lia. }
  pose proof (cut_off_spec st pos low bs ns E Mp Lp Ll Cp Kb Kn) as S.
  destruct (cut_off n next bs ns st pos) as [st' [c|]].
  - destruct S as (X1 & X2 & X3 & X4 & X5).
    pose proof (next_lt c). destruct (IH st' c c ltac:(lia) (or_intror X2) ltac:(lia) X4 X5) as [I1 I2].
    split.
    + constructor; [easy|]. apply Forall_forall. intros b Hb. apply I2 in Hb. lia.
    + intros b. cbn [In]. rewrite I2. split.
      * intros [<-|[Y1 Y2]]; [easy|]. split; [lia|easy].
      * intros [Y1 Y2]. specialize (X3 _ Y2 Y1).
        destruct (Nat.eq_dec c b); [now left|right]. split; [lia|easy].
  - split; [constructor|]. intros b. split; [easy|]. intros [Y1 Y2]. specialize (S _ Y2). lia.
Qed.
End Text.
End Proofs.

(** C85: the cuts of a text are, from left to right, exactly the places inside it
    or at its end of which some rule speaks and of which the first rule to speak
    is a breaking one. *)
Theorem C85_cuts n next rules :
  (forall p, p < next p) -> mark next n ->
  (forall k r, In (k, r) rules -> fits n next r) ->
  (forall c, decided rules c -> clear_at rules c) ->
  StronglySorted lt (cuts n next rules)
  /\ forall b, In b (cuts n next rules) <-> 0 < b /\ decided rules b.
Proof.
  intros Hn Mn F C. unfold cuts. destruct (process rules 0) as [bs ns] eqn:E.
  eapply (cuts_loop_spec n next Hn Mn rules F C bs ns E) with (low := 0); try lia; cbn [on_breaking on_other].
  - clear -Hn. induction bs; constructor; auto. apply known_fresh.
  - clear -Hn. induction ns; constructor; auto. apply known_fresh.
Qed.
Print Assumptions C85_cuts.

(** C85: the first cut needs no more than the rules to fit: whatever lies over it,
    it is the first place that the rules decide to break at; and if there is no
    cut, there is no such place. *)
Theorem C85_first n next rules :
  (forall p, p < next p) -> mark next n ->
  (forall k r, In (k, r) rules -> fits n next r) ->
  0 < n ->
  match cuts n next rules with
  | [] => forall b, decided rules b -> b = 0
  | c :: _ => 0 < c /\ decided rules c /\ forall b, decided rules b -> 0 < b -> c <= b
  end.
Proof.
  intros Hn Mn F Ln. unfold cuts. destruct (process rules 0) as [bs ns] eqn:E.
  cbn [cuts_loop]. apply Nat.ltb_lt in Ln. rewrite Ln.
  set (st := State _ _).
  assert (clear_at rules 0) as C0 by (intros k r p b _ _ H; lia).
  pose proof (cut_off_spec n next Hn Mn rules F st 0 0 bs ns E (mark_0 _) ltac:(lia) ltac:(lia) C0) as S.
  assert (Forall2 (fun x a => known next (fst x) a 0) bs (on_breaking st)) as S1.
  { unfold st; cbn [on_breaking]. clear -Hn. induction bs; constructor; auto. apply known_fresh. }
  assert (Forall2 (fun r a => known next r a 0) ns (on_other st)) as S2.
  { unfold st; cbn [on_other]. clear -Hn. induction ns; constructor; auto. apply known_fresh. }
  specialize (S S1 S2). destruct (cut_off n next bs ns st 0) as [st' [c|]].
  - easy.
  - intros b Hb. specialize (S b Hb). lia.
Qed.
Print Assumptions C85_first.

(** ** Examples *)

(** A rule given by its matches. *)
Fixpoint table (l : list (nat * nat)) (p : nat) : option nat :=
  match l with
  | [] => None
  | (q, b) :: l' => if p =? q then Some b else table l' p
  end.
Lemma table_in l p b : table l p = Some b -> In (p, b) l.
Proof.
  induction l as [|[q c] l IH]; cbn; [easy|]. destruct (p =? q) eqn:E.
  - apply Nat.eqb_eq in E. intros [= ->]. subst. now left.
  - intros H. right. auto.
Qed.
Lemma mark_S p : mark S p.
Proof. induction p; constructor; easy. Qed.
Lemma table_fits n l :
  forallb (fun x => (fst x <? n) && (fst x <=? snd x) && (snd x <=? n)
                    && forallb (fun y => negb (fst x <=? fst y) || (snd x <=? snd y)) l) l = true ->
  fits n S (table l).
Proof.
  rewrite forallb_forall. intros H. split.
  - intros p b T. apply table_in in T. apply H in T. cbn [fst snd] in T. rewrite !andb_true_iff in T.
    destruct T as [[[T1 T2] T3] _]. apply Nat.ltb_lt in T1. apply Nat.leb_le in T2, T3.
    split; [apply mark_S|split; [apply mark_S|lia]].
  - intros p q b c T1%table_in T2%table_in L. apply H in T1. cbn [fst snd] in T1.
    rewrite !andb_true_iff in T1. destruct T1 as [_ T1]. rewrite forallb_forall in T1.
    specialize (T1 _ T2). cbn [fst snd] in T1. apply orb_true_iff in T1. destruct T1 as [T1|T1].
    + apply negb_true_iff, Nat.leb_gt in T1. lia.
    + now apply Nat.leb_le in T1.
Qed.
Lemma table_speaks l b : speaks (table l) b -> In b (map snd l).
Proof. intros [p T%table_in]. apply (in_map snd) in T. exact T. Qed.

(** "A. B. C": a full stop and a space break, but not after B. *)
Definition stops : rule := table [(1, 2); (4, 5)].
Definition after_b : rule := table [(3, 5)].
Example C85_example_cuts :
  let rules := [(false, after_b); (true, stops)] in
  cuts 7 S rules = [2]
  /\ cuts 7 S [(true, stops); (false, after_b)] = [2; 5]
  /\ (forall k r, In (k, r) rules -> fits 7 S r)
  /\ decided rules 2 /\ ~ decided rules 5
  /\ (forall c, decided rules c -> clear_at rules c).
Proof.
  cbn zeta.
  assert (~ decided [(false, after_b); (true, stops)] 5) as N5.
  { intros (l1 & r & l2 & E & _ & N). destruct l1 as [|x l1]; cbn in E; [discriminate E|].
    injection E as <- _. inversion N as [|? ? N1 _]; subst. apply N1. now exists 3. }
  split; [reflexivity|]. split; [reflexivity|]. split; [|split; [|split; [exact N5|]]].
  - intros k r [I|[I|[]]]; injection I as <- <-; now apply table_fits.
  - exists [(false, after_b)], stops, []. split; [easy|split; [now exists 1|]].
    constructor; [|constructor]. intros S%table_speaks. cbn in S. intuition discriminate.
  - intros c D. assert (c = 2) as ->.
    { destruct D as (l1 & r & l2 & E & S & N). assert (In (true, r) [(false, after_b); (true, stops)]) as I
        by (rewrite E; apply in_elt).
      destruct I as [I|[I|[]]]; [discriminate I|]. injection I as <-.
      pose proof (table_speaks _ _ S) as H. cbn in H. destruct H as [H|[H|[]]]; [easy|].
      exfalso. subst c. apply N5. exists l1, stops, l2. split; [easy|]. now split. }
    intros k r p b [I|[I|[]]] T L; injection I as <- <-; apply table_in in T; cbn in T.
    + destruct T as [T|[]]. injection T as <- <-. lia.
    + destruct T as [T|[T|[]]]; injection T as <- <-; lia.
Qed.

Definition r_1_2 : rule := table [(1, 2)].
Definition r_0_4 : rule := table [(0, 4)].
Definition r_3_4 : rule := table [(3, 4)].
Definition r_0_5 : rule := table [(0, 5); (1, 3)].
Definition r_2_3 : rule := table [(2, 3)].

(** A non-breaking rule that begins in the sentence before is forgotten when no
    breaking rule after it has been tried there, although it is the first to
    speak of the place. *)
Theorem C85_over_refuted : exists n rules,
  (forall k r, In (k, r) rules -> fits n S r)
  /\ exists c, In c (cuts n S rules) /\ ~ decided rules c.
Proof.
  exists 6, [(true, r_1_2); (false, r_0_4); (true, r_3_4)]. split.
  - intros k r [I|[I|[I|[]]]]; apply (f_equal snd) in I; cbn [snd] in I; subst r; now apply table_fits.
  - exists 4. split; [vm_compute; auto|].
    intros (l1 & r & l2 & E & S & N). destruct l1 as [|x [|y l1]]; cbn in E.
    + injection E as <- _. change (speaks r_1_2 4) in S. apply table_speaks in S. cbn in S. intuition discriminate.
    + discriminate E.
    + injection E as <- <- _. inversion N as [|? ? _ N1]; subst. inversion N1 as [|? ? N2 _]; subst.
      apply N2. now exists 0.
Qed.
Print Assumptions C85_over_refuted.
(** With the same three rules in another order the match is remembered and the
    place is not cut. *)
Example C85_example_over :
  cuts 6 S [(true, r_1_2); (false, r_0_4); (true, r_3_4)] = [2; 4]
  /\ cuts 6 S [(false, r_0_4); (true, r_1_2); (true, r_3_4)] = [2].
Proof. split; reflexivity. Qed.

(** A non-breaking rule of which an earlier match breaks later is not heard. *)
Theorem C85_order_refuted : exists n rules,
  (forall c, decided rules c -> clear_at rules c)
  /\ exists c, In c (cuts n S rules) /\ ~ decided rules c.
Proof.
  exists 6, [(false, r_0_5); (true, r_2_3)].
  assert (forall c, ~ decided [(false, r_0_5); (true, r_2_3)] c) as N.
  { intros c (l1 & r & l2 & E & S & N). destruct l1 as [|x [|y l1]]; cbn in E.
    - discriminate E.
    - injection E as <- <- _. change (speaks r_2_3 c) in S. apply table_speaks in S. cbn in S. destruct S as [S|[]].
      inversion N as [|? ? N1 _]; subst. apply N1. now exists 1.
    - injection E as _ _ E. now destruct l1. }
  split; [intros c D; now destruct (N c)|].
  exists 3. split; [vm_compute; auto|apply N].
Qed.
Print Assumptions C85_order_refuted.

(** * Groups *)

(** Every parenthesis that is neither escaped nor followed by a question mark gets
    one and a colon; the flag tells whether the character is escaped. *)
Fixpoint grouped (esc : bool) (s : text) : text :=
  match s with
  | [] => []
  | c :: s' =>
      if Ascii.eqb c "\" then c :: grouped (negb esc) s'
      else if Ascii.eqb c "(" && negb esc
              && negb match s' with d :: _ => Ascii.eqb d "?" | [] => false end
           then ["("; "?"; ":"]%char ++ grouped false s'
           else c :: grouped false s'
  end.
(** The number of groups that a pattern has for its user. *)
Fixpoint groups (esc : bool) (s : text) : nat :=
  match s with
  | [] => 0
  | c :: s' =>
      if Ascii.eqb c "\" then groups (negb esc) s'
      else (if Ascii.eqb c "(" && negb esc
               && negb match s' with d :: _ => Ascii.eqb d "?" | [] => false end then 1 else 0)
           + groups false s'
  end.

(** Is the character after the text escaped? *)
Fixpoint odd_after (esc : bool) (s : text) : bool :=
  match s with
  | [] => esc
  | c :: s' => odd_after (Ascii.eqb c "\" && negb esc) s'
  end.

Lemma odd_after_app s t : forall e, odd_after e (s ++ t) = odd_after (odd_after e s) t.
Proof. induction s as [|c s IH]; cbn; auto. Qed.

Lemma last_other_app s t : forall pos, pos <= length s -> last_other (s ++ t) pos = last_other s pos.
Proof.
  induction pos as [|p IH]; intros H; [easy|]. cbn [last_other].
  rewrite nth_error_app1 by lia. rewrite IH by lia. reflexivity.
Qed.

Lemma is_escaped_app s t : is_escaped (s ++ t) (length s) = is_escaped s (length s).
Proof. unfold is_escaped. now rewrite last_other_app. Qed.

Lemma last_other_lt s : forall pos l, last_other s pos = Some l -> l < pos.
Proof.
  induction pos as [|p IH]; intros l; cbn [last_other]; [easy|].
  destruct (nth_error s p) as [c|].
  - destruct (Ascii.eqb c bs).
    + intros H%IH. lia.
    + intros [= <-]. lia.
  - intros H%IH. lia.
Qed.

Lemma mod2_S k : (S k mod 2 =? 1) = negb (k mod 2 =? 1).
Proof.
  rewrite <- !Nat.bit0_eqb, !Nat.bit0_odd, Nat.odd_succ, <- Nat.negb_odd. reflexivity.
Qed.
Lemma mod2_0 k : (k mod 2 =? 0) = negb (k mod 2 =? 1).
Proof. pose proof (Nat.mod_upper_bound k 2 ltac:(lia)). destruct (k mod 2) as [|[|?]]; try easy. lia. Qed.

Lemma is_escaped_odd s : is_escaped s (length s) = odd_after false s.
Proof.
  induction s as [|c s IH] using rev_ind; [reflexivity|].
  rewrite odd_after_app. cbn [odd_after]. rewrite <- IH. clear IH.
  unfold is_escaped. rewrite app_length. cbn [length]. rewrite Nat.add_1_r. cbn [Nat.eqb last_other].
  rewrite nth_error_app2, Nat.sub_diag by lia. cbn [nth_error].
  change (Ascii.eqb c bs) with (Ascii.eqb c "\"). destruct (Ascii.eqb c "\") eqn:E; cbn [andb].
  - rewrite last_other_app by lia. destruct (length s) as [|k] eqn:El; [reflexivity|].
    cbn [Nat.eqb]. destruct (last_other s (S k)) as [l|] eqn:Eo.
    + apply last_other_lt in Eo. rewrite !mod2_0.
      replace (S (S k) - l) with (S (S k - l)) by lia. now rewrite mod2_S.
    + now rewrite mod2_S.
  - replace (S (length s) - length s) with 1 by lia. reflexivity.
Qed.

Lemma find_paren_from s : forall a i pos, pos = i + length a ->
  find_paren (a ++ s) i pos = find_paren s pos pos.
Proof.
  induction a as [|c a IH]; intros i pos ->; cbn [app length].
  - now rewrite Nat.add_0_r.
  - cbn [find_paren]. replace (i + S (length a) <=? i) with false
      by (symmetry; apply Nat.leb_gt; lia). cbn [andb]. apply IH. lia.
Qed.
Lemma find_paren_first s : forall i pos, pos <= i ->
  match find_paren s i pos with
  | Some p => exists u v, s = u ++ "("%char :: v /\ p = i + length u /\ ~ In "("%char u
  | None => ~ In "("%char s
  end.
Proof.
  induction s as [|c s IH]; intros i pos L; cbn [find_paren]; [easy|].
  replace (pos <=? i) with true by (symmetry; now apply Nat.leb_le). cbn [andb].
  destruct (Ascii.eqb c "(") eqn:E.
  - apply Ascii.eqb_eq in E. subst c. exists [], s. cbn. split; [easy|split; [lia|easy]].
  - apply Ascii.eqb_neq in E. specialize (IH (S i) pos ltac:(lia)). destruct (find_paren s (S i) pos) as [p|].
    + destruct IH as (u & v & -> & -> & N). exists (c :: u), v. cbn. split; [easy|split; [lia|]].
      intros [|]; [congruence|contradiction].
    + cbn. intros [|]; [congruence|contradiction].
Qed.
Lemma grouped_skip u v : ~ In "("%char u -> forall e, grouped e (u ++ v) = u ++ grouped (odd_after e u) v.
Proof.
  induction u as [|c u IH]; intros N e; [easy|]. cbn [app grouped odd_after].
  assert (Ascii.eqb c "(" = false) as E.
  { apply Ascii.eqb_neq. intros ->. apply N. now left. }
  rewrite E. cbn [andb]. destruct (Ascii.eqb c "\"); cbn [andb]; rewrite IH; auto;
    intros I; apply N; now right.
Qed.

Lemma parens_loop_grouped : forall fuel a s, length s < fuel ->
  parens_loop fuel (a ++ s) (length a) = a ++ grouped (odd_after false a) s.
Proof.
  induction fuel as [|f IH]; intros a s L; [lia|]. cbn [parens_loop].
  rewrite (find_paren_from s a 0 (length a)) by easy.
  pose proof (find_paren_first s (length a) (length a) ltac:(lia)) as P.
  destruct (find_paren s (length a) (length a)) as [p|].
  - destruct P as (u & v & -> & -> & N). rewrite app_length in L. cbn [length] in L.
    rewrite grouped_skip by easy.
    assert (a ++ u ++ "("%char :: v = (a ++ u) ++ "("%char :: v) as E by now rewrite app_assoc.
    rewrite E. rewrite <- (app_length a u) at 1. rewrite is_escaped_app, is_escaped_odd, odd_after_app.
    rewrite nth_error_app2 by (rewrite app_length; lia). rewrite <- app_length.
    replace (length (a ++ u) + 1 - length (a ++ u)) with 1 by lia.
    assert (match nth_error ("("%char :: v) 1 with Some c => Ascii.eqb c "?" | None => false end
      = match v with d :: _ => Ascii.eqb d "?" | [] => false end) as Q by (destruct v; reflexivity).
    rewrite Q. clear Q.
    cbn [grouped]. change (Ascii.eqb "(" "\") with false. change (Ascii.eqb "(" "(") with true. cbn [andb].
    destruct (negb (odd_after (odd_after false a) u)
              && negb match v with d :: _ => Ascii.eqb d "?" | [] => false end).
    + replace (firstn (length (a ++ u) + 1) ((a ++ u) ++ "("%char :: v)) with ((a ++ u) ++ ["("%char]).
      2:{ change ("("%char :: v) with (["("%char] ++ v). rewrite (app_assoc (a ++ u)).
          replace (length (a ++ u) + 1) with (length ((a ++ u) ++ ["("%char]) + 0)
            by (rewrite !app_length; cbn; lia).
          rewrite firstn_app_2. cbn. now rewrite app_nil_r. }
      replace (skipn (length (a ++ u) + 1) ((a ++ u) ++ "("%char :: v)) with v.
      2:{ change ("("%char :: v) with (["("%char] ++ v). rewrite (app_assoc (a ++ u)).
          replace (length (a ++ u) + 1) with (length ((a ++ u) ++ ["("%char]))
            by (rewrite !app_length; cbn; lia).
          now rewrite skipn_app, skipn_all, Nat.sub_diag. }
      change (list_ascii_of_string "?:") with ["?"; ":"]%char.
      replace (((a ++ u) ++ ["("%char]) ++ ["?"; ":"]%char ++ v)
        with (((a ++ u) ++ ["("; "?"; ":"]%char) ++ v)
        by (repeat (rewrite <- ?app_assoc; cbn [app]); reflexivity).
      replace (length (a ++ u) + 3) with (length ((a ++ u) ++ ["("; "?"; ":"]%char))
        by (rewrite app_length; cbn; lia).
      rewrite IH by lia. rewrite odd_after_app. cbn.
      repeat (rewrite <- ?app_assoc; cbn [app]). reflexivity.
    + replace ((a ++ u) ++ "("%char :: v) with (((a ++ u) ++ ["("%char]) ++ v)
        by now rewrite <- app_assoc.
      replace (length (a ++ u) + 1) with (length ((a ++ u) ++ ["("%char]))
        by (rewrite app_length; cbn; lia).
      rewrite IH by lia. rewrite odd_after_app. cbn.
      repeat (rewrite <- ?app_assoc; cbn [app]). reflexivity.
  - rewrite <- (app_nil_r s) at 2. rewrite grouped_skip by easy. cbn. now rewrite app_nil_r.
Qed.

(** C85: the parentheses of a pattern. *)
Theorem C85_parens s : non_capturing s = grouped false s.
Proof. unfold non_capturing. exact (parens_loop_grouped (S (length s)) [] s ltac:(lia)). Qed.
Print Assumptions C85_parens.

(** C85: after that no group of the pattern is left, so that the only group of
    the expression of a rule is what is after the break. *)
Theorem C85_groups s : forall e, groups e (grouped e s) = 0.
Proof.
  assert (forall s e d t, grouped e s = d :: t -> exists c s', s = c :: s' /\ c = d) as H.
  { intros [|c s'] e d t E; cbn in E; [discriminate E|]. exists c, s'. split; [easy|].
    destruct (Ascii.eqb c "\"); [now injection E|].
    destruct (Ascii.eqb c "(") eqn:Ec; cbn [andb] in E; [|now injection E].
    apply Ascii.eqb_eq in Ec. subst c.
    destruct (negb e && _); now injection E. }
  induction s as [|c s IH]; intros e; [easy|]. cbn [grouped].
  destruct (Ascii.eqb c "\") eqn:E1.
  - cbn [groups]. rewrite E1. apply IH.
  - destruct (Ascii.eqb c "(" && negb e
      && negb match s with d :: _ => Ascii.eqb d "?" | [] => false end) eqn:E2.
    + cbn. destruct e; apply IH.
    + cbn [groups]. rewrite E1, IH, Nat.add_0_r.
      replace (match grouped false s with d :: _ => Ascii.eqb d "?" | [] => false end)
        with (match s with d :: _ => Ascii.eqb d "?" | [] => false end); [now rewrite E2|].
      destruct (grouped false s) as [|d t] eqn:Eg.
      * destruct s as [|c' s']; [easy|]. cbn [grouped] in Eg. destruct (Ascii.eqb c' "\"); [discriminate Eg|].
        revert Eg. match goal with |- (if ?b then _ else _) = _ -> _ => destruct b end; intros Eg; discriminate Eg.
      * destruct (H _ _ _ _ Eg) as (c' & s' & -> & ->). reflexivity.
Qed.
Print Assumptions C85_groups.

Definition lit := list_ascii_of_string.
Example C85_example_parens :
  make_regexp (lit "(Mr|Dr)\.") (lit "\((?:a)\\(b)") = lit "(?:(?:Mr|Dr)\.)(\((?:a)\\(?:b))"
  /\ groups false (lit "\((?:a)\\(b)") = 1.
Proof. split; reflexivity. Qed.

(** In a set of characters a parenthesis is no group; the question mark and the
    colon come into the set. *)
Theorem C85_set_refuted : exists set set',
  non_capturing (lit "[" ++ set ++ lit "]") = lit "[" ++ set' ++ lit "]"
  /\ In "?"%char set' /\ ~ In "?"%char set /\ ~ In ":"%char set.
Proof. exists (lit "("), (lit "(?:"). split; [reflexivity|]. cbn. intuition discriminate. Qed.
Print Assumptions C85_set_refuted.

(** * The choice of the rules *)

(** A name is chosen for the language. *)
Definition chosen (matches : text -> bool) (cascade : bool) (maps : list (text * text)) (name : text) : Prop :=
  exists l1 p l2, maps = l1 ++ (p, name) :: l2 /\ matches p = true
                  /\ (cascade = false -> Forall (fun m => matches (fst m) = false) l1).

Lemma rule_names_in matches cascade name maps :
  In name (rule_names matches cascade maps) <-> chosen matches cascade maps name.
Proof.
  induction maps as [|[p x] maps IH]; cbn [rule_names].
  - split; [easy|]. intros (l1 & q & l2 & E & _). now destruct l1.
  - destruct (matches p) eqn:Ep.
    + cbn [In]. split.
      * intros [<-|H].
        -- exists [], p, maps. split; [easy|split; [easy|constructor]].
        -- destruct cascade; [|easy]. apply IH in H. destruct H as (l1 & q & l2 & -> & H1 & H2).
           exists ((p, x) :: l1), q, l2. split; [easy|split; [easy|easy]].
      * intros ([|y l1] & q & l2 & E & H1 & H2); cbn in E.
        -- injection E as <- <- _. now left.
        -- injection E as <- ->. right. destruct cascade.
           ++ apply IH. exists l1, q, l2. split; [easy|split; [easy|easy]].
           ++ specialize (H2 eq_refl). inversion H2 as [|? ? H3 _]; subst. cbn in H3. congruence.
    + rewrite IH. split.
      * intros (l1 & q & l2 & -> & H1 & H2). exists ((p, x) :: l1), q, l2.
        split; [easy|split; [easy|]]. intros H. constructor; auto.
      * intros ([|y l1] & q & l2 & E & H1 & H2); cbn in E.
        -- injection E as <- <- _. congruence.
        -- injection E as <- ->. exists l1, q, l2. split; [easy|split; [easy|]].
           intros H. specialize (H2 H). now inversion H2.
Qed.

(** The rules of the chosen names, in the order in which they stand. *)
Inductive kept {R} (P : text -> Prop) : list (text * list R) -> list R -> Prop :=
| kept_nil : kept P [] []
| kept_yes name rs rest out : P name -> kept P rest out -> kept P ((name, rs) :: rest) (rs ++ out)
| kept_no name rs rest out : ~ P name -> kept P rest out -> kept P ((name, rs) :: rest) out.

(** C85: the rules are those of the names of all maps whose pattern matches the
    language, or of the first one if there is no cascade, in the order of the
    rules (not of the maps). *)
Theorem C85_rules {R} matches cascade maps (rules : list (text * list R)) :
  kept (chosen matches cascade maps) rules (choose_rules matches cascade maps rules).
Proof.
  unfold choose_rules. induction rules as [|[name rs] rules IH]; cbn [flat_map]; [constructor|].
  cbn [fst snd].
  destruct (existsb _ _) eqn:E.
  - apply kept_yes; [|exact IH]. apply rule_names_in. apply existsb_exists in E.
    destruct E as (x & I & H). now destruct (list_eq_dec ascii_dec x name) as [->|].
  - cbn [app]. apply kept_no; [|exact IH]. intros C%rule_names_in.
    apply Bool.not_true_iff_false in E. apply E. apply existsb_exists. exists name. split; [easy|].
    now destruct (list_eq_dec ascii_dec name name).
Qed.
Print Assumptions C85_rules.
Example C85_example_rules :
  let maps := [(lit "pl", lit "Polish"); (lit "en", lit "English"); (lit ".*", lit "Default")] in
  let rules := [(lit "Default", [1; 2]); (lit "English", [3]); (lit "Polish", [4])] in
  let matches p := if list_eq_dec ascii_dec p (lit "en") then true
                   else if list_eq_dec ascii_dec p (lit ".*") then true else false in
  choose_rules matches false maps rules = [3]
  /\ choose_rules matches true maps rules = [1; 2; 3].
Proof. split; reflexivity. Qed.

(** C97: how score reads a phrase pair and which of several it takes for the best. *)
From Coq Require Import String Ascii.
From Coq Require Import List Arith ZArith QArith Bool Lia Sorted Lqa.
From Verif Require Import M_ScoreRead.
Import ListNotations.
Local Open Scope nat_scope.

(* ------------------------------------------------------------------ *)
(** * The vocabulary *)

Lemma str_eqb_eq a b : str_eqb a b = true <-> a = b.
Proof. unfold str_eqb. destruct (list_eq_dec ascii_dec a b); split; congruence. Qed.
Lemma find_word_some w : forall v n, find_word w v = Some n -> nth_error v n = Some w.
Proof.
  induction v as [|x v IH]; intros n; cbn [find_word]; [discriminate|]. destruct (str_eqb x w) eqn:E.
  - intros Q. injection Q as <-. apply str_eqb_eq in E. now subst.
  - destruct (find_word w v) as [m|]; [|discriminate]. intros Q. injection Q as <-. exact (IH m eq_refl).
Qed.
Lemma find_word_none w : forall v, find_word w v = None -> ~ In w v.
Proof.
  induction v as [|x v IH]; cbn [find_word]; [intros _ []|]. destruct (str_eqb x w) eqn:E; [discriminate|].
  destruct (find_word w v); [discriminate|]. intros _ [->|I]; [|exact (IH eq_refl I)].
  assert (str_eqb w w = true) by now apply str_eqb_eq. congruence.
Qed.

(** A word gets the number it already has, or the next one; numbers given before stay, and equal numbers are equal words. *)
Theorem C97_vocabulary : forall v w v' n, NoDup v -> store v w = (v', n) ->
  NoDup v' /\ (v' = v /\ In w v \/ v' = v ++ [w] /\ ~ In w v)
  /\ (forall m, nth_error v' m = Some w <-> m = n).
Proof.
  intros v w v' n N E. unfold store in E. destruct (find_word w v) as [k|] eqn:F; injection E as <- <-.
  - apply find_word_some in F. split; [exact N|]. split; [left; split; [reflexivity|exact (nth_error_In _ _ F)]|].
    intros m. split; [|now intros ->]. intros G. apply (proj1 (NoDup_nth_error v) N); [apply nth_error_Some; congruence|congruence].
  - apply find_word_none in F.
    assert (N' : NoDup (v ++ [w])) by (apply NoDup_rev in N; rewrite <- (rev_involutive (v ++ [w])); apply NoDup_rev; rewrite rev_app_distr; constructor; [rewrite <- in_rev; exact F|exact N]).
    assert (G0 : nth_error (v ++ [w]) (length v) = Some w) by (rewrite nth_error_app2 by lia; now rewrite Nat.sub_diag).
    split; [exact N'|]. split; [right; split; [reflexivity|exact F]|].
    intros m. split; [|now intros ->]. intros G. apply (proj1 (NoDup_nth_error _) N'); [apply nth_error_Some; congruence|congruence].
Qed.
Print Assumptions C97_vocabulary.

Lemma store_ok v w v' n : store v w = (v', n) -> nth_error v' n = Some w /\ exists x, v' = v ++ x.
Proof.
  unfold store. destruct (find_word w v) as [k|] eqn:F; intros E; injection E as <- <-.
  - split; [now apply find_word_some|exists []; now rewrite app_nil_r].
  - split; [rewrite nth_error_app2 by lia; now rewrite Nat.sub_diag|now exists [w]].
Qed.

(* ------------------------------------------------------------------ *)
(** * Sets and tables of sets *)

Definition sorted := StronglySorted lt.
Lemma set_insert_in x n : forall l, In x (set_insert n l) <-> x = n \/ In x l.
Proof.
  induction l as [|m l IH]; cbn [set_insert]; [cbn [In]; intuition|].
  destruct (Nat.ltb_spec n m); [cbn [In]; intuition|]. destruct (Nat.ltb_spec m n); cbn [In].
  - rewrite IH. intuition.
  - assert (n = m) by lia. subst. intuition.
Qed.
Lemma set_insert_sorted n : forall l, sorted l -> sorted (set_insert n l).
Proof.
  induction l as [|m l IH]; intros H; cbn [set_insert]; [apply SSorted_cons; [apply SSorted_nil|apply Forall_nil]|].
  inversion H as [|? ? H1 H2]; subst. destruct (Nat.ltb_spec n m).
  - apply SSorted_cons; [exact H|]. apply Forall_cons; [assumption|]. eapply Forall_impl; [|exact H2]. cbn. intros; lia.
  - destruct (Nat.ltb_spec m n); [|exact H]. apply SSorted_cons; [exact (IH H1)|]. apply Forall_forall. intros x I.
    apply set_insert_in in I as [->|I]; [assumption|]. exact (proj1 (Forall_forall _ _) H2 x I).
Qed.
Lemma insert_at_ok n : forall v i, i < length v -> Forall sorted v ->
  exists v', insert_at i n v = Some v' /\ length v' = length v /\ Forall sorted v'
    /\ forall j x, In x (nth j v' []) <-> In x (nth j v []) \/ j = i /\ x = n.
Proof.
  induction v as [|y v IH]; intros i L H; cbn [length] in L; [lia|]. inversion H as [|? ? H1 H2]; subst.
  destruct i as [|i]; cbn [insert_at].
  - exists (set_insert n y :: v). split; [reflexivity|]. split; [reflexivity|].
    split; [apply Forall_cons; [now apply set_insert_sorted|exact H2]|]. intros [|j] x; cbn [nth].
    + rewrite set_insert_in. intuition.
    + intuition. discriminate.
  - destruct (IH i ltac:(lia) H2) as (v' & E & A & B & C). rewrite E. exists (y :: v'). split; [reflexivity|].
    split; [cbn [length]; lia|]. split; [apply Forall_cons; assumption|]. intros [|j] x; cbn [nth].
    + intuition. discriminate.
    + rewrite C. intuition; lia.
Qed.

(* ------------------------------------------------------------------ *)
(** * A phrase pair *)

(** The places of a phrase of [n] words; the last word of a rule is its left-hand side. *)
Definition places (hier : bool) (n : nat) : nat := if hier then n - 1 else n.

Section Pair.
  Variable hier : bool.
  Variable scan_point : str -> option (nat * nat).
  Variable scan_count : str -> option Q.
  Notation loop := (create_loop hier scan_point scan_count).

  Definition side (n : nat) (v : list (list nat)) (R : nat -> nat -> Prop) : Prop :=
    (v = [] \/ length v = places hier n) /\ Forall sorted v /\ forall i x, In x (nth i v []) <-> R i x.
  Lemma nth_repeat_nil i n : nth i (repeat (@nil nat) n) [] = [].
  Proof. revert i; induction n as [|n IH]; intros [|i]; cbn [repeat nth]; auto. Qed.
  Lemma sized_ok n v R : side n v R -> (hier = true -> 0 < n) ->
    exists v', sized hier v n = Some v' /\ length v' = places hier n /\ side n v' R.
  Proof.
    intros (A & B & C) Hn. destruct v as [|y v].
    - assert (Q : sized hier [] n = Some (repeat [] (places hier n))).
      { unfold sized, places. destruct hier; [|reflexivity]. destruct n; [specialize (Hn eq_refl); lia|]. cbn. now rewrite Nat.sub_0_r. }
      rewrite Q. exists (repeat [] (places hier n)). split; [reflexivity|]. split; [apply repeat_length|].
      split; [right; apply repeat_length|]. split; [apply Forall_forall; intros x I; apply repeat_spec in I as ->; apply SSorted_nil|].
      intros i x. rewrite nth_repeat_nil, <- (C i x). destruct i; reflexivity.
    - exists (y :: v). split; [reflexivity|]. destruct A as [A|A]; [discriminate|]. split; [exact A|]. split; [right; exact A|]. split; assumption.
  Qed.
  Lemma side_insert n v R i x : side n v R -> length v = places hier n -> i < places hier n ->
    exists v', insert_at i x v = Some v' /\ length v' = places hier n /\ side n v' (fun j y => R j y \/ j = i /\ y = x).
  Proof.
    intros (A & B & C) L Hi. destruct (insert_at_ok x v i ltac:(lia) B) as (v' & E & F & G & H).
    exists v'. split; [exact E|]. split; [lia|]. split; [right; lia|]. split; [exact G|]. intros j y. rewrite H, C. reflexivity.
  Qed.
  Lemma side_ext n v R R' : (forall i x, R i x <-> R' i x) -> side n v R -> side n v R'.
  Proof. intros E (A & B & C). split; [exact A|]. split; [exact B|]. intros i x. rewrite C. apply E. Qed.

  Lemma not_bars w l : ~ In bars (w :: l) -> str_eqb w bars = false /\ ~ In bars l.
  Proof.
    intros H. split; [|intros I; apply H; now right]. destruct (str_eqb w bars) eqn:E; [|reflexivity].
    apply str_eqb_eq in E. subst. exfalso. apply H. now left.
  Qed.
  Lemma loop_source vt tgt a b c l : forall ws vs src, ~ In bars ws ->
    exists v ids, (exists x, v = vs ++ x) /\ map (nth_error v) ids = map Some ws
      /\ loop (ws ++ l) 1 (mkState vs vt src tgt a b c) = loop l 1 (mkState v vt (src ++ ids) tgt a b c).
  Proof.
    induction ws as [|w ws IH]; intros vs src H.
    - exists vs, []. split; [exists []; now rewrite app_nil_r|]. split; [reflexivity|]. now rewrite app_nil_r.
    - apply not_bars in H as [H1 H2]. cbn [app create_loop]. rewrite H1. cbn [r_vs r_vt r_src r_tgt r_toT r_toS r_count].
      destruct (store vs w) as [v1 n] eqn:E. apply store_ok in E as [E1 [x1 E2]].
      destruct (IH v1 (src ++ [n]) H2) as (v & ids & [x A] & B & C). exists v, (n :: ids).
      split; [exists (x1 ++ x); now rewrite A, E2, app_assoc|]. split.
      + cbn [map]. f_equal; [|exact B]. rewrite A, nth_error_app1; [exact E1|]. apply nth_error_Some. congruence.
      + rewrite C. now rewrite <- app_assoc.
  Qed.
  Lemma loop_target vs src a b c l : forall ws vt tgt, ~ In bars ws ->
    exists v ids, (exists x, v = vt ++ x) /\ map (nth_error v) ids = map Some ws
      /\ loop (ws ++ l) 2 (mkState vs vt src tgt a b c) = loop l 2 (mkState vs v src (tgt ++ ids) a b c).
  Proof.
    induction ws as [|w ws IH]; intros vt tgt H.
    - exists vt, []. split; [exists []; now rewrite app_nil_r|]. split; [reflexivity|]. now rewrite app_nil_r.
    - apply not_bars in H as [H1 H2]. cbn [app create_loop]. rewrite H1. cbn [r_vs r_vt r_src r_tgt r_toT r_toS r_count].
      destruct (store vt w) as [v1 n] eqn:E. apply store_ok in E as [E1 [x1 E2]].
      destruct (IH v1 (tgt ++ [n]) H2) as (v & ids & [x A] & B & C). exists v, (n :: ids).
      split; [exists (x1 ++ x); now rewrite A, E2, app_assoc|]. split.
      + cbn [map]. f_equal; [|exact B]. rewrite A, nth_error_app1; [exact E1|]. apply nth_error_Some. congruence.
      + rewrite C. now rewrite <- app_assoc.
  Qed.

  (** The points of the words [al] that lie within the phrases. *)
  Definition Point (ns nt : nat) (al : list str) (s t : nat) : Prop :=
    s < ns /\ t < nt /\ exists w, In w al /\ scan_point w = Some (s, t).
  Definition readable (ns nt : nat) (w : str) : Prop :=
    exists s t, scan_point w = Some (s, t)
      /\ (s < ns -> t < nt -> s < places hier ns /\ t < places hier nt).
  Lemma loop_points vs vt src tgt c l : (hier = true -> 0 < length src /\ 0 < length tgt) ->
    forall al a b (P : nat -> nat -> Prop), ~ In bars al -> Forall (readable (length src) (length tgt)) al ->
    side (length tgt) a (fun t s => P s t) -> side (length src) b (fun s t => P s t) ->
    exists a' b', loop (al ++ l) 3 (mkState vs vt src tgt a b c) = loop l 3 (mkState vs vt src tgt a' b' c)
      /\ side (length tgt) a' (fun t s => P s t \/ Point (length src) (length tgt) al s t)
      /\ side (length src) b' (fun s t => P s t \/ Point (length src) (length tgt) al s t).
  Proof.
    intros Hh. induction al as [|w al IH]; intros a b P H F Sa Sb.
    - exists a, b. split; [reflexivity|]. split; [refine (side_ext _ _ _ _ _ Sa)|refine (side_ext _ _ _ _ _ Sb)]; intros i x; unfold Point;
        (split; [tauto|]; intros [G|(_ & _ & w & [] & _)]; exact G).
    - apply not_bars in H as [H1 H2]. inversion F as [|? ? (s & t & E & K) F']; subst. cbn [app create_loop]. rewrite H1, E.
      assert (X : forall i j, P i j \/ Point (length src) (length tgt) (w :: al) i j
                  <-> (P i j \/ (s < length src /\ t < length tgt /\ i = s /\ j = t)) \/ Point (length src) (length tgt) al i j).
      { intros i j. unfold Point. split.
        - intros [G|(G1 & G2 & w0 & [<-|I] & G3)]; [tauto| |right; split; [exact G1|]; split; [exact G2|]; now exists w0].
          assert (i = s /\ j = t) as [-> ->] by (split; congruence). left; right. tauto.
        - intros [[G|(G1 & G2 & -> & ->)]|(G1 & G2 & w0 & I & G3)]; [tauto| |].
          + right. split; [exact G1|]. split; [exact G2|]. exists w. split; [now left|exact E].
          + right. split; [exact G1|]. split; [exact G2|]. exists w0. split; [now right|exact G3]. }
      unfold add_point. cbn [r_vs r_vt r_src r_tgt r_toT r_toS r_count].
      destruct (Nat.leb_spec (length tgt) t) as [L1|L1]; [|destruct (Nat.leb_spec (length src) s) as [L2|L2]]; cbn [orb].
      + destruct (IH a b P H2 F' Sa Sb) as (a' & b' & A & B & C). exists a', b'. split; [exact A|].
        split; [refine (side_ext _ _ _ _ _ B)|refine (side_ext _ _ _ _ _ C)]; intros i x; rewrite X; intuition lia.
      + destruct (IH a b P H2 F' Sa Sb) as (a' & b' & A & B & C). exists a', b'. split; [exact A|].
        split; [refine (side_ext _ _ _ _ _ B)|refine (side_ext _ _ _ _ _ C)]; intros i x; rewrite X; intuition lia.
      + destruct (K L2 L1) as [K1 K2]. unfold create_vec. cbn [r_vs r_vt r_src r_tgt r_toT r_toS r_count].
        destruct (sized_ok _ _ _ Sa ltac:(intros Q; apply Hh in Q; lia)) as (a1 & -> & La & Sa1).
        destruct (sized_ok _ _ _ Sb ltac:(intros Q; apply Hh in Q; lia)) as (b1 & -> & Lb & Sb1).
        cbn [with_align r_vs r_vt r_src r_tgt r_toT r_toS r_count].
        destruct (side_insert _ _ _ t s Sa1 La K2) as (a2 & -> & _ & Sa2).
        destruct (side_insert _ _ _ s t Sb1 Lb K1) as (b2 & -> & _ & Sb2).
        unfold with_align. cbn [r_vs r_vt r_src r_tgt r_toT r_toS r_count].
        destruct (IH a2 b2 (fun i j => P i j \/ (s < length src /\ t < length tgt /\ i = s /\ j = t)) H2 F') as (a' & b' & A & B & C).
        * refine (side_ext _ _ _ _ _ Sa2). intros i x. cbn beta. intuition.
        * refine (side_ext _ _ _ _ _ Sb2). intros i x. cbn beta. intuition.
        * exists a', b'. split; [exact A|]. split; [refine (side_ext _ _ _ _ _ B)|refine (side_ext _ _ _ _ _ C)]; intros i x; cbn beta; rewrite X; reflexivity.
  Qed.
End Pair.

Lemma names_length v : forall ids ws, map (nth_error v) ids = map (@Some str) ws -> length ids = length ws.
Proof. intros ids ws E. apply (f_equal (@length _)) in E. now rewrite !map_length in E. Qed.

(** A line "source ||| target ||| points", with or without "||| count": the phrases are the words in order, under the
    numbers of vocabularies that only grow; the table of each side says for each place exactly the points of the line that
    lie within the phrases, in increasing order; the count is the one given, or 1. For rules, the phrases must not be
    empty and no point may lie at a left-hand side. *)
Theorem C97_read : forall hier scan_point scan_count vs vt src tgt al rest count,
  ~ In bars src -> ~ In bars tgt -> ~ In bars al ->
  Forall (readable hier scan_point (length src) (length tgt)) al ->
  (hier = true -> src <> [] /\ tgt <> []) ->
  (rest = [] /\ count = 1%Q \/ exists w, rest = [bars; w] /\ w <> bars /\ scan_count w = Some count) ->
  exists st, create hier scan_point scan_count vs vt (src ++ [bars] ++ tgt ++ [bars] ++ al ++ rest) = Some st
    /\ map (nth_error (r_vs st)) (r_src st) = map Some src /\ map (nth_error (r_vt st)) (r_tgt st) = map Some tgt
    /\ (exists x, r_vs st = vs ++ x) /\ (exists x, r_vt st = vt ++ x)
    /\ length (r_toT st) = places hier (length tgt) /\ length (r_toS st) = places hier (length src)
    /\ (forall s t, In s (nth t (r_toT st) []) <-> Point scan_point (length src) (length tgt) al s t)
    /\ (forall s t, In t (nth s (r_toS st) []) <-> Point scan_point (length src) (length tgt) al s t)
    /\ Forall (StronglySorted lt) (r_toT st) /\ Forall (StronglySorted lt) (r_toS st)
    /\ r_count st = Some count.
Proof.
  intros hier sp sc vs vt src tgt al rest count Bs Bt Ba F Hh R. unfold create.
  assert (EB : str_eqb bars bars = true) by now apply str_eqb_eq.
  destruct (loop_source hier sp sc vt [] [] [] None ([bars] ++ tgt ++ [bars] ++ al ++ rest) src vs [] Bs) as (v & ids & X1 & N1 & ->).
  cbn [app create_loop]. rewrite EB.
  destruct (loop_target hier sp sc v ids [] [] None ([bars] ++ al ++ rest) tgt vt [] Bt) as (u & jds & X2 & N2 & E2).
  cbn [app] in E2. rewrite E2. clear E2. cbn [app create_loop]. rewrite EB.
  pose proof (names_length _ _ _ N1) as L1. pose proof (names_length _ _ _ N2) as L2.
  assert (Hl : hier = true -> 0 < length ids /\ 0 < length jds).
  { intros Q. destruct (Hh Q) as [Q1 Q2]. rewrite L1, L2. destruct src; [congruence|]. destruct tgt; [congruence|]. cbn [length]. lia. }
  assert (S0 : forall n, side hier n [] (fun _ _ => False)).
  { intros n. split; [now left|]. split; [apply Forall_nil|]. intros [|i] x; cbn [nth In]; tauto. }
  rewrite <- L1, <- L2 in F.
  destruct (loop_points hier sp sc v u ids jds None rest Hl al [] [] (fun _ _ => False) Ba F (S0 _) (S0 _)) as (a & b & -> & Sa & Sb).
  assert (Q : exists item c, create_loop hier sp sc rest 3 (mkState v u ids jds a b None) = Some (item, mkState v u ids jds a b c)
                /\ (if item =? 3 then Some 1%Q else c) = Some count).
  { destruct R as [[-> ->]|(w & -> & W & E)].
    - exists 3, None. split; reflexivity.
    - exists 4, (Some count). cbn [create_loop]. rewrite EB. destruct (str_eqb w bars) eqn:EW; [apply str_eqb_eq in EW; contradiction|].
      cbn [r_vs r_vt r_src r_tgt r_toT r_toS r_count]. rewrite E. split; reflexivity. }
  destruct Q as (item & c & -> & Ec). unfold create_vec. cbn [r_vs r_vt r_src r_tgt r_toT r_toS r_count].
  destruct (sized_ok hier _ _ _ Sa ltac:(intros Q; apply Hl in Q; lia)) as (a1 & -> & La & _ & Oa & Ma).
  destruct (sized_ok hier _ _ _ Sb ltac:(intros Q; apply Hl in Q; lia)) as (b1 & -> & Lb & _ & Ob & Mb).
  unfold with_align. cbn [r_vs r_vt r_src r_tgt r_toT r_toS r_count]. rewrite L1, L2 in *.
  exists (mkState v u ids jds a1 b1 (Some count)). split.
  { rewrite <- Ec. destruct (item =? 3); reflexivity. }
  cbn [r_vs r_vt r_src r_tgt r_toT r_toS r_count].
  repeat (split; [first [assumption | intros s t; rewrite ?Ma, ?Mb; tauto]|]). reflexivity.
Qed.
Print Assumptions C97_read.

(** A scanner for points of two digits, for the examples. *)
Definition digit (c : ascii) : nat := nat_of_ascii c - 48.
Definition scan2 (w : str) : option (nat * nat) :=
  match w with [a; _; b] => Some (digit a, digit b) | _ => None end.
Definition line (l : list string) : list str := map list_ascii_of_string l.
Example C97_read_case :
  match create false scan2 (fun _ => None) [] (line ["x"%string]) (line ["a"; "b"; "a"; "|||"; "x"; "y"; "|||"; "2-1"; "0-1"; "0-0"; "7-0"; "2-1"]%string) with
  | Some st => r_src st = [0; 1; 0] /\ r_tgt st = [0; 1] /\ r_toT st = [[0]; [0; 2]] /\ r_toS st = [[0; 1]; []; [1]]
               /\ r_count st = Some 1%Q /\ r_vs st = line ["a"; "b"]%string
  | None => False
  end.
Proof. vm_compute. repeat split. Qed.
(** A rule with a point between its words, the left-hand sides standing last. *)
Example C97_rule_case :
  match create true scan2 (fun _ => Some (3 # 2)%Q) [] [] (line ["a"; "[X]"; "|||"; "x"; "y"; "[X]"; "|||"; "0-1"; "|||"; "1.5"]%string) with
  | Some st => r_toT st = [[]; [0]] /\ r_toS st = [[1]] /\ r_count st = Some (3 # 2)%Q
  | None => False
  end.
Proof. vm_compute. repeat split. Qed.

(** Not true for rules: that every point within the phrases may be given (a point at the left-hand sides passes the test but
    is written beyond the end of the tables), and that an empty side is harmless (its table gets the size -1). *)
Theorem C97_rule_refuted :
  create true scan2 (fun _ => None) [] [] (line ["a"; "[X]"; "|||"; "x"; "[X]"; "|||"; "0-0"; "1-1"]%string) = None
  /\ create true scan2 (fun _ => None) [] [] (line ["a"; "[X]"; "|||"; "|||"]%string) = None
  /\ create false scan2 (fun _ => None) [] [] (line ["a"; "[X]"; "|||"; "x"; "[X]"; "|||"; "0-0"; "1-1"]%string) <> None
  /\ create false scan2 (fun _ => None) [] [] (line ["a"; "[X]"; "|||"; "|||"]%string) <> None.
Proof. vm_compute. repeat split; discriminate. Qed.
Print Assumptions C97_rule_refuted.

(* ------------------------------------------------------------------ *)
(** * The best alignment *)

Lemma qle_spec a b : Qle_bool a b = false -> (b < a)%Q.
Proof. intros E. apply Qnot_le_lt. intros L. apply Qle_bool_iff in L. congruence. Qed.
Lemma best_fold {A} (count : A -> Q) : forall (l : list A) o q,
  let r := fold_left (fun (acc : option A * Q) (a : A) => if Qle_bool (count a) (snd acc) then acc else (Some a, count a)) l (o, q) in
  (r = (o, q) /\ forall x, In x l -> (count x <= q)%Q)
  \/ exists before a after, l = before ++ a :: after /\ r = (Some a, count a) /\ (q < count a)%Q
       /\ (forall x, In x before -> (count x < count a)%Q) /\ (forall x, In x after -> (count x <= count a)%Q).
Proof.
  induction l as [|y l IH]; intros o q; cbn [fold_left].
  - left. split; [reflexivity|intros x []].
  - cbn [snd]. destruct (Qle_bool (count y) q) eqn:E.
    + apply Qle_bool_iff in E. destruct (IH o q) as [[R B]|(b & a & c & -> & R & H1 & H2 & H3)].
      * left. split; [exact R|]. intros x [<-|I]; [exact E|exact (B x I)].
      * right. exists (y :: b), a, c. split; [reflexivity|]. split; [exact R|]. split; [exact H1|]. split; [|exact H3].
        intros x [<-|I]; [lra|exact (H2 x I)].
    + apply qle_spec in E. destruct (IH (Some y) (count y)) as [[R B]|(b & a & c & -> & R & H1 & H2 & H3)].
      * right. exists [], y, l. split; [reflexivity|]. split; [exact R|]. split; [exact E|]. split; [intros x []|exact B].
      * right. exists (y :: b), a, c. split; [reflexivity|]. split; [exact R|]. split; [lra|]. split; [|exact H3].
        intros x [<-|I]; [exact H1|exact (H2 x I)].
Qed.

(** Of a group of phrase pairs with counts from 0 on, the best has the highest count: it is the first of those with this
    count, or, for the inverse table, the last. *)
Theorem C97_best : forall (A : Type) (count : A -> Q) inverse (l : list A), l <> [] -> (forall x, In x l -> (0 <= count x)%Q) ->
  exists before a after, l = before ++ a :: after /\ find_best count inverse l = Some a
    /\ (forall x, In x l -> (count x <= count a)%Q)
    /\ (forall x, In x (if inverse then after else before) -> (count x < count a)%Q).
Proof.
  intros A count inverse l Hn Hc. unfold find_best.
  destruct (best_fold count (if inverse then rev l else l) None (-1 # 1)%Q) as [[R B]|(b & a & c & E & R & H1 & H2 & H3)].
  - exfalso. destruct l as [|x l]; [congruence|]. assert (I : In x (if inverse then rev (x :: l) else x :: l)) by (destruct inverse; [rewrite <- in_rev|]; now left).
    specialize (B x I). specialize (Hc x (or_introl eq_refl)). lra.
  - cbv zeta in R. rewrite R. cbn [fst].
    assert (M : forall x, In x (if inverse then rev l else l) -> (count x <= count a)%Q).
    { rewrite E. intros x I. apply in_app_or in I as [I|[<-|I]]; [apply Qlt_le_weak, H2, I|apply Qle_refl|exact (H3 x I)]. }
    destruct inverse.
    + exists (rev c), a, (rev b). split.
      * rewrite <- (rev_involutive l), E, rev_app_distr. cbn [rev]. now rewrite <- app_assoc.
      * split; [reflexivity|]. split; [intros x I; apply M; now rewrite <- in_rev|]. intros x I. apply H2. now rewrite in_rev.
    + exists b, a, c. split; [exact E|]. split; [reflexivity|]. split; [exact M|exact H2].
Qed.
Print Assumptions C97_best.
Example C97_best_case : find_best snd false [(0, 1%Q); (1, 3%Q); (2, 3%Q); (3, 2%Q)] = Some (1, 3%Q)
  /\ find_best snd true [(0, 1%Q); (1, 3%Q); (2, 3%Q); (3, 2%Q)] = Some (2, 3%Q).
Proof. vm_compute. split; reflexivity. Qed.

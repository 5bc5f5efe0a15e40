(** Lemmas about extraction: alignments and pairs of spans. *)
From Coq Require Import List ZArith Bool PeanoNat Lia Sorted.
From Verif Require Import M_Extract S_Extract.
Import ListNotations.
Local Open Scope nat_scope.

Definition represents (P : list point) (nt ns : nat) (n : sentence) : Prop :=
  length (to_t n) = nt /\ length (count_s n) = ns
  /\ (forall t, nth t (to_t n) [] = map fst (filter (fun p => snd p =? t) P))
  /\ (forall s, nth s (count_s n) 0 = length (filter (fun p => fst p =? s) P))
  /\ (forall s t, In (s, t) P -> s < ns /\ t < nt).

Lemma upd_length {A} i (f : A -> A) l : length (upd i f l) = length l.
Proof. revert i. induction l as [|x l IH]; intros [|i]; cbn; auto. Qed.
Lemma upd_nth {A} i (f : A -> A) l j d : nth j (upd i f l) d = if (i =? j) && (i <? length l) then f (nth j l d) else nth j l d.
Proof.
  revert i j. induction l as [|x l IH]; intros i j.
  - destruct i; cbn [upd length]; destruct j; cbn [nth]; now rewrite andb_false_r.
  - destruct i as [|i], j as [|j]; cbn [upd nth length]; try reflexivity. rewrite IH. reflexivity.
Qed.

Lemma add_point_represents P nt ns n s t : represents P nt ns n -> s < ns -> t < nt -> represents (P ++ [(s, t)]) nt ns (add_point n (s, t)).
Proof.
  intros (A & B & C & D & E) Hs Ht. unfold add_point, represents. cbn [to_t count_s fst snd]. rewrite !upd_length. repeat split; auto.
  - intros t'. rewrite upd_nth, filter_app, map_app, A, C. cbn [filter snd]. rewrite (proj2 (Nat.ltb_lt t nt)), andb_true_r by lia.
    destruct (t =? t'); [easy|now rewrite app_nil_r].
  - intros s'. rewrite upd_nth, filter_app, app_length, B, D. cbn [filter fst]. rewrite (proj2 (Nat.ltb_lt s ns)), andb_true_r by lia.
    destruct (s =? s'); cbn [length]; lia.
  - apply in_app_iff in H as [H|[H|[]]]; [now apply (E s0 t0)|]. inversion H; subst. easy.
  - apply in_app_iff in H as [H|[H|[]]]; [now apply (E s0 t0)|]. inversion H; subst. easy.
Qed.
Lemma empty_represents nt ns : represents [] nt ns (Sentence (repeat [] nt) (repeat 0 ns)).
Proof.
  unfold represents. cbn [to_t count_s filter map length]. rewrite !repeat_length. repeat split; auto; try easy.
  - intros t. destruct (Nat.lt_ge_cases t nt); [now apply nth_repeat|]. apply nth_overflow. now rewrite repeat_length.
  - intros t. destruct (Nat.lt_ge_cases t ns); [now apply nth_repeat|]. apply nth_overflow. now rewrite repeat_length.
Qed.

Definition shift (b : bool) (p : point) : point := if b then (S (fst p), S (snd p)) else p.
Lemma fold_none (f : sentence -> point -> option sentence) l :
  fold_left (fun o p => match o with None => None | Some n => f n p end) l None = None.
Proof. induction l; easy. Qed.
Lemma fold_points b nt ns l : forall P n, represents P nt ns n ->
  match fold_left (fun o p => match o with
        | None => None
        | Some n =>
            let p := if b : bool then (S (fst p), S (snd p)) else p in
            if (nt <=? snd p) || (ns <=? fst p) then None else Some (add_point n p)
        end) l (Some n) with
  | Some n' => represents (P ++ map (shift b) l) nt ns n'
  | None => exists p, In p (map (shift b) l) /\ ~ (fst p < ns /\ snd p < nt)
  end.
Proof.
  induction l as [|p l IH]; intros P n R; cbn [fold_left map]; [now rewrite app_nil_r|].
  fold (shift b p). cbv zeta. destruct ((nt <=? snd (shift b p)) || (ns <=? fst (shift b p))) eqn:E.
  - rewrite (fold_none (fun n p => let p := if b then (S (fst p), S (snd p)) else p in
            if (nt <=? snd p) || (ns <=? fst p) then None else Some (add_point n p))).
    exists (shift b p). split; [now left|]. apply orb_true_iff in E. rewrite !Nat.leb_le in E. lia.
  - apply orb_false_iff in E as [E1 E2]. apply Nat.leb_gt in E1, E2.
    pose proof (add_point_represents P nt ns n (fst (shift b p)) (snd (shift b p)) R E2 E1) as R'. rewrite <- surjective_pairing in R'.
    specialize (IH _ _ R'). rewrite <- app_assoc in IH. cbn [app] in IH.
    destruct (fold_left _ l _) as [n'|]; [exact IH|]. destruct IH as (q & I & Q). exists q. split; [now right|easy].
Qed.
Lemma create_some b nt ns points n : create b nt ns points = Some n ->
  represents (all_points b nt ns points) (words b nt) (words b ns) n.
Proof.
  unfold create. fold (words b nt). fold (words b ns). destruct ((words b nt =? 0) || (words b ns =? 0)) eqn:Z; [easy|].
  pose proof (fold_points b (words b nt) (words b ns) points [] _ (empty_represents _ _)) as F.
  destruct (fold_left _ points _) as [n'|]; [|easy]. intros E. inversion E; subst. unfold all_points. cbn [app] in F.
  destruct b; cbn [words] in *.
  - apply (add_point_represents _ _ _ _ 0 0) in F; [|lia|lia].
    apply (add_point_represents _ _ _ _ (ns + 2 - 1) (nt + 2 - 1)) in F; [|lia|lia].
    rewrite <- app_assoc in F. cbn [app] in F. replace (S ns) with (ns + 2 - 1) by lia. replace (S nt) with (nt + 2 - 1) by lia. exact F.
  - unfold shift in F. now rewrite map_id in F.
Qed.
Lemma create_iff b nt ns points : (exists n, create b nt ns points = Some n) <->
  words b nt <> 0 /\ words b ns <> 0 /\ forall p, In p (map (shift b) points) -> fst p < words b ns /\ snd p < words b nt.
Proof.
  unfold create. fold (words b nt). fold (words b ns).
  destruct (Nat.eqb_spec (words b nt) 0) as [Z1|Z1]; cbn [orb]; [split; [now intros (n & E)|easy]|].
  destruct (Nat.eqb_spec (words b ns) 0) as [Z2|Z2]; [split; [now intros (n & E)|easy]|].
  pose proof (fold_points b (words b nt) (words b ns) points [] _ (empty_represents _ _)) as F.
  destruct (fold_left _ points _) as [n'|].
  - split; [|intros _; eauto]. intros _. split; [easy|]. split; [easy|]. destruct F as (_ & _ & _ & _ & F). intros [s t] I. now apply F.
  - split; [now intros (n & E)|]. intros (_ & _ & H). destruct F as (p & I & N). exfalso. now apply N, H.
Qed.

(** Counting. *)
Lemma filter_length_sub {A} (f g : A -> bool) l :
  length (filter f l) <= length (filter (fun x => f x && g x) l) <-> forall x, In x l -> f x = true -> g x = true.
Proof.
  assert (L : forall m : list A, length (filter (fun x => f x && g x) m) <= length (filter f m)).
  { induction m as [|x m IH]; cbn; [lia|]. destruct (f x), (g x); cbn; lia. }
  induction l as [|x l IH]; cbn [filter]; [cbn; split; [easy|lia]|]. specialize (L l).
  destruct (f x) eqn:F, (g x) eqn:G; cbn [andb length].
  - split.
    + intros H y [<-|I]; [easy|]. apply IH; [lia|easy].
    + intros H. enough (length (filter f l) <= length (filter (fun x => f x && g x) l)) by lia. apply IH. intros y I. apply H. now right.
  - split; [lia|]. intros H. specialize (H x (or_introl eq_refl) F). congruence.
  - split.
    + intros H y [<-|I]; [congruence|]. now apply IH.
    + intros H. apply IH. intros y I. apply H. now right.
  - split.
    + intros H y [<-|I]; [congruence|]. now apply IH.
    + intros H. apply IH. intros y I. apply H. now right.
Qed.
Lemma filter_split {A} (f g h : A -> bool) l : (forall x, h x = f x || g x) -> (forall x, f x = true -> g x = true -> False) ->
  length (filter h l) = length (filter f l) + length (filter g l).
Proof.
  intros H D. induction l as [|x l IH]; cbn; [easy|]. rewrite H. pose proof (D x). destruct (f x), (g x); cbn; try lia; exfalso; auto.
Qed.

Section Pairs.
Context (big : nat) (node_t node_s : nat -> nat -> bool) (o : options) (n : sentence).
Context (P : list point) (nt ns : nat) (R : represents P nt ns n).

Lemma touched_in st et s : In s (touched n st et) <-> exists t, In (s, t) P /\ st <= t <= et.
Proof.
  destruct R as (A & B & C & D & E). unfold touched. rewrite in_flat_map. split.
  - intros (t & I & J). apply in_seq in I. rewrite C in J. apply in_map_iff in J as ([s' t'] & Es & J). apply filter_In in J as [J K].
    apply Nat.eqb_eq in K. cbn [fst snd] in *. subst. exists t. split; [easy|lia].
  - intros (t & I & L). exists t. split; [apply in_seq; lia|]. rewrite C. apply in_map_iff. exists (s, t). split; [easy|]. apply filter_In.
    split; [easy|]. apply Nat.eqb_refl.
Qed.
Lemma touched_count st k s : count_occ Nat.eq_dec (flat_map (fun ti => nth ti (to_t n) []) (seq st k)) s
  = length (filter (fun p => (fst p =? s) && ((st <=? snd p) && (snd p <? st + k))) P).
Proof.
  destruct R as (A & B & C & D & E). revert st. induction k as [|k IH]; intros st; cbn [seq flat_map].
  - cbn [count_occ]. symmetry. apply length_zero_iff_nil. clear. induction P as [|p P' IHP]; [easy|]. cbn [filter].
    destruct (Nat.leb_spec st (snd p)), (Nat.ltb_spec (snd p) (st + 0)); try (exfalso; lia); cbn [andb]; rewrite andb_false_r; exact IHP.
  - rewrite count_occ_app, IH, C.
    assert (K : count_occ Nat.eq_dec (map fst (filter (fun p : point => snd p =? st) P)) s = length (filter (fun p => (fst p =? s) && (snd p =? st)) P)).
    { clear. induction P as [|[a b] P' IHP]; [easy|]. cbn [filter fst snd]. destruct (b =? st).
      - rewrite andb_true_r. cbn [map count_occ fst]. destruct (Nat.eq_dec a s) as [->|N].
        + rewrite Nat.eqb_refl. cbn [length]. now rewrite IHP.
        + rewrite (proj2 (Nat.eqb_neq _ _) N). exact IHP.
      - rewrite andb_false_r. exact IHP. }
    rewrite K. symmetry. apply filter_split.
    + intros p. destruct (fst p =? s); [|easy]. cbn [andb].
      destruct (Nat.eqb_spec (snd p) st), (Nat.leb_spec st (snd p)), (Nat.ltb_spec (snd p) (st + S k)), (Nat.leb_spec (S st) (snd p)), (Nat.ltb_spec (snd p) (S st + k)); try reflexivity; exfalso; lia.
    + intros p F G. apply andb_true_iff in F as [_ F], G as [_ G]. apply andb_true_iff in G as [G _]. apply Nat.eqb_eq in F. apply Nat.leb_le in G. lia.
Qed.
Lemma used_nth l s : (forall x, In x l -> x < length (count_s n)) -> nth s (used n l) 0 = nth s (count_s n) 0 - count_occ Nat.eq_dec l s.
Proof.
  unfold used. generalize (count_s n) as u. induction l as [|x l IH]; intros u H; cbn [fold_left count_occ]; [lia|].
  rewrite IH, upd_nth. 2:{ intros y I. rewrite upd_length. apply H. now right. }
  rewrite (proj2 (Nat.ltb_lt x (length u))), andb_true_r by (apply H; now left).
  destruct (Nat.eq_dec x s) as [->|N]; [rewrite Nat.eqb_refl; lia|]. rewrite (proj2 (Nat.eqb_neq _ _) N). lia.
Qed.
Lemma bounds_spec st et mn mx : st <= et ->
  out_of_bounds (used n (touched n st et)) mn mx = false <-> forall s t, In (s, t) P -> mn <= s <= mx -> st <= t <= et.
Proof.
  intros L. assert (Q : forall x, In x (touched n st et) -> x < length (count_s n)).
  { intros x I. apply touched_in in I as (t & I & _). destruct R as (_ & -> & _ & _ & E). now apply (E x t). }
  unfold out_of_bounds. rewrite <- not_true_iff_false, existsb_exists.
  assert (K : forall s, (0 <? nth s (used n (touched n st et)) 0) = true <-> ~ forall t, In (s, t) P -> st <= t <= et).
  { intros s. rewrite Nat.ltb_lt, used_nth by easy. unfold touched. rewrite touched_count. replace (nth s (count_s n) 0) with (length (filter (fun p => fst p =? s) P)) by (symmetry; apply R).
    pose proof (filter_length_sub (fun p : point => fst p =? s) (fun p => (st <=? snd p) && (snd p <? st + (S et - st))) P) as F.
    split.
    - intros H1 H2. enough (length (filter (fun p => fst p =? s) P) <= length (filter (fun p => (fst p =? s) && ((st <=? snd p) && (snd p <? st + (S et - st)))) P)) by lia.
      apply F. intros [s' t'] I E. apply Nat.eqb_eq in E. cbn [fst snd] in *. subst. specialize (H2 t' I). apply andb_true_iff. split; [apply Nat.leb_le|apply Nat.ltb_lt]; lia.
    - intros H. destruct (Nat.lt_ge_cases (length (filter (fun p => (fst p =? s) && ((st <=? snd p) && (snd p <? st + (S et - st)))) P)) (length (filter (fun p => fst p =? s) P))) as [G|G]; [lia|].
      exfalso. apply H. intros t I. pose proof (proj1 F G (s, t) I (Nat.eqb_refl s)) as Y. cbn [snd] in Y. apply andb_true_iff in Y as [Y1 Y2]. apply Nat.leb_le in Y1. apply Nat.ltb_lt in Y2. lia. }
  split.
  - intros H s t I Ls. destruct (Nat.le_gt_cases st t) as [A|A], (Nat.le_gt_cases t et) as [B|B]; try lia; exfalso; apply H;
      exists s; (split; [apply in_seq; lia|]); apply K; intros G; specialize (G t I); lia.
  - intros H (s & I & U). apply K in U. apply U. intros t J. apply (H s t J). apply in_seq in I. lia.
Qed.

Lemma max_s_fold l : forall m, match fold_left (fun m si => match m with None => Some si | Some k => if k <? si then Some si else Some k end) l m with
  | None => m = None /\ l = []
  | Some x => (In x l \/ m = Some x) /\ (forall y, In y l -> y <= x) /\ (forall y, m = Some y -> y <= x)
  end.
Proof.
  induction l as [|a l IH]; intros m; cbn [fold_left].
  - destruct m as [x|]; [|easy]. split; [now right|]. split; [easy|]. intros y E. inversion E. lia.
  - destruct m as [k|].
    + destruct (Nat.ltb_spec k a) as [L|L].
      * specialize (IH (Some a)). destruct (fold_left _ l (Some a)) as [x|]; [|easy]. destruct IH as (H1 & H2 & H3). specialize (H3 a eq_refl).
        split; [left; destruct H1 as [H1|H1]; [now right|inversion H1; now left]|]. split; [intros y [<-|I]; auto|]. intros y E. inversion E. lia.
      * specialize (IH (Some k)). destruct (fold_left _ l (Some k)) as [x|]; [|easy]. destruct IH as (H1 & H2 & H3). specialize (H3 k eq_refl).
        split; [destruct H1 as [H1|H1]; [left; now right|now right]|]. split; [intros y [<-|I]; [lia|auto]|]. intros y E. inversion E. lia.
    + specialize (IH (Some a)). destruct (fold_left _ l (Some a)) as [x|]; [|easy]. destruct IH as (H1 & H2 & H3). specialize (H3 a eq_refl).
      split; [left; destruct H1 as [H1|H1]; [now right|inversion H1; now left]|]. split; [intros y [<-|I]; auto|]. easy.
Qed.
Lemma max_s_spec l : match max_s l with None => l = [] | Some x => In x l /\ forall y, In y l -> y <= x end.
Proof.
  unfold max_s. pose proof (max_s_fold l None) as H. destruct (fold_left _ l None) as [x|]; [|easy]. destruct H as ([H|H] & K & _); easy.
Qed.
Lemma min_s_fold l : forall m, (fold_left (fun m si => if si <? m then si else m) l m = m \/ In (fold_left (fun m si => if si <? m then si else m) l m) l)
  /\ fold_left (fun m si => if si <? m then si else m) l m <= m
  /\ forall y, In y l -> fold_left (fun m si => if si <? m then si else m) l m <= y.
Proof.
  induction l as [|a l IH]; intros m; cbn [fold_left]; [split; [now left|]; split; [lia|easy]|].
  destruct (Nat.ltb_spec a m) as [L|L].
  - destruct (IH a) as (H1 & H2 & H3). split; [right; destruct H1 as [->|H1]; [now left|now right]|]. split; [lia|]. intros y [<-|I]; [easy|auto].
  - destruct (IH m) as (H1 & H2 & H3). split; [destruct H1 as [->|H1]; [now left|right; now right]|]. split; [lia|]. intros y [<-|I]; [lia|auto].
Qed.
Lemma min_s_spec l : l <> [] -> (forall y, In y l -> y <= big) -> In (min_s big l) l /\ forall y, In y l -> min_s big l <= y.
Proof.
  intros N B. unfold min_s. destruct (min_s_fold l big) as (H1 & H2 & H3). split; [|easy]. destruct H1 as [E|H1]; [|easy].
  rewrite E in *. destruct l as [|y l]; [easy|]. specialize (H3 y (or_introl eq_refl)). specialize (B y (or_introl eq_refl)). left. lia.
Qed.

Lemma retreat_in mn mx s0 s : s0 <= mn ->
  In s (retreat o n mn mx s0) <-> s <= s0 /\ mx < s + max_span o /\ (forall i, s <= i <= s0 -> i = mn \/ nth i (count_s n) 0 = 0).
Proof.
  intros L. induction s0 as [|s0 IH]; cbn [retreat].
  - destruct (Nat.ltb_spec mx (0 + max_span o)) as [A|A]; cbn [andb].
    + destruct ((0 =? mn) || (nth 0 (count_s n) 0 =? 0)) eqn:E.
      * apply orb_true_iff in E. rewrite !Nat.eqb_eq in E. split; [intros [<-|[]]|].
        -- split; [lia|]. split; [lia|]. intros i Hi. replace i with 0 by lia. destruct E; auto.
        -- intros (H1 & _). left. lia.
      * apply orb_false_iff in E as [E1 E2]. apply Nat.eqb_neq in E1, E2. split; [easy|]. intros (H1 & _ & H). destruct (H 0 ltac:(lia)); lia.
    + split; [easy|]. intros (H1 & H2 & _). lia.
  - destruct (Nat.ltb_spec mx (S s0 + max_span o)) as [A|A]; cbn [andb].
    + destruct ((S s0 =? mn) || (nth (S s0) (count_s n) 0 =? 0)) eqn:E.
      * apply orb_true_iff in E. rewrite !Nat.eqb_eq in E. cbn [In]. rewrite (IH ltac:(lia)). split.
        -- intros [<-|(H1 & H2 & H3)].
           ++ split; [lia|]. split; [lia|]. intros i Hi. replace i with (S s0) by lia. destruct E; auto.
           ++ split; [lia|]. split; [lia|]. intros i Hi. destruct (Nat.eq_dec i (S s0)) as [->|N]; [destruct E; auto|]. apply H3. lia.
        -- intros (H1 & H2 & H3). destruct (Nat.eq_dec s (S s0)) as [->|N]; [now left|right]. split; [lia|]. split; [lia|]. intros i Hi. apply H3. lia.
      * apply orb_false_iff in E as [E1 E2]. apply Nat.eqb_neq in E1, E2. split; [easy|]. intros (H1 & _ & H). destruct (H (S s0) ltac:(lia)); lia.
    + split; [easy|]. intros (H1 & H2 & _). lia.
Qed.
Lemma advance_in mx ss e fuel : forall e0, mx <= e0 ->
  In e (advance o n mx ss fuel e0) <-> e0 <= e < e0 + fuel /\ e < ss + max_span o /\ (forall i, e0 <= i <= e -> i = mx \/ nth i (count_s n) 0 = 0).
Proof.
  induction fuel as [|f IH]; intros e0 L; cbn [advance]; [cbn; lia|].
  destruct (Nat.ltb_spec e0 (ss + max_span o)) as [A|A]; cbn [andb].
  - destruct ((e0 =? mx) || (nth e0 (count_s n) 0 =? 0)) eqn:E.
    + apply orb_true_iff in E. rewrite !Nat.eqb_eq in E. cbn [In]. rewrite (IH (S e0) ltac:(lia)). split.
      * intros [<-|(H1 & H2 & H3)].
        -- split; [lia|]. split; [lia|]. intros i Hi. replace i with e0 by lia. destruct E; auto.
        -- split; [lia|]. split; [lia|]. intros i Hi. destruct (Nat.eq_dec i e0) as [->|N]; [destruct E; auto|]. apply H3. lia.
      * intros (H1 & H2 & H3). destruct (Nat.eq_dec e e0) as [->|N]; [now left|right]. split; [lia|]. split; [lia|]. intros i Hi. apply H3. lia.
    + apply orb_false_iff in E as [E1 E2]. apply Nat.eqb_neq in E1, E2. split; [easy|]. intros (H1 & _ & H). destruct (H e0 ltac:(lia)); lia.
  - split; [easy|]. intros (H1 & H2 & _). lia.
Qed.
Lemma count_zero s : nth s (count_s n) 0 = 0 <-> forall t, ~ In (s, t) P.
Proof.
  replace (nth s (count_s n) 0) with (length (filter (fun p => fst p =? s) P)) by (symmetry; apply R). rewrite length_zero_iff_nil. split.
  - intros E t I. assert (J : In (s, t) (filter (fun p => fst p =? s) P)) by (apply filter_In; split; [easy|apply Nat.eqb_refl]). now rewrite E in J.
  - intros H. destruct (filter _ P) as [|[s' t'] l] eqn:E; [easy|]. assert (J : In (s', t') (filter (fun p => fst p =? s) P)) by (rewrite E; now left).
    apply filter_In in J as [J K]. apply Nat.eqb_eq in K. cbn in K. subst. now apply H in J.
Qed.

Lemma source_spans_in st et ss es : ns <= S big -> st <= et < nt ->
  In (ss, es) (source_spans big node_t node_s o n st et) <->
  node_t st et = true /\ node_s ss es = true /\ ss <= es < ns /\ es < ss + max_span o /\ consistent P (Span st et ss es).
Proof.
  intros Hb Lt. unfold source_spans. destruct (node_t st et) eqn:Nt; cbn [negb]; [|split; [easy|intros (? & _); congruence]].
  assert (Bd : forall s t, In (s, t) P -> s < ns /\ t < nt) by apply R.
  pose proof (max_s_spec (touched n st et)) as M. destruct (max_s (touched n st et)) as [mx|] eqn:Em.
  2:{ split; [easy|]. intros (_ & _ & _ & _ & (s & t & I & _ & J) & _). exfalso.
      assert (K : In s (touched n st et)) by (apply touched_in; exists t; split; [easy|apply J]). now rewrite M in K. }
  destruct M as [M1 M2].
  destruct (min_s_spec (touched n st et)) as [N1 N2].
  { intros E. now rewrite E in M1. }
  { intros y I. apply touched_in in I as (t & I & _). apply Bd in I. lia. }
  set (mn := min_s big (touched n st et)) in *. clearbody mn. clear Em.
  assert (Lmn : mn <= mx) by now apply N2.
  apply touched_in in M1 as (tx & Ix & Lx). apply touched_in in N1 as (tn & In' & Ln).
  assert (M2' : forall s t, In (s, t) P -> st <= t <= et -> mn <= s <= mx).
  { intros s t I J. split; [apply N2|apply M2]; apply touched_in; now exists t. }
  assert (Fwd : consistent P (Span st et ss es) -> ss <= mn /\ mx <= es).
  { intros [_ H]. pose proof (proj2 (H _ _ Ix) Lx) as A. pose proof (proj2 (H _ _ In') Ln) as B. unfold in_s in A, B. cbn in A, B. lia. }
  destruct (Nat.leb_spec (max_span o) (mx - mn)) as [Ls|Ls].
  { split; [easy|]. intros (_ & _ & L1 & L2 & C). apply Fwd in C. lia. }
  destruct (out_of_bounds (used n (touched n st et)) mn mx) eqn:Ob.
  { split; [easy|]. intros (_ & _ & L1 & L2 & C). exfalso. pose proof (Fwd C) as [F1 F2].
    assert (K : out_of_bounds (used n (touched n st et)) mn mx = false); [|congruence].
    apply bounds_spec; [lia|]. intros s t I J. apply C in I. cbn in I. apply I. unfold in_s. cbn. lia. }
  rewrite bounds_spec in Ob by lia.
  rewrite in_flat_map. split.
  - intros (s' & I1 & I2). apply in_flat_map in I2 as (e' & I2 & I3). destruct (node_s s' e') eqn:Ns; [|easy].
    destruct I3 as [E|[]]. inversion E; subst s' e'. apply retreat_in in I1 as (A1 & A2 & A3); [|lia]. apply advance_in in I2 as (B1 & B2 & B3); [|lia].
    assert (Ens : length (count_s n) = ns) by apply R. assert (mx < ns) by (now apply (Bd mx tx)).
    split; [easy|]. split; [easy|]. split; [lia|]. split; [easy|]. split.
    + exists mx, tx. unfold in_s, in_t. cbn. repeat split; auto; lia.
    + intros s t I. unfold in_s, in_t. cbn. split.
      * intros J. destruct (Nat.lt_ge_cases s mn) as [L|L].
        -- destruct (A3 s ltac:(lia)) as [->|Z]; [lia|]. exfalso. exact (proj1 (count_zero s) Z t I).
        -- destruct (Nat.lt_ge_cases mx s) as [L'|L'].
           ++ destruct (B3 s ltac:(lia)) as [->|Z]; [lia|]. exfalso. exact (proj1 (count_zero s) Z t I).
           ++ now apply (Ob s t).
      * intros J. specialize (M2' s t I J). lia.
  - intros (_ & Ns & L1 & L2 & C). pose proof (Fwd C) as [F1 F2].
    assert (Un : forall i, ss <= i <= es -> ~ (mn <= i <= mx) -> nth i (count_s n) 0 = 0).
    { intros i Li Ni. apply count_zero. intros t I. apply Ni, (M2' i t I). destruct C as [_ C]. apply (C i t I). exact Li. }
    exists ss. split.
    + apply retreat_in; [lia|]. split; [lia|]. split; [lia|]. intros i Li. destruct (Nat.eq_dec i mn); [now left|right]. apply Un; lia.
    + apply in_flat_map. exists es. split; [|rewrite Ns; now left]. apply advance_in; [lia|]. assert (Ens : length (count_s n) = ns) by apply R.
      split; [lia|]. split; [lia|]. intros i Li. destruct (Nat.eq_dec i mx); [now left|right]. apply Un; lia.
Qed.

Theorem spans_in h : ns <= S big -> In h (spans big node_t node_s o n) <-> pair_ok P nt ns (max_span o) node_t node_s h.
Proof.
  intros Hb. assert (Ent : length (to_t n) = nt) by apply R. unfold spans, pair_ok. rewrite Ent, in_flat_map. split.
  - intros (len & I1 & I2). apply in_seq in I1. apply in_flat_map in I2 as (st & I2 & I3). apply in_seq in I2.
    apply in_map_iff in I3 as ([ss es] & <- & I3). cbn [fst snd sT eT sS eS]. apply source_spans_in in I3 as (A & B & C & D & E); [|easy|lia].
    split; [easy|]. repeat split; auto; lia.
  - destruct h as [st et ss es]. cbn [sT eT sS eS]. intros (C & L1 & L2 & L3 & L4 & A & B).
    exists (S et - st). split; [apply in_seq; lia|]. apply in_flat_map. exists st. split; [apply in_seq; lia|].
    apply in_map_iff. exists (ss, es). replace (st + (S et - st) - 1) with et by lia. split; [easy|]. apply source_spans_in; [easy|lia|].
    split; [easy|]. split; [easy|]. split; [lia|]. split; [lia|exact C].
Qed.
End Pairs.

(** C65: the index of rules that minfsa, sort and binfsa make finds the rules that are in it, numbers them in order and gives
    them back by their numbers. *)
From Coq Require Import List ZArith Bool Sorted Permutation Lia PeanoNat.
From Verif Require Import M_OrdSet L_OrdSet M_Fsa L_Fsa M_BinFsa L_BinFsa L_Daciuk M_HashFsa L_HashFsa M_Minfsa L_Minfsa P_Minfsa M_Dag L_Dag L_DagSort L_DagFind.
Import ListNotations.
Local Open Scope nat_scope.

(** ** What is meant *)
(** The order of lines after sort -k1,1n -k3,3n: by state, then by symbol; a line without a symbol comes first. *)
Definition source (l : line) : nat := match l with End p => p | Arc p _ _ => p end.
Definition line_le (x y : line) : Prop :=
  source x < source y \/
  (source x = source y /\ match x, y with End _, _ => True | Arc _ _ a, Arc _ _ b => (a <= b)%Z | Arc _ _ _, End _ => False end).
(** The words that are provided for. *)
Definition fit (ws : list (list Z)) : Prop :=
  Sorted precedes ws /\ ~ In [] ws /\ ws <> [] /\ (Z.of_nat (length (concat ws)) < 2 ^ 31)%Z /\
  forall w a, In w ws -> In a w -> (0 <= a < 2 ^ 31)%Z.
Definition list_sort (sort : list (nat * Z) -> list (nat * Z)) : Prop := forall l, merged l (sort l).
Definition indexed (sort : list (nat * Z) -> list (nat * Z)) (ws : list (list Z)) (g : dag) : Prop :=
  exists out ls, minfsa ws = Some out /\ Permutation out ls /\ Sorted line_le ls /\ compile sort ls = Some g.
Definition ints (w : list Z) : Prop := forall a, In a w -> (- 2 ^ 31 <= a < 2 ^ 31)%Z.

(** ** Lines in order *)
Lemma line_le_trans x y z : line_le x y -> line_le y z -> line_le x z.
Proof.
  unfold line_le. intros [H1|[H1 K1]] [H2|[H2 K2]]; [left; lia|left; lia|left; lia|right]. split; [lia|].
  destruct x as [? ? a|?], y as [? ? b|?], z as [? ? c|?]; try tauto. exact (Z.le_trans _ _ _ K1 K2).
Qed.
Lemma sorted_same {X} (le : X -> X -> Prop) l : forall k, StronglySorted le l -> StronglySorted le k -> Permutation l k ->
  (forall x y, In x l -> In y l -> le x y -> le y x -> x = y) -> l = k.
Proof.
  induction l as [|x l IH]; intros [|y k] Sl Sk P An; [reflexivity|apply Permutation_nil in P; discriminate|apply Permutation_sym, Permutation_nil in P; discriminate|].
  inversion Sl as [|? ? Sl' Hx]; inversion Sk as [|? ? Sk' Hy]; subst. rewrite Forall_forall in Hx, Hy.
  assert (E : x = y).
  { assert (I1 : In y (x :: l)) by (apply (Permutation_in _ (Permutation_sym P)); now left). assert (I2 : In x (y :: k)) by (apply (Permutation_in _ P); now left).
    destruct I1 as [->|I1]; [reflexivity|]. destruct I2 as [->|I2]; [reflexivity|]. apply An; [now left|now right|now apply Hx|now apply Hy]. }
  subst y. f_equal. apply IH; [assumption..|now apply Permutation_cons_inv in P|]. intros u v Hu Hv. apply An; now right.
Qed.
Lemma tidy_perm A l : Permutation (tidy_lines A l) (flat_map (lines_of A) l).
Proof. induction l as [|p l IH]; cbn; [constructor|]. unfold lines_of at 1. now rewrite IH, (Permutation_app_comm (end_out A p)). Qed.
Lemma sorted_join {X} (le : X -> X -> Prop) l k : StronglySorted le l -> StronglySorted le k -> (forall x y, In x l -> In y k -> le x y) -> StronglySorted le (l ++ k).
Proof.
  induction 1 as [|x l Hl IH Hx]; intros Sk H; cbn [app]; [assumption|]. constructor; [apply IH; [assumption|]; intros u v Hu; apply H; now right|].
  apply Forall_app. split; [assumption|]. apply Forall_forall. intros y Hy. apply H; [now left|assumption].
Qed.
Lemma tidy_source A p x : In x (end_out A p ++ arcs_out A p) -> source x = p.
Proof.
  rewrite in_app_iff. unfold end_out, arcs_out, arc_lines. intros [H|H].
  - destruct (a_end A p); [destruct H as [<-|[]]; reflexivity|destruct H].
  - apply in_map_iff in H as (y & <- & _). reflexivity.
Qed.
Lemma tidy_sorted A : (forall p, inc (a_arcs A p)) -> forall n s, StronglySorted line_le (tidy_lines A (seq s n)).
Proof.
  intros I. induction n as [|n IH]; intros s; cbn [seq tidy_lines flat_map]; [constructor|]. apply sorted_join; [|apply IH|].
  - apply sorted_join.
    + unfold end_out. destruct (a_end A s); repeat constructor.
    + unfold arcs_out, arc_lines. cbn [fst snd]. pose proof (I s) as Is. unfold inc in Is. induction Is as [|x l Hl IHl Hx]; cbn; constructor; [assumption|].
      apply Forall_forall. intros y Hy. apply in_map_iff in Hy as (z & <- & Hz). rewrite Forall_forall in Hx. specialize (Hx z Hz). right. cbn. split; [reflexivity|]. now apply Z.lt_le_incl.
    + intros x y Hx Hy. right. split; [rewrite (tidy_source A s x), (tidy_source A s y); [reflexivity|..]; apply in_app_iff; tauto|].
      unfold end_out in Hx. destruct (a_end A s); [destruct Hx as [<-|[]]; exact Logic.I|destruct Hx].
  - intros x y Hx Hy. left. rewrite (tidy_source A s x Hx). apply in_flat_map in Hy as (q & Hq & Hy). rewrite (tidy_source A q y Hy). apply in_seq in Hq. lia.
Qed.
Lemma lines_tidy A ls : (forall p, inc (a_arcs A p)) -> Permutation ls (flat_map (lines_of A) (seq 0 (length A))) -> Sorted line_le ls ->
  ls = tidy_lines A (seq 0 (length A)).
Proof.
  intros I P S. pose proof (Permutation_trans P (Permutation_sym (tidy_perm A (seq 0 (length A))))) as P'.
  apply (sorted_same line_le); [apply Sorted_StronglySorted; [exact line_le_trans|assumption]|now apply tidy_sorted|assumption|].
  intros x y Hx Hy L1 L2. destruct (in_lines A ls P) as [Ha He].
  destruct L1 as [L1|[E1 L1]], L2 as [L2|[E2 L2]]; try lia. destruct x as [p q a|p], y as [p' q' b|p']; try tauto; cbn in E1; subst p'; [|reflexivity].
  assert (a = b) by (apply Z.le_antisymm; assumption). subst b. apply Ha in Hx, Hy. f_equal. exact (inc_fun _ _ _ _ (I p) Hx Hy).
Qed.

(** ** The automaton *)
Lemma increasing_words ws : Sorted precedes ws -> increasing str_ltb ws.
Proof.
  intros S. assert (B : forall x y, precedes x y -> str_ltb x y = true).
  { intros x y H. destruct str_ltb_strict as [Ir Tr To]. destruct (str_ltb x y) eqn:E; [reflexivity|]. apply precedes_before in H as [H1 H2]. exfalso. apply H2. now apply To. }
  apply Sorted_StronglySorted.
  - intros x y z. apply (st_trans _ str_ltb_strict).
  - induction S as [|x l Hl IH Hx]; constructor; [assumption|]. destruct Hx; constructor. now apply B.
Qed.
Lemma words_count (ws : list (list Z)) : ~ In [] ws -> length ws <= length (concat ws).
Proof.
  induction ws as [|w ws IH]; intros H; cbn; [lia|]. rewrite app_length. assert (w <> []) by (intros ->; apply H; now left).
  destruct w; [congruence|]. cbn. specialize (IH (fun K => H (or_intror K))). lia.
Qed.
Record index_facts (ws : list (list Z)) (A : auto) : Prop := {
  x_sorted : sorted_view (aview A);
  x_closed : closed_view (aview A);
  x_acyclic : acyclic (aview A);
  x_some : 0 < length A;
  x_reach : forall p, p < length A -> reach (aview A) 0 p;
  x_live : forall p, p < length A -> 0 < cnt (aview A) p;
  x_small : small (length (all_arcs A));
  x_rows : forall x, In x A -> fst x <> [] \/ snd x = true;
  x_words : words_of (aview A) 0 = ws;
  x_acc : forall v, acc A 0 v = true <-> In v ws;
  x_symbols : forall p x, In x (a_arcs A p) -> (0 <= fst x < 2 ^ 31)%Z;
  x_count : small31 (cnt (aview A) 0)
}.
Lemma minfsa_facts ws : fit ws -> exists A out, minfsa ws = Some out /\ index_facts ws A /\
  Permutation out (flat_map (lines_of A) (seq 0 (length A))) /\ forall p, inc (a_arcs A p).
Proof.
  intros (Hs & Hn & He & Sm & Sy). destruct (minfsa_spec ws (sorted_climbing ws Hs Hn) He Sm) as (A & R & out & F & V & C & P & L).
  pose proof (v_inc _ _ _ _ V) as I. exists A, out. split; [exact F|]. split; [|now split].
  assert (HI : sorted_view (aview A)) by exact I.
  assert (D : forall p x, In x (a_arcs A p) -> snd x < length A) by (intros p x; apply (dests _ _ _ _ V)).
  assert (HC : closed_view (aview A)) by (intros p x _; apply D).
  assert (H0 : 0 < length A) by (apply (in_states _ _ _ _ _ V); right; now left).
  assert (Lr : forall p x, In x (a_arcs A p) -> p < length A).
  { intros p x H. destruct (Nat.lt_ge_cases p (length A)); [assumption|]. unfold a_arcs in H. rewrite nth_overflow in H by assumption. destruct H. }
  assert (Nr : forall p x, In x (a_arcs A p) -> In (snd x) R).
  { intros p x Hx. pose proof (Lr p x Hx) as Lp. apply (in_states _ _ _ _ _ V) in Lp as [Lp|[<-|[]]]; [now apply (v_reg _ _ _ _ V p Lp)|now apply (v_last _ _ _ _ V)]. }
  assert (N0 : ~ In 0 R) by (intros K; apply (disjoint _ _ _ _ 0 V K); now left).
  assert (Up : forall p w q, spelt (aview A) p w q -> In p R -> In q R /\ (w <> [] -> rank R q < rank R p)).
  { induction 1 as [p|p a d w r Hx H IH]; intros Hp; [now split|]. destruct (v_reg _ _ _ _ V p Hp (a, d) Hx) as [K1 K2]. cbn [snd] in *.
    destruct (IH K1) as [K3 K4]. split; [assumption|]. intros _. destruct w as [|b w]; [inversion H; subst; assumption|]. specialize (K4 ltac:(discriminate)). lia. }
  assert (HA : acyclic (aview A)).
  { intros p w Nw H. destruct w as [|a w]; [congruence|]. inversion H as [|? ? d ? ? Hx H']; subst. pose proof (Nr p (a, d) Hx) as Hd. cbn in Hd.
    destruct (Up _ _ _ H' Hd) as [Hp _]. destruct (Up _ _ _ H Hp) as [_ K]. specialize (K ltac:(discriminate)). lia. }
  assert (Wl : forall x, x < length A -> (exists u, walk A 0 u = Some x) /\ exists v, acc A x v = true).
  { intros x Lx. apply (in_states _ _ _ _ _ V) in Lx as [Lx|[<-|[]]].
    - split; [now apply (v_reach _ _ _ _ V)|now apply (v_live _ _ _ _ V)].
    - split; [now exists []|]. destruct ws as [|w ws]; [congruence|]. exists w. apply C. now left. }
  assert (Lg : forall p w, p < length A -> (in_lang (aview A) p w <-> acc A p w = true)).
  { intros p w Hp. unfold in_lang, acc. split.
    - intros (q & H1 & H2). apply (spelt_walk A HI) in H1. now rewrite H1.
    - destruct (walk A p w) as [q|] eqn:E; [|discriminate]. intros H. exists q. split; [now apply (spelt_walk A HI)|assumption]. }
  assert (Ew : words_of (aview A) 0 = ws).
  { apply (increasing_unique str_ltb str_ltb_strict); [now apply words_sorted|now apply increasing_words|]. intros w. rewrite (in_words _ HC HA 0 H0), (Lg 0 w H0). apply C. }
  constructor; try assumption.
  - intros p Hp. destruct (Wl p Hp) as ((u & Hu) & _). exists u. now apply (spelt_walk A HI).
  - intros p Hp. destruct (Wl p Hp) as (_ & v & Hv). apply (Lg p v Hp), (in_words _ HC HA p Hp) in Hv. unfold cnt. destruct (words_of (aview A) p); [destruct Hv|cbn; lia].
  - eapply small_le; [exact L|exact Sm].
  - intros x Hx. apply (In_nth _ _ ([], false)) in Hx as (p & Hp & <-). destruct (Wl p Hp) as (_ & v & Hv). unfold acc in Hv. destruct v as [|a v]; cbn in Hv; [now right|left].
    intros E. unfold a_arcs in Hv. rewrite E in Hv. discriminate.
  - intros p [a q] Hx. destruct (Wl p (Lr _ _ Hx)) as ((u & Hu) & _). destruct (Wl q (D _ _ Hx)) as (_ & v & Hv). apply (Sy (u ++ a :: v)); [|apply in_app_iff; right; now left].
    apply C. pose proof (acc_app A u 0 (a :: v)) as K. rewrite Hu in K. rewrite K, acc_cons, (look_some _ a q (I p) Hx). exact Hv.
  - unfold small31, cnt. rewrite Ew. pose proof (words_count ws Hn) as K. unfold M_Fsa.symbol in *. lia.
Qed.
Lemma indexed_laid sort ws g : fit ws -> list_sort sort -> indexed sort ws g -> exists A mf, index_facts ws A /\ laid A mf g.
Proof.
  intros Hf Hs (out & ls & E & P & S & Ec). destruct (minfsa_facts ws Hf) as (A & out' & E' & X & P' & I). rewrite E in E'. injection E' as <-.
  rewrite (lines_tidy A ls I (Permutation_trans (Permutation_sym P) P') S) in Ec.
  destruct (compile_laid A sort (x_small _ _ X) (x_rows _ _ X) (x_sorted _ _ X) (x_closed _ _ X) (x_acyclic _ _ X) (x_some _ _ X) (x_reach _ _ X) (x_live _ _ X) (x_count _ _ X) Hs) as (g' & mf & Eg & La).
  rewrite Ec in Eg. injection Eg as <-. now exists A, mf.
Qed.
Lemma ints_int w : ints w -> Forall int w.
Proof. intros H. apply Forall_forall. exact H. Qed.

(** ** Theorems *)
(** The index is made, whatever way the states are sorted. *)
Theorem C65_made sort ws : fit ws -> list_sort sort -> exists out, minfsa ws = Some out /\
  forall ls, Permutation out ls -> Sorted line_le ls -> exists g, compile sort ls = Some g.
Proof.
  intros Hf Hs. destruct (minfsa_facts ws Hf) as (A & out & E & X & P' & I). exists out. split; [exact E|]. intros ls P S.
  rewrite (lines_tidy A ls I (Permutation_trans (Permutation_sym P) P') S).
  destruct (compile_laid A sort (x_small _ _ X) (x_rows _ _ X) (x_sorted _ _ X) (x_closed _ _ X) (x_acyclic _ _ X) (x_some _ _ X) (x_reach _ _ X) (x_live _ _ X) (x_count _ _ X) Hs) as (g & mf & Eg & _).
  now exists g.
Qed.
Print Assumptions C65_made.

(** Exactly the words are found, and exactly their beginnings are known as beginnings. *)
Theorem C65_words sort ws g w : fit ws -> list_sort sort -> indexed sort ws g -> ints w ->
  (g_in g w = true <-> In w ws) /\ (g_prefix g w = true <-> exists v, In (w ++ v) ws).
Proof.
  intros Hf Hs Hg Hw. destruct (indexed_laid sort ws g Hf Hs Hg) as (A & mf & X & La). pose proof (proj1 (proj2 La)) as E0.
  pose proof (ints_int w Hw) as Fw. unfold g_in, g_prefix. rewrite <- E0.
  rewrite (in_spec A mf g La (x_sorted _ _ X) (x_closed _ _ X) (x_some _ _ X) (x_symbols _ _ X) w 0 (x_some _ _ X) Fw).
  rewrite (prefix_spec A mf g La (x_sorted _ _ X) (x_closed _ _ X) (x_some _ _ X) (x_symbols _ _ X) w 0 (x_some _ _ X) Fw). split; [apply (x_acc _ _ X)|]. split.
  - destruct (walk A 0 w) as [q|] eqn:Ew; [|discriminate]. intros _.
    assert (Hq : q < length A).
    { apply (spelt_walk A (x_sorted _ _ X)) in Ew. apply (reach_bound (aview A) (x_closed _ _ X) 0 q); [now exists w|apply (x_some _ _ X)]. }
    pose proof (x_live _ _ X q Hq) as K. unfold cnt in K. destruct (words_of (aview A) q) as [|v l] eqn:E; [cbn in K; lia|].
    assert (Hv : in_lang (aview A) q v) by (apply (in_words _ (x_closed _ _ X) (x_acyclic _ _ X) q Hq); rewrite E; now left).
    exists v. apply (x_acc _ _ X). pose proof (acc_app A w 0 v) as Ka. rewrite Ew in Ka. apply (eq_trans Ka). destruct Hv as (r & H1 & H2). unfold acc.
    apply (spelt_walk A (x_sorted _ _ X)) in H1. now rewrite H1.
  - intros (v & H). apply (x_acc _ _ X) in H. pose proof (acc_app A w 0 v) as Ka. apply (eq_trans (eq_sym H)) in Ka. destruct (walk A 0 w); [reflexivity|discriminate].
Qed.
Print Assumptions C65_words.

(** A word has its place in the list as its number, counting from one; what is not in the list has the number -1. *)
Theorem C65_hash sort ws g w : fit ws -> list_sort sort -> indexed sort ws g ->
  (forall i, nth_error ws i = Some w -> g_hash g w = (Z.of_nat i + 1)%Z) /\ (ints w -> ~ In w ws -> g_hash g w = (-1)%Z).
Proof.
  intros Hf Hs Hg. destruct (indexed_laid sort ws g Hf Hs Hg) as (A & mf & X & La). pose proof (proj1 (proj2 La)) as E0. unfold g_hash. rewrite <- E0. split.
  - intros i Hi. assert (Eb : eb (aview A) 0 = 0).
    { unfold eb. destruct (v_is_end (aview A) 0) eqn:E; [|reflexivity]. exfalso. destruct Hf as (_ & Hn & _). apply Hn, (x_acc _ _ X). exact E. }
    rewrite <- (x_words _ _ X) in Hi.
    rewrite (hash_spec A mf g La (x_sorted _ _ X) (x_closed _ _ X) (x_acyclic _ _ X) (x_some _ _ X) (x_symbols _ _ X) w 0 0 i (x_some _ _ X) Hi); rewrite ?Eb; [lia|lia|].
    pose proof (x_count _ _ X) as K. unfold small31 in K. lia.
  - intros Hw Hn. apply (hash_foreign A mf g La (x_sorted _ _ X) (x_closed _ _ X) (x_some _ _ X) (x_symbols _ _ X) w 0 0 (x_some _ _ X) (ints_int w Hw)).
    destruct (acc A 0 w) eqn:E; [|reflexivity]. exfalso. apply Hn. now apply (x_acc _ _ X).
Qed.
Print Assumptions C65_hash.

(** A word comes back by its number; no other number gives a word. *)
Theorem C65_unhash sort ws g i : fit ws -> list_sort sort -> indexed sort ws g -> (- 2 ^ 31 <= i < 2 ^ 31)%Z ->
  g_unhash g i = Some (if (0 <? i)%Z then nth (Z.to_nat (i - 1)) ws [] else []).
Proof.
  intros Hf Hs Hg Hi. destruct (indexed_laid sort ws g Hf Hs Hg) as (A & mf & X & La). pose proof (proj1 (proj2 La)) as E0.
  assert (Eb : eb (aview A) 0 = 0).
  { unfold eb. destruct (v_is_end (aview A) 0) eqn:E; [|reflexivity]. exfalso. destruct Hf as (_ & Hn & _). apply Hn, (x_acc _ _ X). exact E. }
  pose proof (goes_stops (aview A) (x_closed _ _ X) (x_acyclic _ _ X) 0 (x_some _ _ X)) as Hg0. cbn [aview v_size] in Hg0.
  unfold g_unhash. rewrite (proj1 La), <- E0. destruct (Z.ltb_spec 0 i) as [L|L].
  - destruct (nth_error ws (Z.to_nat (i - 1))) as [w|] eqn:E.
    + rewrite (nth_error_nth _ _ _ E). rewrite <- (x_words _ _ X) in E.
      pose proof (unhash_spec A mf g La (x_closed _ _ X) (x_acyclic _ _ X) (x_some _ _ X) (x_count _ _ X) (x_reach _ _ X) (length A) w 0 (Z.to_nat (i - 1)) [] (x_some _ _ X) E Hg0) as K.
      rewrite Eb in K. replace (Z.of_nat (Z.to_nat (i - 1)) + 1 - Z.of_nat 0)%Z with i in K by lia. exact K.
    + apply nth_error_None in E. rewrite nth_overflow by assumption.
      apply (unhash_beyond A mf g La (x_closed _ _ X) (x_acyclic _ _ X) (x_some _ _ X) (length A) 0 i [] (x_some _ _ X) Hg0). rewrite Eb.
      unfold cnt. rewrite (x_words _ _ X). unfold M_Fsa.symbol in *. lia.
  - destruct (length A); cbn [g_unhash_from]; (destruct (Z.leb_spec i 0); [reflexivity|lia]).
Qed.
Print Assumptions C65_unhash.

(** sort_pred is not an order: of two states each may come before the other. *)
Theorem C65_order_refuted : exists x y, sort_pred x y = true /\ sort_pred y x = true.
Proof. exists (0, 1%Z), (1, 2%Z). now split. Qed.
Print Assumptions C65_order_refuted.

Lemma sort_list_sort : list_sort sort_list.
Proof. intros l. apply sort_list_merged. Qed.
Definition some_lines : list line :=
  [Arc 0 1 1; Arc 0 4 2; Arc 0 1 3; Arc 1 2 2; Arc 1 3 3; End 2; Arc 3 2 2; Arc 4 5 2; Arc 4 6 3; End 5; Arc 5 2 2; Arc 6 5 2]%Z.
Definition some_index : dag := match compile sort_list some_lines with Some g => g | None => Dag [] [] end.
Example C65_some : fit some_words /\ indexed sort_list some_words some_index /\
  map (g_hash some_index) some_words = [1; 2; 3; 4; 5; 6; 7; 8]%Z /\ g_hash some_index [2; 3]%Z = (-1)%Z /\ g_prefix some_index [2; 3]%Z = true /\
  map (g_unhash some_index) [0; 1; 2; 3; 4; 5; 6; 7; 8; 9]%Z = map Some ([] :: some_words ++ [[]]).
Proof.
  destruct C64_some_words as (S1 & S2 & S3). split; [|split; [|vm_compute; repeat split]].
  - split; [exact S1|]. split; [exact S2|]. split; [discriminate|]. split; [vm_compute; reflexivity|]. intros w a Hw Ha.
    assert (G : forallb (fun w => forallb (fun a => (0 <=? a) && (a <? 2 ^ 31))%Z w) some_words = true) by (vm_compute; reflexivity).
    rewrite forallb_forall in G. specialize (G w Hw). rewrite forallb_forall in G. specialize (G a Ha). apply andb_true_iff in G as [G1 G2]. apply Z.leb_le in G1. apply Z.ltb_lt in G2. now split.
  - eexists. exists some_lines. split; [exact S3|]. split; [|split].
    + unfold some_lines. assert (Q : forall (x : line) l1 l2 k, Permutation (l1 ++ l2) k -> Permutation (l1 ++ x :: l2) (x :: k)).
      { intros x l1 l2 k H. rewrite <- H. symmetry. apply Permutation_middle. }
      apply (Q _ [_; _; _; _; _; _; _; _; _]). apply (Q _ [_; _; _; _; _; _; _; _; _]). apply (Q _ [_; _; _; _; _; _; _; _; _]). cbn [app].
      apply (Q _ [_]). cbn [app]. apply (Q _ [_]). cbn [app]. apply (Q _ []). cbn [app]. apply (Q _ []). cbn [app].
      apply (Q _ [_; _]). cbn [app]. apply (Q _ [_; _]). cbn [app]. apply (Q _ [_]). cbn [app]. apply (Q _ []). cbn [app]. apply Permutation_refl.
    + unfold some_lines. repeat (constructor; [|constructor; unfold line_le; cbn; lia]). repeat constructor.
    + reflexivity.
Qed.
(** In mode 4 the arcs before [da_start] are in memory; a state whose arcs start there is still looked up in memory. *)
Theorem C65_mode_refuted : exists p i j, row_memory some_index p = Some (i, j) /\ da_start some_index <= i /\ i < j.
Proof.
  exists (first_after some_index (length (g_states some_index)) 0). do 2 eexists. split; [vm_compute; reflexivity|]. vm_compute. split; lia.
Qed.
Print Assumptions C65_mode_refuted.

(** C69: the automaton of a parsed sentence takes exactly the bounded rules that fit the sentence. *)
From Coq Require Import List ZArith NArith Bool Sorted Permutation Lia PeanoNat.
From Verif Require Import M_Fsa L_Fsa M_BinFsa M_HashFsa M_Minfsa P_Minfsa M_Dag P_Dag M_SimpleDag S_SimpleDag L_SimpleDag L_SimpleCopy L_SimpleDet P_SimpleDag M_MultiHash P_MultiHash M_Intersector L_Intersector P_Intersector S_Prune L_Prune.
Import ListNotations.
Local Open Scope nat_scope.

(** ** Cutting down with any automaton over zeros and ones *)
Theorem C69_prune asort i nts d fuel g : sorts asort -> whole i -> deterministic i -> whole d -> prune asort fuel i nts d = Some g ->
  whole g /\ deterministic g /\ forall w, words g w <-> words d w /\ words i (map (fun a => if in_dec Z.eq_dec a nts then 1%Z else 0%Z) w).
Proof.
  intros Hs Wi Di Wd E. destruct (prune_spec asort Hs i nts Wi Di d fuel g Wd E) as (A1 & A2 & A3). split; [assumption|]. split; [assumption|]. intros w. rewrite A3.
  rewrite (map_ext (bit nts) (fun a => if in_dec Z.eq_dec a nts then 1%Z else 0%Z)); [reflexivity|]. intros a. unfold bit. destruct (existsb (Z.eqb a) nts) eqn:E1, (in_dec Z.eq_dec a nts) as [H|H]; try reflexivity.
  - apply existsb_exists in E1 as (b & Hb & Eb). apply Z.eqb_eq in Eb as ->. contradiction.
  - exfalso. assert (existsb (Z.eqb a) nts = true) by (apply existsb_exists; exists a; split; [assumption|apply Z.eqb_refl]). congruence.
Qed.
Print Assumptions C69_prune.

Theorem C69_prune_ends asort i nts d : sorts asort -> whole i -> deterministic i -> whole d ->
  exists enough, forall fuel, enough <= fuel -> exists g, prune asort fuel i nts d = Some g.
Proof. intros Hs Wi Di Wd. now apply prune_ends. Qed.
Print Assumptions C69_prune_ends.

(** ** The automaton of one nonterminal *)
Theorem C69_subparse asort lhs es : sorts asort -> whole (subparse asort lhs es) /\
  forall w, words (subparse asort lhs es) w <-> e_from lhs <> e_to lhs /\ exists v, w = e_sym lhs :: v /\ path es (e_from lhs) v (e_to lhs).
Proof. intros Hs. now apply subparse_spec. Qed.
Print Assumptions C69_subparse.

(** ** The whole sentence *)
Lemma nts_nonterminal nts trees a :
  In a (nts ++ flat_map (fun t => nts_of (fst t) (snd t)) trees) <-> nonterminal nts trees a.
Proof.
  rewrite in_app_iff, in_flat_map. unfold nonterminal, nts_of. split; (intros [H|H]; [now left|right]).
  - destruct H as ([lhs es] & H1 & H2). exists lhs, es. split; [assumption|]. destruct H2 as [H2|H2]; [now left|right]. apply in_map_iff in H2 as (e & <- & H2). apply filter_In in H2 as [H2 H3]. now exists e.
  - destruct H as (lhs & es & H1 & H2). exists (lhs, es). split; [assumption|]. cbn [fst snd]. destruct H2 as [->|(e & H2 & H3 & ->)]; [now left|right]. apply in_map, filter_In. now split.
Qed.
Lemma bit_cases nts a : bit nts a = 0%Z \/ bit nts a = 1%Z.
Proof. unfold bit. destruct (existsb (Z.eqb a) nts); auto. Qed.
Lemma bit_in nts a : bit nts a = 1%Z <-> In a nts.
Proof.
  unfold bit. destruct (existsb (Z.eqb a) nts) eqn:E; split; try easy.
  - intros _. apply existsb_exists in E as (b & Hb & Eb). now apply Z.eqb_eq in Eb as ->.
  - intros H. assert (existsb (Z.eqb a) nts = true) by (apply existsb_exists; exists a; split; [assumption|apply Z.eqb_refl]). congruence.
Qed.
Lemma count_bits nts f : (forall a, f a = true <-> In a nts) -> forall v, count_occ Z.eq_dec (map (bit nts) v) 1%Z = length (filter f v).
Proof.
  intros F. induction v as [|a v IH]; [reflexivity|]. cbn [map count_occ filter]. destruct (Z.eq_dec (bit nts a) 1) as [E|N]; destruct (f a) eqn:Ef; cbn [length]; rewrite ?IH; try reflexivity.
  - apply bit_in, F in E. congruence.
  - apply F, bit_in in Ef. contradiction.
Qed.
Theorem C69_sentence asort n k fuel0 i fuel nts trees g is_nt : sorts asort -> k <= n -> build_intersector asort fuel0 n k = Built i ->
  parse_to_dag asort fuel i nts trees = Some g -> (forall a, is_nt a = true <-> nonterminal nts trees a) ->
  whole g /\ deterministic g /\ forall w, words g w <-> exists lhs es v, In (lhs, es) trees /\ e_from lhs <> e_to lhs /\
    w = e_sym lhs :: v /\ path es (e_from lhs) v (e_to lhs) /\ length v <= n /\ length (filter is_nt v) <= k.
Proof.
  intros Hs Hk Ei E F. destruct (C68_words asort n k fuel0 i Hs Hk Ei) as (Wi & Di & Li). unfold parse_to_dag in E. set (all := nts ++ _) in *.
  destruct (unions_spec asort Hs trees s_empty (empty_whole)) as [Wu Eu]. cbv zeta in *.
  destruct (prune_spec asort Hs i all Wi Di _ fuel g Wu E) as (A1 & A2 & A3). split; [assumption|]. split; [assumption|]. intros w. rewrite A3, Eu, Li.
  assert (F' : forall a, is_nt a = true <-> In a all) by (intros a; now rewrite F, <- nts_nonterminal). split.
  - intros [[K|([lhs es] & Ht & Hw)] (v' & Hv & Lv & Bv & Cv)]; [now apply empty_words in K|]. cbn [fst snd] in Hw. apply (subparse_spec asort Hs lhs es) in Hw as (N & v & -> & P).
    exists lhs, es, v. split; [assumption|]. split; [assumption|]. split; [reflexivity|]. split; [assumption|]. cbn [map] in Hv. injection Hv as _ <-. rewrite map_length in Lv. rewrite (count_bits all is_nt F') in Cv. lia.
  - intros (lhs & es & v & Ht & N & -> & P & Lv & Cv). split.
    + right. exists (lhs, es). split; [assumption|]. apply (subparse_spec asort Hs lhs es). split; [assumption|]. now exists v.
    + exists (map (bit all) v). split; [|split; [|split]].
      * cbn [map]. f_equal. apply bit_in, nts_nonterminal. right. exists lhs, es. split; [assumption|now left].
      * rewrite map_length. apply path_nonempty in P; [lia|assumption].
      * intros b Hb. apply in_map_iff in Hb as (a & <- & _). apply bit_cases.
      * now rewrite (count_bits all is_nt F').
Qed.
Print Assumptions C69_sentence.

Theorem C69_ends asort n k fuel0 i nts trees : sorts asort -> k <= n -> build_intersector asort fuel0 n k = Built i ->
  exists enough, forall fuel, enough <= fuel -> exists g, parse_to_dag asort fuel i nts trees = Some g.
Proof.
  intros Hs Hk Ei. destruct (C68_words asort n k fuel0 i Hs Hk Ei) as (Wi & Di & _). unfold parse_to_dag. apply prune_ends; try assumption. apply unions_spec; [assumption|apply empty_whole].
Qed.
Print Assumptions C69_ends.

(** A sentence of three words, <S>(<NP>(a b) c): symbols 5 for <S>, 6 for <NP>, 1, 2, 3 for the words. *)
Definition sentence : list (edge * list edge) :=
  [(Edge 5 0 3 true, [Edge 6 0 2 true; Edge 1 0 1 false; Edge 2 1 2 false; Edge 3 2 3 false]);
   (Edge 6 0 2 true, [Edge 1 0 1 false; Edge 2 1 2 false])]%Z.
Definition parsed (n k : nat) (trees : list (edge * list edge)) (ws : list (list Z)) : option (list bool) :=
  match build_intersector arc_sort 1000 n k with
  | Built i => match parse_to_dag arc_sort 1000 i [] trees with Some g => Some (map (s_in g) ws) | None => None end
  | _ => None
  end.
Example C69_some : parsed 3 1 sentence [[5; 6; 3]; [5; 1; 2; 3]; [6; 1; 2]; [6; 6]; [5; 1; 2]]%Z = Some [true; true; true; false; false] /\
  parsed 2 1 sentence [[5; 6; 3]; [5; 1; 2; 3]; [6; 1; 2]]%Z = Some [true; false; true].
Proof. split; vm_compute; reflexivity. Qed.
(** All labels that no rule has get the symbol 0: with a nonterminal among them, words among them count as nonterminals. *)
Example C69_unknown : parsed 3 1 [(Edge 5 0 2 true, [Edge 0 0 1 false; Edge 0 1 2 false; Edge 4 0 2 false])]%Z [[5; 0; 0]]%Z = Some [true] /\
  parsed 3 1 [(Edge 5 0 2 true, [Edge 0 0 1 false; Edge 0 1 2 false; Edge 0 0 2 true])]%Z [[5; 0; 0]]%Z = Some [false].
Proof. split; vm_compute; reflexivity. Qed.

(** ** The rules found for a sentence *)
(** [w] is a rule for the sentence: its left side is a nonterminal of it and its right side spells a way below it. *)
Definition suits (trees : list (edge * list edge)) (w : list Z) : Prop := exists lhs es v, In (lhs, es) trees /\
  e_from lhs <> e_to lhs /\ w = e_sym lhs :: v /\ path es (e_from lhs) v (e_to lhs).
Theorem C69_rules sort ws ix asort n k fuel0 i fuel nts trees g fuel' L : fit ws -> list_sort sort -> indexed sort ws ix -> sorts asort -> k <= n ->
  build_intersector asort fuel0 n k = Built i -> parse_to_dag asort fuel i nts trees = Some g -> multihash fuel' ix g = Some L ->
  NoDup (map fst L) /\ forall w j, In (w, j) L -> suits trees w /\ length w <= S n /\ nth_error ws (Z.to_nat (j - 1)) = Some w.
Proof.
  intros Hf Hl Hx Hs Hk Ei E Em. set (is_nt := fun a => existsb (Z.eqb a) (nts ++ flat_map (fun t => nts_of (fst t) (snd t)) trees)).
  assert (F : forall a, is_nt a = true <-> nonterminal nts trees a).
  { intros a. rewrite <- nts_nonterminal. unfold is_nt. rewrite existsb_exists. split; [intros (b & Hb & Eb); now apply Z.eqb_eq in Eb as ->|intros H; exists a; split; [assumption|apply Z.eqb_refl]]. }
  destruct (C69_sentence asort n k fuel0 i fuel nts trees g is_nt Hs Hk Ei E F) as (W & D & Lg). destruct (C67_sound sort ws ix g fuel' L Hf Hl Hx W D Em) as [S1 S2]. split; [assumption|].
  intros w j H. apply S1 in H as (Hw & j' & Hj & ->). apply Lg in Hw as (lhs & es & v & H1 & H2 & -> & H3 & H4 & _). split; [now exists lhs, es, v|]. split; [cbn; lia|].
  replace (Z.to_nat (Z.of_nat j' + 1 - 1)) with j' by lia. assumption.
Qed.
Print Assumptions C69_rules.

(** <S>(<NP>(a b) c) with the rules <S> -> <NP> c and <S> -> a b c: only the first is found.  Symbols: 5 <S>, 1 <NP>, 2 a, 3 b, 4 c. *)
Definition lost_sentence : list (edge * list edge) :=
  [(Edge 5 0 3 true, [Edge 1 0 2 true; Edge 2 0 1 false; Edge 3 1 2 false; Edge 4 2 3 false]); (Edge 1 0 2 true, [Edge 2 0 1 false; Edge 3 1 2 false])]%Z.
Lemma lost_suits : suits lost_sentence [5; 2; 3; 4]%Z.
Proof.
  exists (Edge 5 0 3 true), [Edge 1 0 2 true; Edge 2 0 1 false; Edge 3 1 2 false; Edge 4 2 3 false]%Z, [2; 3; 4]%Z. split; [now left|]. split; [discriminate|]. split; [reflexivity|].
  apply (path_edge _ (Edge 2 0 1 false)); [cbn; tauto|]. apply (path_edge _ (Edge 3 1 2 false)); [cbn; tauto|]. apply (path_edge _ (Edge 4 2 3 false)); [cbn; tauto|]. constructor.
Qed.
Lemma is_nt_spec nts trees a : existsb (Z.eqb a) (nts ++ flat_map (fun t => nts_of (fst t) (snd t)) trees) = true <-> nonterminal nts trees a.
Proof.
  rewrite <- nts_nonterminal. rewrite existsb_exists. split; [intros (b & Hb & Eb); now apply Z.eqb_eq in Eb as ->|intros H; exists a; split; [assumption|apply Z.eqb_refl]].
Qed.
Lemma lost_run : exists ix i g, compile sort_list lost_lines = Some ix /\ build_intersector arc_sort 1000 3 2 = Built i /\
  parse_to_dag arc_sort 1000 i [] lost_sentence = Some g /\ multihash 1000 ix g = Some [([5; 1; 4], 1)]%Z.
Proof. eexists. eexists. eexists. split; [vm_compute; reflexivity|]. split; [vm_compute; reflexivity|]. split; [vm_compute; reflexivity|]. vm_compute. reflexivity. Qed.
Lemma lost_bounds : 2 <= 3 /\ length [2; 3; 4]%Z <= 3 /\
  length (filter (fun a => existsb (Z.eqb a) ([] ++ flat_map (fun t => nts_of (fst t) (snd t)) lost_sentence)) [2; 3; 4]%Z) <= 2 /\
  In [5; 2; 3; 4]%Z lost_words /\ ~ In [5; 2; 3; 4]%Z (map fst [([5; 1; 4], 1)]%Z).
Proof. split; [lia|]. split; [vm_compute; lia|]. split; [vm_compute; lia|]. split; [right; now left|]. intros [H|[]]. discriminate. Qed.
Theorem C69_rules_all_refuted : exists ws ix i g L w, fit ws /\ indexed sort_list ws ix /\ build_intersector arc_sort 1000 3 2 = Built i /\
  parse_to_dag arc_sort 1000 i [] lost_sentence = Some g /\ multihash 1000 ix g = Some L /\
  In w ws /\ words g w /\ suits lost_sentence w /\ ~ In w (map fst L).
Proof.
  destruct lost_bounds as (B1 & B2 & B3 & B4 & B5). destruct lost_run as (ix & i & g & Ex & Ei & Eg & Em). exists lost_words, ix, i, g, [([5; 1; 4], 1)]%Z, [5; 2; 3; 4]%Z.
  split; [exact lost_fit|]. split; [exact (lost_indexed ix Ex)|]. split; [exact Ei|]. split; [exact Eg|]. split; [exact Em|]. split; [exact B4|]. split; [|split; [exact lost_suits|exact B5]].
  destruct (C69_sentence arc_sort 3 2 1000 i 1000 [] lost_sentence g _ arc_sort_sorts B1 Ei Eg (is_nt_spec [] lost_sentence)) as (_ & _ & Lg). clear Ex Ei Em Eg. apply Lg.
  destruct lost_suits as (lhs & es & v & H1 & H2 & H3 & H4). exists lhs, es, v. split; [assumption|]. split; [assumption|]. split; [assumption|]. split; [assumption|].
  injection H3 as _ <-. split; assumption.
Qed.
Print Assumptions C69_rules_all_refuted.

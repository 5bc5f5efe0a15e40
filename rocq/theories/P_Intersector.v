(** C68: the automaton that rules are cut down with takes the words of bounded length with a bounded number of nonterminals. *)
From Coq Require Import List ZArith NArith Bool Sorted Permutation Lia PeanoNat.
From Verif Require Import M_Fsa L_Fsa M_BinFsa M_HashFsa M_Minfsa M_Dag M_SimpleDag S_SimpleDag L_SimpleDag L_SimpleCopy L_SimpleDet P_SimpleDag M_MultiHash M_Intersector L_Intersector.
Import ListNotations.
Local Open Scope nat_scope.

(** ** What is meant *)
(** A word of zeros and ones, after a one for the left side; ones are nonterminals. *)
Definition within (n k : nat) (w : list Z) : Prop :=
  exists v, w = 1%Z :: v /\ 1 <= length v <= n /\ (forall b, In b v -> b = 0%Z \/ b = 1%Z) /\ count_occ Z.eq_dec v 1%Z <= k.

Section Build.
Context (asort : list warc -> list warc) (Hsort : sorts asort).
Lemma empty_whole : whole s_empty.
Proof. apply whole_dec. reflexivity. Qed.
Lemma empty_words w : ~ words s_empty w.
Proof. intros (p & q & H & _). change (has 0 p = true) in H. now rewrite has_none in H. Qed.
Lemma first_whole n : whole (nd_union asort s_empty (partial asort n [])) /\
  forall w, words (nd_union asort s_empty (partial asort n [])) w <-> exists v, w = 1%Z :: v /\ 1 <= length v <= n /\ forall b, In b v -> b = 0%Z.
Proof.
  destruct (partial_spec asort Hsort n [] ltac:(constructor) ltac:(intros x [])) as [Wp Ep]. destruct (union_whole asort Hsort _ _ empty_whole Wp) as [Wu _]. split; [assumption|].
  intros w. rewrite (union_words asort Hsort _ _ empty_whole Wp), Ep. split.
  - intros [K|(v & -> & L & A)]; [now apply empty_words in K|]. exists v. split; [reflexivity|]. split; [assumption|]. intros b Hb. apply In_nth_error in Hb as (i & E).
    destruct (A i b E) as [K|[_ []]]. assumption.
  - intros (v & -> & L & A). right. exists v. split; [reflexivity|]. split; [assumption|]. intros i b E. left. apply A. now apply nth_error_In in E.
Qed.
Lemma choices_all n k fuel : k <= n ->
  match more_partials asort fuel n k (nd_union asort s_empty (partial asort n [])) [] 0 0 with
  | Built j => whole j /\ forall w, words j w <-> within n k w
  | Unfinished => (Z.of_nat fuel < Z.of_nat (S n) ^ Z.of_nat k)%Z
  | Astray => False
  end.
Proof.
  intros Hk. destruct (first_whole n) as [Wu Eu]. destruct (Nat.eq_dec k 0) as [->|Nk].
  - replace (more_partials asort fuel n 0 _ [] 0 0) with (Built (nd_union asort s_empty (partial asort n []))) by (now destruct fuel). split; [assumption|].
    intros w. rewrite Eu. unfold within. split; intros (v & -> & L & A); exists v; (split; [reflexivity|]); (split; [assumption|]).
    + split; [intros b Hb; left; now apply A|]. replace (count_occ Z.eq_dec v 1%Z) with 0; [lia|]. symmetry. apply count_occ_not_In. intros K. apply A in K. discriminate.
    + intros b Hb. destruct A as [A1 A2]. destruct (A1 b Hb) as [K| ->]; [assumption|]. apply (count_occ_In Z.eq_dec) in Hb. lia.
  - pose proof (choices_spec asort Hsort n k fuel 0 0 _ Wu ltac:(lia) Hk) as C. destruct (more_partials asort fuel n k _ [] 0 0) as [j| |]; [|assumption..].
    destruct C as [Wj Ej]. split; [assumption|]. intros w. rewrite Ej, Eu. split.
    + intros [(v & -> & L & A)|(b & V & K)].
      * exists v. split; [reflexivity|]. split; [assumption|]. split; [intros b Hb; left; now apply A|].
        replace (count_occ Z.eq_dec v 1%Z) with 0; [lia|]. symmetry. apply count_occ_not_In. intros K. apply A in K. discriminate.
      * apply (valid_partial asort Hsort n k b V) in K as (v & -> & L & A). exists v. split; [reflexivity|]. split; [assumption|].
        destruct V as (Lb & _). apply allowed_count in A. now rewrite Lb in A.
    + intros (v & -> & L & Bi & Co). right. destruct (count_allowed n k v Hk ltac:(lia) Bi Co) as (a & V & A). exists a. split; [assumption|].
      apply (valid_partial asort Hsort n k a V). now exists v.
Qed.
Lemma more_fuel n k : forall f i a h m j, more_partials asort f n k i a h m = Built j -> forall f', f <= f' -> more_partials asort f' n k i a h m = Built j.
Proof.
  induction f as [|f IH]; intros i a h m j E f' L; cbn [more_partials] in E; destruct (nextksb a h m k n) as [|a' h' m'|] eqn:En; try discriminate.
  - destruct f'; cbn [more_partials]; now rewrite En.
  - destruct f'; cbn [more_partials]; now rewrite En.
  - destruct f' as [|f']; [lia|]. cbn [more_partials]. rewrite En. apply IH; [assumption|lia].
Qed.
End Build.

(** ** Theorems *)
Theorem C68_words asort n k fuel i : sorts asort -> k <= n -> build_intersector asort fuel n k = Built i ->
  whole i /\ deterministic i /\ forall w, words i w <-> within n k w.
Proof.
  intros Hs Hk. unfold build_intersector. pose proof (choices_all asort Hs n k fuel Hk) as C. destruct (more_partials asort fuel n k _ [] 0 0) as [j| |]; try discriminate.
  destruct C as [Wj Ej]. destruct (minimize asort fuel j) as [g|] eqn:Em; [|discriminate]. intros [= <-].
  destruct (minimize_spec asort Hs j Wj fuel g Em) as (M1 & M2 & M3 & _). split; [assumption|]. split; [assumption|]. intros w. now rewrite M3.
Qed.
Print Assumptions C68_words.

Theorem C68_ends asort n k : sorts asort -> k <= n -> exists enough, forall fuel, enough <= fuel -> exists i, build_intersector asort fuel n k = Built i.
Proof.
  intros Hs Hk. set (f0 := Z.to_nat (Z.of_nat (S n) ^ Z.of_nat k)). pose proof (choices_all asort Hs n k f0 Hk) as C.
  destruct (more_partials asort f0 n k _ [] 0 0) as [j| |] eqn:E; [|exfalso; assert (0 <= Z.of_nat (S n) ^ Z.of_nat k)%Z by (apply Z.pow_nonneg; lia); unfold f0 in C; lia|contradiction].
  destruct C as [Wj _]. exists (f0 + S (2 ^ (2 ^ s_size j))). intros fuel Lf. unfold build_intersector.
  rewrite (more_fuel asort n k f0 _ _ _ _ _ E fuel ltac:(lia)). destruct (minimize_ends asort Hs j Wj fuel ltac:(lia)) as (g & ->). now exists g.
Qed.
Print Assumptions C68_ends.

(** One more nonterminal allowed than the rules are long: no nonterminals are allowed on the right at all. *)
Theorem C68_one_more asort n fuel i : sorts asort -> build_intersector asort fuel n (S n) = Built i ->
  forall w, words i w <-> exists v, w = 1%Z :: v /\ 1 <= length v <= n /\ forall b, In b v -> b = 0%Z.
Proof.
  intros Hs. unfold build_intersector. destruct (first_whole asort Hs n) as [Wu Eu].
  assert (St : forall h m, nextksb [] h m (S n) n = Stop).
  { intros h m. unfold nextksb. cbn [Nat.eqb length negb repeat nth]. destruct (Z.eqb_spec 0 (Z.of_nat n - Z.of_nat (S n) + 1)) as [_|N]; [reflexivity|lia]. }
  replace (more_partials asort fuel n (S n) _ [] 0 0) with (Built (nd_union asort s_empty (partial asort n []))) by (destruct fuel; cbn [more_partials]; now rewrite St).
  destruct (minimize asort fuel _) as [g|] eqn:Em; [|discriminate]. intros [= <-]. destruct (minimize_spec asort Hs _ Wu fuel g Em) as (_ & _ & M3 & _). intros w. now rewrite M3.
Qed.
Print Assumptions C68_one_more.

(** Still more: the second call of nextksb reads before the beginning of the vector. *)
Theorem C68_astray asort n k fuel : S n < k -> 1 <= fuel -> build_intersector asort fuel n k = Astray.
Proof.
  intros L F. unfold build_intersector. destruct fuel as [|fuel]; [lia|]. cbn [more_partials].
  assert (E1 : nextksb [] 0 0 k n = Next (run 0 k) k 0).
  { unfold nextksb. destruct (Nat.eqb_spec k 0) as [->|_]; [lia|]. cbn [length]. destruct (Nat.eqb_spec 0 k) as [<-|_]; [lia|]. cbn [negb].
    destruct (Z.eqb_spec (nth 0 (repeat 0%Z k) 0%Z) (Z.of_nat n - Z.of_nat k + 1)) as [E|_]; [exfalso; destruct k; cbn in E; lia|].
    rewrite fill_spec by (rewrite ?repeat_length; lia). now rewrite Nat.sub_diag. }
  assert (E2 : nextksb (run 0 k) k 0 k n = Outside).
  { unfold nextksb. destruct (Nat.eqb_spec k 0) as [->|_]; [lia|]. rewrite run_length, Nat.eqb_refl. cbn [negb].
    destruct (Z.eqb_spec (nth 0 (run 0 k) 0%Z) (Z.of_nat n - Z.of_nat k + 1)) as [E|_]; [exfalso; destruct k; [lia|]; rewrite run_cons in E; cbn [nth] in E; lia|].
    destruct (Z.ltb_spec 0 (Z.of_nat n - Z.of_nat k)); [lia|]. destruct (Nat.ltb_spec k (S k)); [reflexivity|lia]. }
  rewrite E1. destruct fuel; cbn [more_partials]; now rewrite E2.
Qed.
Print Assumptions C68_astray.

(** The defaults of RuleSet.hpp, seven and four, would take long here; three and two. *)
Example C68_some : exists i, build_intersector arc_sort 1000 3 2 = Built i /\ s_size i = 7 /\
  map (s_in i) [[1; 0]; [1; 1; 1]; [1; 1; 0; 1]; [1; 1; 1; 1]; [1]; [0; 0]; [1; 0; 0; 0; 0]; [1; 0; 1; 1]]%Z = [true; true; true; false; false; false; false; true].
Proof. eexists. split; [vm_compute; reflexivity|]. split; vm_compute; reflexivity. Qed.
Example C68_some_one_more : exists i, build_intersector arc_sort 1000 2 3 = Built i /\ s_in i [1; 0; 0]%Z = true /\ s_in i [1; 1]%Z = false.
Proof. eexists. split; [vm_compute; reflexivity|]. split; vm_compute; reflexivity. Qed.

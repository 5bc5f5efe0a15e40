(** C98: the domains of sentences and the features made of them. *)
From Coq Require Import String Ascii.
From Coq Require Import List Arith NArith ZArith QArith Bool Lia Sorted Lqa.
From Verif Require Import M_Consolidate P_Consolidate M_Domain.
Import ListNotations.
Local Open Scope nat_scope.

Lemma str_eqb_eq a b : str_eqb a b = true <-> a = b.
Proof. unfold str_eqb. destruct (list_eq_dec ascii_dec a b); split; congruence. Qed.
Lemma str_eqb_neq a b : str_eqb a b = false <-> a <> b.
Proof. unfold str_eqb. destruct (list_eq_dec ascii_dec a b); split; congruence. Qed.
Lemma str_eqb_refl a : str_eqb a a = true.
Proof. now apply str_eqb_eq. Qed.

(* ------------------------------------------------------------------ *)
(** * The file of domains *)

(** A line of the file: a number and a name with a blank between them, neither with blanks or newlines. *)
Definition entry_line (e : str * str) : str := fst e ++ space :: snd e ++ [newline].
Definition good_word (w : str) : Prop := w <> [] /\ Forall (fun c => is_blank c = false /\ c <> newline) w.

Lemma file_lines_word l : forall w cur rest, ~ In newline w -> l = w ++ newline :: rest ->
  file_lines l cur = (cur ++ w) :: file_lines rest [].
Proof.
  revert l. intros l w. revert l. induction w as [|c w IH]; intros l cur rest N ->; cbn [app file_lines].
  - rewrite Ascii.eqb_refl. now rewrite app_nil_r.
  - destruct (Ascii.eqb_spec c newline) as [->|E]; [exfalso; apply N; now left|].
    rewrite (IH (w ++ newline :: rest) (cur ++ [c]) rest); [now rewrite <- app_assoc|intros I; apply N; now right|reflexivity].
Qed.
Lemma file_lines_rest : forall s cur, ~ In newline s -> file_lines s cur = [].
Proof.
  induction s as [|c s IH]; intros cur N; [reflexivity|]. cbn [file_lines].
  destruct (Ascii.eqb_spec c newline) as [->|E]; [exfalso; apply N; now left|]. apply IH. intros I. apply N. now right.
Qed.
Lemma good_no_newline w : good_word w -> ~ In newline w.
Proof. intros [_ F] I. destruct (proj1 (Forall_forall _ _) F _ I) as [_ Q]. now apply Q. Qed.
Lemma lines_entries tail : ~ In newline tail -> forall entries, Forall (fun e => good_word (fst e) /\ good_word (snd e)) entries ->
  file_lines (flat_map entry_line entries ++ tail) [] = map (fun e => fst e ++ space :: snd e) entries.
Proof.
  intros Nt. induction 1 as [|[n d] entries [G1 G2] _ IH]; [apply file_lines_rest, Nt|]. cbn [flat_map map fst snd].
  rewrite (file_lines_word _ (n ++ space :: d) [] (flat_map entry_line entries ++ tail)).
  - now rewrite IH.
  - intros I. apply in_app_or in I as [I|[I|I]]; [exact (good_no_newline n G1 I)|discriminate I|exact (good_no_newline d G2 I)].
  - unfold entry_line. cbn [fst snd]. rewrite <- !app_assoc. cbn [app]. now rewrite <- !app_assoc.
Qed.

(** The names, each once, where it comes first. *)
Definition first_of_each (l : list str) : list str := rev (nodup (list_eq_dec ascii_dec) (rev l)).
Lemma known_in d l : known d l = true <-> In d l.
Proof.
  unfold known. rewrite existsb_exists. split; [intros (x & I & E); apply str_eqb_eq in E; now subst|].
  intros I. exists d. split; [exact I|apply str_eqb_refl].
Qed.
Lemma first_snoc l d : first_of_each (l ++ [d]) = if known d (first_of_each l) then first_of_each l else first_of_each l ++ [d].
Proof.
  unfold first_of_each. rewrite rev_app_distr. cbn [rev app nodup]. destruct (in_dec (list_eq_dec ascii_dec) d (rev l)) as [I|I].
  - destruct (known d (rev (nodup (list_eq_dec ascii_dec) (rev l)))) eqn:E; [reflexivity|].
    assert (Q : known d (rev (nodup (list_eq_dec ascii_dec) (rev l))) = true) by (apply known_in; rewrite <- in_rev; now apply nodup_In). congruence.
  - destruct (known d (rev (nodup (list_eq_dec ascii_dec) (rev l)))) eqn:E; [|reflexivity].
    apply known_in in E. rewrite <- in_rev in E. apply nodup_In in E. contradiction.
Qed.

(** The file is read line by line, each name getting the next number where it comes first; what stands after the last
    newline is not read. *)
Theorem C98_load : forall scan entries numbers tail,
  Forall (fun e => good_word (fst e) /\ good_word (snd e)) entries -> ~ In newline tail ->
  map (fun e => scan (fst e)) entries = map (@Some Z) numbers ->
  load scan (flat_map entry_line entries ++ tail) = Some (combine numbers (map snd entries), first_of_each (map snd entries)).
Proof.
  intros scan entries numbers tail G Nt E. unfold load. rewrite (lines_entries tail Nt entries G).
  assert (K : forall es ns spec pre, Forall (fun e => good_word (fst e) /\ good_word (snd e)) es ->
    map (fun e => scan (fst e)) es = map (@Some Z) ns ->
    load_loop scan (map (fun e => fst e ++ space :: snd e) es) spec (first_of_each pre)
      = Some (spec ++ combine ns (map snd es), first_of_each (pre ++ map snd es))).
  { induction es as [|[n d] es IH]; intros [|z ns] spec pre F M; cbn [map] in M; try discriminate.
    - cbn. now rewrite !app_nil_r.
    - inversion F as [|? ? [G1 G2] F']; subst. cbn [map fst snd load_loop].
      assert (T : tokens (n ++ space :: d) = [n; d]).
      { apply (tokens_spaced [n; d]). cbn [fst snd] in G1, G2. destruct G1 as [G1 G1'], G2 as [G2 G2'].
        apply Forall_cons; [|apply Forall_cons; [|apply Forall_nil]]; (split; [assumption|]); (eapply Forall_impl; [|eassumption]); cbn; tauto. }
      rewrite T. assert (M1 : scan n = Some z) by (cbn [fst] in M; congruence).
      assert (M2 : map (fun e => scan (fst e)) es = map Some ns) by congruence. rewrite M1, <- first_snoc.
      rewrite (IH ns _ _ F' M2). cbn [combine]. now rewrite <- !app_assoc. }
  exact (K entries numbers [] [] G E).
Qed.
Print Assumptions C98_load.

Definition digits1 (w : str) : option Z := match w with [c] => Some (Z.of_nat (nat_of_ascii c - 48)) | _ => None end.
Definition txt (s : string) : str := list_ascii_of_string s.
Definition nl : string := String newline "".
Example C98_load_case :
  load digits1 (txt ("3 news" ++ nl ++ "5 law" ++ nl ++ "9 news" ++ nl)%string)
    = Some ([(3%Z, txt "news"); (5%Z, txt "law"); (9%Z, txt "news")], [txt "news"; txt "law"]).
Proof. vm_compute. reflexivity. Qed.
(** Not true: that a last line without a newline is read. *)
Theorem C98_last_line_refuted :
  load digits1 (txt ("3 news" ++ nl ++ "5 law")%string) = Some ([(3%Z, txt "news")], [txt "news"])
  /\ load digits1 (txt ("3 news" ++ nl ++ "5 law" ++ nl)%string) = Some ([(3%Z, txt "news"); (5%Z, txt "law")], [txt "news"; txt "law"]).
Proof. vm_compute. split; reflexivity. Qed.
Print Assumptions C98_last_line_refuted.

(* ------------------------------------------------------------------ *)
(** * The domain of a sentence *)

(** With growing numbers, an entry holds for the sentences after the number before it up to its own; the sentences after
    the last number are undefined. *)
Theorem C98_sentence : forall spec sentence i e name, StronglySorted Z.lt (map fst spec) ->
  nth_error spec i = Some (e, name) -> (sentence <= e)%Z ->
  (forall j e' name', i = S j -> nth_error spec j = Some (e', name') -> (e' < sentence)%Z) ->
  domain_of spec sentence = name.
Proof.
  induction spec as [|[e0 d0] spec IH]; intros sentence i e name Hs Hn Hl Hp; [destruct i; discriminate Hn|].
  cbn [map fst] in Hs. inversion Hs as [|? ? Hs1 Hs2]; subst. cbn [domain_of]. destruct i as [|i]; cbn [nth_error] in Hn.
  - assert (e0 = e /\ d0 = name) as [-> ->] by (split; congruence). destruct (Z.leb_spec sentence e); [reflexivity|lia].
  - assert (Q : (e0 < sentence)%Z).
    { destruct i as [|i]; [exact (Hp 0 e0 d0 eq_refl eq_refl)|].
      assert (exists x, nth_error spec i = Some x) as [[e1 d1] E1].
      { destruct (nth_error spec i) eqn:E1; [eexists; reflexivity|]. apply nth_error_None in E1.
        assert (nth_error spec (S i) <> None) by congruence. apply nth_error_Some in H. lia. }
      specialize (Hp (S i) e1 d1 eq_refl E1). assert (I : In e1 (map fst spec)) by (apply in_map_iff; exists (e1, d1); split; [reflexivity|exact (nth_error_In _ _ E1)]).
      pose proof (proj1 (Forall_forall _ _) Hs2 _ I). lia. }
    destruct (Z.leb_spec sentence e0); [lia|]. apply (IH sentence i e name Hs1 Hn Hl).
    intros j e' name' -> Hj. exact (Hp (S j) e' name' eq_refl Hj).
Qed.
Print Assumptions C98_sentence.
Theorem C98_undefined : forall spec sentence, (forall x, In x spec -> (fst x < sentence)%Z) -> domain_of spec sentence = undefined.
Proof.
  induction spec as [|[e d] spec IH]; intros s H; [reflexivity|]. cbn [domain_of]. pose proof (H (e, d) (or_introl eq_refl)) as Q. cbn [fst] in Q.
  destruct (Z.leb_spec s e); [lia|]. apply IH. intros x I. apply H. now right.
Qed.
Print Assumptions C98_undefined.
Definition spec3 : list (Z * str) := [(3%Z, txt "news"); (5%Z, txt "law"); (9%Z, txt "news")].
Example C98_sentence_case : map (domain_of spec3) [1; 3; 4; 5; 6; 9; 10]%Z
  = [txt "news"; txt "news"; txt "law"; txt "law"; txt "news"; txt "news"; txt "undefined"].
Proof. vm_compute. reflexivity. Qed.

(* ------------------------------------------------------------------ *)
(** * Counts per domain *)

Fixpoint sum (l : list Q) : Q := match l with [] => 0%Q | q :: l' => (q + sum l')%Q end.
(** The counts of the pairs whose sentences are of domain [d]. *)
Definition counts_in (spec : list (Z * str)) (d : str) (pairs : list (Z * Q)) : list Q :=
  map snd (filter (fun p => str_eqb (domain_of spec (fst p)) d) pairs).

Lemma find_add d d' c : forall m, match find d' (add_count d c m) with
  | Some q => (q == (match find d' m with Some v => v | None => 0 end) + (if str_eqb d d' then c else 0))%Q /\ (d = d' \/ find d' m <> None)
  | None => find d' m = None /\ d <> d'
  end.
Proof.
  induction m as [|[k v] m IH]; cbn [add_count find].
  - destruct (str_eqb d d') eqn:E; [apply str_eqb_eq in E; split; [ring|now left]|apply str_eqb_neq in E; now split].
  - destruct (str_eqb k d) eqn:E1; cbn [find].
    + apply str_eqb_eq in E1. subst k. destruct (str_eqb d d') eqn:E2.
      * split; [reflexivity|right; discriminate].
      * apply str_eqb_neq in E2. destruct (find d' m); [split; [ring|right; discriminate]|now split].
    + destruct (str_eqb k d') eqn:E2; [|exact IH]. split; [|right; discriminate].
      destruct (str_eqb d d') eqn:E3; [|ring]. apply str_eqb_eq in E2, E3. apply str_eqb_neq in E1. congruence.
Qed.
Lemma add_keys d c : forall m, NoDup (map fst m) -> NoDup (map fst (add_count d c m))
  /\ forall x, In x (map fst (add_count d c m)) -> x = d \/ In x (map fst m).
Proof.
  induction m as [|[k v] m IH]; intros H; cbn [add_count].
  - split; [constructor; [intros []|apply NoDup_nil]|]. cbn. intuition.
  - cbn [map fst] in *. inversion H as [|? ? H1 H2]; subst. destruct (str_eqb k d) eqn:E; cbn [map fst].
    + split; [exact H|]. intros x I. now right.
    + destruct (IH H2) as [A B]. split; [constructor; [|exact A]|].
      * intros I. apply B in I as [I|I]; [subst; rewrite str_eqb_refl in E; discriminate|contradiction].
      * intros x [<-|I]; [right; now left|]. apply B in I as [->|I]; [now left|right; now right].
Qed.
Lemma counts_snoc spec d pairs p : counts_in spec d (pairs ++ [p]) = counts_in spec d pairs ++ (if str_eqb (domain_of spec (fst p)) d then [snd p] else []).
Proof. unfold counts_in. rewrite filter_app, map_app. cbn [filter]. destruct (str_eqb (domain_of spec (fst p)) d); reflexivity. Qed.
Lemma sum_app a b : (sum (a ++ b) == sum a + sum b)%Q.
Proof. induction a as [|q a IH]; cbn [app sum]; [ring|]. rewrite IH. ring. Qed.

(** A domain has a count exactly if a pair is of it, and it is the sum of the counts of these. *)
Theorem C98_counts : forall spec pairs, NoDup (map fst (domain_count spec pairs))
  /\ forall d, match find d (domain_count spec pairs) with
               | Some q => counts_in spec d pairs <> [] /\ (q == sum (counts_in spec d pairs))%Q
               | None => counts_in spec d pairs = []
               end.
Proof.
  intros spec pairs. induction pairs as [|p pairs [IH1 IH2]] using rev_ind; [split; [apply NoDup_nil|reflexivity]|].
  unfold domain_count in *. rewrite fold_left_app. cbn [fold_left].
  set (m := fold_left _ pairs []) in *. split; [apply add_keys, IH1|]. intros d. specialize (IH2 d).
  pose proof (find_add (domain_of spec (fst p)) d (snd p) m) as A. rewrite counts_snoc.
  destruct (find d (add_count (domain_of spec (fst p)) (snd p) m)) as [q|].
  - destruct A as [A1 A2]. destruct (str_eqb (domain_of spec (fst p)) d) eqn:E.
    + split; [intros Q; apply app_eq_nil in Q as [_ Q]; discriminate|]. rewrite A1, sum_app. cbn [sum].
      destruct (find d m) as [v|]; [destruct IH2 as [_ ->]; ring|rewrite IH2; cbn [sum]; ring].
    + rewrite app_nil_r. apply str_eqb_neq in E. destruct A2 as [A2|A2]; [contradiction|].
      destruct (find d m) as [v|]; [|now elim A2]. destruct IH2 as [B1 B2]. split; [exact B1|]. rewrite A1, B2. ring.
  - destruct A as [A1 A2]. rewrite A1 in IH2. rewrite IH2. destruct (str_eqb (domain_of spec (fst p)) d) eqn:E; [apply str_eqb_eq in E; contradiction|reflexivity].
Qed.
Print Assumptions C98_counts.

(* ------------------------------------------------------------------ *)
(** * The features *)

Definition of_domain (spec : list (Z * str)) (d : str) (pairs : list (Z * Q)) : Prop := exists p, In p pairs /\ domain_of spec (fst p) = d.
Lemma find_of_domain spec pairs d : (exists q, find d (domain_count spec pairs) = Some q) <-> of_domain spec d pairs.
Proof.
  destruct (C98_counts spec pairs) as [_ C]. specialize (C d). unfold of_domain, counts_in in *. split.
  - intros [q E]. rewrite E in C. destruct C as [C _]. destruct (filter _ pairs) as [|p l] eqn:F; [now elim C|]. exists p.
    assert (I : In p (p :: l)) by now left. rewrite <- F in I. apply filter_In in I as [I1 I2]. apply str_eqb_eq in I2. now split.
  - intros (p & I & E). destruct (find d (domain_count spec pairs)) as [q|]; [now exists q|]. exfalso.
    assert (J : In p (filter (fun p => str_eqb (domain_of spec (fst p)) d) pairs)) by (apply filter_In; split; [exact I|now apply str_eqb_eq]).
    apply map_eq_nil in C. rewrite C in J. destruct J.
Qed.

(** The indicator of a domain is set exactly if a pair is of it. *)
Theorem C98_indicators : forall spec names pairs i d, nth_error names i = Some d ->
  exists b, nth_error (indicator_features names (domain_count spec pairs)) i = Some b /\ (b = true <-> of_domain spec d pairs).
Proof.
  intros spec names pairs i d E. unfold indicator_features. rewrite nth_error_map, E. cbn [option_map].
  eexists. split; [reflexivity|]. rewrite <- find_of_domain. destruct (find d (domain_count spec pairs)) as [q|].
  - split; [intros _; now exists q|reflexivity].
  - split; [discriminate|intros [q Q]; discriminate].
Qed.
Print Assumptions C98_indicators.

(** The ratio of a domain is its share of the counts. *)
Theorem C98_ratios : forall spec names pairs count i d, nth_error names i = Some d ->
  exists q, nth_error (ratio_features names (domain_count spec pairs) count) i = Some q
    /\ (q == sum (counts_in spec d pairs) / count)%Q.
Proof.
  intros spec names pairs count i d E. unfold ratio_features. rewrite nth_error_map, E. cbn [option_map].
  eexists. split; [reflexivity|]. destruct (C98_counts spec pairs) as [_ C]. specialize (C d).
  destruct (find d (domain_count spec pairs)) as [v|]; [destruct C as [_ ->]; reflexivity|]. rewrite C. cbn [sum]. unfold Qdiv. ring.
Qed.
Print Assumptions C98_ratios.

Lemma sum_map_add (f g : str -> Q) l : (sum (map (fun d => f d + g d) l) == sum (map f l) + sum (map g l))%Q.
Proof. induction l as [|d l IH]; cbn [map sum]; [ring|]. rewrite IH. ring. Qed.
Lemma sum_one c d0 : forall l, NoDup l -> In d0 l -> (sum (map (fun d => if str_eqb d0 d then c else 0) l) == c)%Q.
Proof.
  induction l as [|d l IH]; intros N I; [destruct I|]. inversion N as [|? ? N1 N2]; subst. cbn [map sum]. destruct I as [->|I].
  - rewrite str_eqb_refl. assert (Z0 : (sum (map (fun d => if str_eqb d0 d then c else 0) l) == 0)%Q).
    { clear - N1. induction l as [|d l IH]; cbn [map sum]; [reflexivity|]. destruct (str_eqb d0 d) eqn:E.
      - apply str_eqb_eq in E. subst. exfalso. apply N1. now left.
      - rewrite IH; [ring|]. intros I. apply N1. now right. }
    rewrite Z0. ring.
  - destruct (str_eqb d0 d) eqn:E; [apply str_eqb_eq in E; subst; contradiction|]. rewrite (IH N2 I). ring.
Qed.
Lemma sum_ext (f g : str -> Q) l : (forall d, f d == g d)%Q -> (sum (map f l) == sum (map g l))%Q.
Proof. intros E. induction l as [|d l IH]; cbn [map sum]; [reflexivity|]. now rewrite IH, E. Qed.

(** The ratios of a group whose sentences all have a domain of the list make 1 together. *)
Theorem C98_ratios_sum : forall spec names pairs, NoDup names ->
  (forall p, In p pairs -> In (domain_of spec (fst p)) names) -> ~ (sum (map snd pairs) == 0)%Q ->
  (sum (ratio_features names (domain_count spec pairs) (sum (map snd pairs))) == 1)%Q.
Proof.
  intros spec names pairs N H Z0.
  assert (A : (sum (map (fun d => sum (counts_in spec d pairs)) names) == sum (map snd pairs))%Q).
  { clear Z0. induction pairs as [|p pairs IH].
    - cbn [map sum]. clear. induction names as [|d l IH]; cbn [map sum]; [reflexivity|]. rewrite IH. reflexivity.
    - rewrite (sum_ext _ (fun d => (if str_eqb (domain_of spec (fst p)) d then snd p else 0) + sum (counts_in spec d pairs))%Q).
      + rewrite sum_map_add, (sum_one (snd p) (domain_of spec (fst p)) names N (H p (or_introl eq_refl))), IH; [reflexivity|].
        intros q I. apply H. now right.
      + intros d. unfold counts_in. cbn [filter]. destruct (str_eqb (domain_of spec (fst p)) d); cbn [map sum]; ring. }
  set (total := sum (map snd pairs)) in *.
  assert (B : (sum (ratio_features names (domain_count spec pairs) total) == sum (map (fun d => sum (counts_in spec d pairs)) names) / total)%Q).
  { unfold ratio_features. clear - N. destruct (C98_counts spec pairs) as [_ C]. induction names as [|d l IH]; cbn [map sum]; [unfold Qdiv; ring|].
    inversion N as [|? ? N1 N2]; subst. rewrite (IH N2). specialize (C d). destruct (find d (domain_count spec pairs)) as [v|].
    - destruct C as [_ ->]. unfold Qdiv. ring.
    - rewrite C. cbn [sum]. unfold Qdiv. ring. }
  rewrite B, A. field. exact Z0.
Qed.
Print Assumptions C98_ratios_sum.

(** The subset features: up to six domains, one feature for each set of domains but the empty one, in the order of the
    binary numbers; exactly that of the domains of the group is set. *)
Fixpoint bits (m : list (str * Q)) (names : list str) : N :=
  match names with [] => 0%N | d :: l => (2 * bits m l + N.b2n (match find d m with Some _ => true | None => false end))%N end.
Lemma bitmap_bits m : forall names bit, bitmap m bit names = (2 ^ bit * bits m names)%N.
Proof.
  induction names as [|d l IH]; intros bit; cbn [bitmap bits]; [lia|]. rewrite IH, N.add_1_r, N.pow_succ_r', N.shiftl_1_l.
  destruct (find d m); cbn [N.b2n]; lia.
Qed.
Lemma bits_test m : forall names i, N.testbit (bits m names) (N.of_nat i) = true <-> exists d q, nth_error names i = Some d /\ find d m = Some q.
Proof.
  induction names as [|d l IH]; intros i; cbn [bits].
  - rewrite N.bits_0. split; [discriminate|]. intros (d & q & E & _). destruct i; discriminate.
  - destruct i as [|i].
    + change (N.of_nat 0) with 0%N. rewrite N.testbit_0_r. cbn [nth_error]. destruct (find d m) as [q|] eqn:E.
      * split; [intros _; now exists d, q|reflexivity].
      * split; [discriminate|]. intros (d' & q & E1 & E2). congruence.
    + rewrite Nat2N.inj_succ, N.testbit_succ_r. exact (IH i).
Qed.
Lemma bits_bound m : forall names, (bits m names < 2 ^ N.of_nat (length names))%N.
Proof.
  induction names as [|d l IH]; cbn [bits length]; [cbn; lia|]. rewrite Nat2N.inj_succ, N.pow_succ_r'. destruct (find d m); cbn [N.b2n]; lia.
Qed.
Lemma of_nat_pow2 n : N.of_nat (2 ^ n) = (2 ^ N.of_nat n)%N.
Proof. induction n as [|n IH]; [reflexivity|]. rewrite Nat2N.inj_succ, N.pow_succ_r', <- IH. cbn [Nat.pow]. lia. Qed.

Theorem C98_subsets : forall spec names pairs, length names <= 6 ->
  exists l, subset_features names (domain_count spec pairs) = Some l /\ length l = 2 ^ length names - 1
    /\ forall k, 1 <= k < 2 ^ length names ->
       exists b, nth_error l (k - 1) = Some b
         /\ (b = true <-> forall i d, nth_error names i = Some d -> (N.testbit (N.of_nat k) (N.of_nat i) = true <-> of_domain spec d pairs)).
Proof.
  intros spec names pairs L. unfold subset_features. destruct (Nat.ltb_spec 6 (length names)); [lia|].
  eexists. split; [reflexivity|]. split; [now rewrite map_length, seq_length|]. intros k Hk.
  rewrite nth_error_map. assert (E : nth_error (seq 1 (2 ^ length names - 1)) (k - 1) = Some k).
  { rewrite (nth_error_nth' _ 0) by (rewrite seq_length; lia). f_equal. rewrite seq_nth by lia. lia. }
  rewrite E. cbn [option_map]. eexists. split; [reflexivity|]. rewrite bitmap_bits, N.pow_0_r, N.mul_1_l, N.eqb_eq.
  set (m := domain_count spec pairs) in *. split.
  - intros Q i d Hd. rewrite <- Q, bits_test, <- find_of_domain. fold m. split.
    + intros (d' & q & E1 & E2). exists q. congruence.
    + intros [q E2]. now exists d, q.
  - intros Q. apply N.bits_inj. intros j. rewrite <- (N2Nat.id j). set (i := N.to_nat j).
    destruct (nth_error names i) as [d|] eqn:Ed.
    + apply Bool.eq_iff_eq_true. rewrite (Q i d Ed), bits_test, <- find_of_domain. fold m. split.
      * intros (d' & q & E1 & E2). exists q. congruence.
      * intros [q E2]. now exists d, q.
    + apply nth_error_None in Ed. assert (P : forall a, (a < 2 ^ N.of_nat (length names))%N -> N.testbit a (N.of_nat i) = false).
      { intros a Ha. destruct (N.eq_dec a 0) as [->|Na]; [apply N.bits_0|]. apply N.bits_above_log2.
        apply N.log2_lt_pow2; [lia|]. eapply N.lt_le_trans; [exact Ha|]. apply N.pow_le_mono_r; lia. }
      rewrite (P _ (bits_bound m names)), P; [reflexivity|]. rewrite <- of_nat_pow2. lia.
Qed.
Print Assumptions C98_subsets.
(** Two domains, a group with pairs of the second and of none; shares and sets. *)
Example C98_features_case :
  let m := domain_count spec3 [(4%Z, 1%Q); (5%Z, 2%Q); (1%Z, 1%Q)] in
  indicator_features [txt "news"; txt "law"] m = [true; true] /\ subset_features [txt "news"; txt "law"] m = Some [false; false; true]
  /\ map Qred (ratio_features [txt "news"; txt "law"] m 4) = [1 # 4; 3 # 4]%Q
  /\ subset_features [txt "news"; txt "law"] (domain_count spec3 [(4%Z, 1%Q); (11%Z, 1%Q)]) = Some [false; true; false].
Proof. vm_compute. repeat split. Qed.

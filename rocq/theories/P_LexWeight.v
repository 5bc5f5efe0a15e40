(** C99: lexical weights, penalties for unaligned words, and crossing non-terminals in score. *)
From Coq Require Import String Ascii.
From Coq Require Import List Arith ZArith QArith Bool Lia Lqa.
From Verif Require Import M_Consolidate M_ScoreRead P_ScoreRead M_LexWeight.
Import ListNotations.
Local Open Scope nat_scope.

(* ------------------------------------------------------------------ *)
(** * The table *)

Lemma get_put {A} k k' (a : A) : forall m, get k' (put k a m) = if k =? k' then Some a else get k' m.
Proof.
  induction m as [|[x b] m IH]; cbn [put get]; [reflexivity|]. destruct (Nat.eqb_spec x k) as [->|E]; cbn [get].
  - destruct (k =? k'); reflexivity.
  - rewrite IH. destruct (Nat.eqb_spec x k') as [->|E']; [|reflexivity]. destruct (Nat.eqb_spec k k'); [congruence|reflexivity].
Qed.
Definition get2 (m : table) (s t : nat) : option Q := match get s m with Some r => get t r | None => None end.
Lemma get2_assign m s t p s' t' : get2 (assign m s t p) s' t' = if (s =? s') && (t =? t') then Some p else get2 m s' t'.
Proof.
  unfold get2, assign. rewrite get_put. destruct (Nat.eqb_spec s s') as [->|E]; cbn [andb]; [|reflexivity].
  rewrite get_put. destruct (t =? t'); [reflexivity|]. destruct (get s' m); reflexivity.
Qed.
Lemma lookup_get2 m s t : lookup m s t = match get2 m s t with Some p => p | None => 1%Q end.
Proof. unfold lookup, get2. destruct (get s m) as [r|]; [|reflexivity]. now destruct (get t r). Qed.

Section Table.
  Variable atof : str -> Q.
  (** The probability in the last line "target source number" with these words. *)
  Definition line_prob (s t l : str) : option Q :=
    match tokens l with
    | [t'; s'; p] => if list_eq_dec ascii_dec t' t then if list_eq_dec ascii_dec s' s then Some (atof p) else None else None
    | _ => None
    end.
  Fixpoint last_prob (s t : str) (lines : list str) : option Q :=
    match lines with
    | [] => None
    | l :: lines' => match last_prob s t lines' with Some p => Some p | None => line_prob s t l end
    end.
  (** ... or 1 if there is none *)
  Definition prob (lines : list str) (s t : str) : Q := match last_prob s t lines with Some p => p | None => 1%Q end.

  Lemma last_snoc s t l : forall lines, last_prob s t (lines ++ [l]) = match line_prob s t l with Some p => Some p | None => last_prob s t lines end.
  Proof.
    induction lines as [|x lines IH]; cbn [app last_prob]; [destruct (line_prob s t l); reflexivity|]. rewrite IH.
    destruct (line_prob s t l); [reflexivity|]. reflexivity.
  Qed.

  Definition Inv (vs vt : list str) (m : table) (done : list str) : Prop :=
    NoDup vs /\ NoDup vt
    /\ (forall ns nt, get2 m ns nt = match nth_error vs ns, nth_error vt nt with Some s, Some t => last_prob s t done | _, _ => None end)
    /\ (forall s t, last_prob s t done <> None -> In s vs /\ In t vt).

  Lemma nth_old v w v' n k : store v w = (v', n) -> k <> n -> nth_error v' k = nth_error v k.
  Proof.
    unfold store. destruct (find_word w v) as [j|]; intros E; injection E as <- <-; [reflexivity|]. intros D.
    destruct (Nat.lt_ge_cases k (length v)); [now rewrite nth_error_app1|]. rewrite nth_error_app2 by lia.
    transitivity (@None str); [|symmetry; now apply nth_error_None]. apply nth_error_None. cbn. lia.
  Qed.
  Lemma store_incl v w v' n : store v w = (v', n) -> incl v v' /\ In w v'.
  Proof.
    intros E. apply store_ok in E as [E1 [x ->]]. split; [intros y I; apply in_or_app; now left|exact (nth_error_In _ _ E1)].
  Qed.
  (** a pair of numbers that gets nothing before names no pair of words with a line before *)
  Lemma new_none vs s vs' ns done m vt : Inv vs vt m done -> store vs s = (vs', ns) -> nth_error vs ns = None -> forall t, last_prob s t done = None.
  Proof.
    intros (N1 & _ & _ & H) E Q t. destruct (last_prob s t done) eqn:L; [|reflexivity]. exfalso.
    destruct (H s t) as [I _]; [congruence|]. destruct (C97_vocabulary vs s vs' ns N1 E) as (_ & [[-> _]|[_ W]] & U); [|contradiction].
    assert (nth_error vs ns = Some s) by now apply U. congruence.
  Qed.
  Lemma inv_line vs vt m done t s w l vs' vt' ns nt : Inv vs vt m done -> tokens l = [t; s; w] ->
    store vt t = (vt', nt) -> store vs s = (vs', ns) -> Inv vs' vt' (assign m ns nt (atof w)) (done ++ [l]).
  Proof.
    intros I T Et Es. pose proof I as (N1 & N2 & G & W).
    destruct (C97_vocabulary vs s vs' ns N1 Es) as (N1' & C1 & U1). destruct (C97_vocabulary vt t vt' nt N2 Et) as (N2' & C2 & U2).
    assert (LP : forall s0 t0, line_prob s0 t0 l <> None -> s0 = s /\ t0 = t).
    { intros s0 t0. unfold line_prob. rewrite T. destruct (list_eq_dec ascii_dec t t0); [|congruence]. destruct (list_eq_dec ascii_dec s s0); [|congruence]. now split. }
    assert (LQ : line_prob s t l = Some (atof w)).
    { unfold line_prob. rewrite T. destruct (list_eq_dec ascii_dec t t); [|congruence]. destruct (list_eq_dec ascii_dec s s); congruence. }
    split; [exact N1'|]. split; [exact N2'|]. split.
    - intros a b. rewrite get2_assign. destruct (Nat.eqb_spec ns a) as [<-|Da]; [destruct (Nat.eqb_spec nt b) as [<-|Db]|]; cbn [andb].
      + rewrite (proj2 (U1 ns) eq_refl), (proj2 (U2 nt) eq_refl), last_snoc, LQ. reflexivity.
      + rewrite (proj2 (U1 ns) eq_refl), (nth_old _ _ _ _ b Et) by congruence. rewrite G.
        destruct (nth_error vt b) as [t0|] eqn:Eb; [|destruct (nth_error vs ns); reflexivity]. rewrite last_snoc.
        assert (t0 <> t) by (intros ->; apply Db; symmetry; apply U2; rewrite (nth_old _ _ _ _ b Et) by congruence; exact Eb).
        destruct (line_prob s t0 l) eqn:El; [destruct (LP s t0); [congruence|contradiction]|].
        destruct (nth_error vs ns) as [s0|] eqn:Ea; [|symmetry; exact (new_none vs s vs' ns done m vt I Es Ea t0)].
        assert (nth_error vs' ns = Some s0) by (destruct C1 as [[-> _]|[-> _]]; [exact Ea|rewrite nth_error_app1; [exact Ea|apply nth_error_Some; congruence]]).
        rewrite (proj2 (U1 ns) eq_refl) in H0. injection H0 as <-. reflexivity.
      + rewrite (nth_old _ _ _ _ a Es) by congruence. rewrite G. destruct (nth_error vs a) as [s0|] eqn:Ea; [|reflexivity].
        assert (s0 <> s) by (intros ->; apply Da; symmetry; apply U1; rewrite (nth_old _ _ _ _ a Es) by congruence; exact Ea).
        destruct (Nat.eq_dec b nt) as [->|Db].
        * rewrite (proj2 (U2 nt) eq_refl), last_snoc. destruct (line_prob s0 t l) eqn:El; [destruct (LP s0 t); [congruence|contradiction]|].
          destruct (nth_error vt nt) as [t0|] eqn:Eb.
          -- assert (nth_error vt' nt = Some t0) by (destruct C2 as [[-> _]|[-> _]]; [exact Eb|rewrite nth_error_app1; [exact Eb|apply nth_error_Some; congruence]]).
             rewrite (proj2 (U2 nt) eq_refl) in H0. injection H0 as <-. reflexivity.
          -- destruct (last_prob s0 t done) eqn:L; [|reflexivity]. exfalso. destruct (W s0 t) as [_ It]; [congruence|].
             destruct C2 as [[-> _]|[_ C2]]; [|contradiction]. rewrite (proj2 (U2 nt) eq_refl) in Eb. discriminate.
        * rewrite (nth_old _ _ _ _ b Et) by congruence. destruct (nth_error vt b) as [t0|]; [|reflexivity]. rewrite last_snoc.
          destruct (line_prob s0 t0 l) eqn:El; [destruct (LP s0 t0); [congruence|contradiction]|reflexivity].
    - intros s0 t0 Q. rewrite last_snoc in Q. destruct (store_incl _ _ _ _ Es) as [J1 J2]. destruct (store_incl _ _ _ _ Et) as [J3 J4].
      destruct (line_prob s0 t0 l) eqn:El.
      + destruct (LP s0 t0) as [-> ->]; [congruence|]. now split.
      + destruct (W s0 t0 Q) as [A B]. split; [exact (J1 _ A)|exact (J3 _ B)].
  Qed.
  Lemma load_inv : forall lines vs vt m done vs' vt' m', Inv vs vt m done -> load_table atof lines vs vt m = Some (vs', vt', m') ->
    Inv vs' vt' m' (done ++ lines).
  Proof.
    induction lines as [|l lines IH]; intros vs vt m done vs' vt' m' I E; cbn [load_table] in E.
    - injection E as <- <- <-. now rewrite app_nil_r.
    - assert (K : (exists t s p, tokens l = [t; s; p]) \/ (forall s t, line_prob s t l = None)).
      { unfold line_prob. destruct (tokens l) as [|t [|s [|p [|]]]]; [right; reflexivity..|left; now exists t, s, p|right; reflexivity]. }
      replace (done ++ l :: lines) with ((done ++ [l]) ++ lines) by (rewrite <- app_assoc; reflexivity).
      destruct K as [(t & s & p & T)|K].
      + rewrite T in E. destruct (store vt t) as [vt1 nt] eqn:Et. destruct (store vs s) as [vs1 ns] eqn:Es.
        refine (IH _ _ _ _ _ _ _ _ E). exact (inv_line vs vt m done t s p l vs1 vt1 ns nt I T Et Es).
      + assert (I' : Inv vs vt m (done ++ [l])).
        { destruct I as (A & B & C & D). split; [exact A|]. split; [exact B|]. split.
          - intros a b. rewrite C. destruct (nth_error vs a); [|reflexivity]. destruct (nth_error vt b); [|reflexivity]. now rewrite last_snoc, K.
          - intros s t. rewrite last_snoc, K. apply D. }
        destruct (tokens l) as [|t [|s [|p [|q r]]]] eqn:T.
        * discriminate E.
        * exact (IH _ _ _ _ _ _ _ I' E).
        * exact (IH _ _ _ _ _ _ _ I' E).
        * specialize (K s t). unfold line_prob in K. rewrite T in K. destruct (list_eq_dec ascii_dec t t); [|congruence].
          destruct (list_eq_dec ascii_dec s s); congruence.
        * exact (IH _ _ _ _ _ _ _ I' E).
  Qed.
End Table.

(** The table holds for each pair of words the probability in the last line with them, and 1 for others, also when the
    vocabularies have grown since. *)
Theorem C99_table : forall atof lines vs vt m xs xt, load_table atof lines [] [] [] = Some (vs, vt, m) ->
  NoDup (vs ++ xs) -> NoDup (vt ++ xt) ->
  forall ns nt s t, nth_error (vs ++ xs) ns = Some s -> nth_error (vt ++ xt) nt = Some t -> lookup m ns nt = prob atof lines s t.
Proof.
  intros atof lines vs vt m xs xt E N1 N2 ns nt s t Hs Ht.
  destruct (load_inv atof lines [] [] [] [] vs vt m) as (_ & _ & G & W); [|exact E|].
  { split; [apply NoDup_nil|]. split; [apply NoDup_nil|]. split; [intros [|a] b; reflexivity|]. intros s0 t0 Q. now elim Q. }
  cbn [app] in G, W. rewrite lookup_get2, G. unfold prob.
  assert (P : forall (v x : list str) n w, NoDup (v ++ x) -> nth_error (v ++ x) n = Some w -> nth_error v n = Some w \/ nth_error v n = None /\ ~ In w v).
  { intros v x n w N Q. destruct (Nat.lt_ge_cases n (length v)) as [L|L]; [left; now rewrite nth_error_app1 in Q|]. right.
    split; [now apply nth_error_None|]. intros I. apply In_nth_error in I as [k I]. assert (K : k < length v) by (apply nth_error_Some; congruence).
    assert (n = k); [|lia]. apply (proj1 (NoDup_nth_error _) N); [apply nth_error_Some; congruence|]. rewrite Q, nth_error_app1 by exact K. now symmetry. }
  destruct (P _ _ _ _ N1 Hs) as [Q1|[Q1 A1]]; rewrite Q1; [destruct (P _ _ _ _ N2 Ht) as [Q2|[Q2 A2]]; rewrite Q2|].
  - reflexivity.
  - destruct (last_prob atof s t lines) eqn:L; [|reflexivity]. destruct (W s t); [congruence|contradiction].
  - destruct (last_prob atof s t lines) eqn:L; [|reflexivity]. destruct (W s t); [congruence|contradiction].
Qed.
Print Assumptions C99_table.

(* ------------------------------------------------------------------ *)
(** * The lexical weight *)

Fixpoint sum (l : list Q) : Q := match l with [] => 0%Q | q :: l' => (q + sum l')%Q end.
Fixpoint product (l : list Q) : Q := match l with [] => 1%Q | q :: l' => (q * product l')%Q end.
(** A target word aligned to nothing has the probability with NULL, any other the average of those with its words. *)
Definition weight (pr : str -> str -> Q) (ws : list str) (x : list nat * str) : Q :=
  match fst x with
  | [] => pr null_word (snd x)
  | l => (sum (map (fun j => pr (nth j ws []) (snd x)) l) / inject_Z (Z.of_nat (length l)))%Q
  end.

Lemma word_score_ok m src t (f : nat -> Q) : forall l acc,
  Forall (fun p => exists s, nth_error src p = Some s /\ lookup m s t = f p) l ->
  exists q, word_score m src t l acc = Some q /\ (q == acc + sum (map f l))%Q.
Proof.
  induction l as [|p l IH]; intros acc F; cbn [word_score map sum].
  - exists acc. split; [reflexivity|ring].
  - inversion F as [|? ? (s & E & Q) F']; subst. rewrite E. destruct (IH (acc + lookup m s t)%Q F') as (q & A & B).
    exists q. split; [exact A|]. rewrite B, Q. ring.
Qed.

(** The lexical weight of a pair of phrases, named by the numbers of the vocabularies, is the product of the weights of its
    target words, if NULL is a word of the table. *)
Theorem C99_lexical : forall atof lines vs vt m xs xt src tgt ws wt toT,
  load_table atof lines [] [] [] = Some (vs, vt, m) -> NoDup (vs ++ xs) -> NoDup (vt ++ xt) -> In null_word (vs ++ xs) ->
  map (nth_error (vs ++ xs)) src = map Some ws -> map (nth_error (vt ++ xt)) tgt = map Some wt ->
  length toT <= length tgt -> Forall (Forall (fun p => p < length src)) toT ->
  exists q, lexical_translation m (vs ++ xs) src tgt toT = Some q
    /\ (q == product (map (weight (prob atof lines) ws) (combine toT wt)))%Q.
Proof.
  intros atof lines vs vt m xs xt src tgt ws wt toT E N1 N2 HN Hs Ht L F. unfold lexical_translation.
  assert (Null : nth_error (vs ++ xs) (word_id (vs ++ xs) null_word) = Some null_word).
  { unfold word_id. destruct (find_word null_word (vs ++ xs)) as [n|] eqn:Q; [now apply find_word_some|]. apply find_word_none in Q. contradiction. }
  pose proof (C99_table atof lines vs vt m xs xt E N1 N2) as T.
  assert (Src : forall p, p < length src -> exists s, nth_error src p = Some s /\ nth_error (vs ++ xs) s = Some (nth p ws [])).
  { clear - Hs. revert ws Hs. induction src as [|s src IH]; intros [|w ws] H p Hp; cbn [map length] in *; try discriminate; try lia.
    assert (H1 : nth_error (vs ++ xs) s = Some w) by congruence. assert (H2 : map (nth_error (vs ++ xs)) src = map Some ws) by congruence.
    destruct p as [|p]; [exists s; now split|]. exact (IH ws H2 p ltac:(lia)). }
  assert (K : forall toT tgt wt score, map (nth_error (vt ++ xt)) tgt = map Some wt -> length toT <= length tgt ->
    Forall (Forall (fun p => p < length src)) toT ->
    exists q, lex_loop m (word_id (vs ++ xs) null_word) src tgt toT score = Some q
      /\ (q == score * product (map (weight (prob atof lines) ws) (combine toT wt)))%Q).
  { clear toT tgt wt Ht L F. induction toT as [|l toT IH]; intros tgt wt score Ht L F.
    - exists score. split; [reflexivity|]. cbn. ring.
    - destruct tgt as [|t tgt]; cbn [length] in L; [lia|]. destruct wt as [|w wt]; [discriminate Ht|]. cbn [map] in Ht.
      assert (Ht1 : nth_error (vt ++ xt) t = Some w) by congruence. assert (Ht2 : map (nth_error (vt ++ xt)) tgt = map Some wt) by congruence.
      inversion F as [|? ? F1 F2]; subst. cbn [lex_loop combine map product].
      assert (W : Forall (fun p => exists s, nth_error src p = Some s /\ lookup m s t = prob atof lines (nth p ws []) w) l).
      { eapply Forall_impl; [|exact F1]. cbn beta. intros p Hp. destruct (Src p Hp) as (s & A & B). exists s. split; [exact A|exact (T s t _ w B Ht1)]. }
      destruct l as [|p l].
      + destruct (IH tgt wt (score * lookup m (word_id (vs ++ xs) null_word) t)%Q Ht2 ltac:(lia) F2) as (q & A & B).
        exists q. split; [exact A|]. rewrite B. unfold weight at 2. cbn [fst snd]. rewrite (T _ t _ w Null Ht1). ring.
      + destruct (word_score_ok m src t _ (p :: l) 0%Q W) as (v & A1 & B1). rewrite A1.
        destruct (IH tgt wt (score * (v / inject_Z (Z.of_nat (length (p :: l)))))%Q Ht2 ltac:(lia) F2) as (q & A & B).
        exists q. split; [exact A|]. rewrite B, B1. unfold weight at 2. cbn [fst snd]. unfold Qdiv. ring. }
  destruct (K toT tgt wt 1%Q Ht L F) as (q & A & B). exists q. split; [exact A|]. rewrite B. ring.
Qed.
Print Assumptions C99_lexical.

Definition half (w : str) : Q := match w with [c] => (Z.of_nat (nat_of_ascii c - 48) # 10)%Q | _ => 0%Q end.
Definition txt (s : string) : str := list_ascii_of_string s.
(** Lines with tenths: x by a 5/10, then 6/10; y by NULL 3/10; x by b 2/10. *)
Definition lines4 : list str := [txt "x a 5"; txt "y NULL 3"; txt "x b 2"; txt "x a 6"].
Example C99_lexical_case :
  match load_table half lines4 [] [] [] with
  | Some (vs, vt, m) =>
    vs = [txt "a"; txt "NULL"; txt "b"] /\ vt = [txt "x"; txt "y"] /\ lookup m 0 0 = (6 # 10)%Q
    /\ option_map Qred (lexical_translation m vs [0; 2] [0; 1] [[0; 1]; []]) = Some (3 # 25)%Q
    /\ Qred (product (map (weight (prob half lines4) [txt "a"; txt "b"]) (combine [[0; 1]; []] [txt "x"; txt "y"]))) = (3 # 25)%Q
  | None => False
  end.
Proof. vm_compute. repeat split. Qed.

(** Not true without NULL in the table: then an unaligned word is explained by the first word of the vocabulary, here with
    1/4 in place of 1/2. And an empty line of the file reads the first of no words. *)
Theorem C99_lexical_refuted :
  match load_table half [txt "x a 5"] [] [] [] with
  | Some (vs, vt, m) =>
    option_map Qred (lexical_translation m vs [0] [0; 0] [[0]; []]) = Some (1 # 4)%Q
    /\ Qred (product (map (weight (prob half [txt "x a 5"]) [txt "a"]) (combine [[0]; []] [txt "x"; txt "x"]))) = (1 # 2)%Q
  | None => False
  end
  /\ load_table half [txt "x a 5"; []] [] [] [] = None.
Proof. vm_compute. repeat split. Qed.
Print Assumptions C99_lexical_refuted.

(* ------------------------------------------------------------------ *)
(** * Penalties *)

(** The penalty is 2.718 to the power of the number of unaligned places that count. *)
Theorem C99_penalty : forall counts toT,
  (penalty counts toT == product (repeat (2718 # 1000) (length (filter (fun i => match nth i toT [] with [] => counts i | _ => false end) (seq 0 (length toT))))))%Q.
Proof.
  intros counts toT. unfold penalty.
  assert (K : forall toT pre acc,
    (penalty_loop counts (length pre) toT acc
     == acc * product (repeat (2718 # 1000) (length (filter (fun i => match nth i (pre ++ toT) [] with [] => counts i | _ => false end) (seq (length pre) (length toT))))))%Q).
  { clear toT. induction toT as [|l toT IH]; intros pre acc; [cbn; ring|]. cbn [length seq].
    assert (E : nth (length pre) (pre ++ l :: toT) [] = l) by (rewrite app_nth2 by lia; now rewrite Nat.sub_diag).
    specialize (IH (pre ++ [l])). rewrite app_length, Nat.add_1_r, <- app_assoc in IH. cbn [app] in IH. cbn [filter]. rewrite E.
    cbn [penalty_loop]. destruct l as [|p l].
    - destruct (counts (length pre)); cbn [length repeat product]; rewrite IH; ring.
    - apply IH. }
  rewrite (K toT [] 1%Q). cbn [app length]. ring.
Qed.
Print Assumptions C99_penalty.
Example C99_penalty_case : Qred (penalty (fun _ => true) [[]; [0]; []]) = Qred ((2718 # 1000) * (2718 # 1000))
  /\ Qred (penalty (fun i => i =? 2) [[]; [0]; []]) = Qred (2718 # 1000).
Proof. vm_compute. split; reflexivity. Qed.

(* ------------------------------------------------------------------ *)
(** * Crossing non-terminals *)

(** Two points cross if the order of their sources is not that of their targets. *)
Definition Cross (s t s' t' : nat) : Prop := s' < s /\ t < t' \/ s < s' /\ t' < t.
Lemma crossed_at_spec s t : forall toS cur, crossed_at s t cur toS = true <-> exists i t', In t' (nth i toS []) /\ Cross s t (cur + i) t'.
Proof.
  induction toS as [|l toS IH]; intros cur; cbn [crossed_at].
  - split; [discriminate|]. intros (i & t' & I & _). destruct i; destruct I.
  - rewrite orb_true_iff, andb_true_iff, IH, existsb_exists. split.
    + intros [[_ (x & I & Q)]|(i & t' & I & Q)].
      * exists 0, x. split; [exact I|]. rewrite Nat.add_0_r. apply orb_true_iff in Q as [Q|Q]; apply andb_true_iff in Q as [Q1 Q2]; apply Nat.ltb_lt in Q1, Q2; [left|right]; now split.
      * exists (S i), t'. split; [exact I|]. now rewrite Nat.add_succ_r.
    + intros ([|i] & t' & I & Q); cbn [nth] in I.
      * left. rewrite Nat.add_0_r in Q. split.
        -- destruct (Nat.eqb_spec cur s) as [->|]; [destruct Q as [[Q _]|[Q _]]; lia|reflexivity].
        -- exists t'. split; [exact I|]. apply orb_true_iff. destruct Q as [[Q1 Q2]|[Q1 Q2]]; [left|right]; apply andb_true_iff; split; now apply Nat.ltb_lt.
      * right. exists i, t'. split; [exact I|]. now rewrite Nat.add_succ_r in Q.
Qed.

(** If each non-terminal is aligned to one place, the answer is whether a point crosses that of a non-terminal. *)
Theorem C99_crossed : forall non_term toS,
  (forall s, s < length toS -> non_term s = true -> exists t, nth s toS [] = [t]) ->
  exists b, crossed non_term toS = Some b
    /\ (b = true <-> exists s t s' t', non_term s = true /\ In t (nth s toS []) /\ In t' (nth s' toS []) /\ Cross s t s' t').
Proof.
  intros non_term toS H. unfold crossed.
  assert (K : forall rest pre, toS = pre ++ rest ->
    exists b, crossed_loop non_term toS rest (length pre) = Some b
      /\ (b = true <-> exists s t s' t', length pre <= s /\ non_term s = true /\ In t (nth s toS []) /\ In t' (nth s' toS []) /\ Cross s t s' t')).
  { induction rest as [|l rest IH]; intros pre E; cbn [crossed_loop].
    - exists false. split; [reflexivity|]. split; [discriminate|]. intros (s & t & s' & t' & L & _ & I & _).
      rewrite nth_overflow in I; [destruct I|]. rewrite E, app_nil_r. exact L.
    - assert (En : nth (length pre) toS [] = l) by (rewrite E, app_nth2 by lia; now rewrite Nat.sub_diag).
      assert (Ln : length pre < length toS) by (rewrite E, app_length; cbn [length]; lia).
      destruct (IH (pre ++ [l]) ltac:(rewrite <- app_assoc; exact E)) as (b & A & B). rewrite app_length, Nat.add_1_r in A, B.
      destruct (non_term (length pre)) eqn:Q.
      + destruct (H _ Ln Q) as [t Et]. rewrite En in Et. rewrite Et in *. destruct (crossed_at (length pre) t 0 toS) eqn:C.
        * exists true. split; [reflexivity|]. split; [intros _|reflexivity]. apply crossed_at_spec in C as (i & t' & I & X).
          exists (length pre), t, i, t'. split; [lia|]. split; [exact Q|]. split; [rewrite En; now left|]. now split.
        * exists b. split; [exact A|]. rewrite B. split; intros (s & t0 & s' & t' & L & R).
          -- exists s, t0, s', t'. split; [lia|exact R].
          -- destruct (Nat.eq_dec s (length pre)) as [->|D]; [|exists s, t0, s', t'; split; [lia|exact R]]. exfalso.
             destruct R as (_ & I0 & I' & X). rewrite En in I0. destruct I0 as [<-|[]].
             assert (crossed_at (length pre) t 0 toS = true) by (apply crossed_at_spec; exists s', t'; now split). congruence.
      + exists b. split; [exact A|]. rewrite B. split; intros (s & t0 & s' & t' & L & R).
        * exists s, t0, s', t'. split; [lia|exact R].
        * exists s, t0, s', t'. split; [|exact R]. destruct (Nat.eq_dec s (length pre)) as [->|D]; [|lia]. destruct R as (R & _). congruence. }
  destruct (K toS [] eq_refl) as (b & A & B). exists b. split; [exact A|]. rewrite B. cbn [length].
  split; intros (s & t & s' & t' & R); exists s, t, s', t'; [tauto|split; [lia|exact R]].
Qed.
Print Assumptions C99_crossed.
Example C99_crossed_case : crossed (fun i => i =? 1) [[1]; [0]; [2]] = Some true /\ crossed (fun i => i =? 2) [[1]; [0]; [2]] = Some false.
Proof. split; reflexivity. Qed.

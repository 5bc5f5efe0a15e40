(** C103, continued: the key of an edge does not depend on the order of its attributes, and which values the new edge has. *)
From Coq Require Import String Ascii.
From Coq Require Import List Arith Bool Lia Permutation Sorted.
From Verif Require Import M_LexBase M_MapKey.
Import ListNotations.
Local Open Scope nat_scope.

(** The order of strings: at the first place where they differ, or one is a proper beginning of the other. *)
Definition less (a b : str) : Prop :=
  (exists c x, b = a ++ c :: x) \/ (exists p c d x y, a = p ++ c :: x /\ b = p ++ d :: y /\ nat_of_ascii c < nat_of_ascii d).
Lemma ascii_inj c d : nat_of_ascii c = nat_of_ascii d -> c = d.
Proof. intros H. rewrite <- (ascii_nat_embedding c), <- (ascii_nat_embedding d). now rewrite H. Qed.
Lemma before_less : forall a b, before a b = true -> less a b.
Proof.
  induction a as [|x a IH]; intros [|y b] H; try discriminate H.
  - left. now exists y, b.
  - cbn [before] in H. destruct (Nat.ltb_spec (nat_of_ascii x) (nat_of_ascii y)) as [L|L].
    + right. now exists [], x, y, a, b.
    + destruct (Nat.ltb_spec (nat_of_ascii y) (nat_of_ascii x)) as [L2|L2]; [discriminate|]. assert (x = y) by (apply ascii_inj; lia). subst y.
      destruct (IH b H) as [(c & z & ->)|(p & c & d & z & w & -> & -> & Q)]; [left; now exists c, z|right; now exists (x :: p), c, d, z, w].
Qed.
Lemma less_before a b : less a b -> before a b = true.
Proof.
  intros [(c & x & ->)|(p & c & d & x & y & -> & -> & H)].
  - induction a as [|z a IH]; [reflexivity|]. cbn [app before]. now rewrite Nat.ltb_irrefl.
  - induction p as [|z p IH]; cbn [app before]; [|now rewrite Nat.ltb_irrefl]. destruct (Nat.ltb_spec (nat_of_ascii c) (nat_of_ascii d)); [reflexivity|lia].
Qed.
Lemma before_irr a : before a a = false.
Proof. induction a as [|x a IH]; [reflexivity|]. cbn [before]. now rewrite Nat.ltb_irrefl. Qed.
Lemma before_trans : forall a b c, before a b = true -> before b c = true -> before a c = true.
Proof.
  induction a as [|x a IH]; intros [|y b] [|z c] H1 H2; try discriminate H1; try discriminate H2; try reflexivity. cbn [before] in *.
  destruct (Nat.ltb_spec (nat_of_ascii x) (nat_of_ascii y)), (Nat.ltb_spec (nat_of_ascii y) (nat_of_ascii x)); try lia; try discriminate H1;
  destruct (Nat.ltb_spec (nat_of_ascii y) (nat_of_ascii z)), (Nat.ltb_spec (nat_of_ascii z) (nat_of_ascii y)); try lia; try discriminate H2;
  destruct (Nat.ltb_spec (nat_of_ascii x) (nat_of_ascii z)), (Nat.ltb_spec (nat_of_ascii z) (nat_of_ascii x)); try lia; try reflexivity; now apply (IH b).
Qed.
Lemma before_total : forall a b, before a b = false -> before b a = false -> a = b.
Proof.
  induction a as [|x a IH]; intros [|y b] H1 H2; try discriminate H1; try discriminate H2; [reflexivity|]. cbn [before] in *.
  destruct (Nat.ltb_spec (nat_of_ascii x) (nat_of_ascii y)); [discriminate|]. destruct (Nat.ltb_spec (nat_of_ascii y) (nat_of_ascii x)); [discriminate|].
  assert (x = y) by (apply ascii_inj; lia). subst y. f_equal. now apply IH.
Qed.
(** Sorted: no string is before one to its left. *)
Definition sorted (l : list str) : Prop := StronglySorted (fun a b => ~ less b a) l.
Lemma insert_perm x l : Permutation (insert x l) (x :: l).
Proof. induction l as [|y l IH]; [reflexivity|]. cbn [insert]. destruct (before y x); [|reflexivity]. rewrite IH. apply perm_swap. Qed.
Lemma sort_perm l : Permutation (sort l) l.
Proof. induction l as [|x l IH]; [reflexivity|]. cbn [sort fold_right]. fold (sort l). rewrite insert_perm. now constructor. Qed.
Lemma insert_sorted x l : sorted l -> sorted (insert x l).
Proof.
  intros H. induction H as [|y l S1 IH F]; [constructor; constructor|]. cbn [insert]. destruct (before y x) eqn:E.
  - constructor; [exact IH|]. rewrite Forall_forall in *. intros z I. apply (Permutation_in _ (insert_perm x l)) in I. destruct I as [<-|I]; [|now apply F].
    intros L. apply less_before in L. pose proof (before_trans _ _ _ E L) as Q. rewrite before_irr in Q. discriminate.
  - assert (A : ~ less y x) by (intros L; apply less_before in L; congruence). constructor; [now constructor|]. constructor; [exact A|].
    rewrite Forall_forall in *. intros z I L. apply less_before in L. destruct (before x y) eqn:B.
    + apply (F z I). apply before_less. now apply (before_trans _ x).
    + assert (x = y) by (now apply before_total). subst y. apply (F z I). now apply before_less.
Qed.
Lemma sort_sorted l : sorted (sort l).
Proof. induction l as [|x l IH]; [constructor|]. now apply insert_sorted. Qed.
Lemma sorted_unique : forall l l', sorted l -> sorted l' -> Permutation l l' -> l = l'.
Proof.
  induction l as [|x l IH]; intros l' S1 S2 P; [now apply Permutation_nil in P|]. destruct l' as [|y l']; [apply Permutation_sym, Permutation_nil in P; discriminate|].
  inversion S1 as [|? ? S1' F1]; subst. inversion S2 as [|? ? S2' F2]; subst. rewrite Forall_forall in *.
  assert (E : x = y).
  { assert (I1 : In x (y :: l')) by (apply (Permutation_in _ P); now left). assert (I2 : In y (x :: l)) by (apply (Permutation_in _ (Permutation_sym P)); now left).
    destruct I1 as [->|I1]; [reflexivity|]. destruct I2 as [->|I2]; [reflexivity|]. apply before_total.
    - destruct (before x y) eqn:B; [|reflexivity]. exfalso. apply (F2 x I1). now apply before_less.
    - destruct (before y x) eqn:B; [|reflexivity]. exfalso. apply (F1 y I2). now apply before_less. }
  subst y. f_equal. apply IH; [assumption|assumption|]. now apply Permutation_cons_inv in P.
Qed.

(** The key is made of the text, the category and the attributes in order, whichever of them are asked for, and is the same for
    the attributes in any order. *)
Theorem C103_key : forall wt wc wa text category attributes,
  (exists parts, map_key wt wc wa text category attributes = join (lit ",") ((if wt then [text] else []) ++ (if wc then [category] else []) ++ parts)
     /\ (wa = false -> parts = []) /\ (wa = true -> sorted parts /\ Permutation parts (map (fun kv => fst kv ++ "="%char :: snd kv) attributes)))
  /\ forall attributes', Permutation attributes attributes' -> map_key wt wc wa text category attributes = map_key wt wc wa text category attributes'.
Proof.
  intros wt wc wa text category attributes. split.
  - exists (if wa then sort (map (fun kv => fst kv ++ lit "=" ++ snd kv) attributes) else []). split; [reflexivity|]. destruct wa; (split; [congruence|]); [|congruence].
    intros _. split; [apply sort_sorted|]. apply sort_perm.
  - intros attributes' P. unfold map_key. destruct wa; [|reflexivity]. do 3 f_equal. apply sorted_unique; [apply sort_sorted|apply sort_sorted|].
    rewrite !sort_perm. now apply Permutation_map.
Qed.
Print Assumptions C103_key.
Example C103_key_case : map_key true false true (lit "dog") (lit "N") [(lit "num", lit "sg"); (lit "case", lit "nom")] = lit "dog,case=nom,num=sg"
  /\ less (lit "case=nom") (lit "num=sg") /\ less (lit "a") (lit "a=").
Proof. split; [reflexivity|]. split; apply before_less; reflexivity. Qed.

(** The value of an attribute in a list, the last one. *)
Fixpoint value (a : str) (l : list (str * str)) : option str :=
  match l with
  | [] => None
  | (b, v) :: l' => match value a l' with Some w => Some w | None => if str_dec b a then Some v else None end
  end.
Definition names_once (l : list (str * str)) : Prop := NoDup (map fst l).
Definition first_of (x y : option str) : option str := match x with Some v => Some v | None => y end.
Lemma value_absent a l : ~ In a (map fst l) -> value a l = None.
Proof.
  induction l as [|[b v] l IH]; intros N; [reflexivity|]. cbn [value map fst] in *. rewrite IH by (intros I; apply N; now right).
  destruct (str_dec b a) as [->|]; [exfalso; apply N; now left|reflexivity].
Qed.
Lemma set_value_names a v l : forall x, In x (map fst (set_value a v l)) <-> x = a \/ In x (map fst l).
Proof.
  induction l as [|[b w] l IH]; intros x; cbn [set_value map fst In]; [intuition congruence|]. destruct (str_dec b a) as [->|]; cbn [map fst In]; [intuition congruence|].
  rewrite IH. intuition congruence.
Qed.
Lemma set_value_once a v l : names_once l -> names_once (set_value a v l).
Proof.
  unfold names_once. induction l as [|[b w] l IH]; intros H; cbn [set_value map fst] in *; [constructor; [intros []|constructor]|].
  inversion H as [|? ? N D]; subst. destruct (str_dec b a) as [->|E]; cbn [map fst]; constructor; auto. rewrite set_value_names. intros [->|I]; congruence.
Qed.
Lemma set_value_ok a v x : forall l, names_once l -> value x (set_value a v l) = if str_dec a x then Some v else value x l.
Proof.
  unfold names_once. induction l as [|[b w] l IH]; intros H; cbn [set_value value]; [reflexivity|]. cbn [map fst] in H. inversion H as [|? ? N D]; subst.
  destruct (str_dec b a) as [->|E]; cbn [value].
  - destruct (str_dec a x) as [->|]; [now rewrite value_absent|]. now destruct (value x l).
  - rewrite IH by exact D. destruct (str_dec a x) as [->|]; reflexivity.
Qed.
Lemma set_all_ok x : forall new l, names_once l -> names_once (set_all l new) /\ value x (set_all l new) = first_of (value x new) (value x l).
Proof.
  unfold set_all. induction new as [|[a v] new IH]; intros l H; [now split|]. cbn [fold_left fst snd value].
  destruct (IH (set_value a v l) (set_value_once a v l H)) as [A B]. split; [exact A|]. rewrite B, set_value_ok by exact H.
  destruct (value x new); [reflexivity|]. cbn [first_of]. now destruct (str_dec a x).
Qed.
(** Each attribute is there once; the lexicon wins over what is set, and this over what is cloned; nothing else comes in. *)
Theorem C103_attributes : forall clone add set old parsed a,
  names_once (entry_attributes clone add set old parsed)
  /\ value a (entry_attributes clone add set old parsed) =
     first_of (if add then value a parsed else None)
       (first_of (match set with Some s => value a s | None => None end) (if clone then value a old else None)).
Proof.
  intros clone add set old parsed a. unfold entry_attributes.
  assert (H0 : names_once []) by constructor.
  assert (H1 : names_once (if clone then set_all [] old else []) /\ value a (if clone then set_all [] old else []) = if clone then value a old else None).
  { destruct clone; [|now split]. destruct (set_all_ok a old [] H0) as [A B]. split; [exact A|]. rewrite B. cbn [value]. now destruct (value a old). }
  destruct H1 as [A1 B1]. set (l1 := if clone then set_all [] old else []) in *.
  assert (H2 : names_once (match set with Some s => set_all l1 s | None => l1 end)
    /\ value a (match set with Some s => set_all l1 s | None => l1 end) = first_of (match set with Some s => value a s | None => None end) (if clone then value a old else None)).
  { destruct set as [s|]; [|now split]. destruct (set_all_ok a s l1 A1) as [A B]. split; [exact A|]. now rewrite B, B1. }
  destruct H2 as [A2 B2]. destruct add; [|now split]. destruct (set_all_ok a parsed _ A2) as [A B]. split; [exact A|]. now rewrite B, B2.
Qed.
Print Assumptions C103_attributes.
Example C103_attributes_case : entry_attributes true true None [(lit "num", lit "sg"); (lit "case", lit "nom")] [(lit "num", lit "pl"); (lit "g", lit "m")]
  = [(lit "num", lit "pl"); (lit "case", lit "nom"); (lit "g", lit "m")].
Proof. reflexivity. Qed.
(** An edge is made for each record, or one for an unknown key just if an option for these is given. *)
Theorem C103_edges : forall records options, length (process_edge records options) = match records with [] => if options then 1 else 0 | _ => length records end
  /\ (In Unknown (process_edge records options) <-> records = [] /\ options = true)
  /\ (forall r, In (FromRecord r) (process_edge records options) <-> In r records).
Proof.
  intros records options. destruct records as [|x l].
  - destruct options; cbn; repeat split; try tauto; intros; intuition congruence.
  - unfold process_edge. split; [now rewrite map_length|]. split.
    + split; [intros I; apply in_map_iff in I as (y & E & _); discriminate|intros [E _]; discriminate].
    + intros r. rewrite in_map_iff. split; [intros (y & E & I); now injection E as ->|intros I; now exists r].
Qed.
Print Assumptions C103_edges.
Example C103_edges_case : process_edge [lit "a"; lit "b"] true = [FromRecord (lit "a"); FromRecord (lit "b")] /\ process_edge [] true = [Unknown].
Proof. split; reflexivity. Qed.
(** Not true: that edges with different values have different keys. *)
Theorem C103_key_refuted : map_key true true false (lit "a,b") (lit "c") [] = map_key true true false (lit "a") (lit "b,c") [].
Proof. reflexivity. Qed.
Print Assumptions C103_key_refuted.

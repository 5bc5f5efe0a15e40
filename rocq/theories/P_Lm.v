(** C71: costs of translations with language models. *)
From Coq Require Import List ZArith Bool PeanoNat Lia Sorted Permutation.
From Verif Require Import M_Lm S_Lm L_Lm.
Import ListNotations.
Local Open Scope nat_scope.

(** The cost of a text is that of all of its windows of n words. *)
Theorem C71_text {W} (g : model W) ws : 1 <= g_n g -> get_cost g ws = text_cost g ws.
Proof. apply get_cost_eq. Qed.
Print Assumptions C71_text.

(** Link points add the windows that have words on both sides of one, every window once however many it spans. *)
Theorem C71_links {W} (g : model W) ws cs : 1 <= g_n g -> StronglySorted lt cs -> get_link_cost g ws cs = across_cost g ws cs.
Proof. apply get_link_cost_eq. Qed.
Print Assumptions C71_links.

(** What building a translation adds. *)
Theorem C71_substitute {W} (lms : container W) xs : Forall (fun x => 1 <= g_n (snd x)) lms ->
  substitute lms false xs =
  (text xs, weighted lms (fun g => text_cost g (text xs) - sum (map (text_cost g) (children xs)) + excess g [] [] xs)%Z).
Proof.
  intros P. unfold substitute. set (o := turns lms true (Work [] [] [] 0%Z) xs).
  assert (T : o_trans o = text xs) by (unfold o; rewrite turns_trans; easy).
  pose proof (turns_cost lms xs true (Work [] [] [] 0%Z)) as C. cbn zeta in C. fold o in C. rewrite C.
  cbn [o_trans o_ngram o_cost]. rewrite T. f_equal.
  assert (S : StronglySorted lt (o_links o)) by (apply turns_sorted; constructor).
  rewrite all_link_cost_eq, run_costs_weighted by easy. rewrite Z.add_0_l, <- weighted_add. apply weighted_ext.
  eapply Forall_impl; [|exact P]. intros [w g] N. cbn [snd] in *.
  pose proof (run_costs_eq g xs N [] []) as R. cbn [app] in R. rewrite R.
  pose proof (text_cost_concat g (segs_of [] xs) N) as K. rewrite segs_concat in K. cbn [app] in K.
  rewrite (across_ext g (text xs) (o_links o) (cuts 0 (segs_of [] xs))); [lia|].
  intros c Hc. unfold o. rewrite (turns_links lms xs true (Work [] [] [] 0%Z) c []); [|easy|easy|exact Hc].
  cbn [o_links o_ngram In length]. split; [intros [[]|H]; exact H|now right].
Qed.
Print Assumptions C71_substitute.

Lemma excess_words {W} (g : model W) xs : Forall is_word xs -> forall before run ys,
  excess g before run (xs ++ ys) = excess g before (run ++ text xs) ys.
Proof.
  induction 1 as [|[w|ws] xs Hx _ IH]; intros before run ys; cbn [text flat_map app excess]; [now rewrite app_nil_r| |easy].
  rewrite IH, <- app_assoc. easy.
Qed.
Lemma excess_children {W} (g : model W) xs : Forall is_child xs -> forall before ys,
  exists before', excess g before [] (xs ++ ys) = excess g before' [] ys.
Proof.
  induction 1 as [|[w|ws] xs Hx _ IH]; intros before ys; [now exists before|easy|].
  destruct (IH (before ++ [] ++ ws) ys) as [b E]. exists b. cbn [app excess]. cbn [app] in E. rewrite E. lia.
Qed.
Lemma excess_end {W} (g : model W) xs : Forall is_word xs -> forall before run, excess g before run xs = 0%Z.
Proof. induction 1 as [|[w|ws] xs Hx _ IH]; intros before run; [easy|apply IH|easy]. Qed.
Lemma excess_outside {W} (g : model W) xs : outside xs -> excess g [] [] xs = 0%Z.
Proof.
  intros (a & b & c & -> & A & B & C). rewrite excess_words by easy. cbn [app].
  destruct B as [|[w|ws] b Hb B]; [now apply excess_end|easy|].
  cbn [app excess]. destruct (excess_children g b B ((text a) ++ ws) c) as [b' E]. cbn [app] in E. rewrite E, excess_end by easy.
  destruct (text a); cbn [app]; lia.
Qed.
(** With all words before the first or after the last nonterminal, what is added is what the translations of the nonterminals
    lack. *)
Theorem C71_outside {W} (lms : container W) xs : Forall (fun x => 1 <= g_n (snd x)) lms -> outside xs ->
  substitute lms false xs = (text xs, weighted lms (fun g => text_cost g (text xs) - sum (map (text_cost g) (children xs)))%Z).
Proof.
  intros P O. rewrite C71_substitute by easy. f_equal. apply weighted_ext. apply Forall_forall. intros x _.
  rewrite excess_outside by easy. lia.
Qed.
Print Assumptions C71_outside.

(** A model of pairs of words that counts each pair. *)
Definition pairs : model nat := Model 2 (fun ng => match ng with [a; b] => Z.of_nat (10 * a + b) | _ => 1%Z end).
Example C71_text_some : get_cost pairs [1; 2; 3] = 35%Z /\ text_cost pairs [1; 2; 3] = 35%Z.
Proof. now vm_compute. Qed.
Definition triples : model nat := Model 3 (fun ng => match ng with [a; b; c] => Z.of_nat (a + b + c) | _ => 1%Z end).
Example C71_links_some : get_link_cost triples [1; 2; 3; 4; 5; 6; 7] [2; 3; 6] = 45%Z /\ across_cost triples [1; 2; 3; 4; 5; 6; 7] [2; 3; 6] = 45%Z.
Proof. now vm_compute. Qed.
Example C71_outside_some :
  outside [Word 1; Word 2; Child [3; 4]; Child [5; 6]; Word 7]
  /\ substitute [(2%Z, pairs); (1%Z, triples)] false [Word 1; Word 2; Child [3; 4]; Child [5; 6]; Word 7] = ([1; 2; 3; 4; 5; 6; 7], 354%Z).
Proof.
  split; [|now vm_compute]. exists [Word 1; Word 2], [Child [3; 4]; Child [5; 6]], [Word 7].
  repeat split; repeat constructor.
Qed.

(** In general it is not so: before the words between two nonterminals everything is counted again. *)
Theorem C71_between_refuted :
  ~ (forall (lms : container nat) xs, Forall (fun x => 1 <= g_n (snd x)) lms ->
     snd (substitute lms false xs) = weighted lms (fun g => text_cost g (text xs) - sum (map (text_cost g) (children xs)))%Z).
Proof.
  intros H. specialize (H [(1%Z, pairs)] [Child [1; 2]; Word 3; Child [4]]). vm_compute in H.
  assert (F : Forall (fun x : Z * model nat => 1 <= g_n (snd x)) [(1%Z, pairs)]) by (constructor; [cbn; lia|constructor]).
  specialize (H F). discriminate.
Qed.
Print Assumptions C71_between_refuted.

(** ** Whole translations *)
Lemma translate_node {W} (lms : container W) cost target nodes :
  translate lms (Node cost target nodes) =
  match (fix all l := match l with
             | [] => Some []
             | t :: l => match translate lms t, all l with Some r, Some rs => Some (r :: rs) | _, _ => None end
             end) nodes with
      | None => None
      | Some rs =>
          match fold_right (fun p acc => match acc with
              | None => None
              | Some xs => match p with
                  | Terminal w => Some (Word w :: xs)
                  | Nonterminal i => match nth_error rs i with Some r => Some (Child (fst r) :: xs) | None => None end
                  end
              end) (Some []) target with
          | None => None
          | Some xs =>
              let '(ws, c) := substitute lms (match nodes with [] => true | _ => false end) xs in
              Some (ws, (fold_left (fun s r => s + snd r) rs cost + c)%Z)
          end
      end.
Proof. reflexivity. Qed.
Definition piece_item {W} (texts : list (list W)) (p : piece W) : item W :=
  match p with Terminal w => Word w | Nonterminal i => Child (nth i texts []) end.
Lemma target_items {W} (rs : list (list W * Z)) target : (forall i, In i (nonterminals target) -> i < length rs) ->
  fold_right (fun p acc => match acc with
              | None => None
              | Some xs => match p with
                  | Terminal w => Some (Word w :: xs)
                  | Nonterminal i => match nth_error rs i with Some r => Some (Child (fst r) :: xs) | None => None end
                  end
              end) (Some []) target = Some (map (piece_item (map fst rs)) target).
Proof.
  induction target as [|[w|i] target IH]; intros H; cbn [fold_right map]; [easy| |].
  - rewrite IH; [easy|]. exact H.
  - rewrite IH by (intros j Hj; apply H; now right). specialize (H i (or_introl eq_refl)).
    destruct (nth_error rs i) as [r|] eqn:E; [|apply nth_error_None in E; lia]. cbn [piece_item].
    rewrite (nth_error_nth _ _ _ (map_nth_error fst _ _ E)). easy.
Qed.
Lemma items_text {W} (texts : list (list W)) target :
  text (map (piece_item texts) target) = flat_map (fun p => match p with Terminal w => [w] | Nonterminal i => nth i texts [] end) target.
Proof. unfold text. rewrite flat_map_concat_map, flat_map_concat_map, map_map. f_equal. apply map_ext. now intros [w|i]. Qed.
Lemma items_children {W} (texts : list (list W)) target :
  children (map (piece_item texts) target) = map (fun i => nth i texts []) (nonterminals target).
Proof.
  induction target as [|[w|i] target IH]; [easy| |]; cbn [map piece_item children flat_map nonterminals app]; [exact IH|].
  f_equal. exact IH.
Qed.
Lemma items_outside {W} (texts : list (list W)) target : plain_target target -> outside (map (piece_item texts) target).
Proof.
  intros (a & b & c & -> & A & B & C). exists (map (piece_item texts) a), (map (piece_item texts) b), (map (piece_item texts) c).
  rewrite !map_app. split; [easy|]. rewrite !Forall_map. repeat split.
  - eapply Forall_impl; [|exact A]. now intros [w|i].
  - eapply Forall_impl; [|exact B]. intros [w|i] H; [now apply H|easy].
  - eapply Forall_impl; [|exact C]. now intros [w|i].
Qed.
Lemma linear_perm {W} (target : list (piece W)) n : linear target n -> Permutation (nonterminals target) (seq 0 n).
Proof.
  intros L. rewrite (Permutation_count_occ Nat.eq_dec). intros i. rewrite L.
  destruct (Nat.ltb_spec i n) as [H|H].
  - symmetry. assert (A : 1 <= count_occ Nat.eq_dec (seq 0 n) i) by (apply count_occ_In, in_seq; lia).
    pose proof (proj1 (NoDup_count_occ Nat.eq_dec (seq 0 n)) (seq_NoDup n 0) i). lia.
  - symmetry. apply count_occ_not_In. rewrite in_seq. lia.
Qed.
Lemma sum_perm a b : Permutation a b -> sum a = sum b.
Proof. unfold sum. induction 1; cbn; lia. Qed.
Lemma nth_seq {W} (texts : list (list W)) : map (fun i => nth i texts []) (seq 0 (length texts)) = texts.
Proof.
  induction texts as [|t texts IH]; [easy|]. cbn [length seq map nth]. f_equal. rewrite <- seq_shift, map_map. exact IH.
Qed.
Lemma weighted_sum {W} (lms : container W) (l : list (list W)) :
  sum (map (fun ws => weighted lms (fun g => text_cost g ws)) l) = weighted lms (fun g => sum (map (text_cost g) l)).
Proof.
  induction l as [|ws l IH]; [symmetry; apply weighted_zero|]. unfold sum in *. cbn [map fold_right]. rewrite IH, <- weighted_add. easy.
Qed.
Lemma fold_snd {W} (rs : list (list W * Z)) c : fold_left (fun s r => s + snd r)%Z rs c = (c + sum (map snd rs))%Z.
Proof. unfold sum. revert c. induction rs as [|r rs IH]; intros c; cbn [fold_left map fold_right]; [lia|]. rewrite IH. lia. Qed.
Lemma sum_map_add {A} (f h : A -> Z) l : sum (map (fun x => f x + h x)%Z l) = (sum (map f l) + sum (map h l))%Z.
Proof. unfold sum. induction l as [|x l IH]; cbn; [easy|]. rewrite IH. lia. Qed.

Lemma all_some {A B} (f : A -> option B) (h : A -> B) l : Forall (fun t => f t = Some (h t)) l ->
  (fix all l := match l with
             | [] => Some []
             | t :: l => match f t, all l with Some r, Some rs => Some (r :: rs) | _, _ => None end
             end) l = Some (map h l).
Proof. induction 1 as [|t l Ht H IH]; [easy|]. cbn [map]. rewrite Ht, IH. easy. Qed.
Section Trees.
Context {W : Type} (lms : container W).
Definition right (t : tree W) : list W * Z := (tree_text t, (tree_costs t + weighted lms (fun g => text_cost g (tree_text t)))%Z).
Lemma every_ind' (P : list (piece W) -> nat -> Prop) (Q : tree W -> Prop) :
  (forall c target ts, P target (length ts) -> Forall Q ts -> Q (Node c target ts)) -> forall t, every P t -> Q t.
Proof.
  intros F. fix rec 2. intros t [c target ts A H]. apply F; [exact A|]. clear A.
  induction H as [|t' ts Ht H IH]; constructor; [now apply rec|exact IH].
Qed.
Lemma translate_right t : Forall (fun x => 1 <= g_n (snd x)) lms ->
  every (fun target n => linear target n /\ plain_target target) t -> translate lms t = Some (right t).
Proof.
  intros P E. revert t E. apply every_ind'. intros c target ts [L O] H. rewrite translate_node.
  match goal with |- match ?A with _ => _ end = _ => assert (M : A = Some (map right ts)) end.
  { apply (all_some (translate lms) (right)). exact H. }
  rewrite M. clear M H.
  pose proof (linear_perm target (length ts) L) as Pm.
  rewrite target_items.
  2:{ intros i Hi. rewrite map_length. apply (Permutation_in _ Pm), in_seq in Hi. lia. }
  rewrite map_map. change (map (fun x => fst (right x)) ts) with (map tree_text ts). rewrite fold_snd, map_map.
  change (map (fun x => snd (right x)) ts) with (map (fun t => tree_costs t + weighted lms (fun g => text_cost g (tree_text t)))%Z ts).
  assert (TT : text (map (piece_item (map tree_text ts)) target) = tree_text (Node c target ts)) by (rewrite items_text; easy).
  assert (K : substitute lms match ts with [] => true | _ :: _ => false end (map (piece_item (map tree_text ts)) target)
    = (tree_text (Node c target ts), (weighted lms (fun g => text_cost g (tree_text (Node c target ts))) -
        sum (map (fun t => weighted lms (fun g => text_cost g (tree_text t))) ts))%Z)).
  { destruct ts as [|t0 ts0] eqn:Ets.
    - unfold substitute. fold (text (map (piece_item (map tree_text (@nil (tree W)))) target)). rewrite TT, all_cost_eq by easy.
      f_equal. unfold sum. cbn [map fold_right]. lia.
    - rewrite C71_outside, TT by (easy || now apply items_outside). f_equal.
      rewrite weighted_sub. f_equal. rewrite <- Ets in *. rewrite items_children.
      rewrite <- (map_map tree_text (fun ws => weighted lms (fun g => text_cost g ws))), weighted_sum. apply weighted_ext.
      apply Forall_forall. intros x _. apply sum_perm, Permutation_map.
      pose proof (nth_seq (map tree_text ts)) as Ns. rewrite map_length in Ns. rewrite <- Ns at 1. now apply Permutation_map. }
  rewrite K. unfold right. f_equal. f_equal. rewrite sum_map_add. cbn [tree_costs]. lia.
Qed.
End Trees.
(** The cost of a translation is that of its transformations and of its text, if every target side has all nonterminals of the
    source side once and no words between them. *)
Theorem C71_tree {W} (lms : container W) t : Forall (fun x => 1 <= g_n (snd x)) lms ->
  every (fun target n => linear target n /\ plain_target target) t ->
  translate lms t = Some (tree_text t, (tree_costs t + weighted lms (fun g => text_cost g (tree_text t)))%Z).
Proof. apply translate_right. Qed.
Print Assumptions C71_tree.

Definition leaf (c : Z) (ws : list nat) : tree nat := Node c (map Terminal ws) [].
Definition some_tree : tree nat :=
  Node 5%Z [Terminal 1; Nonterminal 1; Nonterminal 0; Terminal 2] [leaf 7%Z [3; 4]; Node 1%Z [Nonterminal 0; Terminal 5] [leaf 2%Z [6]]].
Example C71_tree_some : translate [(1%Z, pairs)] some_tree = Some ([1; 6; 5; 3; 4; 2], 225%Z)
  /\ every (fun target n => linear target n /\ plain_target target) some_tree.
Proof.
  split; [now vm_compute|].
  assert (Lf : forall c ws, every (fun target n => linear target n /\ plain_target target) (leaf c ws)).
  { intros c ws. constructor; [|constructor]. split.
    - intros i. cbn. replace (nonterminals (map Terminal ws)) with (@nil nat); [easy|]. induction ws; [easy|exact IHws].
    - exists (map Terminal ws), [], []. rewrite app_nil_r. repeat split; auto. rewrite Forall_map. now apply Forall_forall. }
  constructor.
  - split.
    + intros [|[|i]]; easy.
    + exists [Terminal 1], [Nonterminal 1; Nonterminal 0], [Terminal 2]. repeat split; repeat constructor; cbn; auto.
  - constructor; [apply Lf|]. constructor; [|constructor]. constructor; [split|constructor; [apply Lf|constructor]].
    + intros [|i]; easy.
    + exists [], [Nonterminal 0], [Terminal 5]. repeat split; repeat constructor; cbn; auto.
Qed.

(** A nonterminal used twice pays once for its transformations and its words. *)
Theorem C71_twice_refuted :
  ~ (forall (lms : container nat) t, Forall (fun x => 1 <= g_n (snd x)) lms -> every (fun target _ => plain_target target) t ->
     forall r, translate lms t = Some r -> snd r = (tree_costs t + weighted lms (fun g => text_cost g (tree_text t)))%Z).
Proof.
  intros H. specialize (H [(1%Z, pairs)] (Node 0%Z [Nonterminal 0; Nonterminal 0] [leaf 0%Z [1; 2]])).
  assert (F : Forall (fun x : Z * model nat => 1 <= g_n (snd x)) [(1%Z, pairs)]) by (constructor; [cbn; lia|constructor]).
  specialize (H F).
  assert (E : every (fun target _ => plain_target target) (Node 0%Z [Nonterminal 0; Nonterminal 0] [leaf 0%Z [1; 2]])).
  { constructor.
    - exists [], [Nonterminal 0; Nonterminal 0], []. repeat split; repeat constructor; cbn; auto.
    - constructor; [|constructor]. constructor; [|constructor]. exists [Terminal 1; Terminal 2], [], []. repeat split; repeat constructor. }
  specialize (H E _ eq_refl). vm_compute in H. discriminate.
Qed.
Print Assumptions C71_twice_refuted.

(** ** Heuristics *)
Lemma read_all_eq {W} (g : model W) ws : forall ng,
  read_all g (lastn (g_n g) ng) ws = sum (map (fun i => g_cost g (lastn (g_n g) (ng ++ firstn (S i) ws))) (seq 0 (length ws))).
Proof.
  induction ws as [|w ws IH]; intros ng; [easy|]. cbn [read_all length seq map].
  rewrite lastn_lastn_snoc, IH. unfold sum. cbn [fold_right firstn]. f_equal. f_equal. rewrite <- seq_shift, map_map.
  apply map_ext. intros i. now rewrite <- app_assoc.
Qed.
(** The heuristic: the cost of each of the first n-1 words after those before it. *)
Theorem C71_front {W} (g : model W) ws : 1 <= g_n g ->
  get_front_cost g ws = sum (map (fun i => g_cost g (firstn (S i) ws)) (seq 0 (Nat.min (g_n g - 1) (length ws)))).
Proof.
  intros N. unfold get_front_cost. pose proof (read_all_eq g (firstn (g_n g - 1) ws) []) as E. change (lastn (g_n g) []) with (@nil W) in E.
  rewrite E, firstn_length. f_equal. apply map_ext_in. intros i Hi. apply in_seq in Hi.
  rewrite firstn_firstn, Nat.min_l by lia. cbn [app]. rewrite lastn_all; [easy|]. rewrite firstn_length. lia.
Qed.
Print Assumptions C71_front.
Example C71_front_some : get_front_cost triples [1; 2; 3] = 2%Z.
Proof. now vm_compute. Qed.

Lemma terminal_failed {W} (g : model W) xs buffer : terminal_cost g buffer true xs = 0%Z.
Proof. revert buffer. induction xs as [|[w|] xs IH]; intros buffer; cbn; [easy|apply IH|]. now rewrite IH. Qed.
Lemma terminal_words {W} (g : model W) ws : forall buffer rest,
  terminal_cost g buffer false (map Some ws ++ rest) = terminal_cost g (buffer ++ ws) false rest.
Proof.
  induction ws as [|w ws IH]; intros buffer rest; cbn [map app terminal_cost]; [now rewrite app_nil_r|]. rewrite IH, <- app_assoc. easy.
Qed.
(** The cost of terminals: only those before the first nonterminal count. *)
Theorem C71_terminals {W} (g : model W) ws rest :
  get_terminal_cost g (map Some ws ++ None :: rest) =
  sum (map (fun i => g_cost g (lastn (g_n g) (firstn (S i) ws))) (seq 0 (length ws))).
Proof.
  unfold get_terminal_cost. rewrite terminal_words. cbn [terminal_cost app]. rewrite terminal_failed, Z.add_0_r.
  apply (read_all_eq g ws []).
Qed.
Print Assumptions C71_terminals.
(** So words after it do not. *)
Theorem C71_terminals_refuted :
  ~ (forall (g : model nat) a b, 1 <= g_n g ->
     get_terminal_cost g (map Some a ++ None :: map Some b) = (get_terminal_cost g (map Some a) + get_terminal_cost g (map Some b))%Z).
Proof. intros H. specialize (H pairs [1] [2] ltac:(cbn; lia)). vm_compute in H. discriminate. Qed.
Print Assumptions C71_terminals_refuted.

(** C101: the paths of an automaton of separate chains, as ShortestPath makes it. *)
From Coq Require Import List Arith ZArith Bool Lia.
From Verif Require Import M_PathFinder.
Import ListNotations.
Local Open Scope nat_scope.

(** A chain: labels with weights, and the weight of the final state. *)
Definition chain := (list (Z * Z) * Z)%type.
Fixpoint chain_tree (arcs : list (Z * Z)) (w : Z) : tree :=
  match arcs with [] => Final w | (l, c) :: arcs' => Node [(l, c, chain_tree arcs' w)] end.
(** Chains with a common beginning state; each has an arc. *)
Definition first_arc (c : chain) : list (Z * Z * tree) := match fst c with [] => [] | (l, w) :: arcs => [(l, w, chain_tree arcs (snd c))] end.
Definition bundle (cs : list chain) : tree := Node (flat_map first_arc cs).

Section Paths.
  Variable skip : Z -> bool.
  Variable band : nat.

  (** What a chain says: its labels but for those to skip, and the sum of its weights. *)
  Definition word (arcs : list (Z * Z)) : list Z := filter (fun l => negb (skip l)) (map fst arcs).
  Definition total (arcs : list (Z * Z)) : Z := fold_right Z.add 0%Z (map snd arcs).
  Definition entry (c : chain) : list Z * Z := (word (fst c), (total (fst c) + snd c)%Z).
  (** Those whose words did not come before. *)
  Fixpoint firsts (before : list (list Z)) (l : list (list Z * Z)) : list (list Z * Z) :=
    match l with
    | [] => []
    | e :: l' => if in_dec (list_eq_dec Z.eq_dec) (fst e) before then firsts before l' else e :: firsts (before ++ [fst e]) l'
    end.

  Definition go (cost : Z) := fix go (arcs : list (Z * Z * tree)) (path : list Z) (paths : list (list Z * Z)) {struct arcs} : option (list Z * list (list Z * Z)) :=
    match arcs with
    | [] => Some (path, paths)
    | (l, w, t') :: arcs' =>
      let path := if skip l then path else path ++ [l] in
      if length paths <=? band
      then match extract skip band t' path (cost + w)%Z paths with
           | Some (path, paths) => go arcs' path paths
           | None => None
           end
      else go arcs' path paths
    end.
  Lemma extract_node arcs path cost paths : extract skip band (Node arcs) path cost paths = go cost arcs path paths.
  Proof. reflexivity. Qed.
  Lemma go_cons cost l w t arcs path paths : go cost ((l, w, t) :: arcs) path paths =
    if length paths <=? band
    then match extract skip band t (if skip l then path else path ++ [l]) (cost + w)%Z paths with Some (p, ps) => go cost arcs p ps | None => None end
    else go cost arcs (if skip l then path else path ++ [l]) paths.
  Proof. reflexivity. Qed.

  Lemma chain_ok : forall arcs w path cost paths, length paths <= band ->
    extract skip band (chain_tree arcs w) path cost paths =
    match seen (path ++ word arcs) paths with
    | None => None
    | Some b => Some ([], if b then paths else paths ++ [(path ++ word arcs, (cost + (total arcs + w))%Z)])
    end.
  Proof.
    induction arcs as [|[l c] arcs IH]; intros w path cost paths L.
    - cbn. rewrite app_nil_r. reflexivity.
    - cbn [chain_tree]. rewrite extract_node, go_cons. destruct (Nat.leb_spec (length paths) band); [|lia]. rewrite (IH _ _ _ _ L).
      assert (E : (if skip l then path else path ++ [l]) ++ word arcs = path ++ word ((l, c) :: arcs)).
      { unfold word. cbn [map fst filter]. destruct (skip l); cbn [negb]; [reflexivity|]. now rewrite <- app_assoc. }
      rewrite E. destruct (seen (path ++ word ((l, c) :: arcs)) paths) as [b|]; [|reflexivity]. cbn [go].
      unfold total. cbn [map snd fold_right]. replace (cost + c + (fold_right Z.add 0 (map snd arcs) + w))%Z with (cost + (c + fold_right Z.add 0 (map snd arcs) + w))%Z by ring.
      reflexivity.
  Qed.

  Definition prefix (a b : list Z) : Prop := exists x, b = a ++ x.
  Lemma same_ok : forall p q, (prefix p q -> p = q) -> (prefix q p -> q = p) -> exists b, same p q = Some b /\ (b = true <-> p = q).
  Proof.
    induction p as [|x p IH]; intros q H1 H2; cbn [same].
    - exists true. split; [reflexivity|]. split; [intros _|reflexivity]. apply H1. now exists q.
    - destruct q as [|y q]; [exfalso; assert (Q : [] = x :: p) by (apply H2; now exists (x :: p)); discriminate|].
      destruct (Z.eqb_spec x y) as [->|D].
      + destruct (IH q) as (b & A & B).
        * intros [z Q]. assert (E : y :: p = y :: q) by (apply H1; exists z; now rewrite Q). congruence.
        * intros [z Q]. assert (E : y :: q = y :: p) by (apply H2; exists z; now rewrite Q). congruence.
        * exists b. split; [exact A|]. rewrite B. split; congruence.
      + exists false. split; [reflexivity|]. split; [discriminate|]. congruence.
  Qed.
  Lemma seen_ok p : forall paths, (forall q, In q (map fst paths) -> (prefix p q -> p = q) /\ (prefix q p -> q = p)) ->
    exists b, seen p paths = Some b /\ (b = true <-> In p (map fst paths)).
  Proof.
    induction paths as [|e paths IH]; intros H; cbn [seen map].
    - exists false. split; [reflexivity|]. split; [discriminate|intros []].
    - destruct (H (fst e) (or_introl eq_refl)) as [H1 H2]. destruct (same_ok p (fst e) H1 H2) as (a & -> & A).
      destruct (IH (fun q I => H q (or_intror I))) as (b & -> & B). exists (a || b). split; [reflexivity|].
      rewrite orb_true_iff, A, B. cbn [In]. intuition.
  Qed.

  Lemma go_full cost : forall arcs path paths, band < length paths -> exists p, go cost arcs path paths = Some (p, paths).
  Proof.
    induction arcs as [|[[l w] t] arcs IH]; intros path paths L; [now exists path|]. rewrite go_cons.
    destruct (Nat.leb_spec (length paths) band); [lia|]. now apply IH.
  Qed.
  Lemma bundle_ok all : (forall c d, In c all -> In d all -> prefix (word (fst c)) (word (fst d)) -> word (fst c) = word (fst d)) ->
    forall cs paths, incl cs all -> Forall (fun c => fst c <> []) cs -> length paths <= S band ->
    (forall q, In q (map fst paths) -> exists c, In c all /\ q = word (fst c)) ->
    exists p, go 0%Z (flat_map first_arc cs) [] paths = Some (p, firstn (S band) (paths ++ firsts (map fst paths) (map entry cs))).
  Proof.
    intros HP. induction cs as [|[arcs w] cs IH]; intros paths Hi Hn L Hq.
    - exists []. cbn [flat_map go map firsts]. rewrite app_nil_r, firstn_all2 by lia. reflexivity.
    - destruct (Nat.le_gt_cases (length paths) band) as [B|B].
      2:{ destruct (go_full 0%Z (flat_map first_arc ((arcs, w) :: cs)) [] paths B) as [p E]. exists p. rewrite E.
          rewrite firstn_app. replace (S band - length paths) with 0 by lia. rewrite firstn_O, app_nil_r, firstn_all2 by lia. reflexivity. }
      inversion Hn as [|? ? N Hn']; subst. cbn [fst] in N. destruct arcs as [|[l c] arcs]; [congruence|].
      cbn [flat_map first_arc fst snd app]. rewrite go_cons. destruct (Nat.leb_spec (length paths) band); [|lia].
      rewrite (chain_ok _ _ _ _ _ B).
      assert (E : (if skip l then [] else [] ++ [l]) ++ word arcs = word ((l, c) :: arcs)).
      { unfold word. cbn [map fst filter app]. destruct (skip l); reflexivity. }
      rewrite E. assert (I0 : In ((l, c) :: arcs, w) all) by (apply Hi; now left).
      destruct (seen_ok (word ((l, c) :: arcs)) paths) as (b & -> & Eb).
      { intros q I. destruct (Hq q I) as (d & Id & ->). split; [exact (HP _ d I0 Id)|exact (HP d _ Id I0)]. }
      cbn [map firsts]. unfold entry at 1. cbn [fst snd].
      assert (T : (0 + c + (total arcs + w))%Z = (total ((l, c) :: arcs) + w)%Z) by (unfold total; cbn [map snd fold_right]; ring). rewrite T.
      assert (Hi' : incl cs all) by (intros x I; apply Hi; now right).
      destruct b.
      + destruct (in_dec (list_eq_dec Z.eq_dec) (word ((l, c) :: arcs)) (map fst paths)) as [I|I]; [|exfalso; apply I, Eb; reflexivity].
        exact (IH paths Hi' Hn' ltac:(lia) Hq).
      + destruct (in_dec (list_eq_dec Z.eq_dec) (word ((l, c) :: arcs)) (map fst paths)) as [I|I]; [apply Eb in I; discriminate|].
        destruct (IH (paths ++ [(word ((l, c) :: arcs), (total ((l, c) :: arcs) + w)%Z)]) Hi' Hn') as [p Ep].
        * rewrite app_length. cbn [length]. lia.
        * intros q J. rewrite map_app in J. apply in_app_or in J as [J|[<-|[]]]; [exact (Hq q J)|]. exists ((l, c) :: arcs, w). now split.
        * exists p. rewrite Ep. rewrite map_app, <- app_assoc. reflexivity.
  Qed.
End Paths.

(** If no word of the chains is a proper beginning of another, the paths found are the words of the chains, each once, with the
    weight of its first chain, in order, at most band + 1 of them. *)
Theorem C101_paths : forall skip band cs, Forall (fun c => fst c <> []) cs ->
  (forall c d, In c cs -> In d cs -> prefix (word skip (fst c)) (word skip (fst d)) -> word skip (fst c) = word skip (fst d)) ->
  all_paths skip band (bundle cs) = Some (firstn (S band) (firsts [] (map (entry skip) cs))).
Proof.
  intros skip band cs Hn HP. unfold all_paths, bundle. rewrite extract_node.
  destruct (bundle_ok skip band cs HP cs [] (incl_refl _) Hn (Nat.le_0_l _)) as [p ->]; [intros q []|]. reflexivity.
Qed.
Print Assumptions C101_paths.
(** The best path alone, for which the normalizer asks, is found whatever its labels. *)
Theorem C101_one : forall skip band arcs w, arcs <> [] -> all_paths skip band (bundle [(arcs, w)]) = Some [(word skip arcs, (total arcs + w)%Z)].
Proof.
  intros skip band arcs w N. rewrite C101_paths; [cbn; destruct band; reflexivity|apply Forall_cons; [exact N|apply Forall_nil]|].
  intros c d [<-|[]] [<-|[]] _. reflexivity.
Qed.
Print Assumptions C101_one.
(** Label 0 is skipped: "1 2", "1 0 2", "3". *)
Definition eps (l : Z) : bool := (l =? 0)%Z.
Example C101_paths_case : all_paths eps 9 (bundle [([(1, 4); (2, 1)], 0); ([(1, 5); (0, 1); (2, 1)], 0); ([(3, 9)], 1)]%Z)
  = Some [([1; 2], 5); ([3], 10)]%Z
  /\ all_paths eps 0 (bundle [([(1, 4); (2, 1)], 0); ([(3, 9)], 1)]%Z) = Some [([1; 2], 5)]%Z.
Proof. split; reflexivity. Qed.

(** Not true: that a path that begins another one found is kept, that a path with another one as its beginning can be compared
    within bounds, or that paths that part later than at the beginning are found whole; and the weights of equal paths are not
    summed, as the comment in the header has it. *)
Theorem C101_paths_refuted :
  all_paths eps 9 (bundle [([(1, 0); (2, 0)], 0); ([(1, 0)], 0)]%Z) = Some [([1; 2], 0)]%Z
  /\ all_paths eps 9 (bundle [([(1, 0)], 0); ([(1, 0); (2, 0)], 0)]%Z) = None
  /\ all_paths eps 9 (Node [(1, 0, Node [(2, 0, Final 0); (3, 0, Final 0)])]%Z) = Some [([1; 2], 0); ([3], 0)]%Z
  /\ all_paths eps 9 (bundle [([(1, 4)], 0); ([(1, 5)], 0)]%Z) = Some [([1], 4)]%Z.
Proof. repeat split; reflexivity. Qed.
Print Assumptions C101_paths_refuted.

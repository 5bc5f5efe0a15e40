(** C102: the rules of simplenorm and what it adds; what the joiner asks for and what it adds. *)
From Coq Require Import String Ascii.
From Coq Require Import List Arith Bool Lia.
From Verif Require Import M_NormJoin.
Import ListNotations.
Local Open Scope nat_scope.

Lemma str_eqb_ok a b : str_eqb a b = true <-> a = b.
Proof. unfold str_eqb. destruct (list_eq_dec ascii_dec a b); split; congruence. Qed.
Lemma str_eqb_refl a : str_eqb a a = true.
Proof. now apply str_eqb_ok. Qed.
Lemma find_put k v : forall m x, find_key x (put k v m) = if list_eq_dec ascii_dec k x then Some v else find_key x m.
Proof.
  induction m as [|[k' v'] m IH]; intros x; cbn [put find_key].
  - unfold str_eqb. destruct (list_eq_dec ascii_dec k x); reflexivity.
  - destruct (str_eqb k' k) eqn:E; cbn [find_key].
    + apply str_eqb_ok in E. subst k'. unfold str_eqb. destruct (list_eq_dec ascii_dec k x); reflexivity.
    + rewrite IH. unfold str_eqb in *. destruct (list_eq_dec ascii_dec k' x) as [->|]; [|reflexivity].
      destruct (list_eq_dec ascii_dec k x) as [->|]; [|reflexivity]. destruct (list_eq_dec ascii_dec x x); [discriminate|congruence].
Qed.

(** * The rules *)
(** A file: lines, each ended by a newline but perhaps the last. *)
Definition ended (ls : list str) : str := flat_map (fun l => l ++ [newline]) ls.
(** A rule: what is written, how, and what comes after a further tab. *)
Record rule := mkRule { key : str; value : str; rest : option str }.
Definition rule_line (r : rule) : str := key r ++ tab :: value r ++ match rest r with Some x => tab :: x | None => [] end.
Definition rule_ok (r : rule) : Prop := ~ In tab (key r) /\ ~ In tab (value r) /\ ~ In newline (rule_line r).
(** The value of the last rule for a key. *)
Definition last_rule (k : str) (rs : list rule) : option str :=
  match find (fun r => if list_eq_dec ascii_dec (key r) k then true else false) (rev rs) with Some r => Some (value r) | None => None end.

Lemma lines_line : forall l acc s, ~ In newline l -> lines_of acc (l ++ newline :: s) = (acc ++ l) :: lines_of [] s.
Proof.
  induction l as [|c l IH]; intros acc s N; cbn [app lines_of].
  - destruct (ascii_dec newline newline); [now rewrite app_nil_r|congruence].
  - destruct (ascii_dec c newline) as [->|]; [exfalso; apply N; now left|]. rewrite IH by (intros I; apply N; now right). now rewrite <- app_assoc.
Qed.
Lemma lines_rest : forall l acc, ~ In newline l -> lines_of acc l = match acc ++ l with [] => [] | _ => [acc ++ l] end.
Proof.
  induction l as [|c l IH]; intros acc N; cbn [lines_of]; [rewrite app_nil_r; now destruct acc|].
  destruct (ascii_dec c newline) as [->|]; [exfalso; apply N; now left|]. rewrite IH by (intros I; apply N; now right). now rewrite <- app_assoc.
Qed.
Lemma lines_ok : forall ls last, Forall (fun l => ~ In newline l) ls -> ~ In newline last ->
  lines_of [] (ended ls ++ last) = ls ++ match last with [] => [] | _ => [last] end.
Proof.
  induction ls as [|l ls IH]; intros last F N.
  - cbn [ended flat_map app]. now rewrite lines_rest.
  - inversion F; subst. unfold ended. cbn [flat_map]. rewrite <- !app_assoc. cbn [app]. rewrite lines_line by assumption. cbn [app]. f_equal. now apply IH.
Qed.
Lemma split_piece : forall p s, ~ In tab p -> split tab (p ++ tab :: s) = p :: split tab s.
Proof.
  induction p as [|c p IH]; intros s N; cbn [app split].
  - destruct (ascii_dec tab tab); [reflexivity|congruence].
  - destruct (ascii_dec c tab) as [->|]; [exfalso; apply N; now left|]. now rewrite IH by (intros I; apply N; now right).
Qed.
Lemma split_none : forall p, ~ In tab p -> split tab p = [p].
Proof.
  induction p as [|c p IH]; intros N; cbn [split]; [reflexivity|].
  destruct (ascii_dec c tab) as [->|]; [exfalso; apply N; now left|]. now rewrite IH by (intros I; apply N; now right).
Qed.
Lemma split_rule r : rule_ok r -> exists ps, split tab (rule_line r) = key r :: value r :: ps.
Proof.
  intros (K & V & _). unfold rule_line. rewrite split_piece by exact K. destruct (rest r) as [x|].
  - rewrite split_piece by exact V. now exists (split tab x).
  - rewrite app_nil_r, split_none by exact V. now exists [].
Qed.
Lemma load_ok : forall rs m, Forall rule_ok rs -> exists m', load_lines (map rule_line rs) m = Some m'
  /\ forall k, find_key k m' = match last_rule k rs with Some v => Some v | None => find_key k m end.
Proof.
  induction rs as [|r rs IH]; intros m F; [now exists m|]. inversion F as [|? ? R F']; subst. cbn [map load_lines].
  destruct (split_rule r R) as [ps ->]. destruct (IH (put (key r) (value r) m) F') as (m' & E & H). exists m'. split; [exact E|].
  intros k. rewrite H, find_put. unfold last_rule. cbn [rev].
  assert (FA : forall (f : rule -> bool) a b, find f (a ++ b) = match find f a with Some x => Some x | None => find f b end).
  { intros f a b. induction a as [|x a IHa]; cbn [app find]; [reflexivity|]. now destruct (f x). }
  rewrite FA. destruct (find _ (rev rs)); [reflexivity|]. cbn [find]. now destruct (list_eq_dec ascii_dec (key r) k).
Qed.
Lemma rule_line_not_nil r : rule_line r <> [].
Proof. unfold rule_line. destruct (key r); discriminate. Qed.

(** A file of rules is read, with or without a newline at its end, and a word is found exactly if there is a rule for it, with
    the value of the last one. *)
Theorem C102_rules : forall rs file, Forall rule_ok rs ->
  file = ended (map rule_line rs) \/ (exists rs' r, rs = rs' ++ [r] /\ file = ended (map rule_line rs') ++ rule_line r) ->
  exists m, load file = Some m /\ forall k, find_key k m = last_rule k rs.
Proof.
  intros rs file F H. assert (E : lines_of [] file = map rule_line rs).
  { destruct H as [->|(rs' & r & -> & ->)].
    - rewrite <- (app_nil_r (ended _)), lines_ok; [now rewrite app_nil_r| |intros []].
      rewrite Forall_map. eapply Forall_impl; [|exact F]. intros a A. apply A.
    - apply Forall_app in F as [F1 F2]. inversion F2 as [|? ? R _]; subst. rewrite lines_ok; [|rewrite Forall_map; eapply Forall_impl; [|exact F1]; intros a A; apply A|apply R].
      rewrite map_app. cbn [map]. pose proof (rule_line_not_nil r) as N. now destruct (rule_line r). }
  destruct (load_ok rs [] F) as (m & L & K). exists m. split; [unfold load; now rewrite E|]. intros k. rewrite K. cbn [find_key]. now destruct (last_rule k rs).
Qed.
Print Assumptions C102_rules.
(** A line without a tab, for one an empty line, is read beyond its end, wherever it is. *)
Theorem C102_no_tab : forall ls last l, Forall (fun l => ~ In newline l) ls -> ~ In newline last -> In l ls -> ~ In tab l ->
  load (ended ls ++ last) = None.
Proof.
  intros ls last l F N I T. unfold load. rewrite lines_ok by assumption. generalize (@nil (str * str)) as m.
  clear F. induction ls as [|x ls IH]; intros m; [destruct I|]. cbn [app load_lines]. destruct I as [->|I].
  - now rewrite split_none.
  - destruct (split tab x) as [|k [|v ps]]; try reflexivity. apply IH. exact I.
Qed.
Print Assumptions C102_no_tab.
Definition street : list rule := [mkRule (lit "St") (lit "Saint") None; mkRule (lit "Rd") (lit "Road") (Some (lit "way")); mkRule (lit "St") (lit "Street") None].
Example C102_rules_case : Forall rule_ok street /\ last_rule (lit "St") street = Some (lit "Street") /\ last_rule (lit "Ave") street = None
  /\ load (ended (map rule_line street)) = Some [(lit "St", lit "Street"); (lit "Rd", lit "Road")]
  /\ load (ended [rule_line (mkRule (lit "a") (lit "b") None); []]) = None.
Proof.
  split; [|vm_compute; repeat split]. unfold street, rule_ok. repeat constructor; cbn; intros H; repeat (destruct H as [H|H]; [discriminate H|]); exact H.
Qed.

(** * The edges of simplenorm *)
(** Just the tokens of category T with a rule get an edge, over the same place, in order; what a rule gives is not normalized again. *)
Theorem C102_normalize : forall rs m ts, (forall k, find_key k m = last_rule k rs) ->
  (forall e, In e (normalize m ts) <-> exists t v, In t ts /\ t_category t = lit "T" /\ last_rule (t_text t) rs = Some v
     /\ e = mkToken (lit "T") v (t_from t) (t_to t))
  /\ length (normalize m ts) = length (filter (fun t => str_eqb (t_category t) (lit "T") && match last_rule (t_text t) rs with Some _ => true | None => false end) ts)
  /\ (forall ts1 ts2, normalize m (ts1 ++ ts2) = normalize m ts1 ++ normalize m ts2).
Proof.
  intros rs m ts H. split; [|split].
  - intros e. unfold normalize. rewrite in_flat_map. split.
    + intros (t & I & J). destruct (str_eqb (lit "T") (t_category t)) eqn:C; [|destruct J]. apply str_eqb_ok in C. rewrite H in J.
      destruct (last_rule (t_text t) rs) as [v|] eqn:V; [|destruct J]. destruct J as [<-|[]]. exists t, v. auto.
    + intros (t & v & I & C & V & ->). exists t. split; [exact I|]. rewrite C, str_eqb_refl, H, V. now left.
  - induction ts as [|t ts IH]; [reflexivity|]. cbn [normalize flat_map filter]. fold (normalize m ts). rewrite app_length, IH, H.
    assert (E : str_eqb (lit "T") (t_category t) = str_eqb (t_category t) (lit "T")).
    { apply eq_true_iff_eq. rewrite !str_eqb_ok. split; congruence. }
    rewrite E. destruct (str_eqb (t_category t) (lit "T")); [|reflexivity]. cbn [andb]. now destruct (last_rule (t_text t) rs).
  - intros ts1 ts2. unfold normalize. apply flat_map_app.
Qed.
Print Assumptions C102_normalize.
Example C102_normalize_case : normalize [(lit "St", lit "Street"); (lit "Street", lit "Road")]
    [mkToken (lit "T") (lit "Main") 0 4; mkToken (lit "B") (lit " ") 4 5; mkToken (lit "T") (lit "St") 5 7; mkToken (lit "X") (lit "St") 7 9]
  = [mkToken (lit "T") (lit "Street") 5 7].
Proof. reflexivity. Qed.

(** * What the joiner asks for *)
(** Tags meet a requirement if they have all tags of one of its alternatives. *)
Definition meets (have : list str) (alternatives : list (list str)) : Prop := exists a, In a alternatives /\ forall x, In x a -> In x have.
Theorem C102_required : forall left right have, meets have (required left right) <-> meets have left /\ meets have right.
Proof.
  intros left right have. unfold meets, required. split.
  - intros (a & I & H). apply in_flat_map in I as (l & Il & I). apply in_map_iff in I as (r & <- & Ir).
    split; [exists l|exists r]; (split; [assumption|]); intros x J; apply H, in_or_app; auto.
  - intros [(l & Il & Hl) (r & Ir & Hr)]. exists (l ++ r). split; [apply in_flat_map; exists l; split; [exact Il|]; apply in_map_iff; now exists r|].
    intros x J. apply in_app_or in J as [J|J]; auto.
Qed.
Print Assumptions C102_required.
Example C102_required_case : required [[lit "a"]; [lit "b"; lit "c"]] [[lit "d"]; [lit "e"]]
  = [[lit "a"; lit "d"]; [lit "a"; lit "e"]; [lit "b"; lit "c"; lit "d"]; [lit "b"; lit "c"; lit "e"]].
Proof. reflexivity. Qed.

(** * What the joiner adds *)
Section Join.
  Variable left_text left_category outer extended : bool.
  Variable attributes : handling.
  Variable parent : nat -> option nat.
  Variable children : nat -> list nat.
  Variable item_of : nat -> item.
  Variable same_plane : nat -> bool.
  Let joins := join left_text left_category outer extended attributes parent children item_of same_plane.
  (** An edge and one with the right mask have the first parent of the former in common. *)
  Definition kin (l r : nat) : Prop := exists p, parent l = Some p /\ In r (children p).
  Lemma rights_ok l r : In r (match parent l with Some p => children p | None => [] end) <-> kin l r.
  Proof.
    unfold kin. destruct (parent l) as [p|]; [|split; [intros []|intros (p & E & _); discriminate]].
    split; [intros I; now exists p|intros (q & E & I); congruence].
  Qed.
  Lemma join_in lefts e : In e (joins lefts) <-> exists l, In l lefts /\
    ((exists r, kin l r /\ e = Edge l [l; r] (joined_item left_text left_category attributes item_of l r))
     \/ (extended = true \/ (outer = true /\ forall r, ~ kin l r)) /\ e = if same_plane l then Partition l else Edge l [l] (item_of l)).
  Proof.
    unfold joins, join. rewrite in_flat_map. apply Morphisms_Prop.ex_iff_morphism. intros l. apply and_iff_compat_l.
    unfold join_one. rewrite in_app_iff, in_map_iff. apply Morphisms_Prop.or_iff_morphism.
    - split; intros (r & A & B); exists r; [split; [now apply rights_ok|now symmetry]|split; [now symmetry|now apply rights_ok]].
    - assert (E : extended || negb (match (match parent l with Some p => children p | None => [] end) with [] => false | _ => true end) && outer = true
        <-> extended = true \/ (outer = true /\ forall r, ~ kin l r)).
      { rewrite orb_true_iff, andb_true_iff, negb_true_iff. apply or_iff_compat_l.
        pose proof (rights_ok l) as R. destruct (match parent l with Some p => children p | None => [] end) as [|x xs].
        - split; [intros [_ O]|intros [O _]]; (split; [auto|]); [intros r K; apply R in K as []|auto].
        - split; [intros [D _]; discriminate|]. intros [_ N]. exfalso. apply (N x), R. now left. }
      rewrite <- E. destruct (extended || _); cbn [In]; intuition congruence.
  Qed.
End Join.
(** Pairs are joined exactly if they are kin; a left edge alone comes exactly if it has no kin, or always if the outer join is
    extended, and never without an outer join; in its own plane it gets a partition, never an edge. *)
Theorem C102_join : forall left_text left_category outer extended attributes parent children item_of same_plane lefts,
  let out := join left_text left_category outer extended attributes parent children item_of same_plane lefts in
  (forall l r, (exists it, In (Edge l [l; r] it) out) <-> In l lefts /\ kin parent children l r)
  /\ (forall l, In (if same_plane l then Partition l else Edge l [l] (item_of l)) out <->
        In l lefts /\ (extended = true \/ (outer = true /\ forall r, ~ kin parent children l r)))
  /\ (forall l es it, In (Edge l es it) out -> (exists r, es = [l; r]) \/ (es = [l] /\ it = item_of l /\ same_plane l = false))
  /\ (forall l, In (Partition l) out -> same_plane l = true).
Proof.
  intros lt lc outer ext att parent children item_of sp lefts out. unfold out. clear out. split; [|split; [|split]].
  - intros l r. split.
    + intros [it I]. apply join_in in I as (x & Ix & [(y & K & E)|(_ & E)]); [injection E as <- _ <- _; now split|].
      destruct (sp x); discriminate E.
    + intros [I K]. eexists. apply join_in. exists l. split; [exact I|]. left. exists r. split; [exact K|reflexivity].
  - intros l. rewrite join_in. split.
    + intros (x & Ix & [(y & K & E)|(H & E)]); [destruct (sp l); discriminate E|].
      assert (Q : l = x) by (destruct (sp l), (sp x); congruence). subst x. now split.
    + intros [I H]. exists l. split; [exact I|]. right. now split.
  - intros l es it I. apply join_in in I as (x & Ix & [(y & K & E)|(H & E)]); [injection E as -> -> _; left; now exists y|].
    destruct (sp x) eqn:P; [discriminate E|]. injection E as -> -> ->. right. auto.
  - intros l I. apply join_in in I as (x & Ix & [(y & K & E)|(H & E)]); [discriminate E|].
    destruct (sp x) eqn:P; [|discriminate E]. now injection E as ->.
Qed.
Print Assumptions C102_join.
(** So no left edge is lost by an outer join. *)
Theorem C102_outer : forall left_text left_category extended attributes parent children item_of same_plane lefts l, In l lefts ->
  exists e, In e (join left_text left_category true extended attributes parent children item_of same_plane lefts)
    /\ (e = Partition l \/ exists es it, e = Edge l es it).
Proof.
  intros lt lc ext att parent children item_of sp lefts l I.
  assert (D : (exists r, kin parent children l r) \/ forall r, ~ kin parent children l r).
  { unfold kin. destruct (parent l) as [p|]; [|right; intros r (q & E & _); discriminate].
    destruct (children p) as [|r rs] eqn:E; [right; intros r (q & Q & J); injection Q as <-; rewrite E in J; destruct J|].
    left. exists r, p. split; [reflexivity|]. rewrite E. now left. }
  destruct D as [[r K]|N].
  - eexists. split; [apply join_in; exists l; split; [exact I|]; left; exists r; split; [exact K|reflexivity]|]. right. eauto.
  - eexists. split; [apply join_in; exists l; split; [exact I|]; right; split; [right; now split|reflexivity]|]. destruct (sp l); [now left|right; eauto].
Qed.
Print Assumptions C102_outer.

(** The item of a pair: category and text of the side asked for; attributes of one side, or of both with the right one first. *)
Fixpoint last_value (a : str) (l : list (str * str)) : option str :=
  match l with
  | [] => None
  | (b, v) :: l' => match last_value a l' with Some w => Some w | None => if list_eq_dec ascii_dec b a then Some v else None end
  end.
Lemma add_values_ok a : forall source target, find_key a (add_values target source) =
  match last_value a source with Some v => Some v | None => find_key a target end.
Proof.
  unfold add_values. induction source as [|[b v] source IH]; intros target; [reflexivity|]. cbn [fold_left last_value fst snd]. rewrite IH, find_put.
  destruct (last_value a source); [reflexivity|]. now destruct (list_eq_dec ascii_dec b a).
Qed.
Theorem C102_items : forall left_text left_category attributes item_of l r,
  let it := joined_item left_text left_category attributes item_of l r in
  i_category it = i_category (item_of (if left_category then l else r)) /\ i_text it = i_text (item_of (if left_text then l else r))
  /\ (attributes = TakeLeft -> i_attributes it = i_attributes (item_of l))
  /\ (attributes = TakeRight -> i_attributes it = i_attributes (item_of r))
  /\ (attributes = Merge -> forall a, find_key a (i_attributes it) =
        match last_value a (i_attributes (item_of r)) with Some v => Some v | None => find_key a (i_attributes (item_of l)) end).
Proof.
  intros lt lc att item_of l r it. split; [reflexivity|]. split; [reflexivity|]. unfold it, joined_item. cbn [i_attributes].
  split; [now intros ->|]. split; [now intros ->|]. intros -> a. apply add_values_ok.
Qed.
Print Assumptions C102_items.
(** Edges 1 and 2 are made of 0, on the left and on the right; 3 has no parent. *)
Definition ex_parent (e : nat) : option nat := match e with 1 | 2 => Some 0 | _ => None end.
Definition ex_children (e : nat) : list nat := match e with 0 => [2] | _ => [] end.
Definition ex_item (e : nat) : item :=
  match e with
  | 1 => mkItem (lit "N") (lit "dog") [(lit "case", lit "nom"); (lit "num", lit "sg")]
  | 2 => mkItem (lit "S") (lit "pies") [(lit "num", lit "pl")]
  | _ => mkItem (lit "V") (lit "runs") []
  end.
Example C102_join_case : join true false true false Merge ex_parent ex_children ex_item (fun _ => false) [1; 3]
    = [Edge 1 [1; 2] (mkItem (lit "S") (lit "dog") [(lit "case", lit "nom"); (lit "num", lit "pl")]); Edge 3 [3] (mkItem (lit "V") (lit "runs") [])]
  /\ join true true false true TakeLeft ex_parent ex_children ex_item (fun _ => true) [1]
    = [Edge 1 [1; 2] (mkItem (lit "N") (lit "dog") [(lit "case", lit "nom"); (lit "num", lit "sg")]); Partition 1]
  /\ join true true false false TakeLeft ex_parent ex_children ex_item (fun _ => true) [3] = [].
Proof. repeat split. Qed.
(** Not true: that a right edge is kept, too, if no left edge joins it. *)
Theorem C102_right_refuted : ~ (forall parent children item_of lefts p r, In r (children p) ->
  exists l es it, In (Edge l es it) (join true true true true Merge parent children item_of (fun _ => false) lefts) /\ In r es).
Proof.
  intros H. destruct (H ex_parent ex_children ex_item [3] 0 2) as (l & es & it & I & J); [now left|]. destruct I as [E|[]]. injection E as <- <- <-.
  destruct J as [J|[]]. discriminate.
Qed.
Print Assumptions C102_right_refuted.

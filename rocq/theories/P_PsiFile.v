(** C60: the lines of a PSI file. *)
From Coq Require Import String Ascii List NArith ZArith Bool Arith Lia.
From Verif Require Import M_Quoter M_Psi L_Psi M_PsiFile.
From Verif Require M_Utf8.
Import ListNotations.
Local Open Scope N_scope.

Section File.
Context {Sc E : Type}.
Variable zero : Sc.
Variable eqb : E -> E -> bool.
Variable order : list E.
Variable is_hidden : E -> bool.
Variables from to : E -> vertex.
Variable raw : N -> option E.
Variable all_text : str.
Variable text_of : E -> str.
Variable is_symbol : E -> bool.
Variable info_of : E -> info Sc.
Variable divisions : E -> list (division Sc E).
Notation row := (row Sc E).
Notation state := (state Sc E).

(** * Specification *)
(** What is known of a lattice: a symbol at i begins there, ends behind it and has the text
    between; the text of an edge has the length of the edge and is UTF-8; edges are made of
    edges of a lower rank, if those are no symbols. *)
Record sound (rank : E -> nat) : Prop := {
  s_eqb : forall a b, eqb a b = true <-> a = b;
  s_raw : forall i r, raw i = Some r -> from r = At i /\ exists q, to r = At q /\ i < q;
  s_text : forall e s q, from e = At s -> to e = At q -> size (text_of e) = q - s;
  s_utf8 : forall e, M_Utf8.distance (bytes (quote (shown_text from to text_of info_of e))) <> None;
  s_rank : forall e d u, In d (divisions e) -> In u (dv_links d) -> is_symbol (fst u) = false -> (rank (fst u) < rank e)%nat
}.
(** The edges to be written: those in the order that are not hidden, and what they are made of. *)
Inductive wanted : E -> Prop :=
  | W_order e : In e order -> is_hidden e = false -> wanted e
  | W_part e d u : wanted e -> In d (divisions e) -> In u (dv_links d) -> is_symbol (fst u) = false -> wanted (fst u).
Definition row_number (r : row) : N := match r with RowOf _ l => ordinal l | Bare n _ _ => n end.
Definition row_edges (rs : list row) : list E := flat_map (fun r => match r with RowOf e _ => [e] | Bare _ _ _ => [] end) rs.
(** Line number n is that of edge e. *)
Definition line_of (rs : list row) (n : N) (e : E) : Prop := exists k l, nth_error rs k = Some (RowOf e l) /\ n = N.of_nat (S k).
(** A link to an edge has the number of a line above; only symbols may have none. *)
Definition link_matches (above : list row) (u : E * option str) (l : link) : Prop :=
  l_role l = snd u /\ l_hidden l = is_hidden (fst u)
  /\ match l_number l with Some n => line_of above n (fst u) | None => is_symbol (fst u) = true end.
Definition part_matches (above : list row) (d : division Sc E) (p : part Sc) : Prop :=
  Forall2 (link_matches above) (dv_links d) (pt_links p) /\ pt_tags p = dv_tags d /\ pt_score p = dv_score d.
(** The line of an edge, and the line of a symbol in a gap. *)
Definition full (above : list row) (e : E) (l : edge Sc) : Prop :=
  tag_names l = in_tags (info_of e) /\ score l = in_score (info_of e) /\ values l = in_values (info_of e)
  /\ Forall2 (part_matches above) (divisions e) (parts l).
Definition gap_symbol (e : E) (l : edge Sc) : Prop :=
  (exists i, raw i = Some e) /\ tag_names l = [lit "symbol"] /\ score l = zero /\ values l = [] /\ parts l = [].
Definition describes (above : list row) (e : E) (l : edge Sc) : Prop :=
  ordinal l = size above + 1 /\ source l = from e /\ target l = to e
  /\ (forall s q, from e = At s -> to e = At q -> edge_length l = q - s /\ edge_text l = text_of e)
  /\ item_text l = in_text (info_of e) /\ category l = in_category (info_of e)
  /\ (full above e l \/ gap_symbol e l).

(** The text of the lattice, if the lines are read from the top: a line that ends behind the text
    so far must begin in it or at its end and must not be shortened. *)
Fixpoint rebuild (t : str) (rs : list row) : option str :=
  match rs with
  | [] => Some t
  | RowOf _ l :: r =>
      match source l, target l with
      | At s, At q =>
          if q <=? size t then rebuild t r
          else if (s <=? size t) && whole l then rebuild (t ++ skipn (N.to_nat (size t - s)) (edge_text l)) r
          else None
      | _, _ => rebuild t r
      end
  | Bare _ i c :: r => if i =? size t then rebuild (t ++ [c]) r else None
  end.
(** No character of the text is written as two, and the text of an edge is the text between its ends. *)
Definition plain : Prop :=
  forall e s q, from e = At s -> to e = At q ->
  size (quote (text_of e)) = size (text_of e) /\ s < q <= size all_text /\ text_of e = firstn (N.to_nat (q - s)) (skipn (N.to_nat s) all_text).
(** What an edge is made of comes before it. *)
Definition ordered : Prop :=
  forall l1 e l2, order = l1 ++ e :: l2 -> is_hidden e = false ->
  forall d u, In d (divisions e) -> In u (dv_links d) -> is_symbol (fst u) = false -> In (fst u) l1 /\ is_hidden (fst u) = false.

(** * Proofs *)
Section Sound.
Variable rank : E -> nat.
Hypothesis S : sound rank.
Notation number_of := (number_of eqb).
Notation fill := (fill zero to raw all_text text_of info_of).
Notation printed := printed.
Notation cover := (cover from to).
Notation shown_text := (shown_text from to text_of info_of).
Notation write_whole := (write_whole from to).
Notation one_link := (one_link eqb is_hidden is_symbol).
Notation all_links := (all_links eqb is_hidden is_symbol).
Notation all_parts := (all_parts eqb is_hidden is_symbol).
Notation edge_row := (edge_row from to text_of info_of).
Notation print_edge := (print_edge zero eqb is_hidden from to raw all_text text_of is_symbol info_of divisions).
Notation print_all := (print_all zero eqb is_hidden from to raw all_text text_of is_symbol info_of divisions).

Definition entries (rs : list row) : list (E * N) := flat_map (fun r => match r with RowOf e l => [(e, ordinal l)] | Bare _ _ _ => [] end) rs.
Lemma entries_app a b : entries (a ++ b) = entries a ++ entries b.
Proof. unfold entries. now rewrite flat_map_app. Qed.
Lemma row_edges_app a b : row_edges (a ++ b) = row_edges a ++ row_edges b.
Proof. unfold row_edges. now rewrite flat_map_app. Qed.
Lemma entries_edges rs : map fst (entries rs) = row_edges rs.
Proof. induction rs as [|[e l|n i c] rs IH]; cbn; [reflexivity|now f_equal|exact IH]. Qed.
Lemma size_app {A} (a b : list A) : size (a ++ b) = size a + size b.
Proof. unfold size. rewrite app_length. lia. Qed.
Lemma size_one {A} (a : A) : size [a] = 1.
Proof. reflexivity. Qed.

Record inv (st : state) : Prop := {
  i_last : last_number st = size (rows st);
  i_numbers : numbers st = rev (entries (rows st));
  i_order : forall k r, nth_error (rows st) k = Some r -> row_number r = N.of_nat (Datatypes.S k);
  i_once : NoDup (row_edges (rows st));
  i_reach : forall e s q, In e (row_edges (rows st)) -> from e = At s -> to e = At q -> q <= size (covered st);
  i_lines : forall a e l b, rows st = a ++ RowOf e l :: b -> describes a e l;
  i_wanted : forall e, In e (row_edges (rows st)) -> wanted e \/ exists i, raw i = Some e
}.
(** What printing adds; [k]: edges below this rank. *)
Record grows (k : nat) (st st' : state) : Prop := {
  g_rows : exists more, rows st' = rows st ++ more;
  g_covered : size (covered st) <= size (covered st');
  g_new : forall x, In x (row_edges (rows st')) -> In x (row_edges (rows st)) \/ (rank x < k)%nat \/ exists i, size (covered st) <= i /\ raw i = Some x
}.
Lemma grows_refl k st : grows k st st.
Proof. constructor; [exists []; now rewrite app_nil_r|lia|auto]. Qed.
Lemma grows_trans k a b c : grows k a b -> grows k b c -> grows k a c.
Proof.
  intros [[m Em] C1 N1] [[m' Em'] C2 N2]. constructor; [exists (m ++ m'); now rewrite Em', Em, app_assoc|lia|].
  intros x Hx. destruct (N2 x Hx) as [H|[H|[i [H R]]]]; [now apply N1|auto|]. right. right. exists i. split; [lia|assumption].
Qed.
Lemma grows_le k k' a b : (k <= k')%nat -> grows k a b -> grows k' a b.
Proof. intros L [G C N]. constructor; [assumption|assumption|]. intros x Hx. destruct (N x Hx) as [H|[H|H]]; [auto|right; left; lia|auto]. Qed.

Lemma quote_size t : size t <= size (quote t).
Proof.
  induction t as [|c t IH]; [unfold size; cbn; lia|]. change (c :: t) with ([c] ++ t). rewrite quote_app, !size_app.
  assert (1 <= size (quote [c])); [|rewrite size_one; lia]. unfold quote, escape. rewrite app_nil_r. unfold escape_char.
  repeat match goal with |- context [if ?b then _ else _] => destruct b end; unfold size; cbn; lia.
Qed.
Lemma number_some m e n : number_of m e = Some n -> In (e, n) m.
Proof.
  induction m as [|[d k] m IH]; cbn; [discriminate|]. destruct (eqb d e) eqn:Q; [|auto]. apply (s_eqb _ S) in Q as ->. intros H. injection H as <-. now left.
Qed.
Lemma number_none m e : number_of m e = None -> ~ In e (map fst m).
Proof.
  induction m as [|[d k] m IH]; cbn; [tauto|]. destruct (eqb d e) eqn:Q; [discriminate|]. intros H [K|K]; [|now apply IH].
  rewrite (proj2 (s_eqb _ S d e) K) in Q. discriminate.
Qed.
Lemma number_found m e : In e (map fst m) -> exists n, number_of m e = Some n.
Proof. intros H. destruct (number_of m e) eqn:Q; [eauto|]. now apply number_none in Q. Qed.
Lemma numbered_edges st e : inv st -> In e (map fst (numbers st)) <-> In e (row_edges (rows st)).
Proof. intros I. rewrite (i_numbers _ I), map_rev, entries_edges, <- in_rev. reflexivity. Qed.
Lemma entry_line rs e n : (forall k r, nth_error rs k = Some r -> row_number r = N.of_nat (Datatypes.S k)) -> In (e, n) (entries rs) -> line_of rs n e.
Proof.
  intros O H. unfold entries in H. apply in_flat_map in H as [r [Hr H]]. destruct r as [d l|]; [|contradiction]. destruct H as [H|[]]. injection H as -> <-.
  apply In_nth_error in Hr as [k K]. exists k, l. split; [assumption|]. now apply O in K.
Qed.
Lemma number_line st e n : inv st -> number_of (numbers st) e = Some n -> line_of (rows st) n e.
Proof. intros I H. apply number_some in H. rewrite (i_numbers _ I), <- in_rev in H. apply entry_line; [apply (i_order _ I)|assumption]. Qed.
Lemma line_more a b n e : line_of a n e -> line_of (a ++ b) n e.
Proof. intros [k [l [H ->]]]. exists k, l. split; [|reflexivity]. rewrite nth_error_app1; [assumption|]. apply nth_error_Some. congruence. Qed.

(** One more line. *)
Definition row_ok (rs : list row) (r : row) : Prop :=
  match r with
  | RowOf e l => ~ In e (row_edges rs) /\ describes rs e l /\ (wanted e \/ exists i, raw i = Some e)
  | Bare n _ _ => n = size rs + 1
  end.
Lemma split_last {A} (rs : list A) r a x b : rs ++ [r] = a ++ x :: b -> (b = [] /\ r = x /\ rs = a) \/ exists b', b = b' ++ [r] /\ rs = a ++ x :: b'.
Proof.
  intros H. destruct (exists_last (l := x :: b) ltac:(discriminate)) as [b' [y Hy]]. rewrite Hy, app_assoc in H. apply app_inj_tail in H as [H1 H2]. subst y.
  destruct b' as [|z b']; cbn in Hy; injection Hy as ->; [left; rewrite app_nil_r in H1; auto|]. subst b. right. eauto.
Qed.
Lemma add_row st r c : inv st -> row_ok (rows st) r -> size (covered st) <= size c ->
  (forall e l s q, r = RowOf e l -> from e = At s -> to e = At q -> q <= size c) ->
  inv (State (match r with RowOf e l => (e, ordinal l) :: numbers st | Bare _ _ _ => numbers st end) (last_number st + 1) c (rows st ++ [r])).
Proof.
  intros I R C Q. constructor; cbn [last_number numbers covered rows].
  - rewrite size_app, size_one, (i_last _ I). reflexivity.
  - rewrite entries_app, rev_app_distr, <- (i_numbers _ I). destruct r; reflexivity.
  - intros k x H. destruct (Nat.lt_ge_cases k (length (rows st))) as [K|K].
    + rewrite nth_error_app1 in H by assumption. now apply (i_order _ I).
    + rewrite nth_error_app2 in H by assumption. destruct (k - length (rows st))%nat eqn:D; cbn in H; [|destruct n; discriminate]. injection H as <-.
      assert (E1 : row_number r = size (rows st) + 1) by (destruct r as [e l|]; [apply R|exact R]). rewrite E1. unfold size. lia.
  - rewrite row_edges_app. destruct r as [e l|]; cbn; [|rewrite app_nil_r; apply (i_once _ I)]. destruct R as [R _].
    pose proof (Add_app e (row_edges (rows st)) []) as A. rewrite app_nil_r in A. apply (NoDup_Add A). split; [apply (i_once _ I)|assumption].
  - intros e s q H Fs Ft. rewrite row_edges_app in H. apply in_app_iff in H as [H|H]; [assert (K := i_reach _ I e s q H Fs Ft); lia|].
    destruct r as [d l|]; cbn in H; [|contradiction]. destruct H as [->|[]]. now apply (Q e l s q).
  - intros a e l b H. apply split_last in H as [[-> [-> <-]]|[b' [-> H]]]; [apply R|]. now apply (i_lines _ I a e l b').
  - intros e H. rewrite row_edges_app in H. apply in_app_iff in H as [H|H]; [now apply (i_wanted _ I)|]. destruct r as [d l|]; cbn in H; [|contradiction]. destruct H as [->|[]]. apply R.
Qed.
Lemma add_grows k st r c m n : size (covered st) <= size c ->
  (forall e l, r = RowOf e l -> (rank e < k)%nat \/ exists i, size (covered st) <= i /\ raw i = Some e) ->
  grows k st (State m n c (rows st ++ [r])).
Proof.
  intros C R. constructor; cbn [covered rows]; [eauto|assumption|]. intros x H. rewrite row_edges_app in H. apply in_app_iff in H as [H|H]; [auto|].
  destruct r as [d l|]; cbn in H; [|contradiction]. destruct H as [->|[]]. right. now apply (R x l).
Qed.

(** ** The gap *)
Lemma fill_ok limit fuel : forall i st, inv st -> i <= size (covered st) ->
  (forall e s q, In e (row_edges (rows st)) -> from e = At s -> to e = At q -> q <= i \/ s < i) ->
  (N.to_nat (limit - i) < fuel)%nat ->
  exists st', fill fuel i limit st = Some st' /\ inv st' /\ limit <= size (covered st') /\ size (covered st) <= size (covered st')
    /\ (exists more, rows st' = rows st ++ more)
    /\ (forall x, In x (row_edges (rows st')) -> In x (row_edges (rows st)) \/ exists j, i <= j /\ j < limit /\ raw j = Some x).
Proof.
  induction fuel as [|fuel IH]; intros i st I Li J F; [lia|]. cbn [M_PsiFile.fill]. destruct (N.ltb_spec i limit) as [K|K].
  - destruct (raw i) as [r|] eqn:R.
    + destruct (s_raw _ S i r R) as [Fr [q [Tr Lq]]]. rewrite Tr.
      assert (Nr : ~ In r (row_edges (rows st))) by (intros H; destruct (J r i q H Fr Tr); lia).
      assert (Cq : q <= size (covered st ++ quote (text_of r))) by (rewrite size_app; assert (H := quote_size (text_of r)); rewrite (s_text _ S r i q Fr Tr) in H; lia).
      set (rw := symbol_row zero to text_of info_of (last_number st + 1) i r).
      assert (I' : inv (State ((r, last_number st + 1) :: numbers st) (last_number st + 1) (covered st ++ quote (text_of r)) (rows st ++ [rw]))).
      { apply (add_row st rw); [assumption| |rewrite size_app; lia|].
        - split; [assumption|]. split; [|eauto]. unfold describes. cbn [ordinal source target edge_length edge_text item_text category]. rewrite (i_last _ I). rewrite Fr, Tr.
          repeat (split; [reflexivity|]). split; [intros s q' Hs Hq; injection Hs as <-; injection Hq as <-; auto|]. repeat (split; [reflexivity|]). right.
          split; [eauto|]. repeat split.
        - intros e l s q' H Hs Hq. injection H as <- _. rewrite Tr in Hq. injection Hq as <-. assumption. }
      destruct (IH q _ I') as [st' [Q1 [Q2 [Q3 [Q4 [[m Q5] Q6]]]]]]; cbn [covered rows] in *.
      * assumption.
      * intros e s q' H Hs Hq. rewrite row_edges_app in H. apply in_app_iff in H as [H|[<-|[]]]; [destruct (J e s q' H Hs Hq); [left|right]; lia|]. rewrite Fr in Hs. injection Hs as <-. right. assumption.
      * lia.
      * exists st'. split; [exact Q1|]. split; [assumption|]. split; [assumption|]. split; [rewrite size_app in Q4; lia|]. split; [exists (rw :: m); rewrite Q5, <- app_assoc; reflexivity|].
        intros x Hx. destruct (Q6 x Hx) as [H|[j [H1 [H2 H3]]]]; [|right; exists j; repeat split; [lia|assumption|assumption]].
        rewrite row_edges_app in H. apply in_app_iff in H as [H|[<-|[]]]; [auto|]. right. exists i. repeat split; [lia|assumption|assumption].
    + set (c := nth (N.to_nat i) all_text Ascii.zero).
      assert (I' : inv (State (numbers st) (last_number st + 1) (covered st ++ [c]) (rows st ++ [Bare (last_number st + 1) i c]))).
      { apply (add_row st (Bare (last_number st + 1) i c)); [assumption| |rewrite size_app; lia|discriminate]. cbn. now rewrite (i_last _ I). }
      destruct (IH (i + 1) _ I') as [st' [Q1 [Q2 [Q3 [Q4 [[m Q5] Q6]]]]]]; cbn [covered rows] in *.
      * rewrite size_app, size_one. lia.
      * intros e s q' H Hs Hq. rewrite row_edges_app in H. apply in_app_iff in H as [H|[]]. destruct (J e s q' H Hs Hq); [left|right]; lia.
      * lia.
      * exists st'. split; [exact Q1|]. split; [assumption|]. split; [assumption|]. split; [rewrite size_app in Q4; lia|]. split; [eexists; rewrite Q5, <- app_assoc; reflexivity|].
        intros x Hx. destruct (Q6 x Hx) as [H|[j [H1 [H2 H3]]]]; [|right; exists j; repeat split; [lia|assumption|assumption]].
        rewrite row_edges_app in H. apply in_app_iff in H as [H|[]]. auto.
  - exists st. split; [reflexivity|]. split; [assumption|]. split; [lia|]. split; [lia|]. split; [exists []; now rewrite app_nil_r|]. auto.
Qed.

(** ** Links and edges *)
Lemma link_more a b u l : link_matches a u l -> link_matches (a ++ b) u l.
Proof. intros [H1 [H2 H3]]. split; [assumption|]. split; [assumption|]. destruct (l_number l); [now apply line_more|assumption]. Qed.
Lemma links_more a b us ls : Forall2 (link_matches a) us ls -> Forall2 (link_matches (a ++ b)) us ls.
Proof. induction 1; constructor; [now apply link_more|assumption]. Qed.
Lemma part_more a b d p : part_matches a d p -> part_matches (a ++ b) d p.
Proof. intros [H1 H2]. split; [now apply links_more|assumption]. Qed.
Definition prints (k : nat) (pr : E -> state -> option state) : Prop :=
  forall e st, (rank e < k)%nat -> inv st -> wanted e -> ~ In e (row_edges (rows st)) ->
  exists st', pr e st = Some st' /\ inv st' /\ grows (Datatypes.S (rank e)) st st' /\ In e (row_edges (rows st')).
Lemma links_ok k pr us : prints k pr ->
  (forall u, In u us -> is_symbol (fst u) = false -> (rank (fst u) < k)%nat /\ wanted (fst u)) ->
  forall st, inv st -> exists ls st', all_links pr us st = Some (ls, st') /\ inv st' /\ grows k st st' /\ Forall2 (link_matches (rows st')) us ls.
Proof.
  intros P. induction us as [|u us IH]; intros W st I; cbn [M_PsiFile.all_links]; [exists [], st; split; [reflexivity|]; split; [assumption|]; split; [apply grows_refl|constructor]|].
  assert (O : exists l st1, one_link pr u st = Some (l, st1) /\ inv st1 /\ grows k st st1 /\ link_matches (rows st1) u l).
  { unfold M_PsiFile.one_link. destruct (number_of (numbers st) (fst u)) as [n|] eqn:Q.
    - eexists _, st. split; [reflexivity|]. split; [assumption|]. split; [apply grows_refl|]. split; [reflexivity|]. split; [reflexivity|]. cbn [link_of l_number]. now apply number_line.
    - destruct (is_symbol (fst u)) eqn:Y.
      + eexists _, st. split; [reflexivity|]. split; [assumption|]. split; [apply grows_refl|]. split; [reflexivity|]. split; [reflexivity|]. assumption.
      + destruct (W u (or_introl eq_refl) Y) as [R Wu]. destruct (P (fst u) st R I Wu) as [st1 [E1 [I1 [G1 N1]]]].
        { rewrite <- numbered_edges by assumption. now apply number_none. }
        rewrite E1. eexists _, st1. split; [reflexivity|]. split; [assumption|]. split; [apply (grows_le (Datatypes.S (rank (fst u)))); [lia|assumption]|].
        split; [reflexivity|]. split; [reflexivity|]. cbn [link_of l_number]. rewrite <- numbered_edges in N1 by assumption. destruct (number_found _ _ N1) as [n Hn]. rewrite Hn. now apply number_line. }
  destruct O as [l [st1 [E1 [I1 [G1 M1]]]]]. rewrite E1. destruct (IH (fun v Hv => W v (or_intror Hv)) st1 I1) as [ls [st2 [E2 [I2 [G2 M2]]]]]. rewrite E2.
  exists (l :: ls), st2. split; [reflexivity|]. split; [assumption|]. split; [now apply (grows_trans _ _ st1)|]. constructor; [|assumption]. destruct (g_rows _ _ _ G2) as [m ->]. now apply link_more.
Qed.
Lemma parts_ok k pr ds : prints k pr ->
  (forall d u, In d ds -> In u (dv_links d) -> is_symbol (fst u) = false -> (rank (fst u) < k)%nat /\ wanted (fst u)) ->
  forall st, inv st -> exists ps st', all_parts pr ds st = Some (ps, st') /\ inv st' /\ grows k st st' /\ Forall2 (part_matches (rows st')) ds ps.
Proof.
  intros P. induction ds as [|d ds IH]; intros W st I; cbn [M_PsiFile.all_parts]; [exists [], st; split; [reflexivity|]; split; [assumption|]; split; [apply grows_refl|constructor]|].
  destruct (links_ok k pr (dv_links d) P (fun u => W d u (or_introl eq_refl)) st I) as [ls [st1 [E1 [I1 [G1 M1]]]]]. rewrite E1.
  destruct (IH (fun x u Hx => W x u (or_intror Hx)) st1 I1) as [ps [st2 [E2 [I2 [G2 M2]]]]]. rewrite E2.
  eexists _, st2. split; [reflexivity|]. split; [assumption|]. split; [now apply (grows_trans _ _ st1)|]. constructor; [|assumption].
  destruct (g_rows _ _ _ G2) as [m ->]. split; [now apply links_more|]. auto.
Qed.
Lemma printed_some e w : exists p, printed (shown_text e) w = Some p /\ (w = true -> p = quote (shown_text e)).
Proof.
  unfold printed. pose proof (s_utf8 _ S e) as U. destruct (M_Utf8.distance (bytes (quote (shown_text e)))) as [n|] eqn:D; [|contradiction].
  eexists. split; [reflexivity|]. intros ->. rewrite andb_false_r. destruct (Nat.eqb_spec n 0) as [->|]; [|reflexivity]. destruct (quote (shown_text e)) as [|c r] eqn:Q; [reflexivity|]. exfalso. revert D. clear.
  unfold M_Utf8.distance. cbn [bytes map length]. cbn [M_Utf8.distance_loop]. destruct (M_Utf8.next _) as [[cp l]|]; [|discriminate]. destruct (M_Utf8.distance_loop _ l); discriminate.
Qed.

Lemma inv_cover st c : inv st -> size (covered st) <= size c -> inv (State (numbers st) (last_number st) c (rows st)).
Proof. intros [I1 I2 I3 I4 I5 I6 I7] L. constructor; cbn; try assumption. intros e s q H Hs Hq. specialize (I5 e s q H Hs Hq). lia. Qed.
Lemma size_skipn {A} n (l : list A) : size (skipn n l) = size l - N.of_nat n.
Proof. unfold size. rewrite skipn_length. lia. Qed.
Lemma cover_size e p c : size c <= size (cover e p c).
Proof. unfold M_PsiFile.cover. destruct (from e), (to e); try lia. destruct (_ && _); [rewrite size_app|]; lia. Qed.
Lemma cover_reach e p c s q : from e = At s -> to e = At q -> s <= size c -> (write_whole e c = true -> p = quote (shown_text e)) -> q <= size (cover e p c).
Proof.
  intros Fs Ft L P. unfold M_PsiFile.cover, M_PsiFile.write_whole in *. rewrite Fs, Ft in *. destruct (N.ltb_spec (size c) q) as [K|K].
  - specialize (P eq_refl). assert (T : q - s <= size p).
    { rewrite P. unfold M_PsiFile.shown_text. rewrite Fs, Ft. rewrite <- (s_text _ S e s q Fs Ft). apply quote_size. }
    replace (s <=? size c) with true by (symmetry; apply N.leb_le; lia). replace (size c - s <=? size p) with true by (symmetry; apply N.leb_le; lia).
    cbn [andb]. rewrite size_app, size_skipn. lia.
  - destruct (_ && _); [rewrite size_app|]; lia.
Qed.
Lemma edge_ok f : prints f (print_edge f).
Proof.
  induction f as [|f IH]; intros e st R I We Ne; [lia|]. cbn [M_PsiFile.print_edge].
  assert (F : exists st1, match from e, to e with At s, At _ => fill (Datatypes.S (N.to_nat s)) (size (covered st)) s st | _, _ => Some st end = Some st1
     /\ inv st1 /\ grows (Datatypes.S (rank e)) st st1 /\ (forall s q, from e = At s -> to e = At q -> s <= size (covered st1)) /\ ~ In e (row_edges (rows st1))).
  { destruct (from e) as [s|k] eqn:Fs; [destruct (to e) as [q|k] eqn:Ft|].
    2,3: exists st; split; [reflexivity|]; split; [assumption|]; split; [apply grows_refl|]; split; [discriminate|assumption].
    destruct (fill_ok s (Datatypes.S (N.to_nat s)) (size (covered st)) st I) as [st1 [E1 [I1 [L1 [C1 [R1 N1]]]]]]; [lia| |lia|].
    { intros x s' q' H Hs Hq. left. now apply (i_reach _ I x s' q'). }
    exists st1. split; [assumption|]. split; [assumption|]. split; [|split].
    - constructor; [assumption|assumption|]. intros x Hx. destruct (N1 x Hx) as [H|[j [H1 [H2 H3]]]]; [auto|]. right. right. eauto.
    - intros s' q' Hs _. injection Hs as <-. assumption.
    - intros H. destruct (N1 e H) as [K|[j [H1 [H2 H3]]]]; [contradiction|]. destruct (s_raw _ S j e H3) as [Fe _]. rewrite Fs in Fe. injection Fe as ->. lia. }
  destruct F as [st1 [E1 [I1 [G1 [L1 Ne1]]]]]. rewrite E1. set (w := write_whole e (covered st1)).
  destruct (printed_some e w) as [p [Ep Pw]]. rewrite Ep. set (st1' := State (numbers st1) (last_number st1) (cover e p (covered st1)) (rows st1)).
  assert (C1 := cover_size e p (covered st1)).
  assert (I1' : inv st1') by (apply inv_cover; assumption).
  assert (G1' : grows (Datatypes.S (rank e)) st st1') by (destruct G1 as [G1 G2 G3]; constructor; [exact G1|cbn [covered st1']; lia|exact G3]).
  assert (Q1 : forall s q, from e = At s -> to e = At q -> q <= size (covered st1')) by (intros s q Fs Ft; apply (cover_reach e p (covered st1) s q Fs Ft); [now apply (L1 s q)|exact Pw]).
  destruct (parts_ok (rank e) (print_edge f) (divisions e)) with (st := st1') as [ps [st2 [E2 [I2 [G2 M2]]]]].
  { intros x sx Rx. apply IH. lia. }
  { intros d u Hd Hu Y. split; [now apply (s_rank _ S e d u)|now apply (W_part e d u)]. }
  { assumption. }
  rewrite E2.
  assert (Ne2 : ~ In e (row_edges (rows st2))).
  { intros H. destruct (g_new _ _ _ G2 e H) as [K|[K|[i [K1 K2]]]]; [contradiction|lia|]. destruct (s_raw _ S i e K2) as [Fe [q [Te Lq]]]. specialize (Q1 i q Fe Te). lia. }
  eexists. split; [reflexivity|]. rewrite <- app_nil_r with (l := covered st2) at 1.
  assert (Rw : row_ok (rows st2) (RowOf e (edge_row e (last_number st2 + 1) w ps))).
  { split; [assumption|]. split; [|now left]. unfold describes. cbn [ordinal source target edge_length edge_text item_text category M_PsiFile.edge_row]. rewrite (i_last _ I2).
    repeat (split; [reflexivity|]). split; [intros s q Fs Ft; unfold M_PsiFile.shown_text; rewrite Fs, Ft; auto|]. repeat (split; [reflexivity|]). left. repeat (split; [reflexivity|]). assumption. }
  rewrite app_nil_r. split; [|split].
  - apply (add_row st2 (RowOf e (edge_row e (last_number st2 + 1) w ps)) (covered st2) I2 Rw); [lia|].
    intros e' l s q H Fs Ft. injection H as <- _. specialize (Q1 s q Fs Ft). assert (C2 := g_covered _ _ _ G2). lia.
  - apply (grows_trans _ _ st2); [apply (grows_trans _ _ st1'); [assumption|apply (grows_le (rank e)); [lia|assumption]]|].
    apply add_grows; [lia|]. intros e' l H. injection H as <- _. left. lia.
  - cbn [rows]. rewrite row_edges_app. apply in_app_iff. right. now left.
Qed.
Lemma all_ok f es : (forall e, In e es -> (rank e < f)%nat) -> (forall e, In e es -> In e order) -> forall st, inv st ->
  exists st', print_all f es st = Some st' /\ inv st' /\ (exists more, rows st' = rows st ++ more) /\ forall e, In e es -> is_hidden e = false -> In e (row_edges (rows st')).
Proof.
  induction es as [|e es IH]; intros R O st I; cbn [M_PsiFile.print_all]; [exists st; split; [reflexivity|]; split; [assumption|]; split; [exists []; now rewrite app_nil_r|contradiction]|].
  assert (IH' := IH (fun x Hx => R x (or_intror Hx)) (fun x Hx => O x (or_intror Hx))).
  destruct (number_of (numbers st) e) as [n|] eqn:Q.
  - destruct (IH' st I) as [st' [E1 [I1 [[m M1] H1]]]]. exists st'. split; [assumption|]. split; [assumption|]. split; [eauto|]. intros x [<-|Hx] Hh; [|now apply H1].
    apply number_some in Q. apply (in_map fst) in Q. cbn [fst] in Q. rewrite numbered_edges in Q by assumption. rewrite M1, row_edges_app. apply in_app_iff. now left.
  - destruct (is_hidden e) eqn:Y.
    + destruct (IH' st I) as [st' [E1 [I1 [M1 H1]]]]. exists st'. split; [assumption|]. split; [assumption|]. split; [assumption|]. intros x [<-|Hx] Hh; [congruence|now apply H1].
    + assert (We : wanted e) by (apply W_order; [apply O; now left|assumption]).
      destruct (edge_ok f e st (R e (or_introl eq_refl)) I We) as [st1 [E1 [I1 [G1 N1]]]]; [rewrite <- numbered_edges by assumption; now apply number_none|]. rewrite E1.
      destruct (IH' st1 I1) as [st' [E2 [I2 [[m M2] H2]]]]. exists st'. split; [assumption|]. split; [assumption|]. destruct (g_rows _ _ _ G1) as [m1 M1]. split; [exists (m1 ++ m); now rewrite M2, M1, app_assoc|].
      intros x [<-|Hx] Hh; [|now apply H2]. rewrite M2, row_edges_app. apply in_app_iff. now left.
Qed.
Lemma inv_start : inv start.
Proof.
  constructor; cbn; try reflexivity; try contradiction; [intros [|k] r H; discriminate|constructor|]. intros a e l b H; destruct a; discriminate.
Qed.

(** ** The text *)
Lemma rebuild_app a : forall t b, rebuild t (a ++ b) = match rebuild t a with Some t' => rebuild t' b | None => None end.
Proof.
  induction a as [|[e l|n i c] a IH]; intros t b; [reflexivity| |]; cbn [app rebuild].
  - destruct (source l), (target l); try apply IH. destruct (_ <=? _); [apply IH|]. destruct (_ && _); [apply IH|reflexivity].
  - destruct (_ =? _); [apply IH|reflexivity].
Qed.
Definition told (st : state) : Prop := exists t, rebuild [] (rows st) = Some t /\ size t = size (covered st) /\ t = firstn (length t) all_text.
Hypothesis P : plain.
Lemma prefix_more t s q x : t = firstn (length t) all_text -> s <= size t -> size t <= q -> s <= q -> q <= size all_text ->
  x = firstn (N.to_nat (q - s)) (skipn (N.to_nat s) all_text) ->
  let t' := t ++ skipn (N.to_nat (size t - s)) x in size t' = q /\ t' = firstn (length t') all_text.
Proof.
  intros Et Ls Lt Lq La ->. cbv zeta. unfold size in *. set (k := N.to_nat q). set (j := N.to_nat s).
  replace (N.to_nat (q - s)) with (k - j)%nat by lia. replace (N.to_nat (N.of_nat (length t) - s)) with (length t - j)%nat by lia.
  assert (Q : t ++ skipn (length t - j) (firstn (k - j) (skipn j all_text)) = firstn k all_text).
  { rewrite skipn_firstn_comm. replace (k - j - (length t - j))%nat with (k - length t)%nat by lia.
    assert (Sk : skipn (length t - j) (skipn j all_text) = skipn (length t) all_text).
    { replace (skipn (length t) all_text) with (skipn (j + (length t - j)) all_text) by (f_equal; lia). rewrite <- (firstn_skipn j all_text) at 2. rewrite skipn_app. rewrite firstn_length_le by lia.
      rewrite (skipn_all2 (firstn j all_text)) by (rewrite firstn_length_le by lia; lia). cbn [app]. f_equal. lia. }
    rewrite Sk. rewrite Et at 1. rewrite <- (firstn_skipn (length t) all_text) at 3. rewrite firstn_app. rewrite firstn_length_le by lia. f_equal. rewrite firstn_firstn. f_equal. lia. }
  rewrite Q. rewrite firstn_length_le by lia. split; [lia|reflexivity].
Qed.
Lemma fill_told limit fuel : limit <= size all_text -> forall i st st', i = size (covered st) -> told st -> fill fuel i limit st = Some st' -> told st'.
Proof.
  intros La. induction fuel as [|fuel IH]; intros i st st' Ei Tt; cbn [M_PsiFile.fill]; [discriminate|]. destruct (N.ltb_spec i limit) as [K|K]; [|intros F; injection F as <-; assumption].
  destruct Tt as [t [T1 [T2 T3]]]. destruct (raw i) as [r|] eqn:R.
  - destruct (s_raw _ S i r R) as [Fr [q [Tr Lq]]]. rewrite Tr. destruct (P r i q Fr Tr) as [P1 [P2 P3]].
    assert (Sq : size (covered st ++ quote (text_of r)) = q) by (rewrite size_app, P1, (s_text _ S r i q Fr Tr); lia).
    apply IH; cbn [covered rows]; [now symmetry|]. destruct (prefix_more t i q (text_of r) T3) as [M1 M2]; [lia|lia|lia|lia|assumption|].
    exists (t ++ skipn (N.to_nat (size t - i)) (text_of r)). cbn [rows covered]. rewrite rebuild_app, T1. split; [|split; [congruence|assumption]].
    unfold symbol_row. cbn [rebuild source target whole edge_text]. rewrite Tr. replace (q <=? size t) with false by (symmetry; apply N.leb_gt; lia). replace (i <=? size t) with true by (symmetry; apply N.leb_le; lia). reflexivity.
  - apply IH; cbn [covered rows]; [rewrite size_app, size_one; lia|]. exists (t ++ [nth (N.to_nat i) all_text Ascii.zero]). cbn [rows covered]. rewrite rebuild_app, T1. cbn [rebuild].
    rewrite (proj2 (N.eqb_eq i (size t))) by lia. split; [reflexivity|]. rewrite !size_app, !size_one. split; [lia|].
    assert (Li : (length t < length all_text)%nat) by (unfold size in *; lia). replace (N.to_nat i) with (length t) by (unfold size in *; lia).
    rewrite app_length. cbn [length]. rewrite T3 at 1. clear -Li. revert Li. generalize (length t). induction all_text as [|c l IH]; intros n L; cbn [length] in L; [lia|]. destruct n as [|n]; [reflexivity|]. cbn [firstn nth Nat.add app]. f_equal. apply IH. lia.
Qed.
Lemma links_same pr us (st : state) : (forall u, In u us -> is_symbol (fst u) = false -> In (fst u) (map fst (numbers st))) -> exists ls, all_links pr us st = Some (ls, st).
Proof.
  induction us as [|u us IH]; intros H; cbn [M_PsiFile.all_links]; [eauto|]. destruct IH as [ls IH]; [auto using in_cons|].
  unfold M_PsiFile.one_link. destruct (number_of (numbers st) (fst u)) as [n|] eqn:Q; [rewrite IH; eauto|]. destruct (is_symbol (fst u)) eqn:Y; [rewrite IH; eauto|].
  apply number_none in Q. destruct Q. apply H; [now left|assumption].
Qed.
Lemma parts_same pr ds (st : state) : (forall d u, In d ds -> In u (dv_links d) -> is_symbol (fst u) = false -> In (fst u) (map fst (numbers st))) -> exists ps, all_parts pr ds st = Some (ps, st).
Proof.
  induction ds as [|d ds IH]; intros H; cbn [M_PsiFile.all_parts]; [eauto|]. destruct IH as [ps IH]; [intros x u Hx; apply (H x u); now right|].
  destruct (links_same pr (dv_links d) st) as [ls L]; [intros u; apply (H d u); now left|]. rewrite L, IH. eauto.
Qed.
Lemma edge_told f e st st' : inv st -> told st -> (forall s q, from e = At s -> to e = At q -> s <= size all_text) ->
  (forall d u, In d (divisions e) -> In u (dv_links d) -> is_symbol (fst u) = false -> In (fst u) (row_edges (rows st))) ->
  print_edge f e st = Some st' -> told st'.
Proof.
  intros I Tt _ Ch. destruct f as [|f]; cbn [M_PsiFile.print_edge]; [discriminate|].
  assert (F : forall st1, match from e, to e with At s, At _ => fill (Datatypes.S (N.to_nat s)) (size (covered st)) s st | _, _ => Some st end = Some st1 ->
     inv st1 /\ told st1 /\ (exists m, rows st1 = rows st ++ m) /\ forall s q, from e = At s -> to e = At q -> s <= size (covered st1)).
  { intros st1 H. destruct (from e) as [s|k] eqn:Fs; [destruct (to e) as [q|k] eqn:Ft|].
    2,3: injection H as <-; split; [assumption|]; split; [assumption|]; split; [exists []; now rewrite app_nil_r|discriminate].
    destruct (P e s q Fs Ft) as [_ [P2 _]].
    destruct (fill_ok s (Datatypes.S (N.to_nat s)) (size (covered st)) st I) as [st2 [E1 [I1 [L1 [C1 [R1 N1]]]]]]; [lia| |lia|].
    { intros x s' q' K Hs Hq. left. now apply (i_reach _ I x s' q'). }
    rewrite E1 in H. injection H as <-. split; [assumption|]. split; [apply (fill_told s (Datatypes.S (N.to_nat s)) ltac:(lia) (size (covered st)) st st2 eq_refl Tt E1)|]. split; [assumption|].
    intros s' q' Hs _. injection Hs as <-. assumption. }
  destruct (match from e, to e with At s, At _ => fill (Datatypes.S (N.to_nat s)) (size (covered st)) s st | _, _ => Some st end) as [st1|]; [|discriminate].
  destruct (F st1 eq_refl) as [I1 [[t [T1 [T2 T3]]] [[m M1] L1]]]. clear F. set (w := write_whole e (covered st1)).
  destruct (printed_some e w) as [p [Ep Pw]]. rewrite Ep. set (st1' := State (numbers st1) (last_number st1) (cover e p (covered st1)) (rows st1)).
  destruct (parts_same (print_edge f) (divisions e) st1') as [ps E2].
  { intros d u Hd Hu Y. cbn [numbers st1']. rewrite numbered_edges by assumption. rewrite M1, row_edges_app. apply in_app_iff. left. now apply (Ch d u). }
  rewrite E2. intros H. injection H as <-. unfold told. cbn [rows covered st1']. rewrite rebuild_app, T1. cbn [rebuild M_PsiFile.edge_row source target whole edge_text].
  destruct (from e) as [s|k] eqn:Fs; [destruct (to e) as [q|k] eqn:Ft|].
  2,3: exists t; split; [reflexivity|]; split; [|assumption]; unfold M_PsiFile.cover; rewrite ?Fs, ?Ft; assumption.
  destruct (P e s q Fs Ft) as [P1 [P2 P3]]. specialize (L1 s q eq_refl eq_refl). assert (Sh : shown_text e = text_of e) by (unfold M_PsiFile.shown_text; now rewrite Fs, Ft).
  assert (St := s_text _ S e s q Fs Ft). unfold w, M_PsiFile.write_whole in *. rewrite Fs, Ft in *.
  unfold M_PsiFile.cover. rewrite Fs, Ft. rewrite T2. replace (s <=? size (covered st1)) with true by (symmetry; apply N.leb_le; lia). cbn [andb].
  destruct (N.leb_spec q (size (covered st1))) as [K|K].
  - exists t. split; [reflexivity|]. split; [|assumption]. assert (Lp : size p <= q - s).
    { rewrite <- St, <- P1, <- Sh. revert Ep. unfold printed. destruct (M_Utf8.distance _) as [n|]; [|discriminate]. intros H. injection H as <-.
      destruct (n =? 0)%nat; [unfold size; cbn; lia|]. destruct (_ && _); [rewrite size_skipn|]; lia. }
    destruct (N.leb_spec (size (covered st1) - s) (size p)) as [C|C]; [|assumption]. rewrite size_app, size_skipn. lia.
  - rewrite (proj2 (N.ltb_lt (size (covered st1)) q)) in * by lia. rewrite Sh in *. rewrite (Pw eq_refl). rewrite P1, St. replace (size (covered st1) - s <=? q - s) with true by (symmetry; apply N.leb_le; lia).
    destruct (prefix_more t s q (text_of e) T3) as [M1' M2']; [lia|lia|lia|lia|assumption|]. rewrite T2 in M1', M2'. exists (t ++ skipn (N.to_nat (size (covered st1) - s)) (text_of e)). split; [reflexivity|]. split; [|assumption].
    rewrite M1', size_app, size_skipn, P1, St. lia.
Qed.
Hypothesis O : ordered.
Lemma all_told f es : (forall e, In e order -> (rank e < f)%nat) -> forall l1, order = l1 ++ es -> forall st, inv st -> told st ->
  (forall e, In e l1 -> is_hidden e = false -> In e (row_edges (rows st))) ->
  exists st', print_all f es st = Some st' /\ inv st' /\ told st' /\ forall e, In e order -> is_hidden e = false -> In e (row_edges (rows st')).
Proof.
  intros R. induction es as [|e es IH]; intros l1 El st I Tt H; cbn [M_PsiFile.print_all]; [exists st; rewrite El, app_nil_r; auto|].
  assert (El' : order = (l1 ++ [e]) ++ es) by (now rewrite <- app_assoc).
  destruct (number_of (numbers st) e) as [n|] eqn:Q.
  - apply (IH (l1 ++ [e]) El' st I Tt). intros x Hx Hh. apply in_app_iff in Hx as [Hx|[<-|[]]]; [now apply H|]. apply number_some in Q. apply (in_map fst) in Q. now rewrite numbered_edges in Q.
  - destruct (is_hidden e) eqn:Y; [apply (IH (l1 ++ [e]) El' st I Tt); intros x Hx Hh; apply in_app_iff in Hx as [Hx|[<-|[]]]; [now apply H|congruence]|].
    assert (Oe : In e order) by (rewrite El; apply in_app_iff; right; now left).
    destruct (edge_ok f e st (R e Oe) I (W_order e Oe Y)) as [st1 [E1 [I1 [G1 N1]]]]; [rewrite <- numbered_edges by assumption; now apply number_none|]. rewrite E1.
    apply (IH (l1 ++ [e]) El' st1 I1).
    + apply (edge_told f e st st1 I Tt); [| |assumption].
      * intros s q Fs Ft. destruct (P e s q Fs Ft) as [_ [K _]]. lia.
      * intros d u Hd Hu Hs. destruct (O l1 e es El Y d u Hd Hu Hs) as [O1 O2]. now apply H.
    + destruct (g_rows _ _ _ G1) as [m1 M1]. intros x Hx Hh. apply in_app_iff in Hx as [Hx|[<-|[]]]; [|assumption]. rewrite M1, row_edges_app. apply in_app_iff. left. now apply H.
Qed.
End Sound.

(** * C60 *)
Notation written := (written zero eqb order is_hidden from to raw all_text text_of is_symbol info_of divisions).
(** The lines are numbered from 1 on in their order; there is a line for every edge that is not
    hidden, no edge has two lines, there are only lines of such edges, of what they are made of
    and of symbols; every line says what the edge is, with the numbers of lines above it. *)
Theorem C60_lines rank f : sound rank -> (forall e, In e order -> (rank e < f)%nat) ->
  exists rs, written f = Some rs
    /\ (forall k r, nth_error rs k = Some r -> row_number r = N.of_nat (S k))
    /\ (forall e, In e order -> is_hidden e = false -> In e (row_edges rs))
    /\ NoDup (row_edges rs)
    /\ (forall e, In e (row_edges rs) -> wanted e \/ exists i, raw i = Some e)
    /\ (forall a e l b, rs = a ++ RowOf e l :: b -> describes a e l).
Proof.
  intros S R. destruct (all_ok rank S f order R (fun e H => H) start inv_start) as [st [E1 [I [_ H]]]]. exists (rows st).
  unfold M_PsiFile.written. rewrite E1. split; [reflexivity|]. split; [apply (i_order _ I)|]. split; [assumption|]. split; [apply (i_once _ I)|]. split; [apply (i_wanted _ I)|]. apply (i_lines _ I).
Qed.
(** The text can be read from the lines, up to the end of the last edge that is not hidden. *)
Theorem C60_text rank f : sound rank -> plain -> ordered -> (forall e, In e order -> (rank e < f)%nat) ->
  exists rs t, written f = Some rs /\ rebuild [] rs = Some t /\ t = firstn (length t) all_text
    /\ forall e s q, In e order -> is_hidden e = false -> from e = At s -> to e = At q -> q <= size t.
Proof.
  intros S P O R. destruct (all_told rank S P O f order R [] eq_refl start inv_start) as [st [E1 [I [[t [T1 [T2 T3]]] H]]]]; [exists []; repeat split|contradiction|].
  exists (rows st), t. unfold M_PsiFile.written. rewrite E1. split; [reflexivity|]. split; [assumption|]. split; [assumption|]. intros e s q He Hh Fs Ft. rewrite T2. now apply (i_reach _ I e s q (H e He Hh)).
Qed.
End File.
Print Assumptions C60_lines.
Print Assumptions C60_text.

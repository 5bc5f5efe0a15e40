(** C61: reading a PSI file. *)
From Coq Require Import String Ascii List ZArith NArith Bool Arith Lia.
From Verif Require M_Tags P_Tags M_Items P_Items.
From Verif Require Import M_Utf8 S_Utf8 L_Utf8 M_Cutter M_Lattice L_Lattice L_LatticeOps S_Lattice P_Lattice M_LatticeWalk P_LatticeVertices P_LatticePath.
From Verif Require Import M_Quoter M_PsiReader L_PsiReader M_PsiLattice.
From Verif Require L_LatticeTidy M_Psi L_Psi P_Psi M_PsiFile P_PsiFile P_PsiLattice.
Import ListNotations.
Local Open Scope nat_scope.

(** * Specification *)
(** The lines of a file follow the text [T], of which [c] bytes are known; then [c'] bytes are: a line begins
    in what is known or just behind it and has the text behind that, or it ends in what is known, whatever its text is. *)
Inductive follow (T : list Z) : nat -> list line -> nat -> Prop :=
  | F_end c : follow T c [] c
  | F_loose c l ls c' : M_Psi.n_loose l = true -> follow T c ls c' -> follow T c (l :: ls) c'
  | F_inside c l ls c' b : M_Psi.n_loose l = false -> M_Psi.n_length_loose l = false -> M_Psi.n_beginning l = Z.of_nat b ->
      b + Nat.max (Z.to_nat (M_Psi.n_length l)) (length (raw (M_Psi.n_text l))) <= c -> follow T c ls c' -> follow T c (l :: ls) c'
  | F_next c l ls c' b : M_Psi.n_loose l = false -> M_Psi.n_length_loose l = false -> M_Psi.n_beginning l = Z.of_nat b -> b <= c ->
      (M_Psi.n_length l <= Z.of_nat (length (raw (M_Psi.n_text l))))%Z ->
      b + length (raw (M_Psi.n_text l)) <= length T ->
      skipn (c - b) (raw (M_Psi.n_text l)) = sub T c (b + length (raw (M_Psi.n_text l)) - c) ->
      follow T (Nat.max c (b + length (raw (M_Psi.n_text l)))) ls c' -> follow T c (l :: ls) c'.

(** * Proofs *)
Section Topo.
Variable topo : list vertex -> list (vertex * vertex) -> option (list vertex).
Notation read_line := (read_line topo).
Notation read_lines := (read_lines topo).

(** What is kept over lines. *)
Record lines_read (ls : list line) (st st' : state) : Prop := {
  ls_program : lattice_of_program (lat st');
  ls_grows : grows (lat st) (lat st');
  ls_attrs : exists x, attrs st' = attrs st ++ x;
  ls_loose : more_loose (loose st) (loose st');
  ls_distinct : loose_ok (loose st) (lat st) -> loose_ok (loose st') (lat st');
  ls_known : exists x, known st' = x ++ known st /\ incl (map fst x) (map M_Psi.n_ordinal ls)
}.
Lemma lines_refl st : lattice_of_program (lat st) -> lines_read [] st st.
Proof.
  intros H. constructor; [assumption|apply grows_refl|exists []; now rewrite app_nil_r|intros k v K; exact K|auto|]. exists []. split; [reflexivity|intros k []].
Qed.
Lemma line_known l st st' : line_read l st st' -> exists x, known st' = x ++ known st /\ incl (map fst x) [M_Psi.n_ordinal l].
Proof.
  intros R. destruct (in_dec (list_eq_dec Z.eq_dec) NO_EDGE (map raw (M_Psi.n_tags l))) as [H|H].
  - rewrite (lr_none _ _ _ R) by (intros K; now apply K). exists []. split; [reflexivity|intros k []].
  - destruct (lr_edges _ _ _ R H) as [ds [_ ->]]. eexists. split; [reflexivity|]. intros k Hk. rewrite map_rev, map_map in Hk. apply in_rev, in_map_iff in Hk as [d [<- _]]. now left.
Qed.
Lemma lines_cons l ls st1 st2 st3 : line_read l st1 st2 -> lines_read ls st2 st3 -> lines_read (l :: ls) st1 st3.
Proof.
  intros A B. constructor.
  - apply B.
  - eapply grows_trans; [apply A|apply B].
  - destruct (lr_attrs _ _ _ A) as [x Ex], (ls_attrs _ _ _ B) as [y Ey]. exists (x ++ y). now rewrite Ey, Ex, app_assoc.
  - intros k v H. now apply (ls_loose _ _ _ B), (lr_loose _ _ _ A).
  - intros H. now apply (ls_distinct _ _ _ B), (lr_distinct _ _ _ A).
  - destruct (line_known _ _ _ A) as [x [Ex Ix]], (ls_known _ _ _ B) as [y [Ey Iy]]. exists (y ++ x). split; [now rewrite Ey, Ex, app_assoc|].
    rewrite map_app. intros k Hk. apply in_app_iff in Hk as [Hk|Hk]; [right; now apply Iy|apply Ix in Hk as [<-|[]]; now left].
Qed.
Lemma read_lines_ok fuel ls : forall st st', lattice_of_program (lat st) -> read_lines fuel ls st = Some st' -> lines_read (map snd ls) st st'.
Proof.
  induction ls as [|[b l] ls IH]; intros st st' HL; cbn [M_PsiReader.read_lines].
  - intros [= <-]. now apply lines_refl.
  - destruct (read_line fuel b l st) as [st1|] eqn:E; [|discriminate]. intros H. pose proof (read_line_ok _ _ _ _ _ _ HL E) as R.
    cbn [map snd]. eapply lines_cons; [exact R|]. apply IH; [apply R|assumption].
Qed.
Lemma read_lines_app fuel a b st st' : read_lines fuel (a ++ b) st = Some st' -> exists st1, read_lines fuel a st = Some st1 /\ read_lines fuel b st1 = Some st'.
Proof.
  revert st. induction a as [|[c l] a IH]; intros st; cbn [app M_PsiReader.read_lines]; [eauto|]. destruct (read_line fuel c l st) as [st1|]; [|discriminate]. apply IH.
Qed.

Lemma start_program a : lattice_of_program (lat (start a)).
Proof. apply R_start. Qed.
(** The lattice that is read is one that calls of its interface give. *)
Theorem C61_program fuel ls a st : read_lines fuel ls (start a) = Some st -> lattice_of_program (lat st) /\ loose_ok (loose st) (lat st).
Proof.
  intros H. pose proof (read_lines_ok _ _ _ _ (start_program a) H) as R. split; [apply R|]. apply (ls_distinct _ _ _ R). split; [discriminate|discriminate].
Qed.

Lemma at_key_app {V} (x y : list (Z * V)) k : ~ In k (map fst x) -> at_key (x ++ y) k = at_key y k.
Proof. induction x as [|[j v] x IH]; cbn; [reflexivity|]. intros H. destruct (Z.eqb_spec j k); [exfalso; apply H; now left|]. apply IH. intros K. apply H. now right. Qed.
Lemma at_key_in {V} (x : list (Z * V)) k v : at_key x k = Some v -> In k (map fst x).
Proof. induction x as [|[j w] x IH]; cbn; [discriminate|]. destruct (Z.eqb_spec j k); [now left|]. intros H. right. auto. Qed.
Lemma at_key_new {V} n (ds : list V) kn : ds <> [] -> exists d, at_key (rev (map (pair n) ds) ++ kn) n = Some d /\ In d ds.
Proof.
  intros H. destruct (exists_last H) as [ds' [d ->]]. exists d. rewrite map_app, rev_app_distr. cbn. rewrite Z.eqb_refl. split; [reflexivity|]. apply in_or_app. right. now left.
Qed.

(** Every part of every line is an edge between the vertices the line tells, with the tags, the item and the score
    it tells, and a partition made of the edges of the lines it names; a number means the edge of the line of that number. *)
Theorem C61_edges fuel ls a st b l : NoDup (map (fun x => M_Psi.n_ordinal (snd x)) ls) -> read_lines fuel ls (start a) = Some st -> In (b, l) ls -> has_edge l ->
  exists ds, Forall2 (told (lat st) (attrs st) (known st) (loose st) l) (parts_of l) ds /\
    (ds <> [] -> exists d, at_key (known st) (M_Psi.n_ordinal l) = Some d /\ In d ds).
Proof.
  intros ND H I He. apply in_split in I as [l1 [l2 ->]]. apply read_lines_app in H as [st1 [H1 H2]]. cbn [M_PsiReader.read_lines] in H2.
  destruct (read_line fuel b l st1) as [st2|] eqn:E; [|discriminate H2].
  pose proof (read_lines_ok _ _ _ _ (start_program a) H1) as R1. pose proof (read_line_ok _ _ _ _ _ _ (ls_program _ _ _ R1) E) as R2.
  pose proof (read_lines_ok _ _ _ _ (lr_program _ _ _ R2) H2) as R3. destruct (lr_edges _ _ _ R2 He) as [ds [F Ek]].
  destruct (ls_known _ _ _ R1) as [x [Ex Ix]]. cbn [known start] in Ex. rewrite app_nil_r in Ex. destruct (ls_known _ _ _ R3) as [y [Ey Iy]].
  rewrite map_app in ND. cbn [map snd] in ND. pose proof (NoDup_remove_2 _ _ _ ND) as Nn. rewrite map_map in Ix, Iy.
  assert (Hy : ~ In (M_Psi.n_ordinal l) (map fst y)) by (intros K; apply Nn, in_or_app; right; now apply Iy).
  exists ds. split.
  - assert (Mk : more_known (known st1) (known st)).
    { intros k d Hk. rewrite Ex in Hk. pose proof (at_key_in _ _ _ Hk) as Hi. apply Ix in Hi. rewrite Ey, at_key_app, Ek, at_key_app; [now rewrite Ex|..].
      - intros K. rewrite map_rev, map_map in K. apply in_rev, in_map_iff in K as [z [<- _]]. cbn in Hi. apply Nn, in_or_app. now left.
      - intros K. apply Iy in K. clear - ND Hi K. apply NoDup_remove_1 in ND. revert ND Hi K. generalize (map (fun x => M_Psi.n_ordinal (snd x)) l1) (map (fun x => M_Psi.n_ordinal (snd x)) l2).
        intros u v. induction u as [|z u IH]; cbn; intros N Hi K; [destruct Hi|]. inversion N; subst. destruct Hi as [->|Hi]; [|auto]. apply H1, in_or_app. now right. }
    clear -F Mk R3. induction F as [|p d ps ds T F IH]; constructor; [|assumption]. eapply told_more; [exact Mk|]. eapply told_kept; [apply R3|apply R3|apply R3|exact T].
  - intros N. destruct (at_key_new (M_Psi.n_ordinal l) ds (known st1) N) as [d [Ed Id]]. exists d. split; [|assumption]. rewrite Ey, at_key_app, Ek by assumption. exact Ed.
Qed.

(** The text of a lattice without an edge from the text to a loose vertex: what the lines append. *)
Lemma lines_text fuel ls : forall st st', lattice_of_program (lat st) -> grounded (lat st) -> loose_ok (loose st) (lat st) ->
  (forall b l, In (b, l) ls -> ~ falling l /\ (M_Psi.n_loose l = true \/ (0 <= M_Psi.n_beginning l)%Z)) -> read_lines fuel ls st = Some st' ->
  text (lat st') = fold_left (fun t x => line_text (snd x) t) ls (text (lat st)).
Proof.
  induction ls as [|[b l] ls IH]; intros st st' HL Gr Lo F; cbn [M_PsiReader.read_lines fold_left snd]; [now intros [= <-]|].
  destruct (read_line fuel b l st) as [st1|] eqn:E; [|discriminate]. intros H. pose proof (read_line_ok _ _ _ _ _ _ HL E) as R.
  destruct (F b l (or_introl eq_refl)) as [F1 F2]. rewrite <- (lr_text _ _ _ R F2 Gr). apply IH; [apply R|now apply (lr_grounded _ _ _ R)|now apply (lr_distinct _ _ _ R)| |assumption].
  intros c k Hk. apply (F c k). now right.
Qed.
Lemma start_grounded a : grounded (lat (start a)).
Proof. intros [|e] ed H; discriminate H. Qed.
Lemma start_loose a : loose_ok (loose (start a)) (lat (start a)).
Proof. split; discriminate. Qed.
(** The text is what the lines append, with a question mark for each byte in a gap. *)
Theorem C61_text fuel ls a st : (forall b l, In (b, l) ls -> ~ falling l /\ (M_Psi.n_loose l = true \/ (0 <= M_Psi.n_beginning l)%Z)) -> read_lines fuel ls (start a) = Some st ->
  text (lat st) = fold_left (fun t x => line_text (snd x) t) ls [].
Proof. intros F H. exact (lines_text _ _ _ _ (start_program a) (start_grounded a) (start_loose a) F H). Qed.

Lemma form_inside l : length (form l) = Nat.max (Z.to_nat (M_Psi.n_length l)) (length (raw (M_Psi.n_text l))).
Proof. unfold form. cbv zeta. rewrite app_length, repeat_length. lia. Qed.
Lemma form_text l : (M_Psi.n_length l <= Z.of_nat (length (raw (M_Psi.n_text l))))%Z -> form l = raw (M_Psi.n_text l).
Proof. intros H. unfold form. cbv zeta. replace (Z.to_nat (M_Psi.n_length l) - length (raw (M_Psi.n_text l))) with 0 by lia. reflexivity. Qed.
Lemma firstn_more {A} (T : list A) c : forall j, firstn (c + j) T = firstn c T ++ firstn j (skipn c T).
Proof. revert T. induction c as [|c IH]; intros T j; [reflexivity|]. destruct T as [|x T]; [cbn; now rewrite !firstn_nil|]. cbn. now rewrite IH. Qed.
Lemma follow_le T c ls c' : follow T c ls c' -> c <= c'.
Proof. induction 1; lia. Qed.
Lemma follow_text T ls : forall c c', c <= length T -> follow T c (map snd ls) c' -> fold_left (fun t (x : bool * line) => line_text (snd x) t) ls (firstn c T) = firstn c' T.
Proof.
  induction ls as [|[bb l] ls IH]; intros c c' Hc F; cbn [map snd fold_left] in *.
  - now inversion F.
  - inversion F as [|x l' ls' x' Hl F'|x l' ls' x' b Hl Hp Hb Hk F'|x l' ls' x' b Hl Hp Hb Hk Hn Hq Et F']; subst; clear F.
    + unfold line_text at 2. rewrite Hl. now apply IH.
    + unfold line_text at 2. rewrite Hl, Hb, Nat2Z.id, firstn_length, Nat.min_l by assumption. replace (b - c) with 0 by lia. cbn [repeat]. rewrite app_nil_r, firstn_length, Nat.min_l by assumption.
      rewrite skipn_all2, app_nil_r by (rewrite form_inside; lia). now apply IH.
    + unfold line_text at 2. rewrite Hl, Hb, Nat2Z.id, firstn_length, Nat.min_l by assumption. replace (b - c) with 0 by lia. cbn [repeat]. rewrite app_nil_r, firstn_length, Nat.min_l by assumption.
      rewrite form_text by assumption. rewrite Et. unfold sub. rewrite <- firstn_more. replace (c + (b + length (raw (M_Psi.n_text l)) - c)) with (Nat.max c (b + length (raw (M_Psi.n_text l)))) by lia.
      apply IH; [lia|assumption].
Qed.
Lemma follow_ok T c ls c' : follow T c ls c' -> forall l, In l ls -> ~ falling l /\ (M_Psi.n_loose l = true \/ (0 <= M_Psi.n_beginning l)%Z).
Proof.
  induction 1 as [|c l ls c' Hl F IH|c l ls c' b Hl Hp Hb Hk F IH|c l ls c' b Hl Hp Hb Hk Hn Hq Et F IH]; intros k Hk'; [destruct Hk'|destruct Hk' as [<-|Hk']; [|now apply IH]..]; (split; [intros [Q1 Q]; congruence|auto]).
  - right. lia.
  - right. lia.
Qed.
(** If the lines follow a text, this is the text of the lattice as far as they go. *)
Theorem C61_follow fuel ls a st T c : follow T 0 (map snd ls) c -> read_lines fuel ls (start a) = Some st -> text (lat st) = firstn c T.
Proof.
  intros F H. rewrite (C61_text fuel ls a st); [|intros b l Hl; apply (follow_ok _ _ _ _ F); now apply (in_map snd) in Hl|assumption].
  exact (follow_text T ls 0 c (Nat.le_0_l _) F).
Qed.
End Topo.
Print Assumptions C61_program.
Print Assumptions C61_edges.
Print Assumptions C61_text.
Print Assumptions C61_follow.

(** ** What was written *)
Section Written.
Variable same : score -> score -> bool.
Variable show : score -> str.
Variable scan : M_Psi.parser score.
Hypothesis same_spec : forall a b, same a b = true <-> a = b.
Context {E : Type}.
Notation row := (M_PsiFile.row score E).
Notation writable := (P_Psi.writable 0%Z show scan).

(** The edge a line would tell of; a byte without an edge is that of a symbol that has the tag of an empty set. *)
Definition bare_edge (n i : N) (c : ascii) : M_Psi.edge score :=
  M_Psi.Edge n (M_Psi.At i) (M_Psi.At (i + 1)) 1 [c] true [M_Psi.NONE] M_Psi.NONE M_Psi.NONE 0%Z [] [M_Psi.Part [M_Psi.Link None None true] [M_Psi.NONE] 0%Z].
Definition row_edge (r : row) : M_Psi.edge score :=
  match r with M_PsiFile.RowOf _ l => l | M_PsiFile.Bare n i c => bare_edge n i c end.
(** A line that can be read: the length is that of the text, and a text that is shortened has no character that is
    written as two. *)
Record clear (l : M_Psi.edge score) : Prop := {
  cl_writable : writable l;
  cl_between : forall s q, M_Psi.source l = M_Psi.At s -> M_Psi.target l = M_Psi.At q ->
    (s < q)%N /\ M_Psi.edge_length l = (q - s)%N /\ length (M_Psi.edge_text l) = N.to_nat (q - s) /\
    (M_Psi.whole l = true \/ length (M_Psi.quote (M_Psi.edge_text l)) = length (M_Psi.edge_text l));
  cl_falls : forall s k, M_Psi.source l = M_Psi.At s -> M_Psi.target l <> M_Psi.Free k
}.

Lemma bytes_byte s : Forall byte (M_Psi.bytes s).
Proof. unfold M_Psi.bytes. apply Forall_forall. intros x Hx. apply in_map_iff in Hx as [c [<- _]]. unfold byte. pose proof (N_ascii_bounded c). lia. Qed.
Lemma bytes_inj a : forall b, M_Psi.bytes a = M_Psi.bytes b -> a = b.
Proof.
  induction a as [|x a IH]; intros [|y b]; try discriminate; [reflexivity|]. intros [= H1 H2]. f_equal; [|now apply IH]. apply N2Z.inj in H1.
  rewrite <- (ascii_N_embedding x), <- (ascii_N_embedding y). now f_equal.
Qed.
Lemma distance_zero s : distance (M_Psi.bytes s) = Some 0 -> s = [].
Proof.
  intros H. apply (P_Utf8.C05_distance _ _ (bytes_byte s)) in H as [cps [[_ Ec] El]]. apply length_zero_iff_nil in El as ->. destruct s; [reflexivity|discriminate Ec].
Qed.
Lemma bare_text n i c s : row_text same show (M_PsiFile.Bare n i c : row) = Some s -> M_Psi.write same 0%Z show (bare_edge n i c) = Some s.
Proof.
  cbn [row_text]. intros H. unfold M_Psi.write, M_Psi.cells, M_Psi.text_cell. cbn [M_Psi.edge_text bare_edge M_Psi.whole].
  destruct (distance (M_Psi.bytes (M_Psi.quote [c]))) as [k|] eqn:Ed.
  - destruct (Nat.eqb_spec k 0) as [->|_]; [apply distance_zero, L_Psi.quote_nil in Ed; discriminate Ed|]. rewrite andb_false_r. rewrite <- H. unfold bare_cells. f_equal.
    f_equal. f_equal. f_equal. f_equal. unfold M_Psi.annotation_cell. cbn [M_Psi.score bare_edge]. rewrite (proj2 (same_spec 0%Z 0%Z) eq_refl). reflexivity.
  - exfalso. unfold bare_cells in H. cbn [M_Psi.row tl M_Psi.ALIGNMENTS hd] in H. rewrite Ed in H.
    repeat match type of H with match ?x with _ => _ end = _ => destruct x; [|discriminate H] | option_map _ ?x = _ => destruct x eqn:?; [|discriminate H]; cbn [option_map] in * end; try congruence.
    repeat match goal with K : match ?x with _ => _ end = Some _ |- _ => destruct x; [|discriminate K] | K : option_map _ ?x = Some _ |- _ => destruct x eqn:?; [|discriminate K]; clear K end; try congruence; discriminate.
Qed.
Lemma row_text_write r s : row_text same show r = Some s -> M_Psi.write same 0%Z show (row_edge r) = Some s.
Proof. destruct r as [e l|n i c]; [intros H; exact H|apply bare_text]. Qed.
Lemma unescape_short sp n : forall s t, length s <= n -> unescape sp s = Some t -> length t <= length s.
Proof.
  induction n as [|n IH]; intros s t Hn H; (destruct s as [|c s]; [cbn in H; injection H as <-; cbn; lia|]); [cbn in Hn; lia|]. cbn [length] in *. cbn [unescape] in H.
  destruct (Ascii.eqb c ch_under).
  { destruct (unescape sp s) as [u|] eqn:Q; [|discriminate H]. injection H as <-. apply IH in Q; [|lia]. cbn [length]. lia. }
  destruct (Ascii.eqb c ch_bs).
  - destruct s as [|d s]; [discriminate H|]. destruct (unescape_quoted sp d) as [x|]; [|discriminate H]. destruct (unescape sp s) as [u|] eqn:Q; [|discriminate H].
    injection H as <-. cbn [length] in *. apply IH in Q; [|lia]. lia.
  - destruct (unescape sp s) as [u|] eqn:Q; [|discriminate H]. injection H as <-. apply IH in Q; [|lia]. cbn [length]. lia.
Qed.
Lemma unquote_short s t : M_Psi.unquote s = Some t -> length t <= length s.
Proof. apply (unescape_short _ (length s)). lia. Qed.
Lemma enc_length cps : Forall scalar cps -> length cps <= length (flat_map enc cps).
Proof.
  induction 1 as [|c cps Hc _ IH]; [cbn; lia|]. cbn [flat_map length]. rewrite app_length. assert (1 <= length (enc c)); [|lia].
  unfold enc. repeat destruct (_ <? _)%Z; cbn; lia.
Qed.
Lemma cell_short (l : M_Psi.edge score) c t : M_Psi.text_cell l = Some c -> M_Psi.unquote c = Some t -> M_Psi.edge_text l <> [] ->
  M_Psi.whole l = true \/ length (M_Psi.quote (M_Psi.edge_text l)) = length (M_Psi.edge_text l) -> length t <= length (M_Psi.edge_text l).
Proof.
  intros Hc Ht N H. unfold M_Psi.text_cell in Hc. set (x := M_Psi.quote (M_Psi.edge_text l)) in *. destruct (distance (M_Psi.bytes x)) as [n|] eqn:Ed; [|discriminate Hc].
  apply P_Psi.some_eq in Hc. subst c. destruct (Nat.eqb_spec n 0) as [->|_]; [apply distance_zero, L_Psi.quote_nil in Ed; contradiction|].
  destruct ((13 <? n) && negb (M_Psi.whole l)) eqn:Q.
  - apply andb_true_iff in Q as [Q1 Q2]. apply Nat.ltb_lt in Q1. destruct H as [H|H]; [rewrite H in Q2; discriminate Q2|]. apply unquote_short in Ht. rewrite <- H.
    etransitivity; [exact Ht|]. clear Ht H Q2 N. apply (P_Utf8.C05_distance _ _ (bytes_byte x)) in Ed as [cps [[Sc Ec] <-]].
    assert (Lx : length x = length (flat_map enc cps)) by (rewrite <- Ec; unfold M_Psi.bytes; now rewrite map_length). rewrite Ec.
    rewrite <- (firstn_skipn 6 cps) in Ec, Sc, Lx |- *. set (a := firstn 6 cps) in *. set (r := skipn 6 cps) in *.
    assert (La : length a = 6) by (unfold a; rewrite firstn_length; lia). assert (Lr : length r = length cps - 6) by (unfold r; apply skipn_length).
    rewrite <- (firstn_skipn (length r - 3) r) in Ec, Sc, Lx |- *. set (m := firstn (length r - 3) r) in *. set (b := skipn (length r - 3) r) in *.
    assert (Lm : length m = length r - 3) by (unfold m; rewrite firstn_length; lia). assert (Lb : length b = 3) by (unfold b; rewrite skipn_length; lia).
    apply Forall_app in Sc as [Sa Sc]. apply Forall_app in Sc as [Sm Sb]. rewrite !flat_map_app, !app_length in *.
    rewrite <- La at 1. rewrite P_Psi.first_chars_spec by assumption. rewrite <- Lb at 1. rewrite (app_assoc (flat_map enc a)), P_Psi.last_chars_spec by assumption.
    rewrite firstn_length, skipn_length. pose proof (enc_length m Sm). cbn [M_Psi.lit length list_ascii_of_string]. lia.
  - unfold x in Ht. rewrite L_Psi.unquote_quote in Ht. injection Ht as <-. lia.
Qed.
Lemma cell_whole (l : M_Psi.edge score) c : M_Psi.text_cell l = Some c -> M_Psi.edge_text l <> [] -> M_Psi.whole l = true -> M_Psi.unquote c = Some (M_Psi.edge_text l).
Proof.
  intros Hc N H. unfold M_Psi.text_cell in Hc. destruct (distance _) as [n|] eqn:Ed; [|discriminate Hc]. injection Hc as <-.
  destruct (Nat.eqb_spec n 0) as [->|_]; [apply distance_zero, L_Psi.quote_nil in Ed; contradiction|]. rewrite H, andb_false_r. apply L_Psi.unquote_quote.
Qed.

(** What the reader takes from the lines. *)
Definition line_for (l : M_Psi.edge score) (n : line) : Prop := exists c t, M_Psi.text_cell l = Some c /\ M_Psi.unquote c = Some t /\ n = P_Psi.meant l t.
Section Topo.
Variable topo : list vertex -> list (vertex * vertex) -> option (list vertex).
Lemma rows_lines fuel (rs : list row) : forall ss st st', Forall (fun r => writable (row_edge r)) rs -> file_text same show rs = Some ss -> read_file topo scan fuel ss st = Some st' ->
  exists ls, Forall2 (fun r x => line_for (row_edge r) (snd x)) rs ls /\ read_lines topo fuel ls st = Some st'.
Proof.
  induction rs as [|r rs IH]; intros ss st st' F Hs Hr; cbn [file_text] in Hs.
  - injection Hs as <-. exists []. split; [constructor|exact Hr].
  - inversion F as [|? ? W F']; subst. destruct (row_text same show r) as [s|] eqn:Er; [|discriminate Hs]. destruct (file_text same show rs) as [ss'|] eqn:Es; [|discriminate Hs].
    injection Hs as <-. apply row_text_write in Er. cbn [read_file] in Hr.
    destruct (M_Psi.text_cell (row_edge r)) as [c|] eqn:Ec; [|unfold M_Psi.write, M_Psi.cells in Er; rewrite Ec in Er; discriminate Er].
    rewrite (@P_Psi.line_any Z same 0%Z show scan same_spec _ c s W Ec Er) in Hr. destruct (M_Psi.unquote c) as [t|] eqn:Eu; [|discriminate Hr].
    match type of Hr with (match ?x with _ => _ end = _) => destruct x as [st1|] eqn:E1; [|discriminate Hr] end.
    destruct (IH _ _ _ F' eq_refl Hr) as [ls [F2 H2]]. exists ((is_bare scan s, P_Psi.meant (row_edge r) t) :: ls). split.
    + constructor; [|assumption]. exists c, t. auto.
    + cbn [read_lines]. match goal with |- (match ?x with _ => _ end = _) => replace x with (Some st1) by (symmetry; exact E1) end. exact H2.
Qed.
Lemma rebuild_more (rs : list row) : forall t u, P_PsiFile.rebuild t rs = Some u -> exists v, u = t ++ v.
Proof.
  induction rs as [|[e l|n i c] rs IH]; intros t u; cbn [P_PsiFile.rebuild].
  - intros [= <-]. exists []. now rewrite app_nil_r.
  - destruct (M_Psi.source l), (M_Psi.target l); try apply IH. destruct (_ <=? _)%N; [apply IH|]. destruct (_ && _); [|discriminate]. intros H. apply IH in H as [v ->]. eexists. now rewrite <- app_assoc.
  - destruct (_ =? _)%N; [|discriminate]. intros H. apply IH in H as [v ->]. eexists. now rewrite <- app_assoc.
Qed.
Lemma rebuild_follow (rs : list row) T : forall ls t, Forall (fun r => clear (row_edge r)) rs -> Forall2 (fun r (x : bool * line) => line_for (row_edge r) (snd x)) rs ls ->
  P_PsiFile.rebuild t rs = Some T -> follow (M_Psi.bytes T) (length t) (map snd ls) (length T).
Proof.
  induction rs as [|r rs IH]; intros ls t C F H; inversion F as [|? [bb n] ? ls' [c [x [Hc [Hx En]]]] F']; subst; cbn [map snd] in *.
  - cbn in H. injection H as <-. constructor.
  - inversion C as [|? ? Cl C']; subst.
    assert (Step : match M_Psi.source (row_edge r), M_Psi.target (row_edge r) with
                   | M_Psi.At s, M_Psi.At q =>
                       if (q <=? M_PsiFile.size t)%N then P_PsiFile.rebuild t rs
                       else if ((s <=? M_PsiFile.size t)%N && M_Psi.whole (row_edge r)) then P_PsiFile.rebuild (t ++ skipn (N.to_nat (M_PsiFile.size t - s)) (M_Psi.edge_text (row_edge r))) rs
                       else None
                   | _, _ => P_PsiFile.rebuild t rs
                   end = Some T).
    { destruct r as [e l|k i ch]; [exact H|]. cbn [row_edge bare_edge M_Psi.source M_Psi.target M_Psi.whole M_Psi.edge_text]. cbn [P_PsiFile.rebuild] in H.
      destruct (N.eqb_spec i (M_PsiFile.size t)) as [->|]; [|discriminate H]. destruct (N.leb_spec (M_PsiFile.size t + 1) (M_PsiFile.size t)); [lia|].
      rewrite (proj2 (N.leb_le _ _)) by lia. rewrite N.sub_diag. exact H. }
    clear H. set (l := row_edge r) in *. clearbody l. destruct (M_Psi.source l) as [s|k] eqn:Es.
    2:{ apply F_loose; [cbn; now rewrite Es|]. apply IH; assumption. }
    destruct (M_Psi.target l) as [q|k] eqn:Et; [|exfalso; exact (cl_falls _ Cl s k Es Et)].
    destruct (cl_between _ Cl s q Es Et) as [Hsq [He [Hl Hw]]]. assert (N0 : M_Psi.edge_text l <> []) by (intros K; rewrite K in Hl; cbn in Hl; lia).
    destruct (N.leb_spec q (M_PsiFile.size t)).
    + apply F_inside with (N.to_nat s); cbn; rewrite ?Es, ?Et; [reflexivity|reflexivity|lia| |now apply IH].
      pose proof (cell_short l c x Hc Hx N0 Hw). unfold raw, M_Psi.bytes. rewrite map_length. rewrite He. unfold M_PsiFile.size in *. lia.
    + destruct (N.leb_spec s (M_PsiFile.size t)); [|discriminate Step]. cbn [andb] in Step. destruct (M_Psi.whole l) eqn:Wh; [|discriminate Step].
      rewrite (cell_whole l c Hc N0 Wh) in Hx. injection Hx as <-. unfold M_PsiFile.size in *.
      assert (Lr : length (raw (M_Psi.edge_text l)) = N.to_nat (q - s)) by (unfold raw, M_Psi.bytes; now rewrite map_length).
      destruct (rebuild_more _ _ _ Step) as [v Ev].
      assert (LT : length (M_Psi.bytes T) >= N.to_nat q).
      { unfold M_Psi.bytes. rewrite map_length, Ev, !app_length, skipn_length, Hl. lia. }
      apply F_next with (N.to_nat s); cbn [M_Psi.n_loose M_Psi.n_length_loose M_Psi.n_beginning M_Psi.n_length M_Psi.n_text P_Psi.meant]; rewrite ?Es, ?Et, ?Lr; [reflexivity|reflexivity|lia|lia|lia|lia| |].
      * unfold sub, M_Psi.bytes. rewrite Ev, <- app_assoc, map_app. rewrite skipn_app, map_length, Nat.sub_diag. rewrite (skipn_all2 (map _ t)) by (rewrite map_length; lia). cbn [app skipn].
        rewrite map_app. rewrite firstn_app. replace (length t - N.to_nat s) with (N.to_nat (N.of_nat (length t) - s)) by lia.
        rewrite map_length, skipn_length, Hl. replace (N.to_nat s + N.to_nat (q - s) - length t - (N.to_nat (q - s) - N.to_nat (N.of_nat (length t) - s))) with 0 by lia.
        cbn [firstn]. rewrite app_nil_r. rewrite firstn_all2; [unfold raw, M_Psi.bytes; now rewrite <- skipn_map|]. rewrite map_length, skipn_length, Hl. lia.
      * specialize (IH ls' _ C' F' Step). rewrite app_length, skipn_length, Hl in IH. replace (Nat.max (length t) (N.to_nat s + N.to_nat (q - s))) with (length t + (N.to_nat (q - s) - N.to_nat (N.of_nat (length t) - s))) by lia. exact IH.
Qed.
(** The text that can be read from the lines (C60) is the text that the reader gives the lattice. *)
Theorem C61_round_text fuel a (rs : list row) ss st T : Forall (fun r => clear (row_edge r)) rs -> P_PsiFile.rebuild [] rs = Some T ->
  file_text same show rs = Some ss -> read_file topo scan fuel ss (start a) = Some st -> text (lat st) = M_Psi.bytes T.
Proof.
  intros C H Hs Hr. assert (W : Forall (fun r => writable (row_edge r)) rs) by (eapply Forall_impl; [|exact C]; cbn; intros r K; apply K).
  destruct (rows_lines _ _ _ _ _ W Hs Hr) as [ls [F Hl]]. pose proof (rebuild_follow rs T ls [] C F H) as Fo. cbn [length] in Fo.
  rewrite (C61_follow topo fuel ls a st _ _ Fo Hl). rewrite firstn_all2; [reflexivity|]. unfold M_Psi.bytes. rewrite map_length. lia.
Qed.
(** Every line is an edge of the new lattice that is as the line tells. *)
Theorem C61_round_edges fuel a (rs : list row) ss st e l : Forall (fun r => writable (row_edge r)) rs -> NoDup (map P_PsiFile.row_number rs) ->
  file_text same show rs = Some ss -> read_file topo scan fuel ss (start a) = Some st -> In (M_PsiFile.RowOf e l) rs -> ~ In M_Psi.NONE (M_Psi.tag_names l) ->
  exists t ds, line_for l (P_Psi.meant l t) /\
    Forall2 (told (lat st) (attrs st) (known st) (loose st) (P_Psi.meant l t)) (parts_of (P_Psi.meant l t)) ds /\
    (ds <> [] -> exists d, at_key (known st) (Z.of_N (M_Psi.ordinal l)) = Some d /\ In d ds).
Proof.
  intros W ND Hs Hr I Nn. destruct (rows_lines _ _ _ _ _ W Hs Hr) as [ls [F Hl]].
  assert (Ord : map (fun x => M_Psi.n_ordinal (snd x)) ls = map Z.of_N (map P_PsiFile.row_number rs)).
  { clear -F. induction F as [|r [b n] rs ls [c [t [_ [_ En]]]] F IH]; [reflexivity|]. cbn [map snd] in *. rewrite IH, En. f_equal. destruct r; reflexivity. }
  assert (NL : NoDup (map (fun x => M_Psi.n_ordinal (snd x)) ls)) by (rewrite Ord; apply FinFun.Injective_map_NoDup; [intros x y; lia|assumption]).
  assert (G : exists b n, In (b, n) ls /\ line_for l n).
  { clear -F I. induction F as [|r [b n] rs ls Hn F IH]; [destruct I|]. destruct I as [->|I]; [exists b, n; split; [now left|exact Hn]|].
    destruct (IH I) as [b' [n' [H1 H2]]]. exists b', n'. split; [now right|assumption]. }
  destruct G as [b [n [Hn [c [t [Hc [Ht ->]]]]]]]. exists t.
  destruct (C61_edges topo fuel ls a st b _ NL Hl Hn) as [ds [D1 D2]].
  { intros K. apply in_map_iff in K as [x [Ex Hx]]. apply Nn. replace M_Psi.NONE with x; [exact Hx|]. apply (bytes_inj x M_Psi.NONE). exact Ex. }
  exists ds. split; [exists c, t; auto|]. split; assumption.
Qed.
End Topo.
End Written.
Print Assumptions C61_round_text.
Print Assumptions C61_round_edges.

(** ** There and back *)
(** An edge that was written and read: one line is about it, and the new lattice has an edge for each part of that line. *)
Definition back (same_attrs : M_Items.manager) (L : lattice) (st : state) (d : desc) : Prop :=
  exists above l t ds, P_PsiLattice.tells same_attrs L above d l /\ line_for l (P_Psi.meant l t) /\
    Forall2 (told (lat st) (attrs st) (known st) (loose st) (P_Psi.meant l t)) (parts_of (P_Psi.meant l t)) ds /\
    (ds <> [] -> exists x, at_key (known st) (Z.of_N (M_Psi.ordinal l)) = Some x /\ In x ds).
Lemma row_numbers (rs : list (M_PsiFile.row score desc)) : (forall k r, nth_error rs k = Some r -> P_PsiFile.row_number r = N.of_nat (S k)) -> NoDup (map P_PsiFile.row_number rs).
Proof.
  intros H. apply NoDup_nth_error. intros i j Hi E. rewrite map_length in Hi. rewrite !nth_error_map in E.
  destruct (nth_error rs i) as [x|] eqn:E1; [|apply nth_error_None in E1; lia]. destruct (nth_error rs j) as [y|] eqn:E2; [|discriminate E]. cbn in E. injection E as E.
  rewrite (H _ _ E1), (H _ _ E2) in E. lia.
Qed.
Lemma row_edges_in (rs : list (M_PsiFile.row score desc)) d : In d (P_PsiFile.row_edges rs) -> exists a l b, rs = a ++ M_PsiFile.RowOf d l :: b.
Proof.
  intros H. apply in_flat_map in H as [r [Hr Hd]]. destruct r as [e l|n i c]; [|destruct Hd]. destruct Hd as [->|[]]. apply in_split in Hr as [a [b ->]]. eauto.
Qed.
Section Back.
Variable same : score -> score -> bool.
Variable show : score -> str.
Variable scan : M_Psi.parser score.
Hypothesis same_spec : forall a b, same a b = true <-> a = b.
Variables topo topo' : list vertex -> list (vertex * vertex) -> option (list vertex).
Hypothesis topo_sorts : sorts topo.

(** Every edge that is not hidden comes back. *)
Theorem C61_lattice_edges ats rank L vs f rs ss fuel a st : careful_program L -> P_PsiLattice.printable rank L -> vertices topo true L = Ok vs ->
  (forall d, is_edge L d -> rank d < f) -> (forall d, is_edge L d -> ~ In M_Psi.NONE (psi_names L (edge_tags L d))) ->
  psi_file topo ats L f = Some rs -> Forall (fun r => P_Psi.writable 0%Z show scan (row_edge r)) rs -> file_text same show rs = Some ss ->
  read_file topo' scan fuel ss (start a) = Some st ->
  forall d, is_edge L d -> edge_hidden L d = false -> back ats L st d.
Proof.
  intros HL P Ev R Nn Ef W Es Er d Hd Hh. destruct (P_PsiLattice.C60_lattice topo ats rank L vs f topo_sorts HL P Ev R) as [rs' [E1 [N1 [N2 [N3 [N4 N5]]]]]].
  rewrite Ef in E1. injection E1 as <-. destruct (row_edges_in rs d (N2 d Hd Hh)) as [above [l [rest E2]]].
  pose proof (N5 _ _ _ _ E2) as Tl.
  destruct (C61_round_edges same show scan same_spec topo' fuel a rs ss st d l W (row_numbers rs N1) Es Er) as [t [ds [D1 [D2 D3]]]].
  - rewrite E2. apply in_or_app. right. now left.
  - destruct (P_PsiLattice.tl_item _ _ _ _ _ Tl) as [it [_ [_ [_ [[-> _]|[_ ->]]]]]]; [now apply Nn|]. intros [K|[]]. discriminate K.
  - exists above, l, t, ds. auto.
Qed.
(** And so does the text, as far as it is under edges that are not hidden. *)
Theorem C61_lattice_text ats rank L L' order vs f rs ss fuel a st : careful_program L -> P_PsiLattice.printable rank L -> vertices topo true L = Ok vs ->
  (forall d, is_edge L d -> rank d < f) -> Forall P_PsiLattice.plain_byte (text L) -> edges_by_target topo (M_Tags.mask_const true) L = (L', Ok order) ->
  (forall e ed p L2 us u, nth_error (edges L) e = Some ed -> In p (e_partitions ed) -> usages (p_sequence p) L = (L2, Ok us) -> In u us ->
     N.testbit (edge_tags L (fst u)) 0 = false -> before order (fst u) (Explicit e)) ->
  grounded L ->
  psi_file topo ats L f = Some rs -> Forall (fun r => P_Psi.writable 0%Z show scan (row_edge r)) rs -> file_text same show rs = Some ss ->
  read_file topo' scan fuel ss (start a) = Some st ->
  text (lat st) = firstn (length (text (lat st))) (text L) /\
  forall d q, is_edge L d -> edge_hidden L d = false -> (exists p, source L d = Ok (Text p)) -> target L d = Ok (Text q) -> q <= length (text (lat st)).
Proof.
  intros HL P Ev R Pl Eo O Gr Ef W Es Er.
  destruct (P_PsiLattice.C60_lattice topo ats rank L vs f topo_sorts HL P Ev R) as [rs' [E1 [_ [_ [_ [N4 N5]]]]]]. rewrite Ef in E1. injection E1 as <-.
  destruct (P_PsiLattice.C60_lattice_text topo ats rank L L' order vs f topo_sorts HL P Ev R Pl Eo O) as [rs' [t [E1 [B [Et K]]]]]. rewrite Ef in E1. injection E1 as <-.
  assert (Bt : Forall byte (text L)).
  { destruct (careful_tidy L HL) as [_ T]. destruct (L_LatticeTidy.t_text _ T) as [cps [Hc ->]]. now apply flat_map_enc_bytes. }
  assert (Tx : text (lat st) = t).
  { rewrite (C61_round_text same show scan same_spec topo' fuel a rs ss st (str_of t)); [|..|exact B|exact Es|exact Er].
    - apply P_PsiLattice.bytes_str. rewrite Et. apply Forall_forall. intros x Hx. rewrite Forall_forall in Bt. apply Bt. rewrite <- (firstn_skipn (length t) (text L)). apply in_or_app. now left.
    - apply Forall_forall. intros r Hr. pose proof (proj1 (Forall_forall _ _) W r Hr) as Wr. apply in_split in Hr as [above [rest E2]]. destruct r as [d l|n i c]; cbn [row_edge] in *.
      + assert (Hd : is_edge L d).
        { apply N4. rewrite E2. unfold P_PsiFile.row_edges. rewrite flat_map_app. apply in_or_app. right. now left. }
        pose proof (N5 _ _ _ _ E2) as Tl. destruct (P_PsiLattice.tl_source _ _ _ _ _ Tl) as [v [Ev1 Ev2]]. destruct (P_PsiLattice.tl_target _ _ _ _ _ Tl) as [w [Ew1 Ew2]].
        constructor; [assumption|..].
        * intros s q Hs Hq. destruct v as [p|k]; [|cbn in Ev2; congruence]. destruct w as [x|k]; [|cbn in Ew2; congruence]. cbn in Ev2, Ew2.
          destruct (P_PsiLattice.tl_text _ _ _ _ _ Tl p x Ev1 Ew1) as [T1 T2]. assert (s = N.of_nat p) by congruence. assert (q = N.of_nat x) by congruence. subst s q.
          destruct (P_PsiLattice.between L HL d p x Hd Ev1 Ew1) as [Hl _].
          destruct (P_PsiLattice.view_plain L HL Pl d (N.of_nat p) (N.of_nat x)) as [V1 _]; [now rewrite (P_PsiLattice.end_ok L source d _ Hd Ev1)|now rewrite (P_PsiLattice.end_ok L target d _ Hd Ew1)|].
          rewrite (P_PsiLattice.psi_text_between L HL d p x Hd Ev1 Ew1), <- T2 in V1. unfold M_PsiFile.size in V1.
          split; [lia|]. split; [rewrite T1; lia|]. split; [rewrite T2, P_PsiLattice.str_length; unfold sub; rewrite firstn_length, skipn_length; lia|]. right. lia.
        * intros s k Hs Hk. destruct v as [p|j]; [|cbn in Ev2; congruence]. destruct w as [x|j]; [cbn in Ew2; congruence|].
          destruct d as [y|e]; [discriminate Ew1|]. cbn in Ev1, Ew1. destruct (nth_error (edges L) e) as [ed|] eqn:Ee; [|discriminate Ev1]. injection Ev1 as Ev1. injection Ew1 as Ew1.
          specialize (Gr e ed Ee). rewrite Ev1, Ew1 in Gr. discriminate (Gr eq_refl).
      + constructor; [assumption|..]; cbn [M_Psi.source M_Psi.target bare_edge M_Psi.edge_length M_Psi.edge_text M_Psi.whole length].
        * intros s q [= <-] [= <-]. split; [lia|]. split; [lia|]. split; [lia|now left].
        * intros s k _ H. discriminate H. }
  rewrite Tx. split; assumption.
Qed.
End Back.
Print Assumptions C61_lattice_edges.
Print Assumptions C61_lattice_text.

(** * Examples *)
Local Open Scope nat_scope.
Definition file_of (L : lattice) : option (list str) :=
  match psi_file some_order [] L 9 with Some rs => file_text Z.eqb P_Psi.show_Z rs | None => None end.
Definition reread (L : lattice) : option state :=
  match file_of L with Some ss => read_file some_order M_Psi.int_ 20 ss (start []) | None => None end.
(** "ala ma" with two tokens and a phrase of them. *)
Definition plain_lattice : lattice := after (firstn 7 P_PsiLattice.psi_calls) new_lattice.
Definition plain_rows : list (M_PsiFile.row score desc) := match psi_file some_order [] plain_lattice 9 with Some rs => rs | None => [] end.
Definition plain_order : list desc := [Implicit 0; Implicit 1; Implicit 2; Explicit 0; Implicit 3; Implicit 4; Implicit 5; Explicit 1; Explicit 2].
Example C61_example_lattice : careful_program plain_lattice /\ P_PsiLattice.printable P_PsiLattice.by_number plain_lattice /\
  vertices some_order true plain_lattice = Ok [Loose 0; Text 0; Text 1; Text 2; Text 3; Text 4; Text 5; Text 6] /\ (forall d, is_edge plain_lattice d -> P_PsiLattice.by_number d < 9) /\
  Forall P_PsiLattice.plain_byte (text plain_lattice) /\ edges_by_target some_order (M_Tags.mask_const true) plain_lattice = (plain_lattice, Ok plain_order) /\
  (forall d, is_edge plain_lattice d -> ~ In M_Psi.NONE (psi_names plain_lattice (edge_tags plain_lattice d))) /\ grounded plain_lattice.
Proof.
  split; [unfold plain_lattice, P_PsiLattice.psi_calls; cbn [firstn]; careful|]. split; [apply P_PsiLattice.printable_check; vm_compute; reflexivity|]. split; [vm_compute; reflexivity|].
  split; [intros [p|e] H; cbn [P_PsiLattice.by_number]; [lia|]; assert (e < 3) by exact H; lia|].
  split; [apply P_PsiLattice.plain_check; vm_compute; reflexivity|]. split; [vm_compute; reflexivity|]. split.
  - intros [p|[|[|[|e]]]] H K; [vm_compute in K; repeat (destruct K as [K|K]; [discriminate K|]); exact K..|]. assert (S (S (S e)) < 3) by exact H. lia.
  - intros [|[|[|e]]] ed H; vm_compute in H; [injection H as <-; reflexivity..|destruct e; discriminate H].
Qed.
Example C61_example_order : forall e ed p L2 us u, nth_error (edges plain_lattice) e = Some ed -> In p (e_partitions ed) -> usages (p_sequence p) plain_lattice = (L2, Ok us) -> In u us ->
    N.testbit (edge_tags plain_lattice (fst u)) 0 = false -> before plain_order (fst u) (Explicit e).
Proof.
  unfold plain_order. intros e ed p L2 us u Ee Hp Eu Hu Ht. destruct e as [|[|[|e]]]; vm_compute in Ee; [injection Ee as <-..|destruct e; discriminate Ee];
    cbn [e_partitions] in Hp; destruct Hp as [<-|[]]; vm_compute in Eu; injection Eu as _ <-; cbn [In] in Hu;
    repeat (destruct Hu as [<-|Hu]; [first [vm_compute in Ht; discriminate Ht|cbn [fst]; repeat first [apply B_here; cbn [In]; tauto|apply B_next]]|]); try destruct Hu.
Qed.
Ltac chars_away := let c := fresh in let K := fresh in let Q := fresh in intros c K Q; vm_compute in K; cbn in Q;
  repeat (destruct K as [<-|K]; [repeat (destruct Q as [Q|Q]; [discriminate Q|]); contradiction|]); contradiction.
Ltac solid_first := let c := fresh in let r := fresh in let H := fresh in intros c r H; vm_compute in H; injection H as <- _; split; discriminate.
Ltac row_ok := constructor; try reflexivity; try solid_first; try (intros K; now destruct K);
  [split; [discriminate|]; split; repeat (apply Forall_cons || apply Forall_nil); try solid_first; (split; [discriminate|]; split; [reflexivity|chars_away])
  |split; [discriminate|]; split; [solid_first|chars_away]
  |..].
Example C61_example_rows : psi_file some_order [] plain_lattice 9 = Some plain_rows /\ Forall (fun r => P_Psi.writable 0%Z P_Psi.show_Z M_Psi.int_ (row_edge r)) plain_rows.
Proof.
  split; [vm_compute; reflexivity|]. remember plain_rows as rs eqn:E. vm_compute in E. subst rs.
  repeat (apply Forall_cons || apply Forall_nil); cbn [row_edge].
  - row_ok. + constructor. + left. reflexivity.
  - row_ok. + constructor. + left. reflexivity.
  - row_ok. + constructor. + left. reflexivity.
  - row_ok. + intros _. split; [intros r; reflexivity|]. split; [discriminate|]. split; [reflexivity|chars_away]. + constructor.
    + right. right. split; [discriminate|]. repeat (apply Forall_cons || apply Forall_nil).
      split; [repeat (apply Forall_cons || apply Forall_nil); cbn; (split; [reflexivity|]; intros r Hr; first [discriminate Hr|injection Hr as <-; split; [discriminate|chars_away]])|].
      split; [repeat (apply P_Psi.L_number; [discriminate|]); apply P_Psi.L_free; constructor|]. split; [discriminate|]. split; intros K; now destruct K.
Qed.
Example C61_example_read : option_map (map string_of_list_ascii) (file_of plain_lattice) = Some
    ["01 0000 03    ala          token                 ala         word";
     "02 0003 01    _            symbol                _           '_";
     "03 0004 02    ma           token                 ma          word";
     "04 0000 06    ala_ma       p                     x           word<7>[1$s$-2-3]"]%string /\
  option_map (fun st => (text (lat st), map (fun e => (e_from e, e_to e, e_score e, map p_sequence (e_partitions e))) (edges (lat st)), known st)) (reread plain_lattice) = Some
    ([97; 108; 97; 32; 109; 97]%Z,
     [(Text 0, Text 3, 0%Z, [Sequence [(Implicit 0, M_Items.ZNull); (Implicit 1, M_Items.ZNull); (Implicit 2, M_Items.ZNull)] 0 0]);
      (Text 4, Text 6, 0%Z, [Sequence [(Implicit 4, M_Items.ZNull); (Implicit 5, M_Items.ZNull)] 0 0]);
      (Text 0, Text 6, 7%Z, [Sequence [(Explicit 0, M_Items.ZSym [115]%Z); (Implicit 3, M_Items.ZNull); (Explicit 1, M_Items.ZNull)] 0 0])],
     [(4%Z, Explicit 2); (3%Z, Explicit 1); (2%Z, Implicit 3); (1%Z, Explicit 0)]).
Proof. split; vm_compute; reflexivity. Qed.
(** So the theorems tell of this lattice. *)
Example C61_example_back : exists st, reread plain_lattice = Some st /\ back [] plain_lattice st (Explicit 2) /\ text (lat st) = firstn (length (text (lat st))) (text plain_lattice) /\ 6 <= length (text (lat st)).
Proof.
  destruct C61_example_lattice as [A1 [A2 [A3 [A4 [A5 [A6 [A7 A8]]]]]]]. destruct C61_example_rows as [B1 B2].
  assert (F : exists ss, file_text Z.eqb P_Psi.show_Z plain_rows = Some ss /\ exists st, read_file some_order M_Psi.int_ 20 ss (start []) = Some st).
  { eexists. split; [vm_compute; reflexivity|]. eexists. vm_compute. reflexivity. }
  destruct F as [ss [F1 [st F2]]]. exists st. split; [unfold reread, file_of; now rewrite B1, F1|]. split.
  - refine (C61_lattice_edges Z.eqb P_Psi.show_Z M_Psi.int_ Z.eqb_eq some_order some_order some_order_sorts [] _ _ _ 9 _ ss 20 [] st A1 A2 A3 A4 A7 B1 B2 F1 F2 (Explicit 2) _ _); [vm_compute; repeat constructor|vm_compute; reflexivity].
  - destruct (C61_lattice_text Z.eqb P_Psi.show_Z M_Psi.int_ Z.eqb_eq some_order some_order some_order_sorts [] _ _ _ _ _ 9 _ ss 20 [] st A1 A2 A3 A4 A5 A6 C61_example_order A8 B1 B2 F1 F2) as [T1 T2].
    split; [exact T1|]. apply (T2 (Explicit 2) 6); [vm_compute; repeat constructor|vm_compute; reflexivity|eexists; vm_compute; reflexivity|vm_compute; reflexivity].
Qed.
(** Loose vertices: a number is a vertex; a byte that no line tells of is a question mark. *)
Example C61_example_loose :
  option_map (fun st => (text (lat st), map (fun e => (e_from e, e_to e)) (edges (lat st)), loose st))
    (read_file some_order M_Psi.int_ 20 (map list_ascii_of_string
       ["01 0000 02 ab token ab T"; "# loose"; "02 @7 *0002 x p x X[]"; "03 @7 *@9 x p x Y[]"; "04 0003 01 c token c T[]"]%string) (start [])) =
  Some ([97; 98; 63; 99]%Z, [(Text 0, Text 2); (Loose 0, Text 2); (Loose 0, Loose 1); (Text 3, Text 4)], [(9%Z, Loose 1); (7%Z, Loose 0)]).
Proof. vm_compute. reflexivity. Qed.

(** * What fails *)
(** An edge from the text to a loose vertex: the text of its item is taken for a text of the lattice. *)
Theorem C61_loose_refuted : text P_PsiLattice.psi_lattice = [97; 108; 97; 32; 109; 97]%Z /\
  option_map (fun st => text (lat st)) (reread P_PsiLattice.psi_lattice) = Some [97; 108; 97; 63; 196; 133]%Z.
Proof. vm_compute. auto. Qed.
Print Assumptions C61_loose_refuted.
(** A shortened text that is longer than the edge, because characters that are written as two are cut: its end is appended. *)
Definition SCORES : list Z := [97; 98; 99; 100; 101; 102; 95; 95; 95; 120; 121]%Z.
Definition score_lattice : lattice := after
  [AppendString SCORES; AddSymbols (Text 0) (Text 11); AddEdge (Text 0) (Text 9) (ex_item WORD [97]%Z) 4%N (Sequence [] 0 9) 0%Z (-1) (-1);
   AddEdge (Text 9) (Text 11) (ex_item WORD [98]%Z) 4%N (Sequence [] 9 11) 0%Z (-1) (-1);
   AddEdge (Text 0) (Text 11) (ex_item WORD [99]%Z) 4%N (Sequence [(Explicit 0, M_Items.ZNull); (Explicit 1, M_Items.ZNull)] 0 0) 0%Z (-1) (-1)] new_lattice.
Theorem C61_shortened_refuted : text score_lattice = SCORES /\ option_map (fun st => text (lat st)) (reread score_lattice) = Some (SCORES ++ [121%Z]).
Proof. vm_compute. auto. Qed.
Print Assumptions C61_shortened_refuted.
(** A partition over symbols behind another partition: the walk begins where the other one ended. *)
Definition two_parts (p : string) : list str :=
  [M_Psi.lit "01 0000 02 ab token ab T"; app (M_Psi.lit "02 0000 02 ab p ab ") (list_ascii_of_string p)].
Theorem C61_partitions_refuted :
  (exists st, read_file some_order M_Psi.int_ 20 (two_parts "X[-,1]") (start []) = Some st) /\ read_file some_order M_Psi.int_ 20 (two_parts "X[1,-]") (start []) = None.
Proof. split; [eexists|]; vm_compute; reflexivity. Qed.
Print Assumptions C61_partitions_refuted.
(** A character of two bytes that is in no edge: the lines of its bytes are not UTF-8, and nothing is written. *)
Definition uncovered : lattice := after
  [AppendString [196; 133; 97]%Z; AddEdge (Text 2) (Text 3) (ex_item WORD [97]%Z) 4%N empty_sequence 0%Z (-1) (-1)] new_lattice.
Theorem C61_bytes_refuted : psi_file some_order [] uncovered 9 <> None /\ file_of uncovered = None.
Proof. split; [vm_compute; discriminate|vm_compute; reflexivity]. Qed.
Print Assumptions C61_bytes_refuted.

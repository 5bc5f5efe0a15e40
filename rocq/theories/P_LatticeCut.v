(** C54: the run of a cutter over the lattice. *)
From Coq Require Import ZArith List Bool Lia.
From Verif Require Import M_Utf8 S_Utf8 L_Utf8 M_Tags M_Items M_Cutter M_Lattice P_Tags P_Cutter L_Lattice S_Lattice L_LatticeOps L_LatticeTidy.
From Verif Require Import P_Lattice M_LatticeWalk L_LatticeNodes P_LatticeWalk P_LatticeVertices P_LatticePath L_LatticeMarks M_LatticeCut L_LatticeCut.
Import ListNotations.
Local Open Scope nat_scope.
Local Notation text := M_Lattice.text.
Local Notation later := P_Tags.later.

(** ** Specification *)
(** A piece of the text that a cutter has cut off: the item, its begin and its end. *)
Definition piece : Type := item * nat * nat.
Definition end_of (t : list Z) (q : option nat) : nat := match q with Some e => e | None => length t end.
(** The pieces lie one after another from [a] to [b]. *)
Fixpoint tiled (a b : nat) (l : list piece) : Prop :=
  match l with [] => a = b | (_, x, y) :: r => x = a /\ a < y /\ tiled y b r end.
Section Contract.
Context {St : Type}.
Variable cut : St -> list Z -> nat -> option (St * item * option nat).
Variable ready : St -> list Z -> nat -> Prop.
(** The contract of cutOff: it advances, cuts between characters, and its items are not
    those of symbols. *)
Definition obedient (t : list Z) : Prop := forall st pos, boundary t pos -> pos < length t -> ready st t pos ->
  exists st' it q, cut st t pos = Some (st', it, q) /\ pos < end_of t q <= length t /\ boundary t (end_of t q) /\ ~ quoted it /\
    (end_of t q < length t -> ready st' t (end_of t q)).
(** The calls of cutOff, one after another, to the end of the text. *)
Inductive drives : St -> list Z -> nat -> list piece -> St -> Prop :=
  | D_last st t pos st' it q : cut st t pos = Some (st', it, q) -> length t <= end_of t q -> drives st t pos [(it, pos, end_of t q)] st'
  | D_more st t pos st' it q l st2 : cut st t pos = Some (st', it, q) -> end_of t q < length t -> drives st' t (end_of t q) l st2 ->
      drives st t pos ((it, pos, end_of t q) :: l) st2.
End Contract.
(** The symbol edges that the lattice lists lead from [p] to [w], where there is none. *)
Inductive symbols_to (L : lattice) : nat -> nat -> Prop :=
  | T_end p : snd (out_edges (Text p) symbol_mask L) = Ok [] -> symbols_to L p p
  | T_on p d l w : snd (out_edges (Text p) symbol_mask L) = Ok (d :: l) -> symbols_to L (p + symbol_len L p) w -> symbols_to L p w.
(** There is an edge of the item over the text from [a] to [b], with the tags, and one of its
    partitions consists of symbol edges from [a] to [b]. *)
Definition over_symbols (L : lattice) (tg : collection) (it : item) (a b : nat) : Prop :=
  exists e ed t s us, nth_error (edges L) e = Some ed /\ e_from ed = Text a /\ e_to ed = Text b /\ M_Items.item_eqb (e_item ed) it = true /\
    included tg (e_tags ed) /\ In (Partition t s 0%Z (-1) (-1)) (e_partitions ed) /\ included tg t /\
    snd (usages s L) = Ok us /\ symbol_run L a (map fst us) b.

(** ** Proofs *)
Lemma boundary_sub T p n e : boundary T p -> boundary T (p + n) -> p + n <= length T -> boundary (sub T p n) e -> boundary T (p + e).
Proof.
  intros Hp Hn Hl (a & b & E & Ha & Hb & <-). pose proof Hp as (x & y & Ex & Hx & Hy & Lx). pose proof Hn as (u & v & Eu & Hu & Hv & Lu).
  assert (Eall : T = x ++ sub T p n ++ v).
  { rewrite <- (firstn_skipn p T) at 1. f_equal; [rewrite Ex, firstn_app, Lx, Nat.sub_diag, firstn_O, app_nil_r; apply firstn_all2; lia|].
    unfold sub. rewrite <- (firstn_skipn n (skipn p T)) at 1. f_equal. rewrite skipn_twice. rewrite Eu, skipn_app, skipn_all2 by lia. replace (n + p - length u) with 0 by lia. reflexivity. }
  exists (x ++ a), (b ++ v). split; [rewrite Eall, E, <- !app_assoc; reflexivity|]. split; [now apply wf_app|]. split; [now apply wf_app|]. rewrite app_length. lia.
Qed.
Lemma build_all_settled L L' us : settled L L' -> build_all L' us = build_all L us.
Proof. intros [_ [C [V _]]]. unfold build_all. now rewrite (fold_add_core _ _ _ C V). Qed.
Lemma keeps_trans L1 L2 L3 : keeps L1 L2 -> keeps L2 L3 -> keeps L1 L3.
Proof. intros A B p. now rewrite (B p). Qed.
Lemma settled_tags L L' : settled L L' -> tags L' = tags L.
Proof. intros [_ [C _]]. apply C. Qed.
Lemma plain_cursor L ds p q : symbol_run L p ds q -> ds <> [] -> cursor_at L (cursor_of (build_all L (plain ds))) ds.
Proof.
  intros R Hn. pose proof (cursor_of_build L (plain ds)) as K. rewrite plain_fst in K. apply K.
  - eapply symbol_run_chain, R.
  - intros u Hu. apply (symbol_run_edges _ _ _ _ R). rewrite <- (plain_fst ds). now apply in_map.
  - destruct ds; [congruence|discriminate].
Qed.
Definition tokens (L : lattice) (p0 : nat) (tg : collection) (x : piece) : Prop :=
  let '(it, a, b) := x in exists ds e, symbol_run L (p0 + a) ds (p0 + b) /\ item_edge L (p0 + a) (p0 + b) it tg ds e.
Lemma tokens_firm L L' p0 tg x : firm L L' -> tokens L p0 tg x -> tokens L' p0 tg x.
Proof.
  intros F. destruct x as [[it a] b]. intros [ds [e [R I]]]. exists ds, e. split; [now apply (firm_symbol_run L)|now apply (item_edge_firm L)].
Qed.
Lemma cut_loop_spec {St} (cut : St -> list Z -> nat -> option (St * item * option nat)) ready p0 t tg : obedient cut ready t ->
  forall n pos st c L ds, symbol_program L -> mask_index (masks L) symbol_mask <> None -> known_tags L tg -> N.testbit tg 0 = false ->
  t = sub (text L) p0 (length t) -> boundary (text L) p0 -> boundary (text L) (p0 + length t) ->
  boundary t pos -> pos < length t -> ready st t pos -> symbol_run L (p0 + pos) ds (p0 + length t) -> cursor_at L c ds -> length t - pos <= n ->
  exists L' st' l, cut_loop cut n st t pos c tg L = (L', Ok (Some st')) /\ drives cut st t pos l st' /\ tiled pos (length t) l /\
    symbol_program L' /\ mask_index (masks L') symbol_mask <> None /\ keeps L L' /\ firm L L' /\ tags L' = tags L /\
    Forall (tokens L' p0 tg) l /\
    (forall e, nth_error (edges L') e = nth_error (edges L) e \/
       exists it a b ds, In (it, a, b) l /\ item_edge L' (p0 + a) (p0 + b) it tg ds e).
Proof.
  intros Ob. induction n as [|n IH]; intros pos st c L ds HL Hix Hk Ht Et Bp Bw Bpos Hpos Hr R Hc Hn; [lia|].
  destruct (symbol_marked _ HL) as [G [T M]]. destruct (Ob st pos Bpos Hpos Hr) as [st1 [it [q [Ec [He [Be [Hq Hr1]]]]]]].
  set (e := end_of t q) in *. cbn [cut_loop]. rewrite Ec. fold (end_of t q). fold e.
  assert (Hlen : p0 + length t <= length (text L)) by now apply boundary_wf in Bw.
  assert (Bpos' : boundary (text L) (p0 + pos)) by (apply (boundary_sub _ p0 (length t)); try assumption; now rewrite <- Et).
  assert (Be' : boundary (text L) (p0 + e)) by (apply (boundary_sub _ p0 (length t)); try assumption; now rewrite <- Et).
  destruct (symbol_run_split L ds G T _ _ (p0 + e) Bpos' R Be') as [d1 [d2 [-> [R1 R2]]]]; [lia|].
  assert (Hd1 : d1 <> []) by (intros ->; cbn in R1; lia).
  replace (e - pos) with ((p0 + e) - (p0 + pos)) by lia.
  destruct (cut_sequence_spec L c d1 d2 _ _ HL Hc R1) as [L1 [c1 [E1 [S1 K1]]]].
  pose proof (settled_firm _ _ S1) as F1. pose proof (firm_symbol_run _ _ _ F1 _ _ R1) as R1'. pose proof (plain_cursor _ _ _ _ R1' Hd1) as Q1.
  pose proof S1 as [HL1 _].
  destruct (first_vertex_spec L1 d1 _ _ HL1 R1' Hd1 Q1) as [L2 [E2 S2]].
  pose proof (settled_firm _ _ S2) as F2. pose proof (firm_symbol_run _ _ _ F2 _ _ R1') as R2'. pose proof (plain_cursor _ _ _ _ R2' Hd1) as Q2. pose proof S2 as [HL2 _].
  destruct (last_vertex_spec L2 d1 _ _ HL2 R2' Hd1 Q2) as [L3 [E3 S3]]. rewrite (build_all_settled _ _ _ S2) in E3, Q2.
  pose proof (settled_firm _ _ S3) as F3. pose proof (firm_symbol_run _ _ _ F3 _ _ R2') as R3'. pose proof (cursor_firm _ _ _ _ F3 Q2) as Q3. pose proof S3 as [HL3 _].
  assert (S13 : settled L L3) by (eapply settled_trans; [exact S1|eapply settled_trans; eassumption]).
  pose proof (settled_firm _ _ S13) as F13. pose proof (settled_tags _ _ S13) as T13.
  assert (Hk3 : known_tags L3 tg) by (unfold known_tags; now rewrite T13).
  destruct (add_token L3 (p0 + pos) (p0 + e) it tg d1 (build_all L1 (plain d1)) HL3 (settled_index _ _ S13 Hix) Hk3 Ht Hq) as
    [L4 [x [E4 [HL4 [[Hix4 Kp4] [F4 [T4 [I4 U4]]]]]]]]; try assumption; [now rewrite (fm_text _ _ F13)|now rewrite (fm_text _ _ F13)|lia|].
  assert (F14 : firm L L4) by (eapply firm_trans; eassumption).
  assert (Kp14 : keeps L L4) by (destruct S13 as [_ [_ [_ K]]]; eapply keeps_trans; eassumption).
  assert (T14 : tags L4 = tags L) by congruence.
  assert (U14 : forall y, y <> x -> nth_error (edges L4) y = nth_error (edges L) y).
  { intros y Hy. rewrite (U4 y Hy). destruct S13 as [_ [C _]]. now rewrite (c_edges _ _ C). }
  assert (Tk : tokens L4 p0 tg (it, pos, e)) by (exists d1, x; split; [now apply (firm_symbol_run L)|assumption]).
  unfold bind at 1. rewrite E1. unfold bind at 1. rewrite E2. unfold bind at 1. rewrite E3. unfold bind at 1. rewrite E4.
  destruct (Nat.lt_ge_cases e (length t)) as [Hlt|Hge].
  - destruct q as [p|]; [|cbn in e; lia]. cbn in e. subst e. destruct (Nat.ltb_spec p (length t)) as [_|]; [|lia].
    destruct (IH p st1 c1 L4 d2 HL4 Hix4) as [L' [st' [l [E [D [Tl [HL' [Hix' [Kp' [F' [T' [Fa U']]]]]]]]]]]].
    + unfold known_tags. now rewrite T14.
    + assumption.
    + now rewrite (fm_text _ _ F14).
    + now rewrite (fm_text _ _ F14).
    + now rewrite (fm_text _ _ F14).
    + assumption.
    + assumption.
    + now apply Hr1.
    + now apply (firm_symbol_run L).
    + apply (cursor_firm L1); [|assumption]. eapply firm_trans; [exact F2|]. eapply firm_trans; eassumption.
    + lia.
    + exists L', st', ((it, pos, p) :: l). split; [exact E|]. split; [exact (D_more _ _ _ _ _ _ (Some p) _ _ Ec Hlt D)|].
      split; [cbn; repeat split; [lia|assumption]|]. split; [assumption|]. split; [assumption|]. split; [eapply keeps_trans; eassumption|].
      split; [eapply firm_trans; eassumption|]. split; [congruence|]. split; [constructor; [now apply (tokens_firm L4)|assumption]|].
      intros y. destruct (U' y) as [->|[i [a [b [ds' [H1 H2]]]]]].
      * destruct (Nat.eq_dec y x) as [->|Hy]; [|left; now apply U14]. right. exists it, pos, p, d1. split; [now left|]. now apply (item_edge_firm L4).
      * right. exists i, a, b, ds'. split; [now right|assumption].
  - assert (Eq : e = length t) by lia. exists L4, st1, [(it, pos, e)]. split.
    { destruct q as [p|]; [|reflexivity]. cbn in e. subst e. destruct (Nat.ltb_spec p (length t)) as [|_]; [lia|reflexivity]. }
    split; [apply D_last; assumption|]. split; [cbn; repeat split; [lia|assumption]|]. do 5 (split; [assumption|]). split; [constructor; [assumption|constructor]|].
    intros y. destruct (Nat.eq_dec y x) as [->|Hy]; [|left; now apply U14]. right. exists it, pos, e, d1. split; [now left|assumption].
Qed.

(** ** The tags of the cutter *)
Lemma index_app ns l n i : M_Tags.index ns n = Some i -> M_Tags.index (ns ++ l) n = Some i.
Proof.
  revert i. induction ns as [|x ns IH]; intros i; cbn [M_Tags.index app]; [discriminate|]. destruct (M_Tags.str_eqb x n); [auto|].
  destruct (M_Tags.index ns n) as [j|]; [|discriminate]. now rewrite (IH j eq_refl).
Qed.
Lemma add_tag_again m c n m1 c1 m2 : add_tag (m, c) n = Some (m1, c1) -> later m1 m2 -> add_tag (m2, c) n = Some (m2, c1).
Proof.
  unfold add_tag. destruct (M_Tags.index _ n) as [i|] eqn:Ei; [|discriminate]. destruct (CAPACITY <=? i) eqn:Ec; [discriminate|]. intros [= <- <-] [[l El] Hp].
  cbn [M_Tags.names M_Tags.planes] in *. assert (E2 : M_Tags.index (M_Tags.names m2) n = Some i) by (rewrite El; now apply index_app).
  unfold M_Tags.register. rewrite E2, E2, Ec. destruct m2 as [ns ps]. cbn [M_Tags.names M_Tags.planes] in *. do 3 f_equal. destruct (Z.eqb (hd 0%Z n) 33); [|reflexivity].
  apply N.bits_inj. intros j. unfold M_Tags.set_bit. rewrite N.setbit_eqb. destruct (N.eqb_spec (N.of_nat i) j) as [<-|]; [|reflexivity]. symmetry. apply Hp.
  unfold M_Tags.set_bit. apply N.setbit_eq.
Qed.
Lemma add_tags_later ns : forall m c m' c', add_tags (m, c) ns = Some (m', c') -> later m m'.
Proof.
  induction ns as [|n ns IH]; intros m c m' c'; cbn [add_tags]; [intros [= <- _]; apply later_refl|].
  destruct (add_tag (m, c) n) as [[m1 c1]|] eqn:E; [|discriminate]. intros H. apply IH in H. eapply later_trans; [|exact H].
  unfold add_tag in E. destruct (M_Tags.index _ n) as [i|]; [|discriminate]. destruct (CAPACITY <=? i); [discriminate|]. injection E as <- _.
  split; cbn [M_Tags.names M_Tags.planes].
  - destruct (register_spec (M_Tags.names m) n) as [l [El _]]. now exists l.
  - intros j Hj. destruct (Z.eqb _ 33); [|assumption]. unfold M_Tags.set_bit. rewrite N.setbit_eqb, Hj. apply orb_true_r.
Qed.
Lemma add_tags_again ns : forall m c m' c' m2, add_tags (m, c) ns = Some (m', c') -> later m' m2 -> add_tags (m2, c) ns = Some (m2, c').
Proof.
  induction ns as [|n ns IH]; intros m c m' c' m2; cbn [add_tags]; [intros [= <- <-]; reflexivity|].
  destruct (add_tag (m, c) n) as [[m1 c1]|] eqn:E; [|discriminate]. intros H L. rewrite (add_tag_again _ _ _ _ _ m2 E); [now apply (IH m1 c1 m')|].
  eapply later_trans; [|exact L]. eapply add_tags_later, H.
Qed.
Lemma create_again m ns m' c : M_Tags.create m ns = Some (m', c) -> M_Tags.create m' ns = Some (m', c).
Proof. intros H. eapply add_tags_again; [exact H|apply later_refl]. Qed.
Lemma tags_step L ns m' c : symbol_program L -> M_Tags.create (tags L) ns = Some (m', c) ->
  symbol_program (set_tags m' L) /\ firm L (set_tags m' L) /\ keeps L (set_tags m' L) /\ known_tags (set_tags m' L) c /\ (~ In SYMBOL ns -> N.testbit c 0 = false).
Proof.
  intros HL E. destruct (symbol_marked _ HL) as [G [T M]].
  assert (Ok1 : P_Tags.ok (tags L)) by (apply reachable_ok, G).
  destruct (create_ok _ _ _ _ Ok1 E) as [Ok2 [_ D]]. split; [|split; [|split; [|split]]].
  - apply (SP_call L _ (TagCall (M_Tags.Create ns)) (Ok tt)); try exact I; [assumption| |discriminate].
    cbn [exec]. unfold tag_call, change. cbn [M_Tags.step]. now rewrite E.
  - split; [reflexivity|reflexivity|]. intros e ed He. exists ed. split; [assumption|apply extends_refl].
  - intros p. unfold listed. reflexivity.
  - eexists. exact D.
  - intros Hn. destruct (N.testbit c 0) eqn:Eb; [|reflexivity]. destruct Hn. apply (dn_has _ _ _ D). exists 0. split; [apply Ok2|assumption].
Qed.

(** ** One edge *)
Lemma cursor_usages L s ds : good L -> cursor_at L (cursor_of s) ds -> exists us, snd (usages s L) = Ok us /\ map fst us = ds.
Proof.
  intros G Hc. unfold usages, cursor_of in *. destruct (links s) as [|u us] eqn:El.
  - cbn in Hc. destruct Hc as [ps [-> [R B]]]. pose proof (run_length _ _ _ _ R).
    destruct (packed_run ps (s_end s - s_begin s) _ _ L G R B) as [L' [-> _]]; [lia|]. eexists. split; [reflexivity|]. rewrite map_map. reflexivity.
  - eexists. split; [reflexivity|exact Hc].
Qed.
Lemma packed_edges_same n : forall p e L ix L' r, mask_index (masks L) symbol_mask = Some ix -> packed_edges n p e L = (L', r) -> L' = L.
Proof.
  induction n as [|n IH]; intros p e L ix L' r H; cbn [packed_edges]; [unfold ret; congruence|]. destruct (p <? e); [|unfold ret; congruence].
  unfold bind. destruct (packed_edge p L) as [L1 [x|x|]] eqn:E; pose proof (packed_same _ _ _ _ _ H E); subst L1; try congruence.
  destruct (packed_edges n _ e L) as [L2 [y|y|]] eqn:E2; pose proof (IH _ _ _ _ _ _ H E2); subst L2; unfold ret; congruence.
Qed.
Lemma usages_same L s : mask_index (masks L) symbol_mask <> None -> fst (usages s L) = L.
Proof.
  intros H. destruct (mask_index (masks L) symbol_mask) as [ix|] eqn:E; [|congruence]. unfold usages. destruct (links s); [|reflexivity].
  destruct (packed_edges _ _ _ L) as [L' r] eqn:E2. now apply (packed_edges_same _ _ _ _ _ _ _ E) in E2.
Qed.
Lemma tokens_over L p0 tg it a b : good L -> tokens L p0 tg (it, a, b) -> over_symbols L tg it (p0 + a) (p0 + b).
Proof.
  intros G [ds [e [R [ed [t [s [H1 [H2 [H3 [H4 [H5 [H6 [H7 H8]]]]]]]]]]]]]. destruct (cursor_usages _ _ _ G H8) as [us [U1 U2]].
  exists e, ed, t, s, us. rewrite U2. do 8 (split; [assumption|]). assumption.
Qed.
Lemma empty_path L us : chain L (map fst us) -> (forall u, In u us -> is_edge L (fst u)) -> sequence_empty (build_all L us) = match us with [] => true | _ => false end.
Proof.
  intros Hc He. destruct (build_all_form L us (or_introl Hc)) as [->|[ps [b [e [-> [E1 [R [Hp Hh]]]]]]]].
  - unfold sequence_empty. cbn [links]. destruct us; reflexivity.
  - unfold sequence_empty. cbn [links s_begin s_end]. pose proof (run_length _ _ _ _ R). destruct us as [|u us]; cbn [map] in E1.
    + destruct ps; [|discriminate]. cbn in R. subst. apply Nat.leb_refl.
    + destruct ps as [|q ps]; [discriminate|]. cbn in H. apply Nat.leb_gt. lia.
Qed.
Lemma source_place L d v : good L -> tidy L -> is_edge L d -> source L d = Ok v -> valid L v = true /\ place L v.
Proof.
  intros G T He Hs. destruct (edge_ends L d He) as [a [b [Ea Eb]]]. rewrite Ea in Hs. injection Hs as <-. split; [|apply (edge_place L d a b G T He Ea Eb)].
  destruct d as [p|e]; cbn in Ea, Eb, He.
  - injection Ea as <-. pose proof (g_bits _ G _ He). cbn. apply Nat.leb_le. lia.
  - destruct (nth_error (edges L) e) as [ed|] eqn:Ee; [|discriminate]. injection Ea as <-. destruct (g_edges _ G _ _ Ee) as [K1 _]. now apply (g_names _ G).
Qed.
(** What a run over one edge has done. *)
Definition outcome {St} (cut : St -> list Z -> nat -> option (St * item * option nat)) (tg : collection) (L L' : lattice) (p w : nat) (st st' : St) (l : list piece) : Prop :=
  (p = w /\ st' = st /\ l = [] \/ p < w /\ drives cut st (sub (text L) p (w - p)) 0 l st' /\ tiled 0 (w - p) l) /\
  Forall (tokens L' p tg) l /\
  (forall e, nth_error (edges L') e = nth_error (edges L) e \/ exists it a b ds, In (it, a, b) l /\ item_edge L' (p + a) (p + b) it tg ds e).
Lemma edge_spec {St} (cut : St -> list Z -> nat -> option (St * item * option nat)) ready ns L d p n st m' tg :
  symbol_program L -> is_edge L d -> source L d = Ok (Text p) -> length (text L) < n -> M_Tags.create (tags L) ns = Some (m', tg) -> ~ In SYMBOL ns ->
  (forall t, well_formed t -> obedient cut ready t) -> (forall t, ready st t 0) ->
  exists w ds L' st' l, symbol_run L p ds w /\ reach L p w /\ run_on_edge cut ns n st d symbol_mask L = (L', Ok (Some st')) /\
    symbol_program L' /\ keeps L L' /\ firm L L' /\ tags L' = (if p <? w then m' else tags L) /\ outcome cut tg L L' p w st st' l.
Proof.
  intros HL He Hs Hn Ec Hns Ob Hr. destruct (symbol_marked _ HL) as [G [T M]]. destruct (source_place _ _ _ G T He Hs) as [_ Bp]. cbn in Bp.
  destruct (symbol_path n p new_builder L HL Bp) as [L1 [us [w [E1 [S1 [R [W Hix]]]]]]]; [lia|].
  exists w, (map fst us). pose proof (symbol_run_le _ _ _ _ R) as Hle. rewrite map_length in Hle.
  assert (Ch : chain L (map fst us)) by eapply symbol_run_chain, R.
  assert (Ed : forall u, In u us -> is_edge L (fst u)) by (intros u Hu; apply (symbol_run_edges _ _ _ _ R); now apply in_map).
  pose proof (empty_path L us Ch Ed) as Em. unfold run_on_edge. unfold bind at 1, ask at 1. rewrite Hs. unfold bind at 1, get_path at 1. unfold bind at 1. rewrite E1. unfold ret at 1. cbn [fst snd].
  fold (build_all L us). rewrite Em. destruct us as [|u us].
  - cbn in R. subst w. exists L1, st, []. split; [reflexivity|]. split; [assumption|]. split; [reflexivity|]. destruct S1 as [A1 [A2 [A3 A4]]].
    split; [assumption|]. split; [assumption|]. split; [now apply core_firm|]. rewrite Nat.ltb_irrefl. split; [apply A2|]. split; [auto|]. split; [constructor|].
    intros e. left. now rewrite (c_edges _ _ A2).
  - set (us' := u :: us) in *. assert (Hlt : p < w) by (cbn in Hle; lia). assert (Hne : us' <> []) by discriminate.
    pose proof (cursor_of_build L us' Ch Ed Hne) as Q. pose proof (settled_firm _ _ S1) as F1. pose proof (cursor_firm _ _ _ _ F1 Q) as Q1.
    pose proof S1 as [HL1 [C1 [V1 K1]]]. destruct (symbol_marked _ HL1) as [G1 [T1 M1]].
    destruct (cursor_usages _ _ _ G1 Q1) as [vs [U1 U2]]. pose proof (usages_same L1 (build_all L us') Hix) as U3.
    destruct (usages (build_all L us') L1) as [Lu ru] eqn:Eu. cbn [fst snd] in U1, U3. subst Lu ru.
    assert (Bw : boundary (text L) w) by (eapply (symbol_run_place L); eassumption). assert (Hw : w <= length (text L)) by now apply boundary_wf in Bw.
    set (t := sub (text L) p (w - p)). assert (Lt : length t = w - p) by (unfold t, sub; rewrite firstn_length, skipn_length; lia).
    assert (Es : sequence_text (build_all L us') L1 = (L1, Ok t)).
    { unfold sequence_text, bind, ask. rewrite Eu, U2. pose proof (symbol_texts L1 _ G1 T1 _ _ (firm_symbol_run _ _ _ F1 _ _ R)) as X. rewrite X. unfold t. now rewrite (fm_text _ _ F1). }
    unfold bind at 1. rewrite Es. unfold bind at 1. unfold create_tags at 1. rewrite <- (c_tags _ _ C1) in Ec. rewrite Ec.
    destruct (tags_step L1 ns m' tg HL1 Ec) as [HL2 [F2 [K2 [Kn Hb]]]]. specialize (Hb Hns). set (L2 := set_tags m' L1) in *.
    assert (F12 : firm L L2) by (eapply firm_trans; eassumption). pose proof (fm_text _ _ F12) as E12.
    assert (Wt : well_formed t) by (apply boundary_between; [assumption|]; now replace (p + (w - p)) with w by lia).
    destruct (cut_loop_spec cut ready p t tg (Ob t Wt) (length t) 0 st (cursor_of (build_all L us')) L2 (map fst us')) as
      [L' [st' [l [E [D [Tl [HL' [_ [K' [F' [T' [Fa U']]]]]]]]]]]]; try assumption.
    + rewrite E12, Lt. reflexivity.
    + now rewrite E12.
    + rewrite E12, Lt. now replace (p + (w - p)) with w by lia.
    + now apply boundary_0.
    + lia.
    + apply Hr.
    + rewrite Nat.add_0_r, Lt. replace (p + (w - p)) with w by lia. now apply (firm_symbol_run L).
    + exact (cursor_firm _ _ _ _ F2 Q1).
    + lia.
    + exists L', st', l. split; [assumption|]. split; [assumption|]. split; [exact E|]. split; [assumption|]. split; [eapply keeps_trans; [|exact K']; eapply keeps_trans; eassumption|].
      split; [eapply firm_trans; eassumption|]. destruct (Nat.ltb_spec p w) as [_|]; [|lia]. split; [exact T'|]. split; [right; split; [assumption|]; split; [exact D|]; rewrite <- Lt; exact Tl|]. split; [assumption|].
      intros e. destruct (U' e) as [->|X]; [left|right; exact X]. change (edges L2) with (edges L1). now rewrite (c_edges _ _ C1).
Qed.

Lemma reach_symbols L p w : symbol_program L -> boundary (text L) p -> reach L p w -> symbols_to L p w.
Proof.
  intros HL Bp R. destruct (symbol_marked _ HL) as [G [T M]]. revert Bp. induction R as [p H|p w H R IH]; intros Bp.
  - destruct (out_edges_listed L p G) as [L1 [E _]]; [now apply boundary_wf in Bp|]. apply T_end. rewrite E. cbn. now rewrite H.
  - destruct (out_edges_listed L p G) as [L1 [E _]]; [now apply boundary_wf in Bp|]. destruct (listed L p) as [|d l] eqn:El; [congruence|].
    apply (T_on L p d l); [now rewrite E|]. apply IH.
    destruct (symbol_listed _ _ _ _ G M E d (or_introl eq_refl)) as [D1 [_ [D3 D4]]]. destruct (edge_place L d _ _ G T D1 D3 D4) as [_ K]. exact K.
Qed.
(** An edge from a loose vertex. *)
Lemma loose_spec {St} (cut : St -> list Z -> nat -> option (St * item * option nat)) ns L d k n st : symbol_program L -> is_edge L d -> source L d = Ok (Loose k) ->
  exists L', run_on_edge cut ns (S n) st d symbol_mask L = (L', Ok (Some st)) /\ settled L L'.
Proof.
  intros HL He Hs. destruct (symbol_marked _ HL) as [G [T M]]. destruct (source_place _ _ _ G T He Hs) as [V P].
  destruct (out_edges_total L (Loose k) symbol_mask V) as [L1 [l E]].
  destruct (symbol_query L L1 (OutEdges (Loose k) symbol_mask) (out_edges (Loose k) symbol_mask) l (out_edges_query _ _ symbol_made) eq_refl I HL symbol_made I E) as [HL1 C1].
  assert (l = []) as ->.
  { destruct l as [|x l]; [reflexivity|]. exfalso. destruct (out_selection _ _ _ _ _ G symbol_made E) as [all [A S]].
    pose proof (s_sound _ _ _ _ S x (or_introl eq_refl)) as Hm. rewrite symbol_matches in Hm.
    assert (Hin : In x all). { destruct (s_part _ _ _ _ S) as [sel Es]. assert (K : In x (x :: l)) by now left. rewrite Es in K. now apply filter_In in K. }
    apply (all_out_spec _ _ _ G) in A as [_ A]. apply A in Hin as [H1 H2]. destruct x as [q|e]; [discriminate|]. cbn in H1, H2, Hm.
    destruct (nth_error (edges L) e) as [ed|] eqn:Ee; [|discriminate]. destruct (sp_span _ _ (mk_spells _ M) e ed Ee Hm) as [q [K1 _]]. congruence. }
  exists L1. unfold run_on_edge. unfold bind at 1, ask at 1. rewrite Hs. unfold bind at 1, get_path at 1. unfold bind at 1. cbn [path_from]. unfold bind at 1. rewrite E.
  split; [reflexivity|]. split; [assumption|]. split; [assumption|]. split; [now apply out_visible in E|].
  destruct (index_listed L G) as [L2 [ix [E2 [_ [_ K]]]]]. unfold out_edges in E. rewrite V in E. cbn [negb] in E. change (M_Tags.any symbol_mask) with false in E. cbv iota in E.
  unfold bind in E. rewrite E2 in E. unfold ask in E. injection E as <- _. exact K.
Qed.

(** ** All edges *)
Definition cutting {St} (cut : St -> list Z -> nat -> option (St * item * option nat)) (reset : St -> St) (L : lattice) (p w : nat) (l : list piece) : Prop :=
  p = w /\ l = [] \/
  p < w /\ tiled 0 (w - p) l /\ exists st0 st1, drives cut (reset st0) (sub (text L) p (w - p)) 0 l st1.
Lemma edges_spec {St} (cut : St -> list Z -> nat -> option (St * item * option nat)) reset ready ns n m' tg :
  ~ In SYMBOL ns -> (forall t, well_formed t -> obedient cut ready t) -> (forall st t, ready (reset st) t 0) ->
  forall ds st L, symbol_program L -> (forall d, In d ds -> is_edge L d) -> length (text L) < n -> M_Tags.create (tags L) ns = Some (m', tg) ->
  exists L' st', run_on_edges cut reset ns n st ds symbol_mask L = (L', Ok (Some st')) /\ symbol_program L' /\ keeps L L' /\ firm L L' /\
    (forall d p, In d ds -> source L d = Ok (Text p) -> exists w l, reach L p w /\ cutting cut reset L p w l /\ Forall (tokens L' p tg) l) /\
    (forall e, nth_error (edges L') e = nth_error (edges L) e \/
       exists d p w l it a b rs, In d ds /\ source L d = Ok (Text p) /\ reach L p w /\ cutting cut reset L p w l /\ (Forall (tokens L' p tg) l /\ In (it, a, b) l) /\ item_edge L' (p + a) (p + b) it tg rs e).
Proof.
  intros Hns Ob Hr. induction ds as [|d ds IH]; intros st L HL Hd Hn Ec; cbn [run_on_edges].
  - exists L, st. split; [reflexivity|]. split; [assumption|]. split; [intros p; reflexivity|]. split; [apply firm_refl|]. split; [intros d p []|auto].
  - destruct (symbol_marked _ HL) as [G [T M]]. pose proof (Hd d (or_introl eq_refl)) as He. destruct (edge_ends L d He) as [v [b [Hs _]]].
    assert (Step : exists L1 st1, run_on_edge cut ns n (reset st) d symbol_mask L = (L1, Ok (Some st1)) /\ symbol_program L1 /\ keeps L L1 /\ firm L L1 /\
      M_Tags.create (tags L1) ns = Some (m', tg) /\
      (forall p, source L d = Ok (Text p) -> exists w l, reach L p w /\ cutting cut reset L p w l /\ Forall (tokens L1 p tg) l) /\
      (forall e, nth_error (edges L1) e = nth_error (edges L) e \/
         exists p w l it a b rs, source L d = Ok (Text p) /\ reach L p w /\ cutting cut reset L p w l /\ (Forall (tokens L1 p tg) l /\ In (it, a, b) l) /\ item_edge L1 (p + a) (p + b) it tg rs e)).
    { destruct v as [p|k].
      - destruct (edge_spec cut ready ns L d p n (reset st) m' tg HL He Hs Hn Ec Hns Ob (Hr st)) as [w [rs [L1 [st1 [l [R [W [E [HL1 [K1 [F1 [T1 [O1 [O2 O3]]]]]]]]]]]]]].
        assert (Cu : cutting cut reset L p w l).
        { destruct O1 as [[-> [_ ->]]|[H1 [H2 H3]]]; [left; auto|right]. split; [assumption|]. split; [assumption|]. eauto. }
        exists L1, st1. split; [assumption|]. split; [assumption|]. split; [assumption|]. split; [assumption|]. split; [|split].
        + rewrite T1. destruct (p <? w); [now apply create_again in Ec|assumption].
        + intros p' Hp'. rewrite Hs in Hp'. injection Hp' as <-. eauto.
        + intros e. destruct (O3 e) as [->|[it [a [b0 [ds' [H1 H2]]]]]]; [auto|]. right. exists p, w, l, it, a, b0, ds'. auto 10.
      - destruct n as [|n]; [lia|]. destruct (loose_spec cut ns L d k n (reset st) HL He Hs) as [L1 [E S1]]. exists L1, (reset st). split; [assumption|].
        pose proof (settled_firm _ _ S1) as F1. destruct S1 as [A1 [A2 [A3 A4]]]. split; [assumption|]. split; [assumption|]. split; [assumption|].
        split; [now rewrite (c_tags _ _ A2)|]. split; [intros p K; congruence|]. intros e. left. now rewrite (c_edges _ _ A2). }
    destruct Step as [L1 [st1 [E1 [HL1 [K1 [F1 [Ec1 [O1 O2]]]]]]]]. unfold bind. rewrite E1.
    assert (Src : forall x, is_edge L x -> is_edge L1 x /\ source L1 x = source L x).
    { intros [q|e] Hx; cbn in *; [rewrite (fm_implicit _ _ F1); auto|]. destruct (nth_error (edges L) e) as [ed|] eqn:Ee; [|apply nth_error_None in Ee; lia].
      destruct (fm_edges _ _ F1 _ _ Ee) as [ed' [Ee' X]]. rewrite Ee'. split; [apply nth_error_Some; congruence|]. now rewrite (x_from _ _ X). }
    assert (Back : forall p w, reach L1 p w -> reach L p w).
    { intros p w. apply reach_same; [intros q; now rewrite (K1 q)|now rewrite (fm_text _ _ F1)]. }
    assert (Cut : forall p w l, cutting cut reset L1 p w l -> cutting cut reset L p w l) by (intros p w l; unfold cutting; now rewrite (fm_text _ _ F1)).
    destruct (IH st1 L1 HL1) as [L' [st' [E' [HL' [K' [F' [P1 P2]]]]]]].
    + intros x Hx. apply Src. apply Hd. now right.
    + now rewrite (fm_text _ _ F1).
    + assumption.
    + exists L', st'. split; [exact E'|]. split; [assumption|]. split; [eapply keeps_trans; eassumption|]. split; [eapply firm_trans; eassumption|]. split.
      * intros x p [<-|Hx] Hp.
        -- destruct (O1 p Hp) as [w [l [H1 [H2 H3]]]]. exists w, l. split; [assumption|]. split; [assumption|].
           eapply Forall_impl; [|exact H3]. intros y. now apply tokens_firm.
        -- destruct (Src x (Hd x (or_intror Hx))) as [_ Sx]. rewrite <- Sx in Hp. destruct (P1 x p Hx Hp) as [w [l [H1 [H2 H3]]]]. exists w, l. auto.
      * intros e. destruct (P2 e) as [->|[x [p [w [l [it [a [b0 [rs [H1 [H2 [H3 [H4 [H5 H6]]]]]]]]]]]]]].
        -- destruct (O2 e) as [->|[p [w [l [it [a [b0 [rs [H2 [H3 [H4 [H5 H6]]]]]]]]]]]]; [auto|]. right. exists d, p, w, l, it, a, b0, rs. split; [now left|].
           do 3 (split; [assumption|]). split; [|now apply (item_edge_firm L1)]. destruct H5 as [H5 H7]. split; [|assumption].
           eapply Forall_impl; [|exact H5]. intros y. now apply tokens_firm.
        -- right. exists x, p, w, l, it, a, b0, rs. split; [now right|]. destruct (Src x (Hd x (or_intror H1))) as [_ Sx]. split; [congruence|]. auto.
Qed.

(** ** The listing of the edges to cut *)
Lemma mask_index_snoc_none ms m k : mask_index ms k = None -> mask_index (ms ++ [m]) k = if M_Tags.mask_eqb m k then Some (length ms) else None.
Proof.
  intros H. induction ms as [|x ms IH]; cbn in *; [reflexivity|]. destruct (M_Tags.mask_eqb x k); [discriminate|].
  destruct (mask_index ms k); [discriminate|]. rewrite (IH eq_refl). now destruct (M_Tags.mask_eqb m k).
Qed.
Lemma index_keeps L m L' ix : good L -> P_Tags.made m -> add_tag_mask_index m L = (L', Ok ix) -> keeps L L'.
Proof.
  intros G Hm. unfold add_tag_mask_index. destruct (mask_index (masks L) m) as [i|] eqn:Ei; [intros [= <- _] p; reflexivity|].
  intros [= <- _] p. unfold listed. cbn [masks set_masks set_nodes implicit]. f_equal.
  assert (Fn : forall f, (forall n, n_name (f n) = n_name n) -> find_node (set_masks (masks L ++ [m]) (set_nodes (map f (nodes L)) L)) (Text p) = option_map f (find_node L (Text p))).
  { intros f Hf. unfold find_node. cbn [nodes set_masks set_nodes]. apply find_map. intros n. now rewrite Hf. }
  destruct (mask_index (masks L) symbol_mask) as [j|] eqn:Ej.
  - rewrite (mask_index_app _ _ _ _ Ej). unfold indexed. rewrite Fn by reflexivity. destruct (find_node L (Text p)) as [n|] eqn:En; [|reflexivity]. cbn [option_map n_out].
    apply find_node_some in En as [Hn _]. destruct (g_sizes _ G n Hn) as [Hs _]. destruct (mask_index_nth _ _ _ Ej) as [x [Hx _]].
    rewrite app_nth1; [reflexivity|]. rewrite Hs. apply nth_error_Some. congruence.
  - rewrite (mask_index_snoc_none _ _ _ Ej). destruct (M_Tags.mask_eqb m symbol_mask) eqn:Em; [|reflexivity].
    unfold indexed. rewrite Fn by reflexivity. destruct (find_node L (Text p)) as [n|] eqn:En; cbn [option_map n_out].
    + apply find_node_some in En as [Hn <-]. destruct (g_sizes _ G n Hn) as [Hs _]. rewrite app_nth2, Hs, Nat.sub_diag by lia. cbn [nth]. f_equal.
      apply filter_ext. intros e. now apply (P_Tags.C09_mask_equal m symbol_mask Hm symbol_made).
    + apply find_node_none in En. now rewrite graph_out_foreign.
Qed.
Lemma out_step L v m : symbol_program L -> P_Tags.made m -> valid L v = true -> place L v ->
  exists L' l, out_edges v m L = (L', Ok l) /\ symbol_program L' /\ core L L' /\ keeps L L'.
Proof.
  intros HL Hm Hv Hp. destruct (symbol_marked _ HL) as [G [T M]]. destruct (out_edges_total L v m Hv) as [L1 [l E]]. exists L1, l. split; [assumption|].
  destruct (symbol_query L L1 (OutEdges v m) (out_edges v m) l (out_edges_query _ _ Hm) eq_refl I HL Hm Hp E) as [HL1 C1]. split; [assumption|]. split; [assumption|].
  unfold out_edges in E. rewrite Hv in E. cbn [negb] in E. destruct (M_Tags.any m).
  - unfold ask in E. destruct (all_out_edges L v); try discriminate. injection E as <- _. intros p. reflexivity.
  - unfold bind in E. destruct (add_tag_mask_index m L) as [L2 [ix|x|]] eqn:Ei; try discriminate. unfold ask in E. injection E as <- _. eapply index_keeps; eassumption.
Qed.
Lemma edges_of_step m : P_Tags.made m -> forall vs L, symbol_program L -> (forall v, In v vs -> valid L v = true /\ place L v) ->
  exists L' l, edges_of out_edges vs m L = (L', Ok l) /\ symbol_program L' /\ core L L' /\ keeps L L'.
Proof.
  intros Hm. induction vs as [|v vs IH]; intros L HL Hv; cbn [edges_of].
  - exists L, []. split; [reflexivity|]. split; [assumption|]. split; [apply core_refl|intros p; reflexivity].
  - destruct (Hv v (or_introl eq_refl)) as [V1 V2]. destruct (out_step L v m HL Hm V1 V2) as [L1 [l [E [HL1 [C1 K1]]]]].
    destruct (IH L1 HL1) as [L' [l' [E' [HL' [C' K']]]]].
    { intros w Hw. destruct (Hv w (or_intror Hw)). rewrite (core_valid _ _ _ C1). split; [assumption|now apply (core_place L)]. }
    exists L', (l ++ l'). unfold bind. rewrite E, E'. split; [reflexivity|]. split; [assumption|]. split; [eapply core_trans; eassumption|eapply keeps_trans; eassumption].
Qed.
Lemma by_source_step topo L m vs : sorts topo -> symbol_program L -> P_Tags.made m -> vertices topo true L = Ok vs ->
  exists L' l, edges_by_source topo m L = (L', Ok l) /\ sorted_listing L m (source L) vs l /\ symbol_program L' /\ core L L' /\ keeps L L'.
Proof.
  intros Ht HL Hm E. pose proof (symbol_careful _ HL) as HC. destruct (C53_by_source topo L m vs Ht HC Hm E) as [L' [l [E' S]]]. exists L', l. split; [assumption|]. split; [assumption|].
  destruct (vertices_cover topo L vs Ht HC E) as [_ [V _]]. destruct (symbol_marked _ HL) as [G [T M]].
  destruct (out_step L (Text 0) m HL Hm eq_refl) as [L1 [l1 [E1 [HL1 [C1 K1]]]]]; [apply boundary_0, T|].
  unfold edges_by_source, bind, ask in E'. rewrite E, E1 in E'. destruct vs as [|v vs]; [injection E' as <- _; auto|].
  destruct (edges_of_step m Hm (v :: vs) L1 HL1) as [L2 [l2 [E2 [HL2 [C2 K2]]]]].
  { intros w Hw. destruct (V w Hw). rewrite (core_valid _ _ _ C1). split; [assumption|now apply (core_place L)]. }
  rewrite E2 in E'. injection E' as <- _. split; [assumption|]. split; [eapply core_trans; eassumption|eapply keeps_trans; eassumption].
Qed.

(** ** Theorems *)
(** The tokens over the text from [p] to [w]: the pieces that the cutter cuts off the text of
    the symbols from [p] on, all of them, have edges over symbol edges. *)
Definition tokenized {St} (cut : St -> list Z -> nat -> option (St * item * option nat)) (reset : St -> St) (L L' : lattice) (tg : collection) (p w : nat) (l : list piece) : Prop :=
  symbols_to L p w /\
  (p = w /\ l = [] \/ p < w /\ tiled 0 (w - p) l /\ exists st0 st1, drives cut (reset st0) (sub (text L) p (w - p)) 0 l st1) /\
  forall it a b, In (it, a, b) l -> over_symbols L' tg it (p + a) (p + b).
(** Edge [e] is the edge of one of the pieces. *)
Definition token_of (L' : lattice) (tg : collection) (p : nat) (l : list piece) (e : nat) : Prop :=
  exists it a b ed, In (it, a, b) l /\ nth_error (edges L') e = Some ed /\ e_from ed = Text (p + a) /\ e_to ed = Text (p + b) /\
    M_Items.item_eqb (e_item ed) it = true /\ included tg (e_tags ed).
(** runCutter: the run ends; all edges stay; every edge of superMask gets its tokens, whatever
    the cutter; nothing else is added. *)
Theorem C54_run {St} (cut : St -> list Z -> nat -> option (St * item * option nat)) reset ready ns topo n st super L vs m' tg :
  sorts topo -> symbol_program L -> P_Tags.made super -> vertices topo true L = Ok vs -> length (text L) < n ->
  M_Tags.create (tags L) ns = Some (m', tg) -> ~ In SYMBOL ns ->
  (forall t, well_formed t -> obedient cut ready t) -> (forall s t, ready (reset s) t 0) ->
  exists L' st', run_cutter cut reset ns topo n st symbol_mask super L = (L', Ok (Some st')) /\ symbol_program L' /\ firm L L' /\
    (forall d p, is_edge L d -> M_Tags.matches (made_with L d) super = true ->
       (forall q, d = Implicit q -> Forall (fun a => M_Tags.is_empty a = false) (M_Tags.alts super)) -> source L d = Ok (Text p) ->
       exists w l, tokenized cut reset L L' tg p w l) /\
    (forall e, nth_error (edges L') e = nth_error (edges L) e \/
       exists d p w l, is_edge L d /\ M_Tags.matches (edge_tags L d) super = true /\ source L d = Ok (Text p) /\ tokenized cut reset L L' tg p w l /\ token_of L' tg p l e).
Proof.
  intros Ht HL Hm Ev Hn Ec Hns Ob Hr. destruct (symbol_marked _ HL) as [G [T M]].
  destruct (by_source_step topo L super vs Ht HL Hm Ev) as [L1 [ds [E1 [S [HL1 [C1 K1]]]]]].
  destruct (edges_spec cut reset ready ns n m' tg Hns Ob Hr ds st L1 HL1) as [L' [st' [E' [HL' [K' [F' [P1 P2]]]]]]].
  { intros d Hd. apply (core_is_edge _ _ _ C1). now apply (sl_sound _ _ _ _ _ S). }
  { now rewrite (c_text _ _ C1). }
  { now rewrite (c_tags _ _ C1). }
  destruct (symbol_marked _ HL') as [G' [T' M']].
  assert (Tok : forall d p w l, is_edge L d -> source L d = Ok (Text p) -> reach L1 p w -> cutting cut reset L1 p w l -> Forall (tokens L' p tg) l -> tokenized cut reset L L' tg p w l).
  { intros d p w l Hd Hs W Cu Fa. split; [|split].
    - apply reach_symbols; [assumption|apply (source_place _ _ _ G T Hd Hs)|]. revert W. apply reach_same; [intros q; now rewrite (K1 q)|now rewrite (c_text _ _ C1)].
    - unfold cutting in Cu. now rewrite (c_text _ _ C1) in Cu.
    - intros it a b Hin. apply tokens_over; [assumption|]. rewrite Forall_forall in Fa. exact (Fa _ Hin). }
  exists L', st'. split; [unfold run_cutter, bind; now rewrite E1|]. split; [assumption|]. split; [eapply firm_trans; [apply core_firm, C1|assumption]|]. split.
  - intros d p Hd Hmt Hi Hs. pose proof (sl_complete _ _ _ _ _ S d Hd Hmt Hi) as Hin. destruct (P1 d p Hin) as [w [l [W [Cu Fa]]]]; [now rewrite (core_source _ _ _ C1)|].
    exists w, l. now apply (Tok d).
  - intros e. destruct (P2 e) as [->|[d [p [w [l [it [a [b [rs [H1 [H2 [W [Cu [[Fa Hin] I]]]]]]]]]]]]]]; [left; now rewrite (c_edges _ _ C1)|].
    right. destruct (sl_sound _ _ _ _ _ S d H1) as [Hd Hmt]. rewrite (core_source _ _ _ C1) in H2. exists d, p, w, l. split; [assumption|]. split; [assumption|]. split; [assumption|].
    split.
    + now apply (Tok d).
    + destruct I as [ed [t [s [I1 [I2 [I3 [I4 [I5 _]]]]]]]]. exists it, a, b, ed. auto 10.
Qed.
Print Assumptions C54_run.

(** With symbols over the whole text the tokens go on to the end of the text. *)
Theorem C54_whole topo ts L p w : spelled topo ts L -> boundary (text L) p -> symbols_to L p w -> w = length (text L).
Proof.
  intros H Bp. destruct (spelled_spells _ _ _ H) as [HL [X Sp]]. destruct (careful_tidy _ HL) as [G T]. intros R. revert Bp.
  induction R as [p E|p d l w E R IH]; intros Bp.
  - destruct (Nat.lt_ge_cases p (length (text L))) as [Hlt|Hge]; [|apply boundary_wf in Bp; lia]. exfalso.
    destruct (out_edges (Text p) symbol_mask L) as [L' r] eqn:E2. cbn in E. subst r. now destruct (proj2 (symbol_edges _ _ _ _ _ G Sp E2) Bp Hlt).
  - apply IH. destruct (out_edges (Text p) symbol_mask L) as [L' r] eqn:E2. cbn in E. subst r.
    destruct (proj1 (symbol_edges _ _ _ _ _ G Sp E2) d (or_introl eq_refl)) as [D1 [D2 D3]]. exact (proj2 (edge_place L d _ _ G T D1 D2 D3)).
Qed.
Print Assumptions C54_whole.

(** ** Cutters of the base class *)
Section Base.
Context {A S : Type}.
Variable do_cut_off : S -> list Z -> nat -> S * (A * list Z) * option nat.
Variable do_reset : S -> S.
Variables soft hard : nat.
(** The annotation item of what has been cut off. *)
Variable mk : A * list Z -> item.
Definition base_cut (c : cutter A S) (t : list Z) (pos : nat) : option (cutter A S * item * option nat) :=
  match cut_off do_cut_off soft hard c t pos with Some (c', x, q) => Some (c', mk x, q) | None => None end.
Definition base_reset (c : cutter A S) : cutter A S := {| st := do_reset (st c); queue := [] |}.
Definition base_ready (c : cutter A S) (t : list Z) (pos : nat) : Prop := queue_ok soft hard t pos (queue c) /\ queue_ok8 t pos (queue c).
Lemma ready_start c t : base_ready (base_reset c) t 0.
Proof.
  split.
  - exists [], 0. split; [reflexivity|]. split; [reflexivity|]. split; [lia|constructor].
  - exists [], 0. split; [reflexivity|]. split; [reflexivity|]. split; [lia|constructor].
Qed.
Theorem C54_base : hard = 0 \/ 4 <= hard -> (forall t, well_formed t -> honest do_cut_off t /\ honest_utf8 do_cut_off t) -> (forall x, ~ quoted (mk x)) ->
  (forall t, well_formed t -> obedient base_cut base_ready t) /\ (forall c t, base_ready (base_reset c) t 0).
Proof.
  intros Hh Ho Hq. split; [|intros; apply ready_start]. intros t Wt c pos Bp Hp [R1 R2]. destruct (Ho t Wt) as [H1 H2].
  destruct (cut_off_total do_cut_off soft hard c t pos Wt Hh H1 H2 Hp Bp R2) as [c' [x [q [E K]]]].
  pose proof (cut_off_spec do_cut_off soft hard c t pos c' x q H1 Hp R1 E) as Z. cbv zeta in Z. fold (end_of t q) in Z. destruct Z as [Z1 [Z2 [Z3 [Z4 Z5]]]].
  exists c', (mk x), q. unfold base_cut. rewrite E. split; [reflexivity|]. split; [assumption|]. split; [|split; [apply Hq|]].
  - destruct q; cbn; [tauto|now apply boundary_end].
  - intros Hlt. destruct q; cbn in Hlt |- *; [|lia]. split; [assumption|tauto].
Qed.
(** The items are made of the text they stand over, and the limits hold. *)
Theorem C54_texts c t l c' : well_formed t -> t <> [] -> (forall u, well_formed u -> honest do_cut_off u) ->
  drives base_cut (base_reset c) t 0 l c' ->
  forall it a b, In (it, a, b) l -> (exists x, it = mk (x, sub t a (b - a))) /\ (hard <> 0 -> b - a <= hard) /\
    (soft <> 0 -> forall i, a + soft <= i < b -> nth i t 0%Z <> 32%Z).
Proof.
  intros Wt Hne Ho D.
  assert (Gen : forall c pos, queue_ok soft hard t pos (queue c) -> pos < length t -> forall l c', drives base_cut c t pos l c' ->
    forall it a b, In (it, a, b) l -> (exists x, it = mk (x, sub t a (b - a))) /\ (hard <> 0 -> b - a <= hard) /\
      (soft <> 0 -> forall i, a + soft <= i < b -> nth i t 0%Z <> 32%Z)).
  { clear -Wt Ho. intros c pos R Hp l c' D. assert (Z : forall c pos x c1 q, queue_ok soft hard t pos (queue c) -> pos < length t -> base_cut c t pos = Some (c1, x, q) ->
      ((exists y, x = mk (y, sub t pos (end_of t q - pos))) /\ (hard <> 0 -> end_of t q - pos <= hard) /\
       (soft <> 0 -> forall i, pos + soft <= i < end_of t q -> nth i t 0%Z <> 32%Z)) /\ queue_ok soft hard t (end_of t q) (queue c1)).
    { clear -Wt Ho. intros c pos x c1 q R Hp E. unfold base_cut in E. destruct (cut_off _ _ _ _ _ _) as [[[c2 y] q2]|] eqn:Ec; [|discriminate]. injection E as <- <- <-.
      pose proof (cut_off_spec do_cut_off soft hard c t pos c2 y q2 (Ho t Wt) Hp R Ec) as Z. cbv zeta in Z. fold (end_of t q2) in Z. destruct Z as [Z1 [Z2 [Z3 [Z4 Z5]]]].
      split; [|assumption]. split; [|auto]. exists (fst y). f_equal. rewrite <- Z2. apply surjective_pairing. }
    induction D as [c t' pos c1 x q E Hl|c t' pos c1 x q l c2 E Hl D IH]; intros it a b.
    - intros [[= <- <- <-]|[]]. eapply Z; eassumption.
    - destruct (Z _ _ _ _ _ R Hp E) as [Z1 Z2]. intros [[= <- <- <-]|Hin]; [assumption|]. now apply IH. }
  apply (Gen (base_reset c) 0 (proj1 (ready_start c t)) ltac:(destruct t; [congruence|cbn; lia]) l c' D).
Qed.
End Base.
Print Assumptions C54_base.
Print Assumptions C54_texts.

(** ** A case *)
(** "za żółw", its symbols, and two text edges: all of it, and its last part. *)
Definition TEXT_TAG : M_Tags.str := [116; 101; 120; 116]%Z.
Definition cut_text : list Z := [122; 97; 32; 197; 188; 195; 179; 197; 130; 119]%Z.
Definition cut_calls : list op :=
  [AppendString cut_text; AddSymbols (Text 0) (Text 10); TagCall (M_Tags.Create [TEXT_TAG]);
   AddEdge (Text 0) (Text 10) (ex_item TEXT_TAG cut_text) 8%N empty_sequence 0%Z (-1) (-1);
   AddEdge (Text 3) (Text 10) (ex_item TEXT_TAG [119]%Z) 8%N empty_sequence 0%Z (-1) (-1)].
Definition cut_lattice : lattice := after cut_calls new_lattice.
Lemma after_symbol os : forall L, symbol_program L -> Forall plain_op os -> all_careful os L -> symbol_program (after os L).
Proof.
  induction os as [|o os IH]; intros L HL F; cbn; [auto|]. intros [H1 [H2 [H3 H4]]]. inversion F; subst. apply IH; [|assumption|assumption].
  apply (SP_call L _ o (snd (exec o L))); try assumption. apply surjective_pairing.
Qed.
Ltac symbols := apply after_symbol; [constructor|repeat constructor|]; cbn [all_careful];
  repeat match goal with
  | |- True => exact I
  | |- _ <> _ => vm_compute; discriminate
  | |- allowed _ _ => cbn [allowed]; first [exact I|apply known_check_ok; vm_compute; reflexivity|left; eexists; reflexivity]
  | |- tidy_op _ _ => cbn [tidy_op]; first [exact I|apply wf_check; vm_compute; reflexivity|split; places|places|vm_compute; reflexivity|vm_compute; lia]
  | |- _ /\ _ => split
  end.
Example cut_symbols : symbol_program cut_lattice.
Proof. unfold cut_lattice, cut_calls. symbols. Qed.
(** A cutter with limits: pieces of two to four bytes. *)
Definition token_item (x : nat * list Z) : item := ex_item [84]%Z (snd x).
Definition case_cut := base_cut one_segment 2 4 token_item.
Definition case_reset := base_reset (A := nat) (fun u : unit => u).
Definition case_ready := base_ready (A := nat) (S := unit) 2 4.
Definition case_start : cutter nat unit := {| st := tt; queue := [] |}.
Definition text_mask : mask := M_Tags.mask_of [8%N].
Definition case_run := M_LatticeCut.run_cutter case_cut case_reset [[116]%Z] some_order 11 case_start symbol_mask text_mask cut_lattice.
Example C54_case_contract : (forall t, well_formed t -> obedient case_cut case_ready t) /\ (forall c t, case_ready (case_reset c) t 0).
Proof.
  apply C54_base; [lia| |intros x; vm_compute; discriminate]. intros t _. apply C21_honest_instance.
Qed.
Example C54_case :
  symbol_program cut_lattice /\ P_Tags.made text_mask /\ is_edge cut_lattice (Explicit 1) /\ M_Tags.matches (made_with cut_lattice (Explicit 1)) text_mask = true /\
  source cut_lattice (Explicit 1) = Ok (Text 3) /\
  option_map snd (M_Tags.create (tags cut_lattice) [[116]%Z]) = Some 16%N /\
  (exists vs, vertices some_order true cut_lattice = Ok vs) /\
  snd case_run = Ok (Some case_start) /\
  map (fun e => (e_from e, e_to e, M_Items.text (e_item e), e_tags e)) (skipn 2 (edges (fst case_run))) =
    [(Text 0, Text 2, [122; 97]%Z, 16%N); (Text 2, Text 5, [32; 197; 188]%Z, 16%N); (Text 5, Text 9, [195; 179; 197; 130]%Z, 16%N); (Text 9, Text 10, [119]%Z, 16%N);
     (Text 3, Text 7, [197; 188; 195; 179]%Z, 16%N); (Text 7, Text 10, [197; 130; 119]%Z, 16%N)] /\
  firstn 2 (edges (fst case_run)) = edges cut_lattice.
Proof.
  split; [apply cut_symbols|]. split; [left; eexists; reflexivity|]. split; [vm_compute; lia|]. split; [vm_compute; reflexivity|]. split; [vm_compute; reflexivity|].
  split; [vm_compute; reflexivity|]. split; [eexists; vm_compute; reflexivity|]. split; [vm_compute; reflexivity|]. split; vm_compute; reflexivity.
Qed.

(** The end of the edge to cut is not looked at: the cutter gets the text of the symbols to
    the end, and a token may cross the end of the edge. *)
Definition part_calls : list op :=
  [AppendString [97; 98]%Z; AddSymbols (Text 0) (Text 2); TagCall (M_Tags.Create [TEXT_TAG]);
   AddEdge (Text 0) (Text 1) (ex_item TEXT_TAG [97]%Z) 8%N empty_sequence 0%Z (-1) (-1)].
Definition part_lattice : lattice := after part_calls new_lattice.
Definition whole_cut := base_cut one_segment 0 0 token_item.
Definition part_run := M_LatticeCut.run_cutter whole_cut case_reset [[116]%Z] some_order 3 case_start symbol_mask text_mask part_lattice.
Theorem C54_beyond_refuted :
  ~ (forall (L L' : lattice) n st' q e ed, symbol_program L ->
       M_LatticeCut.run_cutter whole_cut case_reset [[116]%Z] some_order n case_start symbol_mask text_mask L = (L', Ok st') ->
       (forall d, is_edge L d -> M_Tags.matches (edge_tags L d) text_mask = true -> target L d = Ok (Text q)) ->
       nth_error (edges L') e = Some ed -> e_tags ed = 16%N -> forall r, e_to ed = Text r -> r <= q).
Proof.
  intros H. assert (HL : symbol_program part_lattice) by (unfold part_lattice, part_calls; symbols).
  assert (K : 2 <= 1); [|lia].
  apply (H part_lattice (fst part_run) 3 (Some case_start) 1 1 (nth 1 (edges (fst part_run)) (Edge (Text 0) (Text 0) (ex_item [] []) 0%N 0%Z [])) HL).
  - vm_compute. reflexivity.
  - intros [p|e] He Hm.
    + vm_compute in Hm. discriminate.
    + cbn [is_edge] in He. assert (Le : length (edges part_lattice) = 1) by (vm_compute; reflexivity). rewrite Le in He. assert (e = 0) as -> by lia. vm_compute. reflexivity.
  - vm_compute. reflexivity.
  - vm_compute. reflexivity.
  - vm_compute. reflexivity.
Qed.
Print Assumptions C54_beyond_refuted.
(** Items like those of symbols: the search for an edge of the same item finds the symbol
    itself, and the run ends with an exception. *)
Definition quoting_cut (st : unit) (t : list Z) (pos : nat) : option (unit * item * option nat) :=
  Some (st, ex_item (39 :: sub t pos 1)%Z [], Some (S pos)).
Theorem C54_symbol_item_refuted :
  snd (M_LatticeCut.run_cutter quoting_cut (fun u => u) [[116]%Z] some_order 3 tt symbol_mask text_mask part_lattice) = Throw SelfReference.
Proof. vm_compute. reflexivity. Qed.
Print Assumptions C54_symbol_item_refuted.

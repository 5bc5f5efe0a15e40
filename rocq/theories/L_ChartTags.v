(** Lemmas for C38: the tags the chart works with. *)
From Coq Require Import ZArith NArith List Bool Lia.
From Verif Require Import M_Utf8 S_Utf8 L_Utf8 M_Tags M_Items M_Cutter M_Lattice P_Tags P_Cutter L_Lattice S_Lattice L_LatticeOps L_LatticeTidy.
From Verif Require Import P_Lattice M_LatticeWalk L_LatticeNodes P_LatticeWalk P_LatticeVertices M_ChartParser L_ChartParser L_ChartRun.
Import ListNotations.
Local Open Scope nat_scope.

Lemma careful_token L : careful_program L -> nth_error (M_Tags.names (tags L)) 2 = Some TOKEN.
Proof.
  induction 1 as [|L L' o r H IH Ha Ho E Hr]; [reflexivity|]. destruct (careful_tidy _ H) as [G T].
  destruct (exec_good _ _ _ _ G Ha E Hr) as [_ W]. destruct (exec_tidy _ _ _ _ G T Ha Ho E Hr) as [_ Hu].
  apply (P_Tags.nth_error_later _ _ _ _ (w_tags _ _ (W Hu))). exact IH.
Qed.
(** The collection of one tag. *)
Lemma single_bit M c n : P_Tags.ok M -> denotes M c (fun x => In x [n]) ->
  exists i, nth_error (M_Tags.names M) i = Some n /\ forall j, N.testbit c j = N.eqb j (N.of_nat i).
Proof.
  intros Hok D. destruct (proj2 (dn_has _ _ _ D n) (or_introl eq_refl)) as [i [Hi Hb]]. exists i. split; [assumption|].
  intros j. apply eq_true_iff_eq. rewrite N.eqb_eq. split.
  - intros Hj. destruct (dn_bits _ _ _ D j Hj) as [n' Hn']. assert (K : has M c n') by (exists (N.to_nat j); rewrite Nnat.N2Nat.id; auto).
    apply (dn_has _ _ _ D) in K as [->|[]]. pose proof (index_unique M _ _ _ Hok Hi Hn'). subst i. now rewrite Nnat.N2Nat.id.
  - now intros ->.
Qed.
Lemma single_matches M cs ns t : P_Tags.ok M -> Forall2 (fun c n => denotes M c (fun x => In x [n])) cs ns ->
  M_Tags.matches t (M_Tags.mask_of cs) = true <-> exists n, In n ns /\ has M t n.
Proof.
  intros Hok F. unfold M_Tags.matches, M_Tags.mask_of. cbn [M_Tags.none M_Tags.any M_Tags.alts].
  induction F as [|c n cs ns D F IH]; cbn [existsb].
  - split; [discriminate|]. now intros [n [[] _]].
  - destruct (single_bit _ _ _ Hok D) as [i [Hi Hb]]. rewrite orb_true_iff, IH, (single_subset _ _ t Hb). split.
    + intros [H|[x [H1 H2]]]; [exists n; split; [now left|]; exists i; auto|exists x; split; [now right|assumption]].
    + intros [x [[<-|H1] H2]]; [left|right; eauto]. destruct H2 as [k [K1 K2]]. now rewrite (index_unique M _ _ _ Hok Hi K1).
Qed.
Lemma has_later m m' t n : P_Tags.ok m' -> P_Tags.later m m' -> proper m t -> has m' t n <-> has m t n.
Proof.
  intros Hok Hl Hp. split.
  - intros [i [Hi Hb]]. exists i. split; [|assumption]. destruct (pr_bits _ _ Hp _ Hb) as [x Hx]. rewrite Nnat.Nat2N.id in Hx.
    pose proof (P_Tags.nth_error_later _ _ _ _ Hl Hx). congruence.
  - intros [i [Hi Hb]]. exists i. split; [|assumption]. now apply (P_Tags.nth_error_later m).
Qed.

(** * The constructor *)
Definition entering (terminal : str) : list str := [NORMALIZATION; TERM; TOKEN; terminal; FORM; GOBIO; PARSE_AUX].
Record made_chart (terminal : str) (L L0 : lattice) (ch : chart) : Prop := {
  mc_careful : careful_program L0;
  mc_same : exists M, L0 = set_tags M L;
  mc_later : P_Tags.later (tags L) (tags L0);
  mc_output : denotes (tags L0) (output ch) (fun x => In x [GOBIO; PARSE_AUX]);
  mc_form : denotes (tags L0) (form_tag ch) (fun x => In x [FORM]);
  mc_quoted : exists cs, quoted ch = M_Tags.mask_of cs /\ Forall2 (fun c n => denotes (tags L0) c (fun x => In x [n])) cs [NORMALIZATION; TERM; TOKEN];
  mc_input : exists cs, input ch = M_Tags.mask_of cs /\ Forall2 (fun c n => denotes (tags L0) c (fun x => In x [n])) cs (entering terminal)
}.
Lemma create_tags_spec ns L L' r : careful_program L -> create_tags ns L = (L', r) -> r <> Undefined ->
  exists c, r = Ok c /\ careful_program L' /\ (exists M, L' = set_tags M L) /\ P_Tags.later (tags L) (tags L') /\ denotes (tags L') c (fun x => In x ns).
Proof.
  intros H E Hr. unfold create_tags in E. destruct (M_Tags.create (tags L) ns) as [[m c]|] eqn:Ec; injection E as <- <-; [|congruence].
  exists c. split; [reflexivity|]. destruct (careful_tidy _ H) as [G T].
  destruct (create_ok _ _ _ _ (P_Tags.reachable_ok _ (g_tags _ G)) Ec) as [K1 [K2 K3]]. split; [|split; [|split]].
  - apply (C_call L _ (TagCall (M_Tags.Create ns)) (Ok tt)); try exact I; [assumption| |discriminate].
    cbn [exec]. unfold tag_call, change. cbn [M_Tags.step]. now rewrite Ec.
  - eauto.
  - exact K2.
  - exact K3.
Qed.
Lemma set_tags_twice M M' L : set_tags M (set_tags M' L) = set_tags M L.
Proof. reflexivity. Qed.
Lemma new_chart_spec terminal L L0 ch : careful_program L -> new_chart terminal L = (L0, Ok ch) -> made_chart terminal L L0 ch.
Proof.
  intros H E. unfold new_chart in E.
  assert (Step : forall ns {A} (f : collection -> act A) X Y a, careful_program X -> (do c <- create_tags ns; f c) X = (Y, Ok a) ->
            exists c X1, f c X1 = (Y, Ok a) /\ careful_program X1 /\ (exists M, X1 = set_tags M X) /\ P_Tags.later (tags X) (tags X1) /\
                         denotes (tags X1) c (fun x => In x ns)).
  { intros ns A f X Y a HX. unfold bind. destruct (create_tags ns X) as [X1 r] eqn:Ec. intros K.
    destruct (create_tags_spec ns X X1 r HX Ec) as [c [-> R]]; [intros ->; discriminate|]. exists c, X1. auto. }
  apply Step in E as [out [X1 [E [H1 [[M1 E1] [A1 D1]]]]]]; [|exact H].
  apply Step in E as [form [X2 [E [H2 [[M2 E2] [A2 D2]]]]]]; [|exact H1].
  apply Step in E as [lex [X3 [E [H3 [[M3 E3] [A3 D3]]]]]]; [|exact H2].
  apply Step in E as [lem [X4 [E [H4 [[M4 E4] [A4 D4]]]]]]; [|exact H3].
  apply Step in E as [gob [X5 [E [H5 [[M5 E5] [A5 D5]]]]]]; [|exact H4].
  apply Step in E as [n [X6 [E [H6 [[M6 E6] [A6 D6]]]]]]; [|exact H5].
  apply Step in E as [t [X7 [E [H7 [[M7 E7] [A7 D7]]]]]]; [|exact H6].
  apply Step in E as [k [X8 [E [H8 [[M8 E8] [A8 D8]]]]]]; [|exact H7].
  apply Step in E as [x [X9 [E [H9 [[M9 E9] [A9 D9]]]]]]; [|exact H8].
  apply Step in E as [f [X10 [E [H10 [[M10 E10] [A10 D10]]]]]]; [|exact H9].
  apply Step in E as [g [X11 [E [H11 [[M11 E11] [A11 D11]]]]]]; [|exact H10].
  apply Step in E as [a [X12 [E [H12 [[M12 E12] [A12 D12]]]]]]; [|exact H11].
  clear Step. unfold ret in E. apply pair_equal_spec in E as [E Ech]. subst L0. injection Ech as <-.
  assert (O : forall X, careful_program X -> P_Tags.ok (tags X)) by (intros X HX; apply P_Tags.reachable_ok, g_tags, careful_tidy, HX).
  assert (Up : forall Y Z c S, careful_program Z -> P_Tags.later (tags Y) (tags Z) -> denotes (tags Y) c S -> denotes (tags Z) c S).
  { intros Y Z c S HZ Hl Hd. eapply denotes_later; [apply O; exact HZ|exact Hl|exact Hd]. }
  pose proof (P_Tags.later_trans _ _ _ A11 A12) as T11. pose proof (P_Tags.later_trans _ _ _ A10 T11) as T10. pose proof (P_Tags.later_trans _ _ _ A9 T10) as T9.
  pose proof (P_Tags.later_trans _ _ _ A8 T9) as T8. pose proof (P_Tags.later_trans _ _ _ A7 T8) as T7. pose proof (P_Tags.later_trans _ _ _ A6 T7) as T6.
  pose proof (P_Tags.later_trans _ _ _ A5 T6) as T5. pose proof (P_Tags.later_trans _ _ _ A4 T5) as T4. pose proof (P_Tags.later_trans _ _ _ A3 T4) as T3.
  pose proof (P_Tags.later_trans _ _ _ A2 T3) as T2. pose proof (P_Tags.later_trans _ _ _ A1 T2) as T1.
  split; cbn [output form_tag quoted input].
  - assumption.
  - exists M12. rewrite E12, E11, E10, E9, E8, E7, E6, E5, E4, E3, E2, E1. reflexivity.
  - assumption.
  - apply (Up X1); assumption.
  - apply (Up X2); assumption.
  - exists [n; t; k]. split; [reflexivity|]. do 3 (apply Forall2_cons; [first [eapply (Up X6); eassumption|eapply (Up X7); eassumption|eapply (Up X8); eassumption]|]). constructor.
  - exists [n; t; k; x; f; g; a]. split; [reflexivity|].
    do 7 (apply Forall2_cons; [first [assumption|apply (Up X6); assumption|apply (Up X7); assumption|apply (Up X8); assumption|apply (Up X9); assumption|apply (Up X10); assumption|apply (Up X11); assumption]|]). constructor.
Qed.

(** When there is room for the tags. *)
Lemma add_tags_app a : forall b st, add_tags st (a ++ b) = match add_tags st a with Some st' => add_tags st' b | None => None end.
Proof. induction a as [|n a IH]; intros b st; [reflexivity|]. cbn [app add_tags]. destruct (add_tag st n); [apply IH|reflexivity]. Qed.
Lemma add_tags_any ns : forall m c c' m1 c1, add_tags (m, c) ns = Some (m1, c1) -> exists c1', add_tags (m, c') ns = Some (m1, c1').
Proof.
  induction ns as [|n ns IH]; intros m c c' m1 c1; cbn [add_tags].
  - intros [= <- <-]. eauto.
  - intros H. unfold add_tag in *. destruct (M_Tags.index (M_Tags.register (M_Tags.names m) n) n) as [i|]; [|discriminate H].
    destruct (CAPACITY <=? i); [discriminate H|]. revert H. apply IH.
Qed.
Lemma create_app m a b : M_Tags.create m (a ++ b) <> None -> exists m1 c1, M_Tags.create m a = Some (m1, c1) /\ M_Tags.create m1 b <> None.
Proof.
  unfold M_Tags.create. rewrite add_tags_app. destruct (add_tags (m, 0%N) a) as [[m1 c1]|] eqn:E; [|congruence]. intros H. exists m1, c1. split; [reflexivity|].
  destruct (add_tags (m1, c1) b) as [[m2 c2]|] eqn:E2; [|now destruct H]. destruct (add_tags_any _ _ _ 0%N _ _ E2) as [c' E3]. intros X. pose proof (eq_trans (eq_sym E3) X) as Y. discriminate Y.
Qed.
Definition chart_names (terminal : str) : list str :=
  [GOBIO; PARSE_AUX] ++ [FORM] ++ [LEXEME] ++ [LEMMA] ++ [GOBIO] ++ [NORMALIZATION] ++ [TERM] ++ [TOKEN] ++ [terminal] ++ [FORM] ++ [GOBIO] ++ [PARSE_AUX] ++ [].
Lemma new_chart_ok terminal L : M_Tags.create (tags L) (chart_names terminal) <> None -> exists L0 ch, new_chart terminal L = (L0, Ok ch).
Proof.
  intros H. unfold new_chart, chart_names in *.
  assert (Step : forall a b {A} (f : collection -> act A) X, M_Tags.create (tags X) (a ++ b) <> None ->
            (forall c X1, M_Tags.create (tags X1) b <> None -> exists Y r, f c X1 = (Y, Ok r)) -> exists Y r, (do c <- create_tags a; f c) X = (Y, Ok r)).
  { intros a b A f X K Hf. destruct (create_app _ _ _ K) as [m1 [c1 [E K1]]]. unfold bind, create_tags. rewrite E. apply Hf. exact K1. }
  repeat (eapply Step; [eassumption|]; clear H; intros ? ? H). unfold ret. eauto.
Qed.

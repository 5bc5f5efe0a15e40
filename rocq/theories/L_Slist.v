(** Lemmas on fitting rules into sentences. *)
From Coq Require Import String Ascii.
From Coq Require Import List ZArith Bool Sorted Lia PeanoNat.
From Verif Require Import M_Slist S_Slist.
Import ListNotations.
Local Open Scope nat_scope.

(** ** Places of nonterminals *)
Lemma places_snoc l s : nt_places (l ++ [s]) = nt_places l ++ (if y_nt s then [length l] else []).
Proof.
  unfold nt_places. rewrite app_length, seq_app, filter_app. cbn [length seq]. f_equal.
  - apply filter_ext_in. intros i Hi. apply in_seq in Hi. now rewrite nth_error_app1 by lia.
  - cbn [filter]. rewrite nth_error_app2 by lia. rewrite Nat.add_0_l, Nat.sub_diag. cbn [nth_error]. now destruct (y_nt s).
Qed.
Definition wf (p : slist) : Prop := rev (l_nt p) = nt_places (rev (l_syms p)).
Lemma wf_empty : wf l_empty.
Proof. reflexivity. Qed.
Lemma wf_push s p : wf p -> wf (l_push s p).
Proof.
  unfold wf, l_push. cbn [l_syms l_nt rev]. intros H. rewrite places_snoc, <- H, rev_length. destruct (y_nt s); [reflexivity|now rewrite app_nil_r].
Qed.
Lemma wf_pop p : wf p -> wf (l_pop p) /\ l_syms (l_pop p) = tl (l_syms p).
Proof.
  unfold wf, l_pop. destruct p as [[|s r] nt]; cbn [l_syms l_nt rev tl]; [auto|]. rewrite places_snoc. intros H. split; [|reflexivity]. destruct (y_nt s); [|now rewrite app_nil_r in H].
  assert (E : nt = length (rev r) :: rev (nt_places (rev r))) by (rewrite <- (rev_involutive nt), H, rev_app_distr; reflexivity). rewrite E. cbn [tl]. apply rev_involutive.
Qed.
Fixpoint dropw (f : Z) (l : list sym) : list sym :=
  match l with [] => [] | s :: r => if (f <=? y_from s)%Z then dropw f r else l end.
Lemma cut_back_spec f : forall n p, length (l_syms p) <= n -> wf p -> wf (cut_back f n p) /\ l_syms (cut_back f n p) = dropw f (l_syms p).
Proof.
  induction n as [|n IH]; intros p L W; cbn [cut_back].
  - split; [assumption|]. destruct (l_syms p) eqn:E; [reflexivity|cbn in L; lia].
  - destruct (wf_pop p W) as [W' E']. destruct (l_syms p) as [|s r] eqn:E; cbn [dropw]; [now split|]. destruct (f <=? y_from s)%Z; [|now split].
    cbn [tl] in E'. rewrite <- E'. apply IH; [|assumption]. rewrite E'. cbn [length] in L. lia.
Qed.
Lemma dropw_dropw f g l : (f <= g)%Z -> dropw f (dropw g l) = dropw f l.
Proof.
  intros L. induction l as [|s r IH]; [reflexivity|]. cbn [dropw]. destruct (Z.leb_spec g (y_from s)); [|reflexivity]. destruct (Z.leb_spec f (y_from s)); [assumption|lia].
Qed.

(** ** Chains *)
Lemma chain_snoc um rhs f l t a : chain um rhs f l (y_from t) -> In t (um a) -> chain um (rhs ++ [a]) f (l ++ [t]) (y_to t).
Proof.
  intros H Ht. remember (y_from t) as e eqn:E. revert E. induction H as [f|b rhs u l e Hu H IH]; intros E; cbn [app].
  - rewrite E. constructor; [assumption|constructor].
  - constructor; auto.
Qed.
Lemma chain_length um rhs f l e : chain um rhs f l e -> length l = length rhs.
Proof. induction 1; cbn; congruence. Qed.
Lemma chain_wide um rhs f l e : chain um rhs f l e -> wide um rhs -> (f <= e)%Z.
Proof.
  induction 1 as [f|a rhs t l e Ht H IH]; intros W; [lia|]. assert (wide um rhs) by (intros b u Hb; apply W; now right). specialize (W a t (or_introl eq_refl) Ht). specialize (IH ltac:(assumption)). lia.
Qed.
Lemma firstn_nth {A} (l : list A) k d : k < length l -> firstn (S k) l = firstn k l ++ [nth k l d].
Proof. revert k. induction l as [|x l IH]; intros k L; [cbn in L; lia|]. destruct k; [reflexivity|]. cbn [firstn nth app]. f_equal. apply IH. cbn in L. lia. Qed.
Lemma skipn_nth {A} (l : list A) k d : k < length l -> skipn k l = nth k l d :: skipn (S k) l.
Proof. revert k. induction l as [|x l IH]; intros k L; [cbn in L; lia|]. destruct k; [reflexivity|]. cbn [nth]. rewrite (skipn_cons k), (skipn_cons (S k)). apply IH. cbn in L. lia. Qed.
Lemma sym_eqb_spec t u : sym_eqb t u = false <-> differs t u.
Proof.
  unfold sym_eqb, differs. destruct (String.eqb_spec (y_label t) (y_label u)), (Z.eqb_spec (y_from t) (y_from u)), (Z.eqb_spec (y_to t) (y_to u)); cbn [andb]; split; try easy; try tauto.
Qed.
Lemma push_all_spec act : forall ts st, push_all act ts st = rev (map (pair act) ts) ++ st.
Proof.
  unfold push_all. induction ts as [|t ts IH]; intros st; cbn [fold_left map rev]; [reflexivity|]. rewrite IH, <- app_assoc. reflexivity.
Qed.
Lemma push_all_in act ts st x : In x (push_all act ts st) <-> (fst x = act /\ In (snd x) ts) \/ In x st.
Proof.
  rewrite push_all_spec, in_app_iff, <- in_rev, in_map_iff. split; (intros [H|H]; [left|now right]).
  - destruct H as (t & <- & H). now split.
  - destruct x as [k t]. cbn in H. destruct H as [-> H]. now exists t.
Qed.

Section Search.
Context (um : Z -> list sym) (rhs : list Z) (lhs : sym) (W : wide um rhs).
Notation m := (length rhs).
Notation word k := (nth k rhs 0%Z).
Definition higher (x y : nat * sym) : Prop := (y_from (snd y) <= y_from (snd x))%Z.
Record sound (path : list sym) (act : nat) (t : sym) : Prop := Sound {
  so_act : 1 <= act <= m;
  so_in : In t (um (word (act - 1)));
  so_to : (y_to t <= y_to lhs)%Z;
  so_chain : chain um (firstn (act - 1) rhs) (y_from lhs) (rev (dropw (y_from t) path)) (y_from t);
  so_first : forall h, hd_error (rev (t :: dropw (y_from t) path)) = Some h -> differs h lhs }.
Definition sinv (st : list (nat * sym)) (p : slist) : Prop :=
  wf p /\ StronglySorted higher st /\ forall act t, In (act, t) st -> sound (l_syms p) act t.
Definition promising (st : list (nat * sym)) : Prop :=
  exists act t l, In (act, t) st /\ chain um (skipn act rhs) (y_to t) l (y_to lhs).
Definition most : nat := list_max (map (fun a => length (um a)) rhs).
Fixpoint weight (st : list (nat * sym)) : nat :=
  match st with [] => 0 | (act, _) :: st => S most ^ (S m - act) + weight st end.
Lemma weight_app a b : weight (a ++ b) = weight a + weight b.
Proof. induction a as [|[k t] a IH]; [reflexivity|]. cbn [app weight]. lia. Qed.
Lemma weight_all k ts : weight (rev (map (pair k) ts)) = length ts * S most ^ (S m - k).
Proof. induction ts as [|t ts IH]; [reflexivity|]. cbn [map rev]. rewrite weight_app, IH. cbn [weight length]. lia. Qed.
Lemma most_le a : In a rhs -> length (um a) <= most.
Proof. intros H. unfold most. pose proof (proj1 (list_max_le (map (fun a => length (um a)) rhs) _) (Nat.le_refl _)) as F. rewrite Forall_forall in F. apply F. apply (in_map (fun a => length (um a))), H. Qed.
Lemma filter_len {A} (f : A -> bool) l : length (filter f l) <= length l.
Proof. induction l as [|x l IH]; [reflexivity|]. cbn [filter]. destruct (f x); cbn [length]; lia. Qed.
Lemma sorted_all k ts st : (forall t u, In t ts -> In u ts -> y_from t = y_from u) -> (forall t y, In t ts -> In y st -> higher (k, t) y) -> StronglySorted higher st ->
  StronglySorted higher (rev (map (pair k) ts) ++ st).
Proof.
  intros E H S0. rewrite <- map_rev. assert (E' : forall t u, In t (rev ts) -> In u (rev ts) -> y_from t = y_from u) by (intros t u Ht Hu; apply in_rev in Ht, Hu; now apply E).
  assert (H' : forall t y, In t (rev ts) -> In y st -> higher (k, t) y) by (intros t y Ht; apply H; now apply in_rev).
  clear E H. induction (rev ts) as [|t l IH]; [exact S0|]. cbn [map app]. constructor.
  - apply IH; [intros u v Hu Hv; apply E'; now right|intros u y Hu; apply H'; now right].
  - apply Forall_forall. intros x Hx. apply in_app_iff in Hx as [Hx|Hx]; [|apply H'; [now left|assumption]].
    apply in_map_iff in Hx as (u & <- & Hu). unfold higher. cbn [snd]. rewrite (E' t u); [lia|now left|now right].
Qed.
Lemma search_spec : forall fuel st p, sinv st p -> match search fuel um rhs lhs st p with
  | Some (Some r) => wf r /\ fits um rhs lhs (rev (l_syms r))
  | Some None => ~ promising st
  | None => fuel < weight st end.
Proof.
  induction fuel as [|fuel IH]; intros [|[act s] st] p (I1 & I2 & I3); cbn [search].
  - intros (a & t & l & [] & _).
  - cbn [weight]. pose proof (Nat.pow_nonzero (S most) (S m - act) ltac:(lia)). lia.
  - intros (a & t & l & [] & _).
  - destruct (cut_back_spec (y_from s) _ p (Nat.le_refl _) I1) as [Wc Ec]. set (p1 := l_push s _).
    assert (Wp : wf p1) by now apply wf_push. assert (Ep : l_syms p1 = s :: dropw (y_from s) (l_syms p)) by (unfold p1, l_push; cbn [l_syms]; now rewrite Ec).
    destruct (I3 act s (or_introl eq_refl)) as [A1 A2 A3 A4 A5]. pose proof (chain_length _ _ _ _ _ A4) as Lc. rewrite rev_length, firstn_length_le in Lc by lia.
    assert (Lp : length (l_syms p1) = act) by (rewrite Ep; cbn [length]; lia). rewrite Lp.
    assert (Ch : chain um (firstn act rhs) (y_from lhs) (rev (l_syms p1)) (y_to s)).
    { rewrite Ep. cbn [rev]. replace act with (S (act - 1)) at 1 by lia. rewrite (firstn_nth rhs (act - 1) 0%Z) by lia. now apply chain_snoc. }
    destruct ((act =? m) && (act =? m) && (y_to s =? y_to lhs)%Z) eqn:E.
    + apply andb_true_iff in E as [E1 E2]. apply andb_true_iff in E1 as [E1 _]. apply Nat.eqb_eq in E1. apply Z.eqb_eq in E2. split; [assumption|]. split.
      * rewrite E1, firstn_all, E2 in Ch. exact Ch.
      * intros t Ht. apply A5. now rewrite <- Ep.
    + assert (Keep : forall a t, In (a, t) st -> sound (l_syms p1) a t).
      { intros a t Ht. destruct (I3 a t (or_intror Ht)) as [B1 B2 B3 B4 B5]. apply StronglySorted_inv in I2 as [_ I2]. rewrite Forall_forall in I2. specialize (I2 _ Ht). unfold higher in I2. cbn [snd] in I2.
        assert (Ed : dropw (y_from t) (l_syms p1) = dropw (y_from t) (l_syms p)).
        { rewrite Ep. cbn [dropw]. destruct (Z.leb_spec (y_from t) (y_from s)); [|lia]. now apply dropw_dropw. }
        constructor; try assumption; now rewrite Ed. }
      pose proof (StronglySorted_inv I2) as [I2' I2f]. rewrite Forall_forall in I2f.
      destruct (Nat.leb_spec act (S m)) as [_|K]; [|lia]. cbn [andb]. destruct (Nat.ltb_spec act m) as [La|La].
      * rewrite push_all_spec. set (ts := filter _ _). specialize (IH (rev (map (pair (S act)) ts) ++ st) p1).
        assert (Ts : forall t, In t ts <-> In t (um (word act)) /\ y_from t = y_to s /\ (y_to t <= y_to lhs)%Z).
        { intros t. unfold ts. rewrite filter_In, andb_true_iff, Z.eqb_eq, Z.leb_le. intuition congruence. }
        assert (Ws : (y_from s < y_to s)%Z) by (apply (W (word (act - 1))); [apply nth_In; lia|assumption]).
        assert (Iv : sinv (rev (map (pair (S act)) ts) ++ st) p1).
        { split; [assumption|]. split.
          - apply sorted_all; [|intros t y Ht Hy|assumption].
            + intros t u Ht Hu. apply Ts in Ht, Hu. destruct Ht as (_ & -> & _), Hu as (_ & -> & _). reflexivity.
            + apply Ts in Ht as (_ & Ht & _). specialize (I2f _ Hy). unfold higher in *. cbn [snd] in *. lia.
          - intros a t Ht. apply in_app_iff in Ht as [Ht|Ht]; [|now apply Keep]. apply in_rev, in_map_iff in Ht as (t' & [= <- <-] & Ht). apply Ts in Ht as (T1 & T2 & T3).
            assert (Ed : dropw (y_from t') (l_syms p1) = l_syms p1) by (rewrite Ep; cbn [dropw]; destruct (Z.leb_spec (y_from t') (y_from s)); [lia|reflexivity]).
            constructor; replace (S act - 1) with act by lia; try lia; try assumption; rewrite Ed; [now rewrite T2|].
            intros h Hh. apply A5. rewrite <- Ep. cbn [rev] in Hh. destruct (rev (l_syms p1)) as [|h' r] eqn:Er; [|exact Hh].
            apply (f_equal (@length sym)) in Er. rewrite rev_length, Lp in Er. cbn in Er. lia. }
        specialize (IH Iv). destruct (search fuel um rhs lhs _ p1) as [[r|]|].
        -- exact IH.
        -- intros (a & t & l & [[= -> ->]|Ht] & Hc); apply IH; [|exists a, t, l; split; [apply in_app_iff; now right|assumption]].
           clear Lp Lc. rewrite (skipn_nth rhs a 0%Z La) in Hc. inversion Hc as [|? ? t2 l2 ? H2 Hc2 E1 E2 E3]; subst. exists (S a), t2, l2. split; [|assumption].
           apply in_app_iff. left. apply -> in_rev. apply in_map_iff. exists t2. split; [reflexivity|]. apply Ts. split; [assumption|]. split; [congruence|].
           apply (chain_wide _ _ _ _ _ Hc2). intros b u Hb. apply W. rewrite <- (firstn_skipn (S a) rhs). apply in_app_iff. now right.
        -- rewrite weight_app, weight_all in IH. cbn [weight]. replace (S m - act) with (S (S m - S act)) by lia. cbn [Nat.pow].
           assert (Lt : length ts <= most) by (etransitivity; [apply filter_len|apply most_le, nth_In; lia]).
           pose proof (Nat.pow_nonzero (S most) (S m - S act) ltac:(lia)). assert (length ts * S most ^ (S m - S act) <= most * S most ^ (S m - S act)) by now apply Nat.mul_le_mono_r. lia.
      * specialize (IH st p1 (conj Wp (conj I2' Keep))). destruct (search fuel um rhs lhs st p1) as [[r|]|].
        -- exact IH.
        -- intros (a & t & l & [[= -> ->]|Ht] & Hc); [|apply IH; now exists a, t, l]. assert (a = m) as -> by lia. rewrite skipn_all in Hc. inversion Hc; subst.
           rewrite !Nat.eqb_refl in E. cbn [andb] in E. apply Z.eqb_neq in E. congruence.
        -- cbn [weight]. pose proof (Nat.pow_nonzero (S most) (S m - act) ltac:(lia)). lia.
Qed.
Lemma start_inv : rhs <> [] -> sinv (push_all 1 (first_symbols um rhs lhs) []) l_empty.
Proof.
  intros N. assert (1 <= m) by (destruct rhs; [congruence|cbn; lia]).
  assert (F : forall t, In t (first_symbols um rhs lhs) <-> In t (um (word 0)) /\ y_from t = y_from lhs /\ (y_to t <= y_to lhs)%Z /\ differs t lhs).
  { intros t. unfold first_symbols. rewrite filter_In, !andb_true_iff, Z.eqb_eq, Z.leb_le, negb_true_iff, sym_eqb_spec. tauto. }
  split; [apply wf_empty|]. split.
  - rewrite push_all_spec. apply sorted_all; [|intros t y _ []|constructor]. intros t u Ht Hu. apply F in Ht, Hu. destruct Ht as (_ & -> & _), Hu as (_ & -> & _). reflexivity.
  - intros act t Ht. apply push_all_in in Ht as [[E Ht]|[]]. cbn [fst snd] in *. subst act. apply F in Ht as (T1 & T2 & T3 & T4). constructor; cbn [Nat.sub l_syms l_empty dropw firstn rev app hd_error]; try assumption; try lia.
    + rewrite T2. constructor.
    + intros h [= <-]. assumption.
Qed.
Lemma start_promising l : rhs <> [] -> fits um rhs lhs l -> promising (push_all 1 (first_symbols um rhs lhs) []).
Proof.
  intros N [H D]. destruct rhs as [|a r] eqn:Er; [congruence|]. inversion H as [|? ? t l' ? Ht Hc E1 E2 E3]; subst. exists 1, t, l'. split; [|rewrite Er; exact Hc].
  apply push_all_in. left. split; [reflexivity|]. unfold first_symbols. cbn [snd nth]. apply filter_In. split; [assumption|]. rewrite !andb_true_iff, Z.eqb_eq, Z.leb_le, negb_true_iff, sym_eqb_spec.
  split; [split; [assumption|]|now apply D]. apply (chain_wide _ _ _ _ _ Hc). intros b u Hb. apply W. now right.
Qed.
End Search.

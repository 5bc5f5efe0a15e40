(** C20, C47: glob matching. *)
From Coq Require Import List ZArith Bool Lia Arith.
From Verif Require Import M_Utf8 M_Glob.
Import ListNotations.
Open Scope Z_scope.

(** ** Specification *)
(** '*' stands for any string, '?' for any one byte. *)
Inductive gmatch : list Z -> list Z -> Prop :=
| gm_nil : gmatch [] []
| gm_star0 : forall g s, gmatch g s -> gmatch (STAR :: g) s
| gm_star1 : forall g c s, gmatch (STAR :: g) s -> gmatch (STAR :: g) (c :: s)
| gm_any : forall g c s, gmatch g s -> gmatch (QUEST :: g) (c :: s)
| gm_char : forall g c s, c <> STAR -> c <> QUEST -> gmatch g s -> gmatch (c :: g) (c :: s).

(** Bytes of a C string for which '?' takes exactly one byte: any non-zero bytes
    if the glob has no '?', ASCII otherwise. *)
Definition seg_ok (glob seg : list Z) : Prop :=
  In QUEST glob -> Forall (fun c => 0 < c < 128) seg.

(** ** Proofs *)
Lemma unchecked_next_ascii : forall c s, 0 < c < 128 -> exists cp, unchecked_next (c :: s) = Some (cp, s).
Proof.
  intros c s H. assert (E : sequence_length c = 1).
  { unfold sequence_length, mask8. rewrite Z.land_comm.
    change 255 with (Z.ones 8). rewrite Z.land_ones by lia.
    rewrite Z.mod_small by lia. destruct (Z.ltb_spec c 128); [reflexivity|lia]. }
  unfold unchecked_next. rewrite E. cbn. eauto.
Qed.

Lemma seg_ok_sub : forall glob seg g s,
  seg_ok glob seg -> (forall c, In c g -> In c glob) -> (exists p, seg = p ++ s) -> seg_ok g s.
Proof.
  intros glob seg g s H Hg (p & ->) Hq. apply Hg in Hq. apply H in Hq.
  apply Forall_app in Hq. tauto.
Qed.

Lemma gm_star_suffix : forall g p s, gmatch (STAR :: g) s -> gmatch (STAR :: g) (p ++ s).
Proof. induction p as [|c p IH]; intros s H; cbn; [assumption|]. apply gm_star1. auto. Qed.

Lemma gm_star_inv : forall g s, gmatch (STAR :: g) s -> exists p t, s = p ++ t /\ gmatch g t.
Proof.
  intros g s H. remember (STAR :: g) as G. revert g HeqG. induction H; intros g0 E; inversion E; subst.
  - exists [], s. auto.
  - destruct (IHgmatch g0 eq_refl) as (p & t & -> & H'). exists (c :: p), t. auto.
  - congruence.
Qed.

(** A star-free piece [p] of a glob matches a piece of the same length. *)
Inductive pmatch1 : list Z -> list Z -> Prop :=
| p1_nil : pmatch1 [] []
| p1_any : forall g c s, pmatch1 g s -> pmatch1 (QUEST :: g) (c :: s)
| p1_char : forall g c s, c <> STAR -> c <> QUEST -> pmatch1 g s -> pmatch1 (c :: g) (c :: s).

Lemma pmatch1_length : forall p w, pmatch1 p w -> length p = length w.
Proof. induction 1; cbn; congruence. Qed.

Lemma pmatch1_snoc : forall p w g c, pmatch1 p w -> pmatch1 [g] [c] -> pmatch1 (p ++ [g]) (w ++ [c]).
Proof. induction 1; cbn; intros; [assumption| |]; constructor; auto. Qed.

Lemma pmatch1_nostar : forall p w, pmatch1 p w -> ~ In STAR p.
Proof. induction 1; cbn; intros E; [assumption| |]; destruct E as [E|E]; try discriminate; auto. Qed.

Lemma gmatch_app_inv : forall p g s, ~ In STAR p -> gmatch (p ++ g) s ->
  exists w t, s = w ++ t /\ pmatch1 p w /\ gmatch g t.
Proof.
  induction p as [|x p IH]; intros g s Hn H; cbn in *.
  - exists [], s. repeat split; auto. constructor.
  - inversion H; subst; try (exfalso; apply Hn; left; reflexivity).
    + destruct (IH g s0 ltac:(tauto) ltac:(assumption)) as (w & t & -> & Ha1 & Ha2).
      exists (c :: w), t. repeat split; auto. constructor. assumption.
    + destruct (IH g s0 ltac:(tauto) ltac:(assumption)) as (w & t & -> & Ha1 & Ha2).
      exists (x :: w), t. repeat split; auto. constructor; assumption.
Qed.

Lemma pmatch1_app : forall p w g s, pmatch1 p w -> gmatch g s -> gmatch (p ++ g) (w ++ s).
Proof. induction 1; intros; cbn; [assumption| |]; constructor; auto. Qed.

Lemma glob_tail_spec : forall g, glob_tail g = MTrue <-> gmatch g [].
Proof.
  induction g as [|x g IH]; cbn.
  - split; [constructor|reflexivity].
  - destruct (Z.eqb_spec x STAR) as [->|Hne].
    + rewrite IH. split; intro H; [constructor; assumption|inversion H; subst; assumption].
    + split; intro H; [discriminate|inversion H; subst; congruence].
Qed.

Lemma glob_tail_decides : forall g, glob_tail g = MTrue \/ glob_tail g = MFalse.
Proof. induction g as [|x g IH]; cbn; auto. destruct (x =? STAR); auto. Qed.

Definition decides (r : mres) (P : Prop) : Prop := (r = MTrue /\ P) \/ (r = MFalse /\ ~ P).

Lemma decides_iff : forall r P Q, decides r P -> (P <-> Q) -> decides r Q.
Proof. unfold decides. intros r P Q H E. tauto. Qed.

(** The second loop, started inside the attempt [st] to match [mp] after the last
    star: [mp] = p ++ g, [st] = w ++ s with p matching w. *)
Lemma loop2_correct : forall fuel G g s mp cp p w c0 st,
  mp = p ++ g -> st = w ++ s -> pmatch1 p w -> st = c0 :: cp \/ (st = [] /\ cp = []) ->
  seg_ok mp st ->
  (length mp <= G)%nat ->
  (length st * (G + 1) + length g + 1 <= fuel)%nat ->
  decides (glob_loop2 fuel g s mp cp) (gmatch g s \/ (st <> [] /\ gmatch (STAR :: mp) cp)).
Proof.
  induction fuel as [|fuel IH]; intros G g s mp cp p w c0 st Hmp Hst Hpw Hcp Hok HG Hf; [lia|].
  cbn [glob_loop2].
  (* the backtracking step *)
  assert (Hback : s <> [] -> ~ gmatch g s ->
    decides (glob_loop2 fuel mp cp mp (tl cp)) (gmatch g s \/ (st <> [] /\ gmatch (STAR :: mp) cp))).
  { intros Hs Hng.
    assert (Est : st = c0 :: cp).
    { destruct Hcp as [E|[E _]]; [assumption|]. exfalso. rewrite E in Hst. symmetry in Hst.
      apply app_eq_nil in Hst. tauto. }
    assert (Hstl : length st = S (length cp)) by (rewrite Est; reflexivity).
    eapply decides_iff.
    - apply (IH G mp cp mp (tl cp) [] [] (hd 0 cp) cp); try reflexivity; try apply p1_nil.
      + destruct cp; [right; auto|left; reflexivity].
      + eapply seg_ok_sub; [apply Hok|auto|]. exists [c0]. assumption.
      + assumption.
      + rewrite Hstl in Hf. lia.
    - split.
      + intros [H|[Hne H]]; right; (split; [rewrite Est; discriminate|]).
        * constructor. assumption.
        * destruct cp; [congruence|]. cbn [tl] in H. apply gm_star1. assumption.
      + intros [H|[_ H]]; [contradiction|].
        inversion H; subst; [left; assumption|right|congruence].
        split; [discriminate|]. assumption. }
  destruct s as [|c s1].
  - (* end of the segment *)
    destruct (glob_tail_decides g) as [E|E]; rewrite E.
    + left. split; [reflexivity|]. left. apply glob_tail_spec. assumption.
    + right. split; [reflexivity|]. intros [H|[Hne H]].
      * apply glob_tail_spec in H. congruence.
      * rewrite app_nil_r in Hst. subst st.
        pose proof (pmatch1_nostar _ _ Hpw) as Hns. subst mp.
        apply gm_star_inv in H. destruct H as (q & t & Ecp & H).
        apply gmatch_app_inv in H; [|assumption]. destruct H as (w' & t' & Et & H1 & H2).
        apply pmatch1_length in H1. apply pmatch1_length in Hpw.
        destruct Hcp as [E'|[E' _]]; [|congruence].
        assert (length w = S (length cp)) by (rewrite E'; reflexivity).
        rewrite Ecp, Et, !app_length in *. lia.
  - destruct g as [|x g1].
    + apply Hback; [discriminate|]. intro H. inversion H.
    + destruct (Z.eqb_spec x STAR) as [->|Hx].
      * (* a new star *)
        assert (Hequiv : (gmatch (STAR :: g1) (c :: s1)) <->
                  (gmatch (STAR :: g1) (c :: s1) \/ (st <> [] /\ gmatch (STAR :: mp) cp))).
        { split; [auto|]. intros [H|[Hne H]]; [assumption|].
          subst mp. apply gm_star_inv in H. destruct H as (q & t & Ecp & H).
          apply gmatch_app_inv in H; [|apply (pmatch1_nostar _ _ Hpw)].
          destruct H as (w' & t' & Et & H1 & H2).
          destruct Hcp as [E'|[E' _]]; [|congruence].
          assert (Hl : length w' = length w) by (apply pmatch1_length in H1, Hpw; congruence).
          (* c :: s1 = skipn |w| st has t' as a suffix *)
          assert (Est : w ++ c :: s1 = (c0 :: q ++ w') ++ t').
          { rewrite <- Hst, E', Ecp, Et. cbn. rewrite !app_assoc. reflexivity. }
          assert (Hsuf : exists u, c :: s1 = u ++ t').
          { exists (skipn (length w) (c0 :: q ++ w')).
            assert (Hle : (length w <= length (c0 :: q ++ w'))%nat) by (cbn; rewrite app_length; lia).
            transitivity (skipn (length w) (w ++ c :: s1)).
            - rewrite skipn_app, skipn_all, Nat.sub_diag. reflexivity.
            - rewrite Est, skipn_app.
              replace (length w - length (c0 :: q ++ w'))%nat with O by lia. reflexivity. }
          destruct Hsuf as (u & ->). apply gm_star_suffix. assumption. }
        destruct g1 as [|y g2].
        -- left. split; [reflexivity|]. left.
           rewrite <- (app_nil_r (c :: s1)). apply gm_star_suffix. constructor. constructor.
        -- eapply decides_iff; [|apply Hequiv].
           eapply decides_iff.
           ++ apply (IH G (y :: g2) (c :: s1) (y :: g2) s1 [] [] c (c :: s1)); try reflexivity; try apply p1_nil.
              ** left. reflexivity.
              ** eapply seg_ok_sub; [apply Hok| |exists w; assumption].
                 subst mp. intros d Hd. apply in_or_app. right. right. assumption.
              ** subst mp. rewrite app_length in HG. cbn in *. lia.
              ** assert (length (c :: s1) <= length st)%nat by (rewrite Hst, app_length; lia).
                 subst mp. rewrite app_length in HG. cbn [length] in *. nia.
           ++ split.
              ** intros [H|[_ H]]; [constructor; assumption|apply gm_star1; assumption].
              ** intro H. inversion H; subst; [left; assumption|right; split; [discriminate|assumption]|congruence].
      * destruct (Z.eqb_spec x QUEST) as [->|Hq].
        -- (* '?' *)
           assert (Hc : 0 < c < 128).
           { assert (Hin : In QUEST mp) by (subst mp; apply in_or_app; right; left; reflexivity).
             specialize (Hok Hin). rewrite Hst in Hok. apply Forall_app in Hok.
             destruct Hok as [_ Hok]. inversion Hok; subst. assumption. }
           destruct (unchecked_next_ascii c s1 Hc) as (cp' & E). rewrite E.
           eapply decides_iff.
           ++ apply (IH G g1 s1 mp cp (p ++ [QUEST]) (w ++ [c]) c0 st); try assumption.
              ** rewrite <- app_assoc. assumption.
              ** rewrite <- app_assoc. assumption.
              ** apply pmatch1_snoc; [assumption|]. constructor. constructor.
              ** cbn [length] in Hf. lia.
           ++ split; (intros [H|H]; [left|right; assumption]).
              ** constructor. assumption.
              ** inversion H; subst; [assumption|congruence].
        -- destruct (Z.eqb_spec x c) as [->|Hxc].
           ++ eapply decides_iff.
              ** apply (IH G g1 s1 mp cp (p ++ [c]) (w ++ [c]) c0 st); try assumption.
                 --- rewrite <- app_assoc. assumption.
                 --- rewrite <- app_assoc. assumption.
                 --- apply pmatch1_snoc; [assumption|]. constructor; try assumption. constructor.
                 --- cbn [length] in Hf. lia.
              ** split; (intros [H|H]; [left|right; assumption]).
                 --- constructor; assumption.
                 --- inversion H; subst; try congruence; assumption.
           ++ apply Hback; [discriminate|]. intro H. inversion H; subst; congruence.
Qed.

Lemma loop1_correct : forall g s, seg_ok g s ->
  (exists r, glob_loop1 g s = inl r /\ decides r (gmatch g s)) \/
  (exists g' s', glob_loop1 g s = inr (g', s') /\ (gmatch g s <-> gmatch g' s') /\
     (s' = [] \/ exists g1, g' = STAR :: g1) /\
     (exists a, g = a ++ g') /\ (exists b, s = b ++ s')).
Proof.
  induction g as [|x g IH]; intros s Hok.
  - destruct s as [|c s]; cbn [glob_loop1].
    + right. exists [], []. repeat split; auto; exists []; reflexivity.
    + left. exists MFalse. split; [reflexivity|]. right. split; [reflexivity|]. intro H; inversion H.
  - destruct s as [|c s]; cbn [glob_loop1].
    + right. exists (x :: g), []. repeat split; auto; exists []; reflexivity.
    + destruct (Z.eqb_spec x STAR) as [->|Hx].
      { right. exists (STAR :: g), (c :: s). split; [reflexivity|]. split; [tauto|]. split; [right; eauto|].
        split; exists []; reflexivity. }
      assert (Hok' : seg_ok g s).
      { eapply seg_ok_sub; [apply Hok|intros; right; assumption|exists [c]; reflexivity]. }
      destruct (Z.eqb_spec x c) as [->|Hxc]; cbn [negb andb].
      * destruct (Z.eqb_spec c QUEST) as [->|Hq].
        -- assert (Hc : 0 < QUEST < 128) by (unfold QUEST; lia).
           destruct (unchecked_next_ascii QUEST s Hc) as (cp' & E). rewrite E.
           destruct (IH s Hok') as [(r & E1 & D)|(g' & s' & E1 & D & S' & (a & Ha) & (b & Hb))].
           ++ left. exists r. split; [assumption|]. eapply decides_iff; [apply D|].
              split; intro H; [constructor; assumption|inversion H; subst; [assumption|congruence]].
           ++ right. exists g', s'. split; [assumption|]. split.
              ** rewrite <- D. split; intro H; [inversion H; subst; [assumption|congruence]|constructor; assumption].
              ** split; [assumption|]. split; [exists (QUEST :: a)|exists (QUEST :: b)]; cbn; congruence.
        -- destruct (IH s Hok') as [(r & E1 & D)|(g' & s' & E1 & D & S' & (a & Ha) & (b & Hb))].
           ++ left. exists r. split; [assumption|]. eapply decides_iff; [apply D|].
              split; intro H; [constructor; assumption|inversion H; subst; congruence].
           ++ right. exists g', s'. split; [assumption|]. split.
              ** rewrite <- D. split; intro H; [inversion H; subst; congruence|constructor; assumption].
              ** split; [assumption|]. split; [exists (c :: a)|exists (c :: b)]; cbn; congruence.
      * destruct (Z.eqb_spec x QUEST) as [->|Hq]; cbn [negb].
        -- assert (Hc : 0 < c < 128).
           { specialize (Hok (or_introl eq_refl)). inversion Hok; subst. assumption. }
           destruct (unchecked_next_ascii c s Hc) as (cp' & E). rewrite E.
           destruct (IH s Hok') as [(r & E1 & D)|(g' & s' & E1 & D & S' & (a & Ha) & (b & Hb))].
           ++ left. exists r. split; [assumption|]. eapply decides_iff; [apply D|].
              split; intro H; [constructor; assumption|inversion H; subst; [assumption|congruence]].
           ++ right. exists g', s'. split; [assumption|]. split.
              ** rewrite <- D. split; intro H; [inversion H; subst; [assumption|congruence]|constructor; assumption].
              ** split; [assumption|]. split; [exists (QUEST :: a)|exists (c :: b)]; cbn; congruence.
        -- left. exists MFalse. split; [reflexivity|]. right. split; [reflexivity|].
           intro H. inversion H; subst; congruence.
Qed.

Lemma bytes_eqb_eq : forall a b, bytes_eqb a b = true <-> a = b.
Proof.
  induction a as [|x a IH]; intros [|y b]; cbn; split; intro H; try discriminate; auto.
  - apply andb_true_iff in H. destruct H as [H1 H2]. apply Z.eqb_eq in H1. apply IH in H2. congruence.
  - inversion H; subst. rewrite Z.eqb_refl. apply IH. reflexivity.
Qed.

Lemma fixed_gmatch : forall g s, is_fixed g = true -> (gmatch g s <-> s = g).
Proof.
  induction g as [|x g IH]; intros s H.
  - split; intro E; [inversion E; reflexivity|subst; constructor].
  - unfold is_fixed in *. cbn in H. apply negb_true_iff, orb_false_iff in H. destruct H as [H1 H2].
    apply orb_false_iff in H1. destruct H1 as [Hs Hq]. apply Z.eqb_neq in Hs, Hq.
    split; intro E.
    + inversion E; subst; try congruence. f_equal. apply IH; [rewrite H2; reflexivity|assumption].
    + subst. constructor; try assumption. apply IH; [rewrite H2; reflexivity|reflexivity].
Qed.

(** ** C20 *)
Theorem C20_segment_glob : forall glob seg,
  (In QUEST glob -> Forall (fun c => 0 < c < 128) seg) ->
  (glob_matches glob seg = MTrue /\ gmatch glob seg) \/
  (glob_matches glob seg = MFalse /\ ~ gmatch glob seg).
Proof.
  intros glob seg Hok. change (decides (glob_matches glob seg) (gmatch glob seg)).
  unfold glob_matches. destruct (is_fixed glob) eqn:Ef.
  - destruct (bytes_eqb seg glob) eqn:E.
    + left. split; [reflexivity|]. apply fixed_gmatch; [assumption|]. apply bytes_eqb_eq. assumption.
    + right. split; [reflexivity|]. intro H. apply (fixed_gmatch _ _ Ef) in H. subst.
      assert (bytes_eqb glob glob = true) by (apply bytes_eqb_eq; reflexivity). congruence.
  - destruct (loop1_correct glob seg Hok) as [(r & -> & D)|(g & s & -> & D & HS & (a & Ha) & (b & Hb))]; [assumption|].
    eapply decides_iff; [|symmetry; apply D].
    assert (Hg : (length g <= length glob)%nat) by (rewrite Ha, app_length; lia).
    assert (Hs : (length s <= length seg)%nat) by (rewrite Hb, app_length; lia).
    set (F := ((length seg + 1) * (length glob + 1) + length glob + 2)%nat).
    destruct s as [|c s1].
    + (* the second loop is skipped *)
      assert (EF : exists F', F = S F') by (exists (pred F); unfold F; lia). destruct EF as (F' & ->).
      cbn [glob_loop2]. destruct (glob_tail_decides g) as [E|E]; rewrite E.
      * left. split; [reflexivity|]. apply glob_tail_spec. assumption.
      * right. split; [reflexivity|]. intro H. apply glob_tail_spec in H. congruence.
    + destruct HS as [|(g1 & ->)]; [discriminate|].
      assert (EF : exists F', F = S F') by (exists (pred F); unfold F; lia). destruct EF as (F' & EF').
      rewrite EF'. cbn [glob_loop2]. rewrite Z.eqb_refl.
      destruct g1 as [|y g2].
      * left. split; [reflexivity|]. rewrite <- (app_nil_r (c :: s1)). apply gm_star_suffix. constructor. constructor.
      * eapply decides_iff.
        -- apply (loop2_correct F' (length glob) (y :: g2) (c :: s1) (y :: g2) s1 [] [] c (c :: s1));
             try reflexivity; try apply p1_nil.
           ++ left. reflexivity.
           ++ eapply (seg_ok_sub glob seg); [exact Hok| |exists b; assumption].
              intros d Hd. rewrite Ha. apply in_or_app. right. right. assumption.
           ++ cbn in *. lia.
           ++ unfold F in EF'. cbn [length] in *. nia.
        -- split.
           ++ intros [H|[_ H]]; [constructor; assumption|apply gm_star1; assumption].
           ++ intro H. inversion H; subst; [left; assumption|right; split; [discriminate|assumption]|congruence].
Qed.
Print Assumptions C20_segment_glob.

(** "*a?b*c" against "xayxaab-c" needs two backtrackings; the UTF-8 bytes of "zł" against "z*". *)
Example C20_witness :
  glob_matches [42; 97; 63; 98; 42; 99] [120; 97; 121; 120; 97; 97; 98; 45; 99] = MTrue /\
  glob_matches [122; 42] [122; 197; 130] = MTrue /\
  glob_matches [63] [] = MFalse /\
  glob_matches [97; 42; 98] [97; 98; 97] = MFalse.
Proof. vm_compute. repeat split. Qed.

(** With '?' and non-ASCII text the matcher is wrong: backtracking moves by single
    bytes, so "*??x*" matches "€xy", where only one character precedes x. *)
Theorem C20_non_ascii_refuted :
  glob_matches [42; 63; 63; 120; 42] [226; 130; 172; 120; 121] = MTrue /\
  (* the text is the three characters U+20AC, x, y *)
  find_invalid [226; 130; 172; 120; 121] = Some [] /\ distance [226; 130; 172; 120; 121] = Some 3%nat /\
  (* and the glob does not match a text of one character, x and y *)
  ~ gmatch [42; 63; 63; 120; 42] [8364; 120; 121].
Proof.
  split; [vm_compute; reflexivity|]. split; [vm_compute; reflexivity|]. split; [vm_compute; reflexivity|].
  intro H.
  repeat match goal with
         | H : gmatch (_ :: _) (_ :: _) |- _ => inversion H; clear H; subst; try discriminate
         | H : gmatch (_ :: _) [] |- _ => inversion H; clear H; subst; try discriminate
         | H : gmatch [] (_ :: _) |- _ => inversion H
         | H : ?x <> ?y |- _ => exfalso; apply H; reflexivity
         end.
Qed.
Print Assumptions C20_non_ascii_refuted.

(** ** C47: path globs *)
(** [at_path t p t'] : following the names [p] from [t] leads to [t']. *)
Inductive at_path : tree -> path -> tree -> Prop :=
| at_here : forall t, at_path t [] t
| at_entry : forall es n t p t', In (n, t) es -> at_path t p t' -> at_path (Dir es) (n :: p) t'.

(** Names are unique in every directory. *)
Inductive uniq : tree -> Prop :=
| uniq_file : uniq File
| uniq_other : uniq Other
| uniq_dir : forall es, NoDup (map fst es) -> (forall n t, In (n, t) es -> uniq t) -> uniq (Dir es).

(** [path_glob gs p]: one name for each segment, a "**" segment stands for any
    number of directories, a final "**" for any file below. *)
Inductive path_glob : list (list Z) -> path -> Prop :=
| pg_nil : path_glob [] []
| pg_seg : forall g gs n p, g <> starstar -> gmatch g n -> path_glob gs p -> path_glob (g :: gs) (n :: p)
| pg_end : forall n, path_glob [starstar] [n]
| pg_none : forall gs p, gs <> [] -> path_glob gs p -> path_glob (starstar :: gs) p
| pg_some : forall gs n p, path_glob (starstar :: gs) p -> path_glob (starstar :: gs) (n :: p).

(** The condition of C20 on all names on the way to a file. *)
Definition names_ok (segs : list (list Z)) (t : tree) : Prop :=
  (exists g, In g segs /\ In QUEST g) ->
  forall p t', at_path t p t' -> Forall (Forall (fun c => 0 < c < 128)) p.

Lemma at_path_app : forall t p t1 q t2, at_path t p t1 -> at_path t1 q t2 -> at_path t (p ++ q) t2.
Proof. induction 1; intros; cbn; [assumption|]. econstructor; eauto. Qed.

Lemma at_path_app_inv : forall p t q t2, at_path t (p ++ q) t2 -> exists t1, at_path t p t1 /\ at_path t1 q t2.
Proof.
  induction p as [|n p IH]; intros t q t2 H; cbn in H.
  - exists t. split; [constructor|assumption].
  - inversion H; subst. destruct (IH _ _ _ H5) as (t1 & H1 & H2). exists t1. split; [econstructor; eauto|assumption].
Qed.

Lemma names_ok_sub : forall segs segs' t p t',
  names_ok segs t -> (forall g, In g segs' -> In QUEST g -> In g segs) -> at_path t p t' -> names_ok segs' t'.
Proof.
  intros segs segs' t p t' H Hs Hp (g & Hg & Hq) q t2 Hq2.
  assert (He : exists g, In g segs /\ In QUEST g) by (exists g; eauto).
  pose proof (H He _ _ (at_path_app _ _ _ _ _ Hp Hq2)) as F. apply Forall_app in F. tauto.
Qed.

Lemma seg_matches_spec : forall segs g n t es, names_ok segs (Dir es) -> In g segs -> In (n, t) es ->
  (seg_matches g n = true <-> gmatch g n).
Proof.
  intros segs g n t es Hok Hg Hn. unfold seg_matches.
  destruct (C20_segment_glob g n) as [[E G]|[E G]].
  - intro Hq. assert (He : exists g, In g segs /\ In QUEST g) by (exists g; auto).
    specialize (Hok He [n] t (at_entry _ _ _ _ _ Hn (at_here t))). inversion Hok; subst. assumption.
  - rewrite E. tauto.
  - rewrite E. split; [discriminate|tauto].
Qed.

Lemma subdirs_spec : forall d t t', In (d, t') (subdirs t) <-> d <> [] /\ at_path t d t' /\ exists es, t' = Dir es.
Proof.
  induction d as [|n d IH]; intros t t'.
  - split; [|intros (H & _); congruence]. intro H. exfalso. destruct t as [|es|]; cbn in H; try contradiction.
    apply in_flat_map in H. destruct H as ([m t1] & _ & H). apply in_app_or in H. destruct H as [H|H].
    + destruct t1; cbn in H; try contradiction. destruct H as [H|[]]. discriminate.
    + apply in_map_iff in H. destruct H as (q & H & _). discriminate.
  - destruct t as [|es|]; cbn [subdirs].
    + split; [contradiction|]. intros (_ & H & _). inversion H.
    + rewrite in_flat_map. split.
      * intros ([m t1] & Hin & H). split; [discriminate|]. apply in_app_or in H. destruct H as [H|H].
        -- destruct t1 as [|es1|]; cbn in H; try contradiction. destruct H as [H|[]].
           injection H as -> <- <-. split; [|eauto]. econstructor; [eassumption|constructor].
        -- apply in_map_iff in H. destruct H as ([d1 t2] & E & H). cbn in E. injection E as -> -> ->.
           apply IH in H. destruct H as (_ & H & H'). split; [|assumption]. econstructor; eassumption.
      * intros (_ & H & (es2 & ->)). inversion H; subst. exists (n, t). split; [assumption|]. apply in_or_app.
        destruct d as [|n2 d].
        -- inversion H5; subst. left. left. reflexivity.
        -- right. apply in_map_iff. exists (n2 :: d, Dir es2). split; [reflexivity|]. apply IH.
           split; [discriminate|]. eauto.
    + split; [contradiction|]. intros (_ & H & _). inversion H.
Qed.

(** Globs in the form the constructor gives them: the last one is not "**". *)
Definition ends_ok (gs : list (list Z)) : Prop := exists a g, gs = a ++ [g] /\ g <> starstar.

Lemma ends_ok_tail : forall g gs, ends_ok (g :: gs) -> gs <> [] -> ends_ok gs.
Proof.
  intros g gs (a & g' & E & H) Hne. destruct a as [|x a]; cbn in E; injection E as -> E.
  - congruence.
  - exists a, g'. auto.
Qed.

Lemma path_glob_nonempty : forall gs p, path_glob gs p -> gs <> [] -> p <> [].
Proof. induction 1; intros Hne; try congruence. auto. Qed.

Lemma path_glob_starstar_inv : forall gs p, gs <> [] -> path_glob (starstar :: gs) p ->
  exists d q, p = d ++ q /\ path_glob gs q.
Proof.
  intros gs p Hne H. remember (starstar :: gs) as G. revert gs Hne HeqG. induction H; intros gs0 Hne E; inversion E; subst.
  - congruence.
  - congruence.
  - exists [], p. auto.
  - destruct (IHpath_glob gs0 Hne eq_refl) as (d & q & -> & H1). exists (n :: d), q. auto.
Qed.

Lemma path_glob_starstar : forall gs d q, gs <> [] -> path_glob gs q -> path_glob (starstar :: gs) (d ++ q).
Proof. intros gs d q Hne H. induction d; cbn; [apply pg_none; assumption|apply pg_some; assumption]. Qed.

Lemma find_files_spec : forall gs es here q, ends_ok gs -> names_ok gs (Dir es) ->
  (In q (find_files here (Dir es) gs) <->
   exists p, q = here ++ p /\ at_path (Dir es) p File /\ path_glob gs p).
Proof.
  induction gs as [|g gs IH]; intros es here q He Hok.
  - destruct He as (a & g & E & _). destruct a; discriminate.
  - cbn [find_files]. destruct (bytes_eqb g starstar) eqn:Eg.
    + apply bytes_eqb_eq in Eg. subst g.
      assert (Hne : gs <> []).
      { intros ->. destruct He as (a & g & E & H). destruct a as [|x [|]]; cbn in E; injection E; intros; try discriminate.
        congruence. }
      assert (He' : ends_ok gs) by (eapply ends_ok_tail; eauto).
      assert (Hok' : forall p t', at_path (Dir es) p t' -> names_ok gs t').
      { intros p t' Hp. eapply names_ok_sub; [apply Hok| |apply Hp]. intros; right; assumption. }
      rewrite in_app_iff, in_flat_map. split.
      * intros [H|([d t'] & Hd & H)].
        -- apply IH in H; [|assumption|apply (Hok' []); constructor]. destruct H as (p & -> & H1 & H2). exists p.
           split; [reflexivity|]. split; [assumption|]. apply pg_none; assumption.
        -- apply subdirs_spec in Hd. destruct Hd as (Hdne & Hat & (es' & ->)). cbn [fst snd] in H.
           apply IH in H; [|assumption|apply (Hok' d); assumption]. destruct H as (p & -> & H1 & H2). exists (d ++ p).
           split; [rewrite app_assoc; reflexivity|]. split; [eapply at_path_app; eassumption|].
           apply path_glob_starstar; assumption.
      * intros (p & -> & Hat & H). apply path_glob_starstar_inv in H; [|assumption].
        destruct H as (d & q & -> & H). pose proof (path_glob_nonempty _ _ H Hne) as Hqne.
        destruct d as [|n d].
        -- left. apply IH; [assumption|apply (Hok' []); constructor|]. exists q. auto.
        -- right. apply at_path_app_inv in Hat. destruct Hat as (t1 & H1 & H2).
           assert (Ht1 : exists es', t1 = Dir es').
           { destruct q as [|n' q]; [congruence|]. inversion H2; subst. eauto. }
           destruct Ht1 as (es' & ->). exists (n :: d, Dir es'). split.
           ++ apply subdirs_spec. split; [discriminate|]. eauto.
           ++ cbn [fst snd]. apply IH; [assumption|apply (Hok' (n :: d)); assumption|]. exists q.
              split; [rewrite app_assoc; reflexivity|]. auto.
    + assert (Eg' : g <> starstar).
      { intros ->. assert (bytes_eqb starstar starstar = true) by reflexivity. congruence. }
      rewrite in_flat_map. split.
      * intros ([n t] & Hn & H). cbn [fst snd] in H.
        destruct (seg_matches g n) eqn:Em; [|contradiction].
        apply (seg_matches_spec (g :: gs) g n t es Hok (or_introl eq_refl) Hn) in Em.
        destruct t as [|es'|]; [|  |contradiction].
        -- destruct gs as [|g2 gs]; [|contradiction]. destruct H as [<-|[]]. exists [n].
           split; [reflexivity|]. split; [econstructor; [eassumption|constructor]|].
           apply pg_seg; [assumption..|constructor].
        -- destruct gs as [|g2 gs]; [contradiction|].
           apply IH in H.
           ++ destruct H as (p & -> & H1 & H2). exists (n :: p). split; [rewrite <- app_assoc; reflexivity|].
              split; [econstructor; eassumption|]. apply pg_seg; assumption.
           ++ eapply ends_ok_tail; [eassumption|discriminate].
           ++ eapply names_ok_sub; [apply Hok| |eapply at_entry; [apply Hn|constructor]]. intros; right; assumption.
      * intros (p & -> & Hat & H). inversion H; subst; try congruence.
        inversion Hat; subst.
        match goal with Hn : In (n, t) es |- _ => rename Hn into Hin end.
        exists (n, t). split; [assumption|]. cbn [fst snd].
        match goal with Hm : gmatch g n |- _ => pose proof Hm as Em end.
        apply (seg_matches_spec (g :: gs) g n t es Hok (or_introl eq_refl) Hin) in Em. rewrite Em.
        destruct gs as [|g2 gs].
        -- match goal with Hp : path_glob [] _ |- _ => inversion Hp; subst end.
           match goal with Hp : at_path t [] File |- _ => inversion Hp; subst end. left. reflexivity.
        -- match goal with Hp : path_glob (g2 :: gs) p0 |- _ => 
             pose proof (path_glob_nonempty _ _ Hp ltac:(discriminate)) as Hpne end.
           match goal with Hp : at_path t p0 File |- _ => destruct p0 as [|n' p']; [congruence|]; inversion Hp; subst end.
           apply IH.
           ++ eapply ends_ok_tail; [eassumption|discriminate].
           ++ eapply names_ok_sub; [apply Hok| |eapply at_entry; [apply Hin|constructor]]. intros; right; assumption.
           ++ exists (n' :: p'). split; [rewrite <- app_assoc; reflexivity|]. split; [econstructor; eassumption|assumption].
Qed.

(** The prefix part. *)
Lemma lookup_spec : forall es n t, NoDup (map fst es) -> (lookup es n = Some t <-> In (n, t) es).
Proof.
  induction es as [|[m t1] es IH]; intros n t Hnd; cbn.
  - split; [discriminate|contradiction].
  - inversion Hnd; subst. destruct (bytes_eqb m n) eqn:E.
    + apply bytes_eqb_eq in E. subst. split.
      * intro H. injection H as ->. auto.
      * intros [H|H]; [congruence|]. exfalso. apply H1. apply (in_map fst) in H. assumption.
    + rewrite IH by assumption. split; [auto|]. intros [H|H]; [|assumption].
      injection H as -> ->. assert (bytes_eqb n n = true) by (apply bytes_eqb_eq; reflexivity). congruence.
Qed.

Lemma walk_spec : forall p t t', uniq t -> (walk t p = Some t' <-> at_path t p t').
Proof.
  induction p as [|n p IH]; intros t t' Hu; cbn.
  - split; intro H; [injection H as ->; constructor|inversion H; subst; reflexivity].
  - destruct t as [|es|].
    + split; intro H; [discriminate|inversion H].
    + inversion Hu; subst. destruct (lookup es n) as [t1|] eqn:E.
      * apply lookup_spec in E; [|assumption]. rewrite IH by eauto. split; intro H.
        -- econstructor; eassumption.
        -- inversion H; subst.
           assert (Et : Some t = Some t1).
           { rewrite <- (proj2 (lookup_spec es n t1 H0) E). symmetry. apply lookup_spec; assumption. }
           injection Et as ->. assumption.
      * split; [discriminate|]. intro H. inversion H; subst.
        match goal with Hn : In (n, t) es |- _ => apply lookup_spec in Hn; [congruence|assumption] end.
    + split; intro H; [discriminate|inversion H].
Qed.

Lemma split_prefix_spec : forall segs prefix rest, split_prefix segs = (prefix, rest) ->
  segs = prefix ++ rest /\ Forall (fun g => is_fixed g = true) prefix.
Proof.
  induction segs as [|s segs IH]; intros prefix rest E; cbn in E.
  - injection E as <- <-. split; [reflexivity|constructor].
  - destruct (is_fixed s) eqn:Ef.
    + destruct (split_prefix segs) as [p r]. injection E as <- <-.
      destruct (IH p r eq_refl) as [-> H]. split; [reflexivity|constructor; assumption].
    + injection E as <- <-. split; [reflexivity|constructor].
Qed.

Lemma path_glob_prefix : forall prefix rest p, Forall (fun g => is_fixed g = true) prefix ->
  (path_glob (prefix ++ rest) p <-> exists q, p = prefix ++ q /\ path_glob rest q).
Proof.
  induction prefix as [|g prefix IH]; intros rest p H; cbn [app].
  - split; [intro Hp; exists p; auto|intros (q & -> & Hq); assumption].
  - inversion H; subst. assert (Hns : g <> starstar) by (intros ->; discriminate).
    split.
    + intro Hp. inversion Hp; subst; try congruence.
      match goal with Hp : path_glob (prefix ++ rest) _ |- _ => apply IH in Hp; [|assumption]; destruct Hp as (q & -> & Hq) end.
      match goal with Hm : gmatch g _ |- _ => apply fixed_gmatch in Hm; [|assumption] end. subst. exists q. auto.
    + intros (q & -> & Hq). apply pg_seg; [assumption|apply fixed_gmatch; [assumption|reflexivity]|].
      apply IH; [assumption|]. exists q. auto.
Qed.

Lemma starstar_end_any : forall p, path_glob [starstar] p <-> path_glob [starstar; [STAR]] p.
Proof.
  assert (Hany : forall n, gmatch [STAR] n).
  { intro n. rewrite <- (app_nil_r n). apply gm_star_suffix. constructor. constructor. }
  intro p. split; intro H.
  - remember [starstar] as G. induction H; inversion HeqG; subst.
    + congruence.
    + apply pg_none; [discriminate|]. apply pg_seg; [discriminate|auto|constructor].
    + congruence.
    + apply pg_some. auto.
  - remember [starstar; [STAR]] as G. induction H; inversion HeqG; subst.
    + congruence.
    + inversion H0; subst; try discriminate. match goal with Hp : path_glob [] _ |- _ => inversion Hp; subst end. apply pg_end.
    + apply pg_some. auto.
Qed.

Lemma add_any_file_glob : forall gs p, path_glob (add_any_file gs) p <-> path_glob gs p.
Proof.
  intros gs. unfold add_any_file. destruct (rev gs) as [|g r] eqn:E; [tauto|].
  destruct (bytes_eqb g starstar) eqn:Eg; [|tauto]. apply bytes_eqb_eq in Eg. subst g.
  apply (f_equal (@rev _)) in E. rewrite rev_involutive in E. cbn in E. subst gs.
  rewrite <- app_assoc. cbn [app]. generalize (rev r). intro a.
  induction a as [|g a IH]; intro p; cbn [app].
  - symmetry. apply starstar_end_any.
  - assert (Hn1 : a ++ [starstar; [STAR]] <> []) by (destruct a; discriminate).
    assert (Hn2 : a ++ [starstar] <> []) by (destruct a; discriminate).
    assert (D : g = starstar \/ g <> starstar) by (destruct (list_eq_dec Z.eq_dec g starstar); auto).
    destruct D as [->|Hg].
    + split; intro H; (apply path_glob_starstar_inv in H; [|assumption]);
        destruct H as (d & q & -> & H); apply path_glob_starstar; try assumption; apply IH; assumption.
    + split; intro H; inversion H; subst; try congruence; (apply pg_seg; [assumption..|apply IH; assumption]).
Qed.

Lemma add_any_file_ends : forall gs, gs <> [] -> ends_ok (add_any_file gs).
Proof.
  intros gs Hne. unfold add_any_file. destruct (rev gs) as [|g r] eqn:E.
  - apply (f_equal (@rev _)) in E. rewrite rev_involutive in E. cbn in E. congruence.
  - apply (f_equal (@rev _)) in E. rewrite rev_involutive in E. cbn in E.
    destruct (bytes_eqb g starstar) eqn:Eg.
    + exists gs, [STAR]. split; [reflexivity|discriminate].
    + exists (rev r), g. split; [assumption|]. intros ->. discriminate.
Qed.

Lemma add_any_file_in : forall gs g, In g (add_any_file gs) -> In QUEST g -> In g gs.
Proof.
  intros gs g H Hq. unfold add_any_file in H. destruct (rev gs); [assumption|]. destruct (bytes_eqb l starstar); [|assumption].
  apply in_app_or in H. destruct H as [H|[<-|[]]]; [assumption|]. cbn in Hq. destruct Hq as [Hq|[]]. discriminate.
Qed.

(** ** C47 *)
Theorem C47_path_glob : forall segs root p,
  uniq root -> names_ok segs root ->
  (In p (all_matching segs root) <-> at_path root p File /\ path_glob segs p).
Proof.
  intros segs root p Hu Hok. unfold all_matching.
  destruct (split_prefix segs) as [prefix rest] eqn:E. apply split_prefix_spec in E. destruct E as [-> Hfix].
  rewrite (path_glob_prefix prefix rest p Hfix).
  destruct (walk root prefix) as [t|] eqn:Ew.
  - apply walk_spec in Ew; [|assumption].
    assert (Hdet : forall q t2, at_path root (prefix ++ q) t2 -> at_path t q t2).
    { intros q t2 H. apply at_path_app_inv in H. destruct H as (t1 & H1 & H2).
      apply walk_spec in H1; [|assumption]. apply walk_spec in Ew; [|assumption]. congruence. }
    destruct rest as [|g rest'] eqn:Er.
    + cbn. split.
      * destruct t; cbn; intro H; try contradiction. destruct H as [<-|[]]. split; [assumption|].
        exists []. split; [rewrite app_nil_r; reflexivity|constructor].
      * intros (H & q & -> & Hq). inversion Hq; subst. apply Hdet in H. inversion H; subst. left.
        rewrite app_nil_r. reflexivity.
    + rewrite <- Er in *. assert (Hne : rest <> []) by (rewrite Er; discriminate).
      pose proof (add_any_file_ends rest Hne) as He.
      destruct (add_any_file rest) as [|g1 gs1] eqn:Ea.
      { destruct He as (a & ? & H & _). destruct a; discriminate. }
      rewrite <- Ea in *.
      assert (Hok' : names_ok (add_any_file rest) t).
      { eapply names_ok_sub; [apply Hok| |apply Ew]. intros x Hx Hq. apply in_or_app. right.
        apply add_any_file_in; assumption. }
      split.
      * intro H. destruct t as [|es|]; try contradiction. apply find_files_spec in H; [|assumption|assumption].
        destruct H as (q & -> & H1 & H2). split; [eapply at_path_app; eassumption|]. exists q. split; [reflexivity|].
        apply add_any_file_glob. assumption.
      * intros (H & q & -> & Hq). apply Hdet in H. pose proof (path_glob_nonempty _ _ Hq Hne) as Hqne.
        destruct q as [|n q]; [congruence|]. inversion H; subst.
        apply find_files_spec; [assumption..|]. eexists. split; [reflexivity|]. split; [assumption|].
        apply add_any_file_glob. assumption.
  - split; [contradiction|]. intros (H & q & -> & Hq). apply at_path_app_inv in H. destruct H as (t1 & H1 & _).
    apply walk_spec in H1; [|assumption]. congruence.
Qed.
Print Assumptions C47_path_glob.

(** src/**/t?.c finds src/t1.c and src/a/b/t2.c but not src/a/x.c. *)
Example C47_witness :
  let n_src := [115; 114; 99] in
  let t1 := [116; 49; 46; 99] in let t2 := [116; 50; 46; 99] in let x := [120; 46; 99] in
  let root := Dir [(n_src, Dir [(t1, File); ([97], Dir [(x, File); ([98], Dir [(t2, File)])])])] in
  all_matching [n_src; starstar; [116; 63; 46; 99]] root = [[n_src; t1]; [n_src; [97]; [98]; t2]].
Proof. reflexivity. Qed.

(** Lemmas on looking up many words at once. *)
From Coq Require Import List ZArith Bool Sorted Permutation Lia PeanoNat.
From Verif Require Import M_Fsa L_Fsa M_BinFsa M_HashFsa M_Minfsa M_Dag M_SimpleDag S_SimpleDag L_SimpleDag L_SimpleDet M_MultiHash.
Import ListNotations.
Local Open Scope nat_scope.

Definition rising (l : list warc) : Prop := StronglySorted (fun x y => (x_sym x < x_sym y)%Z) l.
Lemma common_nil r2 : common [] r2 = [].
Proof. now destruct r2. Qed.
Lemma common_cons x r1 y r2 : common (x :: r1) (y :: r2) =
  if (x_sym x =? x_sym y)%Z then (x, y) :: common r1 r2
  else if (x_sym x <? x_sym y)%Z then common r1 (y :: r2) else common (x :: r1) r2.
Proof. reflexivity. Qed.
Lemma common_sound r1 : forall r2 x y, In (x, y) (common r1 r2) -> In x r1 /\ In y r2 /\ x_sym x = x_sym y.
Proof.
  induction r1 as [|x r1 IH]; intros r2 a b H; [rewrite common_nil in H; destruct H|].
  induction r2 as [|y r2 IH2]; [destruct H|]. rewrite common_cons in H. destruct (Z.eqb_spec (x_sym x) (x_sym y)) as [E|E].
  - destruct H as [H|H]; [inversion H; subst; repeat split; try (now left); assumption|]. apply IH in H as (H1 & H2 & H3). repeat split; try (now right); assumption.
  - destruct (x_sym x <? x_sym y)%Z.
    + apply IH in H as (H1 & H2 & H3). split; [now right|now split].
    + apply IH2 in H as (H1 & H2 & H3). split; [assumption|]. split; [now right|assumption].
Qed.
Lemma common_complete r1 : forall r2 x y, rising r1 -> rising r2 -> In x r1 -> In y r2 -> x_sym x = x_sym y -> In (x, y) (common r1 r2).
Proof.
  induction r1 as [|x r1 IH]; intros r2 a b S1 S2 Ha Hb E; [destruct Ha|]. pose proof (StronglySorted_inv S1) as [S1' F1]. rewrite Forall_forall in F1.
  induction r2 as [|y r2 IH2]; [destruct Hb|]. pose proof (StronglySorted_inv S2) as [S2' F2]. rewrite Forall_forall in F2. rewrite common_cons.
  destruct (Z.eqb_spec (x_sym x) (x_sym y)) as [Exy|Exy].
  - destruct Ha as [<-|Ha], Hb as [<-|Hb]; [now left| | |right; now apply IH].
    + apply F2 in Hb. lia.
    + apply F1 in Ha. lia.
  - destruct (Z.ltb_spec (x_sym x) (x_sym y)) as [L|L].
    + destruct Ha as [<-|Ha]; [|now apply IH]. destruct Hb as [<-|Hb]; [lia|]. apply F2 in Hb. lia.
    + destruct Hb as [<-|Hb]; [|now apply IH2]. destruct Ha as [<-|Ha]; [lia|]. apply F1 in Ha. lia.
Qed.
Lemma common_rising r1 : forall r2, rising r1 -> rising (map fst (common r1 r2)).
Proof.
  induction r1 as [|x r1 IH]; intros r2 S1; [rewrite common_nil; constructor|]. pose proof (StronglySorted_inv S1) as [S1' F1]. rewrite Forall_forall in F1.
  induction r2 as [|y r2 IH2]; [constructor|]. rewrite common_cons. destruct (x_sym x =? x_sym y)%Z.
  - cbn [map fst]. constructor; [now apply IH|]. apply Forall_forall. intros z Hz. apply in_map_iff in Hz as ([a b] & <- & Hz). apply common_sound in Hz as [Hz _]. now apply F1.
  - destruct (x_sym x <? x_sym y)%Z; [now apply IH|exact IH2].
Qed.
Lemma pair_eqb_spec s t : pair_eqb s t = true <-> s = t.
Proof. destruct s, t. unfold pair_eqb. cbn. rewrite andb_true_iff, !Nat.eqb_eq. split; [intros [-> ->]; reflexivity|now intros [= -> ->]]. Qed.
Lemma place_some t keys i : place_of t keys = Some i -> nth_error keys i = Some t.
Proof.
  revert i. induction keys as [|k keys IH]; intros i; cbn; [discriminate|]. destruct (pair_eqb t k) eqn:E; [apply pair_eqb_spec in E; intros [= <-]; now subst|].
  destruct (place_of t keys); [|discriminate]. intros [= <-]. now apply IH.
Qed.
Lemma place_none t keys : place_of t keys = None -> ~ In t keys.
Proof.
  induction keys as [|k keys IH]; cbn; [easy|]. destruct (pair_eqb t k) eqn:E; [discriminate|]. destruct (place_of t keys); [discriminate|]. intros _ [->|H]; [|now apply IH].
  assert (pair_eqb t t = true) by now apply pair_eqb_spec. congruence.
Qed.
Lemma nodup_nth {X} (l : list X) i j x : NoDup l -> nth_error l i = Some x -> nth_error l j = Some x -> i = j.
Proof. intros N H1 H2. apply (NoDup_nth_error l); [assumption|apply nth_error_Some; congruence|congruence]. Qed.
Lemma place_at t keys i : NoDup keys -> nth_error keys i = Some t -> place_of t keys = Some i.
Proof.
  intros N H. destruct (place_of t keys) as [j|] eqn:E.
  - apply place_some in E. f_equal. now apply (nodup_nth keys j i t).
  - apply place_none in E. elim E. now apply nth_error_In in H.
Qed.

Lemma NoDup_app_sep {X} (l k : list X) : NoDup l -> NoDup k -> (forall x, In x l -> In x k -> False) -> NoDup (l ++ k).
Proof.
  induction 1 as [|x l N H IH]; intros Nk D; [assumption|]. cbn. constructor.
  - intros K. apply in_app_iff in K as [K|K]; [contradiction|]. apply (D x); [now left|assumption].
  - apply IH; [assumption|]. intros z Hz. apply D. now right.
Qed.
Section Multi.
Context (g : dag) (d : sdag) (ok : nat -> Prop) (ok0 : ok 0).
Context (okr : forall p, ok p -> rising (g_arcs_at g p) /\ forall x, In x (g_arcs_at g p) -> ok (x_dest x) /\ (0 <= x_sym x < 2 ^ 31)%Z).
Context (dr : forall q, rising (s_row d q)).
(** A word that leads to a pair of states, with what the index adds up on it. *)
Inductive way : list Z -> nat * nat -> Z -> Prop :=
  | way_nil : way [] (0, 0) 0
  | way_on w p q i x y : way w (p, q) i -> In x (g_arcs_at g p) -> In y (s_row d q) -> x_sym x = x_sym y ->
      way (fst (grow g x (w, i))) (x_dest x, x_dest y) (snd (grow g x (w, i))).
Lemma way_ok w k i : way w k i -> ok (fst k).
Proof. induction 1 as [|w p q i x y H IH Hx Hy E]; [assumption|]. now apply (okr p IH). Qed.
Lemma s32_sym a : (0 <= a < 2 ^ 31)%Z -> s32 a = a.
Proof. intros H. unfold s32. rewrite Z.mod_small by lia. cbv zeta. destruct (Z.ltb_spec a (2 ^ 31)); [reflexivity|lia]. Qed.
Lemma row_once l x y : rising l -> In x l -> In y l -> x_sym x = x_sym y -> x = y.
Proof.
  induction 1 as [|z l H IH F]; [intros []|]. rewrite Forall_forall in F.
  intros [<-|Hx] [<-|Hy] E; [reflexivity|apply F in Hy; lia|apply F in Hx; lia|now apply IH].
Qed.
Lemma way_once w k i : way w k i -> forall k' i', way w k' i' -> k = k' /\ i = i'.
Proof.
  induction 1 as [|w p q i x y H IH Hx Hy E]; intros k' i' K.
  - inversion K as [|w p q i x y ? ? ? ? Ew]; [now split|]. cbn in Ew. now destruct w.
  - remember (fst (grow g x (w, i))) as u eqn:Eu. destruct K as [|w' p' q' i' x' y' K Hx' Hy' E']; [cbn in Eu; now destruct w|].
    cbn in Eu. apply app_inj_tail in Eu as [-> Es]. destruct (IH _ _ K) as [E1 ->]. inversion E1; subst.
    pose proof (way_ok _ _ _ H) as O. destruct (okr p' O) as [R1 R2].
    destruct (R2 _ Hx) as [_ B]. destruct (R2 _ Hx') as [_ B']. rewrite !s32_sym in Es by assumption.
    rewrite (row_once _ _ _ R1 Hx Hx' (eq_sym Es)). rewrite (row_once _ y y' (dr q') Hy Hy') by congruence. now split.
Qed.
Definition words_at (h : multi) (e : nat) : list (list Z * Z) := nth e (h_sl h) [].
(** [Pr c x y]: the arcs x and y from the pair of number c have been gone through. *)
Record inv (Pr : nat -> warc -> warc -> Prop) (h : multi) : Prop := Inv {
  in_nodup : NoDup (h_keys h);
  in_len : length (h_sl h) = length (h_keys h);
  in_first : nth_error (h_keys h) 0 = Some (0, 0);
  in_met : forall k, In k (h_keys h) -> exists w i, way w k i;
  in_words : forall e k w i, nth_error (h_keys h) e = Some k -> In (w, i) (words_at h e) -> way w k i;
  in_once : forall e, NoDup (map fst (words_at h e));
  in_from : forall e w i, In (w, i) (words_at h e) -> w = [] \/
    exists c x y u j k, Pr c x y /\ nth_error (h_keys h) c = Some k /\ way u k j /\ (w, i) = grow g x (u, j) /\ In x (g_arcs_at g (fst k));
  in_to : forall c x y, Pr c x y -> In (x_dest x, x_dest y) (h_keys h) }.
Lemma meet_inv Pr h t : inv Pr h -> (exists w i, way w t i) ->
  inv Pr (meet t h) /\ (exists e, place_of t (h_keys (meet t h)) = Some e /\ nth_error (h_keys (meet t h)) e = Some t) /\
  (forall e k, nth_error (h_keys h) e = Some k -> nth_error (h_keys (meet t h)) e = Some k) /\
  (forall e, words_at (meet t h) e = words_at h e) /\
  (forall k, In k (h_keys (meet t h)) -> In k (h_keys h) \/ k = t) /\
  (exists l, h_keys (meet t h) = h_keys h ++ l /\ h_queue (meet t h) = h_queue h ++ l /\ (l = [] \/ l = [t])).
Proof.
  intros I M. unfold meet. destruct (place_of t (h_keys h)) as [e|] eqn:E.
  - split; [assumption|]. split; [exists e; split; [assumption|now apply place_some]|]. split; [easy|]. split; [easy|]. split; [now left|].
    exists []. rewrite !app_nil_r. split; [reflexivity|]. split; [reflexivity|now left].
  - destruct I as [I1 I2 I3 I4 I5 I6 I7 I8]. apply place_none in E.
    assert (N : NoDup (h_keys h ++ [t])) by (apply (Permutation_NoDup (Permutation_cons_append (h_keys h) t)); now constructor).
    assert (W : forall e, words_at (Multi (h_queue h ++ [t]) (h_keys h ++ [t]) (h_sl h ++ [[]])) e = words_at h e).
    { intros e. unfold words_at. cbn [h_sl]. destruct (Nat.lt_ge_cases e (length (h_sl h))) as [L|L]; [now rewrite app_nth1|].
      rewrite app_nth2, (nth_overflow (h_sl h)) by assumption. now destruct (e - length (h_sl h)) as [|[|]]. }
    assert (Keep : forall e k, nth_error (h_keys h) e = Some k -> nth_error (h_keys h ++ [t]) e = Some k).
    { intros e k H. rewrite nth_error_app1; [assumption|]. apply nth_error_Some. congruence. }
    assert (Last : nth_error (h_keys h ++ [t]) (length (h_keys h)) = Some t) by (rewrite nth_error_app2, Nat.sub_diag by lia; reflexivity).
    split; [|split; [exists (length (h_keys h)); cbn [h_keys]; split; [now apply place_at|assumption]|]].
    + constructor; cbn [h_keys h_sl].
      * assumption.
      * rewrite !app_length, I2. reflexivity.
      * now apply Keep.
      * intros k H. apply in_app_iff in H as [H|[<-|[]]]; [now apply I4|assumption].
      * intros e k w i He Hw. rewrite W in Hw. destruct (Nat.lt_ge_cases e (length (h_keys h))) as [L|L].
        -- rewrite nth_error_app1 in He by assumption. now apply (I5 e).
        -- unfold words_at in Hw. rewrite nth_overflow in Hw by lia. destruct Hw.
      * intros e. rewrite W. apply I6.
      * intros e w i H. rewrite W in H. destruct (I7 e w i H) as [->|(c & x & y & u & j & k & H1 & H2 & H3)]; [now left|right].
        exists c, x, y, u, j, k. split; [assumption|]. split; [now apply Keep|assumption].
      * intros c x y H. apply in_app_iff. left. now apply (I8 c).
    + split; [exact Keep|]. split; [exact W|]. split; [intros k H; apply in_app_iff in H as [H|[<-|[]]]; auto|].
      exists [t]. split; [reflexivity|]. split; [reflexivity|now right].
Qed.
Definition also (Pr : nat -> warc -> warc -> Prop) (c : nat) (x y : warc) : nat -> warc -> warc -> Prop :=
  fun c' x' y' => Pr c' x' y' \/ (c' = c /\ x' = x /\ y' = y).
Section Pass.
Context (Pr : nat -> warc -> warc -> Prop) (h : multi) (c : nat) (x y : warc) (k : nat * nat).
Context (I : inv Pr h) (Hc : nth_error (h_keys h) c = Some k) (Hx : In x (g_arcs_at g (fst k))) (Hy : In y (s_row d (snd k))) (E : x_sym x = x_sym y).
Context (Fresh : forall x' y', Pr c x' y' -> x_sym x' <> x_sym x).
Notation t := (x_dest x, x_dest y).
Lemma pass_met : exists w i, way w t i.
Proof.
  destruct (in_met _ _ I k) as (w & i & H); [now apply nth_error_In in Hc|]. destruct k as [p q]. do 2 eexists. eapply way_on; eassumption.
Qed.
Lemma pass_spec : inv (also Pr c x y) (pass g c h (x, y)) /\
  (exists e, nth_error (h_keys (pass g c h (x, y))) e = Some t /\
     forall e', words_at (pass g c h (x, y)) e' = if e' =? e then words_at h e ++ map (grow g x) (words_at h c) else words_at h e') /\
  (forall e k, nth_error (h_keys h) e = Some k -> nth_error (h_keys (pass g c h (x, y))) e = Some k) /\
  (exists l, h_keys (pass g c h (x, y)) = h_keys h ++ l /\ h_queue (pass g c h (x, y)) = h_queue h ++ l /\ (l = [] \/ l = [t])).
Proof.
  destruct (meet_inv Pr h t I pass_met) as (I' & (e & E1 & E2) & Keep & W & _ & Grow).
  unfold pass. cbn [fst snd]. rewrite E1. set (h1 := meet t h) in *.
  assert (Le : e < length (h_sl h1)) by (rewrite (in_len _ _ I'); apply nth_error_Some; congruence).
  assert (W' : forall e', nth e' (update e (fun l => l ++ map (grow g x) (nth c (h_sl h1) [])) (h_sl h1)) [] =
    if e' =? e then words_at h e ++ map (grow g x) (words_at h c) else words_at h e').
  { intros e'. rewrite update_nth by assumption. destruct (Nat.eqb_spec e' e) as [->|]; [|apply W]. now rewrite <- !W. }
  split; [|split; [exists e; split; [exact E2|exact W']|split; [exact Keep|exact Grow]]].
  assert (New : forall w i, In (w, i) (map (grow g x) (words_at h c)) -> exists u j, In (u, j) (words_at h c) /\ (w, i) = grow g x (u, j) /\ way u k j).
  { intros w i H. apply in_map_iff in H as ([u j] & Eg & H). exists u, j. split; [assumption|]. split; [now symmetry|]. now apply (in_words _ _ I c). }
  pose proof I' as [I1 I2 I3 I4 I5 I6 I7 I8].
  constructor; cbn [h_keys h_sl]; try assumption.
  - now rewrite update_length.
  - intros e' k' w i He Hw. unfold words_at in Hw. cbn [h_sl] in Hw. rewrite W' in Hw. destruct (Nat.eqb_spec e' e) as [->|]; [|rewrite <- W in Hw; now apply (I5 e')].
    apply in_app_iff in Hw as [Hw|Hw]; [rewrite <- W in Hw; now apply (I5 e)|]. apply New in Hw as (u & j & Hu & Eg & Hw).
    assert (k' = t) as -> by congruence. destruct k as [p q]. pose proof (way_on u p q j x y Hw Hx Hy E) as K. rewrite <- Eg in K. exact K.
  - intros e'. unfold words_at. cbn [h_sl]. rewrite W'. destruct (Nat.eqb_spec e' e) as [->|]; [|rewrite <- W; apply I6].
    rewrite map_app. apply NoDup_app_sep.
    + rewrite <- W. apply I6.
    + rewrite map_map. cbn [grow fst]. rewrite <- (map_map fst (fun u => u ++ [s32 (x_sym x)])). apply FinFun.Injective_map_NoDup; [|rewrite <- W; apply I6].
      intros u v H. now apply app_inj_tail in H.
    + intros v H1 H2. apply in_map_iff in H1 as ([w i] & <- & H1). cbn [fst] in H2. apply in_map_iff in H2 as ([w' i'] & Ew & H2). cbn [fst] in Ew. subst w'.
      apply New in H2 as (u & j & Hu & Eg & Hw). rewrite <- W in H1. destruct (I7 e w i H1) as [->|(c1 & x1 & y1 & u1 & j1 & k1 & P1 & K1 & Y1 & G1 & X1)].
      * unfold grow in Eg. cbn in Eg. injection Eg as Eg _. now destruct u.
      * unfold grow in Eg, G1. cbn [fst snd] in Eg, G1. injection Eg as Eg _. injection G1 as G1 _. rewrite Eg in G1. apply app_inj_tail in G1 as [-> Es].
        destruct (way_once _ _ _ Y1 _ _ Hw) as [-> _]. assert (c1 = c) as ->.
        { apply (nodup_nth (h_keys h1) c1 c k); [assumption|assumption|now apply Keep]. }
        apply (Fresh x1 y1 P1). pose proof (way_ok _ _ _ Hw) as O. destruct (okr _ O) as [_ R]. rewrite !s32_sym in Es by (now apply R). now symmetry.
  - intros e' w i H. unfold words_at in H. cbn [h_sl] in H. rewrite W' in H.
    assert (Old : forall e', In (w, i) (words_at h e') -> w = [] \/ exists c0 x0 y0 u j k0, also Pr c x y c0 x0 y0 /\ nth_error (h_keys h1) c0 = Some k0 /\ way u k0 j /\ (w, i) = grow g x0 (u, j) /\ In x0 (g_arcs_at g (fst k0))).
    { intros e0 H0. rewrite <- W in H0. destruct (I7 e0 w i H0) as [->|(c1 & x1 & y1 & u1 & j1 & k1 & P1 & R)]; [now left|right].
      exists c1, x1, y1, u1, j1, k1. split; [now left|assumption]. }
    destruct (Nat.eqb_spec e' e) as [->|]; [|now apply (Old e')]. apply in_app_iff in H as [H|H]; [now apply (Old e)|].
    apply New in H as (u & j & Hu & Eg & Hw). right. exists c, x, y, u, j, k. split; [now right|]. split; [now apply Keep|]. now repeat split.
  - intros c' x' y' [H|(-> & -> & ->)]; [now apply (I8 c')|]. now apply nth_error_In in E2.
Qed.
(** When all words to a pair have one length, words arrive before they are needed. *)
Definition levelled : Prop := forall w w' k i i', way w k i -> way w' k i' -> length w = length w'.
Record full (Pr : nat -> warc -> warc -> Prop) (c : nat) (h : multi) : Prop := Full {
  fu_sorted : forall e e' k k' w w' i i', e <= e' -> nth_error (h_keys h) e = Some k -> nth_error (h_keys h) e' = Some k' -> way w k i -> way w' k' i' -> length w <= length w';
  fu_near : forall e k k' w w' i i', nth_error (h_keys h) c = Some k -> nth_error (h_keys h) e = Some k' -> way w k i -> way w' k' i' -> length w' <= S (length w);
  fu_start : In ([], 0%Z) (words_at h 0);
  fu_sent : forall c' x y e, Pr c' x y -> nth_error (h_keys h) e = Some (x_dest x, x_dest y) -> forall u j, In (u, j) (words_at h c') -> In (grow g x (u, j)) (words_at h e);
  fu_past : forall c' x y, Pr c' x y -> c' <= c }.
Lemma pass_full : levelled -> full Pr c h -> full (also Pr c x y) c (pass g c h (x, y)).
Proof.
  intros Lev [F1 F2 F3 F4 F5]. destruct pass_spec as (I' & (e & He & W) & Keep & (l & Ek & _ & El)). set (h' := pass g c h (x, y)) in *.
  destruct (in_met _ _ I k) as (w0 & i0 & Y0); [now apply nth_error_In in Hc|].
  assert (Yt : way (fst (grow g x (w0, i0))) t (snd (grow g x (w0, i0)))) by (destruct k as [p q]; eapply way_on; eassumption).
  assert (Lt : forall w i, way w t i -> length w = S (length w0)).
  { intros w i H. rewrite (Lev _ _ _ _ _ H Yt). cbn. rewrite app_length. cbn. lia. }
  assert (Lc : forall w i, way w k i -> length w = length w0) by (intros w i H; now rewrite (Lev _ _ _ _ _ H Y0)).
  assert (Old : forall e' k', nth_error (h_keys h') e' = Some k' -> nth_error (h_keys h) e' = Some k' \/ (k' = t /\ length (h_keys h) <= e')).
  { intros e' k' H. rewrite Ek in H. destruct (Nat.lt_ge_cases e' (length (h_keys h))) as [L|L]; [left; now rewrite nth_error_app1 in H|right].
    split; [|assumption]. rewrite nth_error_app2 in H by assumption. destruct El as [->| ->]; [now destruct (e' - length (h_keys h))|].
    destruct (e' - length (h_keys h)) as [|[|]]; cbn in H; congruence. }
  assert (Nc : forall c', c' <= c -> c' <> e).
  { intros c' L ->. assert (Hk : exists k', nth_error (h_keys h) e = Some k').
    { assert (Lc' : c < length (h_keys h)) by (apply nth_error_Some; congruence). destruct (nth_error (h_keys h) e) as [k'|] eqn:En; [now exists k'|]. apply nth_error_None in En. lia. }
    destruct Hk as (k' & Hk). apply Keep in Hk as Hk'. assert (k' = t) as -> by congruence.
    pose proof (F1 e c t k _ _ _ _ L Hk Hc Yt Y0) as B. cbn in B. rewrite app_length in B. cbn in B. lia. }
  assert (Below : forall e' k' w i, nth_error (h_keys h) e' = Some k' -> way w k' i -> length w <= S (length w0)) by (intros e' k' w i Hk Hw; now apply (F2 e' k k' w0 w i0 i)).
  constructor.
  - intros a b ka kb w w' i i' L Ha Hb Ya Yb. destruct (Old a ka Ha) as [Ha'|[-> La]], (Old b kb Hb) as [Hb'|[-> Lb]].
    + now apply (F1 a b ka kb w w' i i').
    + rewrite (Lt _ _ Yb). now apply (Below a ka w i).
    + assert (b < length (h_keys h)) by (apply nth_error_Some; congruence). lia.
    + rewrite (Lt _ _ Ya), (Lt _ _ Yb). lia.
  - intros b ka kb w w' i i' Ha Hb Ya Yb. assert (ka = k) as -> by (apply Keep in Hc; congruence). rewrite (Lc _ _ Ya).
    destruct (Old b kb Hb) as [Hb'|[-> Lb]]; [now apply (Below b kb w' i')|]. now rewrite (Lt _ _ Yb).
  - rewrite W. destruct (Nat.eqb_spec 0 e) as [<-|]; [|assumption]. apply in_app_iff. now left.
  - intros c' x' y' e' P He' u j Hu.
    assert (Lc' : c' <= c) by (destruct P as [P|(-> & _)]; [now apply (F5 c' x' y')|lia]).
    rewrite W in Hu. destruct (Nat.eqb_spec c' e) as [Ece|_]; [elim (Nc c' Lc' Ece)|].
    rewrite W. destruct P as [P|(-> & -> & ->)].
    + assert (Hin : In (grow g x' (u, j)) (words_at h e')).
      { apply (F4 c' x' y' e' P); [|assumption]. destruct (Old _ _ He') as [H|[_ L]]; [assumption|].
        pose proof (in_to _ _ I c' x' y' P) as K. apply In_nth_error in K as (e2 & K). apply Keep in K as K'.
        assert (e' = e2) as -> by (apply (nodup_nth _ e' e2 _ (in_nodup _ _ I') He' K')). assumption. }
      destruct (Nat.eqb_spec e' e) as [->|]; [apply in_app_iff; now left|assumption].
    + assert (e' = e) as -> by (apply (nodup_nth _ e' e _ (in_nodup _ _ I') He' He)). rewrite Nat.eqb_refl. apply in_app_iff. right. now apply in_map.
  - intros c' x' y' [P|(-> & _)]; [now apply (F5 c' x' y')|lia].
Qed.
End Pass.
Lemma inv_ext (Pr Pr' : nat -> warc -> warc -> Prop) h : (forall c x y, Pr c x y <-> Pr' c x y) -> inv Pr h -> inv Pr' h.
Proof.
  intros H [I1 I2 I3 I4 I5 I6 I7 I8]. constructor; try assumption.
  - intros e w i K. destruct (I7 e w i K) as [->|(c & x & y & u & j & k & P & R)]; [now left|right]. exists c, x, y, u, j, k. split; [now apply H|assumption].
  - intros c x y P. apply (I8 c). now apply H.
Qed.
Lemma full_ext (Pr Pr' : nat -> warc -> warc -> Prop) c h : (forall c x y, Pr c x y <-> Pr' c x y) -> full Pr c h -> full Pr' c h.
Proof.
  intros H [F1 F2 F3 F4 F5]. constructor; try assumption.
  - intros c' x y e P. apply F4 with (y := y). now apply H.
  - intros c' x y P. apply (F5 c' x y). now apply H.
Qed.
Lemma passes c k : forall l Pr h, inv Pr h -> nth_error (h_keys h) c = Some k ->
  (forall x y, In (x, y) l -> In x (g_arcs_at g (fst k)) /\ In y (s_row d (snd k)) /\ x_sym x = x_sym y) ->
  rising (map fst l) -> (forall x' y' z, Pr c x' y' -> In z l -> (x_sym x' < x_sym (fst z))%Z) ->
  let h' := fold_left (pass g c) l h in
  inv (fun c' x y => Pr c' x y \/ (c' = c /\ In (x, y) l)) h' /\
  (exists m, h_keys h' = h_keys h ++ m /\ h_queue h' = h_queue h ++ m) /\
  (levelled -> full Pr c h -> full (fun c' x y => Pr c' x y \/ (c' = c /\ In (x, y) l)) c h').
Proof.
  induction l as [|[x y] l IH]; intros Pr h I Hc Hl R Fr; cbn [fold_left].
  - split; [|split; [exists []; now rewrite !app_nil_r|intros _]].
    + eapply inv_ext; [|exact I]. intros c' x' y'. split; [now left|]. intros [H|[_ []]]. assumption.
    + apply full_ext. intros c' x' y'. split; [now left|]. intros [H|[_ []]]. assumption.
  - destruct (Hl x y (or_introl eq_refl)) as (Hx & Hy & E).
    assert (Fresh : forall x' y', Pr c x' y' -> x_sym x' <> x_sym x) by (intros x' y' P; specialize (Fr x' y' (x, y) P (or_introl eq_refl)); cbn in Fr; lia).
    destruct (pass_spec Pr h c x y k I Hc Hx Hy E Fresh) as (I' & _ & Keep & (m1 & M1 & M2 & _)).
    cbn [map fst] in R. apply StronglySorted_inv in R as [R F]. rewrite Forall_forall in F.
    destruct (IH (also Pr c x y) (pass g c h (x, y)) I' (Keep _ _ Hc)) as (J1 & (m2 & J2 & J3) & J4).
    + intros x' y' H. apply Hl. now right.
    + assumption.
    + intros x' y' z [P|(_ & -> & ->)] Hz; [apply (Fr x' y' z P); now right|]. apply F. now apply in_map.
    + assert (Ext : forall c' x' y', also Pr c x y c' x' y' \/ (c' = c /\ In (x', y') l) <-> Pr c' x' y' \/ (c' = c /\ In (x', y') ((x, y) :: l))).
      { intros c' x' y'. unfold also. cbn [In]. split.
        - intros [[H|(-> & -> & ->)]|(-> & H)]; [now left|right; split; [reflexivity|now left]|right; split; [reflexivity|now right]].
        - intros [H|(-> & [[= <- <-]|H])]; [left; now left|left; now right|right; now split]. }
      split; [now apply (inv_ext _ _ _ Ext)|]. split.
      * exists (m1 ++ m2). now rewrite J2, J3, M1, M2, !app_assoc.
      * intros Lev Fu. apply (full_ext _ _ _ _ Ext). apply J4; [assumption|]. now apply pass_full with (k := k).
Qed.
(** The arcs from the first [c] pairs. *)
Definition gone (keys : list (nat * nat)) (c : nat) (c' : nat) (x y : warc) : Prop :=
  c' < c /\ exists k, nth_error keys c' = Some k /\ In (x, y) (common (g_arcs_at g (fst k)) (s_row d (snd k))).
Definition both_end (k : nat * nat) : bool := g_is_end g (fst k) && s_is_end d (snd k).
Record loop_inv (c : nat) (h : multi) (ends : list nat) : Prop := Loop {
  lo_c : c <= length (h_keys h);
  lo_queue : h_queue h = skipn c (h_keys h);
  lo_inv : inv (gone (h_keys h) c) h;
  lo_full : levelled -> full (gone (h_keys h) c) c h;
  lo_ends : forall s, In s ends <-> s < c /\ exists k, nth_error (h_keys h) s = Some k /\ both_end k = true;
  lo_nodup : NoDup ends }.
Lemma set_insert_in s l e : In e (set_insert s l) <-> e = s \/ In e l.
Proof.
  induction l as [|z l IH]; cbn [set_insert]; [cbn; intuition|]. destruct (s <? z); [cbn; intuition|].
  destruct (Nat.eqb_spec s z) as [->|]; [cbn; intuition|]. cbn [In]. rewrite IH. intuition.
Qed.
Lemma set_insert_nodup s l : NoDup l -> ~ In s l -> NoDup (set_insert s l).
Proof.
  induction 1 as [|z l N H IH]; intros Ns; cbn [set_insert]; [repeat constructor; easy|]. destruct (s <? z); [now repeat constructor|].
  destruct (Nat.eqb_spec s z) as [->|Nz]; [now constructor|]. constructor; [|apply IH; intros K; apply Ns; now right].
  rewrite set_insert_in. intros [->|K]; [apply Ns; now left|contradiction].
Qed.
Lemma skipn_at {X} n (l : list X) x r : skipn n l = x :: r -> nth_error l n = Some x /\ r = skipn (S n) l.
Proof.
  revert l. induction n as [|n IH]; intros [|z l] H; cbn in H; try discriminate; [injection H as -> ->; now split|]. apply IH in H as [H1 H2]. now split.
Qed.
Lemma loop_step c h ends ns queue : loop_inv c h ends -> h_queue h = ns :: queue ->
  let s := match place_of ns (h_keys h) with Some s => s | None => 0 end in
  loop_inv (S c) (fold_left (pass g s) (common (g_arcs_at g (fst ns)) (s_row d (snd ns))) (Multi queue (h_keys h) (h_sl h)))
    (if g_is_end g (fst ns) && s_is_end d (snd ns) then set_insert s ends else ends).
Proof.
  intros [L1 L2 L3 L4 L5 L6] Q. rewrite Q in L2. symmetry in L2. apply skipn_at in L2 as [Hc Hq].
  rewrite (place_at ns (h_keys h) c (in_nodup _ _ L3) Hc). cbv zeta. set (l := common (g_arcs_at g (fst ns)) (s_row d (snd ns))).
  set (h0 := Multi queue (h_keys h) (h_sl h)).
  assert (I0 : inv (gone (h_keys h) c) h0) by (destruct L3 as [I1 I2 I3 I4 I5 I6 I7 I8]; constructor; assumption).
  destruct (in_met _ _ L3 ns) as (w0 & i0 & Y0); [now apply nth_error_In in Hc|]. pose proof (way_ok _ _ _ Y0) as O. destruct (okr _ O) as [R1 _].
  destruct (passes c ns l (gone (h_keys h) c) h0 I0 Hc) as (J1 & (m & J2 & J3) & J4).
  { intros x y H. now apply common_sound in H. }
  { now apply common_rising. }
  { intros x' y' z [K _]. lia. }
  set (h' := fold_left (pass g c) l h0) in *. cbn [h_keys h_queue h0] in J2, J3.
  assert (Lc : c < length (h_keys h)) by (apply nth_error_Some; congruence).
  assert (Old : forall e, e < length (h_keys h) -> nth_error (h_keys h') e = nth_error (h_keys h) e) by (intros e Le; rewrite J2; now apply nth_error_app1).
  assert (Ext : forall c' x y, gone (h_keys h) c c' x y \/ (c' = c /\ In (x, y) l) <-> gone (h_keys h') (S c) c' x y).
  { intros c' x y. unfold gone. split.
    - intros [(Lc' & k & Hk & H)|[-> H]].
      + split; [lia|]. exists k. split; [rewrite Old by lia; assumption|assumption].
      + split; [lia|]. exists ns. split; [now rewrite Old|assumption].
    - intros (Lc' & k & Hk & H). destruct (Nat.eq_dec c' c) as [->|N].
      + right. split; [reflexivity|]. rewrite Old in Hk by assumption. assert (k = ns) as -> by congruence. assumption.
      + left. split; [lia|]. exists k. split; [rewrite Old in Hk by lia; assumption|assumption]. }
  constructor.
  - rewrite J2, app_length. lia.
  - rewrite J3, J2, Hq, skipn_app. replace (S c - length (h_keys h)) with 0 by lia. reflexivity.
  - now apply (inv_ext _ _ _ Ext).
  - intros Lev. destruct (L4 Lev) as [F1 F2 F3 F4 F5]. assert (F : full (gone (h_keys h) c) c h0) by (constructor; assumption).
    pose proof (full_ext _ _ _ _ Ext (J4 Lev F)) as [G1 G2 G3 G4 G5]. constructor; try assumption.
    + intros e k k' w w' i i' Hk Hk' Y Y'. pose proof (G2 e ns k' w0 w' i0 i' ltac:(rewrite Old; assumption) Hk' Y0 Y') as B.
      pose proof (G1 c (S c) ns k w0 w i0 i ltac:(lia) ltac:(rewrite Old; assumption) Hk Y0 Y). lia.
    + intros c' x y P. apply (G5 c' x y) in P. lia.
  - fold (both_end ns). intros s. destruct (both_end ns) eqn:En.
    + rewrite set_insert_in, L5. split.
      * intros [->|(Ls & k & Hk & Hb)]; [split; [lia|]; exists ns; split; [now rewrite Old|assumption]|].
        split; [lia|]. exists k. split; [rewrite Old by lia; assumption|assumption].
      * intros (Ls & k & Hk & Hb). destruct (Nat.eq_dec s c) as [->|N]; [now left|right]. split; [lia|]. exists k. split; [rewrite Old in Hk by lia; assumption|assumption].
    + rewrite L5. split.
      * intros (Ls & k & Hk & Hb). split; [lia|]. exists k. split; [rewrite Old by lia; assumption|assumption].
      * intros (Ls & k & Hk & Hb). destruct (Nat.eq_dec s c) as [->|N].
        -- rewrite Old in Hk by assumption. congruence.
        -- split; [lia|]. exists k. split; [rewrite Old in Hk by lia; assumption|assumption].
  - destruct (g_is_end g (fst ns) && s_is_end d (snd ns)); [|assumption]. apply set_insert_nodup; [assumption|]. intros K. apply L5 in K as [K _]. lia.
Qed.
Lemma loop_spec : forall fuel c h ends, loop_inv c h ends -> match multi_loop fuel g d h ends with
  | Some (sl, ends') => exists h', h_sl h' = sl /\ loop_inv (length (h_keys h')) h' ends' | None => True end.
Proof.
  induction fuel as [|fuel IH]; intros c h ends L; cbn [multi_loop]; destruct (h_queue h) as [|ns queue] eqn:Q; try easy;
    try (exists h; split; [reflexivity|]; replace (length (h_keys h)) with c; [assumption|];
      pose proof (lo_c _ _ _ L); rewrite (lo_queue _ _ _ L) in Q; apply (f_equal (@length _)) in Q; rewrite skipn_length in Q; cbn in Q; lia).
  apply (IH (S c)). now apply loop_step.
Qed.
Lemma loop_ends bound : (forall keys, NoDup keys -> (forall k, In k keys -> exists w i, way w k i) -> length keys <= bound) ->
  forall fuel c h ends, loop_inv c h ends -> bound <= fuel + c -> multi_loop fuel g d h ends <> None.
Proof.
  intros B. induction fuel as [|fuel IH]; intros c h ends L F; cbn [multi_loop]; destruct (h_queue h) as [|ns queue] eqn:Q; try discriminate.
  - rewrite (lo_queue _ _ _ L) in Q. apply skipn_at in Q as [Q _]. pose proof (B _ (in_nodup _ _ (lo_inv _ _ _ L)) (in_met _ _ (lo_inv _ _ _ L))).
    assert (c < length (h_keys h)) by (apply nth_error_Some; congruence). lia.
  - apply (IH (S c)); [now apply loop_step|lia].
Qed.
Lemma loop_start : loop_inv 0 (Multi [(0, 0)] [(0, 0)] [[([], 0%Z)]]) [].
Proof.
  assert (One : forall e k, nth_error [(0, 0)] e = Some k -> e = 0 /\ k = (0, 0)) by (intros [|[|]] k H; cbn in H; [split; congruence|discriminate|discriminate]).
  assert (None : forall c' x y, ~ gone [(0, 0)] 0 c' x y) by (intros c' x y [H _]; lia).
  constructor; cbn [h_keys h_queue h_sl].
  - cbn. lia.
  - reflexivity.
  - constructor; cbn [h_keys h_sl].
    + repeat constructor. easy.
    + reflexivity.
    + reflexivity.
    + intros k [<-|[]]. exists [], 0%Z. constructor.
    + intros e k w i H Hw. apply One in H as [-> ->]. destruct Hw as [Hw|[]]. injection Hw as <- <-. constructor.
    + intros [|[|]]; cbn; repeat constructor. easy.
    + intros [|[|]] w i H; cbn in H; try easy. destruct H as [H|[]]. injection H as <- <-. now left.
    + intros c x y H. elim (None _ _ _ H).
  - intros Lev. constructor; cbn [h_keys].
    + intros e e' k k' w w' i i' _ H H' Y Y'. apply One in H as [-> ->]. apply One in H' as [-> ->]. now rewrite (Lev _ _ _ _ _ Y Y').
    + intros e k k' w w' i i' H H' Y Y'. apply One in H as [_ ->]. apply One in H' as [-> ->]. rewrite (Lev _ _ _ _ _ Y Y'). lia.
    + now left.
    + intros c x y e H. elim (None _ _ _ H).
    + intros c x y H. elim (None _ _ _ H).
  - intros s. split; [easy|]. lia.
  - constructor.
Qed.
Lemma multihash_spec fuel L : multihash fuel g d = Some L ->
  (forall w i, In (w, i) L -> exists k, way w k i /\ both_end k = true) /\ NoDup (map fst L) /\
  (levelled -> forall w k i, way w k i -> both_end k = true -> In (w, i) L).
Proof.
  unfold multihash. pose proof (loop_spec fuel 0 _ _ loop_start) as H. destruct (multi_loop fuel g d _ _) as [[sl ends]|]; [|discriminate].
  intros [= <-]. destruct H as (h & <- & [L1 L2 I L4 L5 L6]). change (fun e => nth e (h_sl h) []) with (words_at h). split; [|split].
  - intros w i K. apply in_flat_map in K as (e & He & Hw). apply L5 in He as (_ & k & Hk & Hb). exists k. split; [now apply (in_words _ _ I e)|assumption].
  - assert (Each : forall e, NoDup (map fst (words_at h e))) by apply (in_once _ _ I).
    assert (Sep : forall e e' v, In e ends -> In e' ends -> In v (map fst (words_at h e)) -> In v (map fst (words_at h e')) -> e = e').
    { intros e e' v He He' H1 H2. apply L5 in He as (_ & k & Hk & _). apply L5 in He' as (_ & k' & Hk' & _).
      apply in_map_iff in H1 as ([w i] & <- & H1). apply in_map_iff in H2 as ([w' i'] & E & H2). cbn [fst] in E. subst w'.
      destruct (way_once _ _ _ (in_words _ _ I _ _ _ _ Hk H1) _ _ (in_words _ _ I _ _ _ _ Hk' H2)) as [-> _]. now apply (nodup_nth _ _ _ _ (in_nodup _ _ I) Hk Hk'). }
    clear L5. revert Sep. induction L6 as [|e ends N L6 IH]; intros Sep; cbn [flat_map map]; [constructor|]. rewrite map_app. apply NoDup_app_sep.
    + apply Each.
    + apply IH. intros a b v Ha Hb. apply Sep; now right.
    + intros v H1 H2. apply in_map_iff in H2 as ([w i] & <- & H2). apply in_flat_map in H2 as (e' & He' & H2).
      assert (e = e') by (apply (Sep e e' w); [now left|now right|assumption|]; apply in_map_iff; now exists (w, i)). now subst.
  - intros Lev w k i Y Hb. destruct (L4 Lev) as [F1 F2 F3 F4 F5].
    assert (All : exists e, nth_error (h_keys h) e = Some k /\ In (w, i) (words_at h e)).
    { clear Hb. induction Y as [|w p q i x y Y (c & Hc & Hw) Hx Hy E].
      - exists 0. split; [apply (in_first _ _ I)|assumption].
      - assert (G : gone (h_keys h) (length (h_keys h)) c x y).
        { split; [apply nth_error_Some; congruence|]. exists (p, q). split; [assumption|]. apply common_complete; try assumption; [|apply dr]. now apply (okr p), (way_ok _ _ _ Y). }
        pose proof (in_to _ _ I c x y G) as K. apply In_nth_error in K as (e & K). exists e. split; [assumption|].
        rewrite <- surjective_pairing. now apply (F4 c x y). }
    destruct All as (e & He & Hw). apply in_flat_map. exists e. split; [|assumption]. apply L5. split; [apply nth_error_Some; congruence|]. now exists k.
Qed.
Lemma multihash_ends bound fuel : (forall keys, NoDup keys -> (forall k, In k keys -> exists w i, way w k i) -> length keys <= bound) -> bound <= fuel ->
  exists L, multihash fuel g d = Some L.
Proof.
  intros B F. unfold multihash. pose proof (loop_ends bound B fuel 0 _ _ loop_start ltac:(lia)) as H.
  destruct (multi_loop fuel g d _ _) as [[sl ends]|]; [eexists; reflexivity|now elim H].
Qed.
End Multi.

(** C21: cutting a text into segments and fragments. *)
From Coq Require Import List ZArith Bool Arith Lia.
From Verif Require Import M_Utf8 S_Utf8 L_Utf8 M_Cutter.
Import ListNotations.
Open Scope nat_scope.

(** ** Specification *)
(** The spans [(p, n)] cover [a .. b) one after another. *)
Fixpoint consecutive (a b : nat) (spans : list (nat * nat)) : Prop :=
  match spans with
  | [] => a = b
  | (p, n) :: r => p = a /\ 0 < n /\ consecutive (a + n) b r
  end.

(** ** General facts *)
Lemma soft_scan_spec : forall text n c,
  c <= soft_scan text n c <= c + n /\
  (forall i, c <= i < soft_scan text n c -> nth i text 0%Z <> 32%Z) /\
  (soft_scan text n c < c + n -> nth (soft_scan text n c) text 0%Z = 32%Z).
Proof.
  induction n as [|n IH]; intros c; cbn [soft_scan].
  - split; [lia|]. split; intros; lia.
  - destruct (Z.eqb_spec (nth c text 0%Z) 32).
    + split; [lia|]. split; [intros; lia|auto].
    + specialize (IH (S c)). destruct IH as (H1 & H2 & H3). split; [lia|]. split.
      * intros i Hi. destruct (Nat.eq_dec i c) as [->|]; [assumption|]. apply H2. lia.
      * intros H. apply H3. lia.
Qed.

Lemma find_soft_spec : forall soft text c m, c + soft <= m ->
  let r := find_soft soft text c m in
  c + soft <= r <= m /\
  (forall i, c + soft <= i < r -> nth i text 0%Z <> 32%Z) /\
  (r < m -> nth r text 0%Z = 32%Z).
Proof.
  intros soft text c m H. unfold find_soft. destruct (Nat.ltb_spec (c + soft) m) as [Hl|Hl]; cbv zeta.
  - pose proof (soft_scan_spec text (m - (c + soft)) (c + soft)) as (H1 & H2 & H3).
    split; [lia|]. split; [assumption|]. intro. apply H3. lia.
  - split; [lia|]. split; [|lia]. intros i Hi. lia.
Qed.

Lemma symbol_length_pos : forall text p, 1 <= symbol_length text p.
Proof. intros. unfold symbol_length. destruct (Nat.ltb_spec 0 (Z.to_nat (sequence_length (nth p text 0%Z)))); lia. Qed.

Lemma hard_scan_le : forall fuel text h c, c <= h -> c <= hard_scan fuel text h c <= h.
Proof.
  induction fuel as [|fuel IH]; intros text h c H; cbn [hard_scan]; [lia|].
  destruct (Nat.ltb_spec c h); [|lia].
  destruct (Nat.ltb_spec h (c + symbol_length text c)); [lia|].
  specialize (IH text h (c + symbol_length text c) ltac:(lia)). lia.
Qed.

Lemma find_hard_range : forall hard text c r, find_hard hard text c = Some r -> c < r <= c + hard.
Proof.
  intros hard text c r E. unfold find_hard in E. cbv zeta in E.
  set (s := if Nat.ltb 4 (c + hard) then c + hard - 4 else 0) in *.
  destruct (Nat.leb_spec (hard_scan (c + hard - s) text (c + hard) s) c); [discriminate|].
  injection E as <-. split; [assumption|]. apply hard_scan_le. unfold s. destruct (Nat.ltb_spec 4 (c + hard)); lia.
Qed.

Lemma limit_broken_iff : forall limit len, limit_broken limit len = true <-> 0 < limit <= len.
Proof.
  intros. unfold limit_broken. rewrite andb_true_iff, negb_true_iff, Nat.eqb_neq, Nat.leb_le. lia.
Qed.

Definition cut_of (soft hard : nat) (text : list Z) (e c : nat) (h : option nat) : nat :=
  match (if limit_broken soft (e - c) then Some (find_soft soft text c e) else None), h with
  | Some s, Some h => Nat.min s h
  | Some s, None => s
  | None, Some h => h
  | None, None => e
  end.

(** The point chosen by one iteration. *)
Lemma cut_of_spec : forall soft hard text e c h, c < e ->
  (limit_broken hard (e - c) = true -> exists h', h = Some h' /\ c < h' <= c + hard) ->
  (limit_broken hard (e - c) = false -> h = None) ->
  let r := cut_of soft hard text e c h in
  c < r <= e /\ (hard <> 0 -> r - c <= hard) /\
  (soft <> 0 -> forall i, c + soft <= i < r -> nth i text 0%Z <> 32%Z) /\
  (r = e \/ h = Some r \/ nth r text 0%Z = 32%Z).
Proof.
  intros soft hard text e c h Hc Hh Hn. unfold cut_of.
  destruct (limit_broken soft (e - c)) eqn:Es; destruct (limit_broken hard (e - c)) eqn:Eh.
  - destruct (Hh eq_refl) as (h' & -> & H'). apply limit_broken_iff in Es, Eh.
    pose proof (find_soft_spec soft text c e ltac:(lia)) as (F1 & F2 & F3). cbv zeta.
    set (s := find_soft soft text c e) in *.
    split; [lia|]. split; [lia|]. split.
    + intros _ i Hi. apply F2. lia.
    + destruct (Nat.min_spec s h') as [[M1 M2]|[M1 M2]]; rewrite M2.
      * destruct (Nat.lt_ge_cases s e); [right; right; auto|left; lia].
      * right; left; reflexivity.
  - rewrite (Hn eq_refl). apply limit_broken_iff in Es.
    pose proof (find_soft_spec soft text c e ltac:(lia)) as (F1 & F2 & F3). cbv zeta.
    set (s := find_soft soft text c e) in *.
    assert (hard <> 0 -> e - c < hard).
    { intro. destruct (Nat.lt_ge_cases (e - c) hard); [assumption|].
      assert (limit_broken hard (e - c) = true) by (apply limit_broken_iff; lia). congruence. }
    split; [lia|]. split; [lia|]. split.
    + intros _ i Hi. apply F2. lia.
    + destruct (Nat.lt_ge_cases s e); [right; right; auto|left; lia].
  - destruct (Hh eq_refl) as (h' & -> & H'). apply limit_broken_iff in Eh. cbv zeta.
    assert (soft <> 0 -> e - c < soft).
    { intro. destruct (Nat.lt_ge_cases (e - c) soft); [assumption|].
      assert (limit_broken soft (e - c) = true) by (apply limit_broken_iff; lia). congruence. }
    split; [lia|]. split; [lia|]. split; [intros; lia|]. right; left; reflexivity.
  - rewrite (Hn eq_refl). cbv zeta.
    assert (soft <> 0 -> e - c < soft).
    { intro. destruct (Nat.lt_ge_cases (e - c) soft); [assumption|].
      assert (limit_broken soft (e - c) = true) by (apply limit_broken_iff; lia). congruence. }
    assert (hard <> 0 -> e - c < hard).
    { intro. destruct (Nat.lt_ge_cases (e - c) hard); [assumption|].
      assert (limit_broken hard (e - c) = true) by (apply limit_broken_iff; lia). congruence. }
    split; [lia|]. split; [lia|]. split; [intros; lia|]. left; reflexivity.
Qed.

(** What is promised about a fragment [(p, n)]. *)
Definition frag_ok (soft hard : nat) (text : list Z) (f : nat * nat) : Prop :=
  (hard <> 0 -> snd f <= hard) /\
  (soft <> 0 -> forall i, soft <= i < snd f -> nth (fst f + i) text 0%Z <> 32%Z).

Lemma fragment_step : forall fuel soft hard text pos len c, pos <= c < pos + len ->
  fragment (S fuel) soft hard text pos len c =
  let h := if limit_broken hard (pos + len - c) then
             match find_hard hard text c with Some p => Some (Some p) | None => None end
           else Some None in
  match h with
  | None => None
  | Some h =>
      let r := cut_of soft hard text (pos + len) c h in
      match fragment fuel soft hard text pos len r with
      | None => None
      | Some fs => Some ((c, r - c) :: fs)
      end
  end.
Proof.
  intros. cbn [fragment]. destruct (Nat.ltb_spec c (pos + len)); [|lia].
  replace (len - (c - pos)) with (pos + len - c) by lia. reflexivity.
Qed.

Lemma fragment_spec : forall fuel soft hard text pos len c fs,
  pos <= c <= pos + len -> pos + len - c <= fuel ->
  fragment fuel soft hard text pos len c = Some fs ->
  consecutive c (pos + len) fs /\ Forall (frag_ok soft hard text) fs.
Proof.
  induction fuel as [|fuel IH]; intros soft hard text pos len c fs Hc Hf E.
  - cbn in E. injection E as <-. cbn. split; [lia|constructor].
  - destruct (Nat.eq_dec c (pos + len)) as [->|Hne].
    { cbn [fragment] in E. rewrite Nat.ltb_irrefl in E. injection E as <-. cbn. split; [reflexivity|constructor]. }
    rewrite fragment_step in E by lia. cbv zeta in E.
    assert (Hh : exists h, (if limit_broken hard (pos + len - c) then
             match find_hard hard text c with Some p => Some (Some p) | None => None end
           else Some None) = Some h /\
           (limit_broken hard (pos + len - c) = true -> exists h', h = Some h' /\ c < h' <= c + hard) /\
           (limit_broken hard (pos + len - c) = false -> h = None)).
    { destruct (limit_broken hard (pos + len - c)).
      - destruct (find_hard hard text c) eqn:Ef; [|discriminate].
        eexists. split; [reflexivity|]. split; [|discriminate]. intros _. eexists. split; [reflexivity|].
        eapply find_hard_range; eassumption.
      - eexists. split; [reflexivity|]. split; [discriminate|reflexivity]. }
    destruct Hh as (h & Eh & Hh1 & Hh2). rewrite Eh in E.
    pose proof (cut_of_spec soft hard text (pos + len) c h ltac:(lia) Hh1 Hh2) as (C1 & C2 & C3 & _).
    cbv zeta in *. set (r := cut_of soft hard text (pos + len) c h) in *.
    destruct (fragment fuel soft hard text pos len r) as [fs'|] eqn:E'; [|discriminate].
    injection E as <-. destruct (IH soft hard text pos len r fs' ltac:(lia) ltac:(lia) E') as [I1 I2].
    split.
    + cbn. split; [reflexivity|]. split; [lia|]. replace (c + (r - c)) with r by lia. assumption.
    + constructor; [|assumption]. split; cbn [fst snd].
      * assumption.
      * intros Hs i Hi. apply C3; [assumption|lia].
Qed.

(** ** UTF-8 boundaries *)
Definition boundary (text : list Z) (p : nat) : Prop :=
  exists a b, text = a ++ b /\ well_formed a /\ well_formed b /\ length a = p.

Lemma wf_app : forall a b, well_formed a -> well_formed b -> well_formed (a ++ b).
Proof.
  intros a b (ca & Ha & ->) (cb & Hb & ->). exists (ca ++ cb). split.
  - apply Forall_app. auto.
  - rewrite flat_map_app. reflexivity.
Qed.

Lemma seqlen_lead : forall cp, scalar cp -> exists lead trails, enc cp = lead :: trails /\
  Z.to_nat (sequence_length lead) = length (enc cp) /\
  Forall (fun b => sequence_length b = 0%Z) trails /\ Forall (fun b => b <> 32%Z) trails.
Proof.
  intros cp Hs. unfold scalar in Hs. unfold enc.
  destruct (Z.ltb_spec cp 0x80).
  { exists cp, []. split; [reflexivity|]. split; [|split; constructor].
    rewrite seqlen_byte by (unfold byte; lia). destruct (Z.ltb_spec cp 0x80); [reflexivity|lia]. }
  assert (Htr : forall x, (0x80 <= x < 0xC0)%Z -> sequence_length x = 0%Z).
  { intros x Hx. rewrite seqlen_byte by (unfold byte; lia).
    destruct (Z.ltb_spec x 0x80); [lia|]. destruct (Z.ltb_spec x 0xC0); [reflexivity|lia]. }
  assert (Hm : forall x, (0x80 <= 0x80 + x mod 64 < 0xC0)%Z).
  { intro x. pose proof (Z.mod_pos_bound x 64 ltac:(lia)). lia. }
  destruct (Z.ltb_spec cp 0x800).
  { eexists _, _. split; [reflexivity|]. split; [|split; repeat (apply Forall_cons || apply Forall_nil)].
    - rewrite seqlen_byte by (unfold byte; lia).
      destruct (Z.ltb_spec (0xC0 + cp / 64) 0x80); [lia|].
      destruct (Z.ltb_spec (0xC0 + cp / 64) 0xC0); [lia|].
      destruct (Z.ltb_spec (0xC0 + cp / 64) 0xE0); [reflexivity|lia].
    - apply Htr, Hm.
    - specialize (Hm cp). lia. }
  destruct (Z.ltb_spec cp 0x10000).
  { eexists _, _. split; [reflexivity|]. split; [|split; repeat (apply Forall_cons || apply Forall_nil)].
    - rewrite seqlen_byte by (unfold byte; lia).
      destruct (Z.ltb_spec (0xE0 + cp / 4096) 0x80); [lia|].
      destruct (Z.ltb_spec (0xE0 + cp / 4096) 0xC0); [lia|].
      destruct (Z.ltb_spec (0xE0 + cp / 4096) 0xE0); [lia|].
      destruct (Z.ltb_spec (0xE0 + cp / 4096) 0xF0); [reflexivity|lia].
    - apply Htr, Hm.
    - apply Htr, Hm.
    - specialize (Hm (cp / 64)%Z). lia.
    - specialize (Hm cp). lia. }
  { eexists _, _. split; [reflexivity|]. split; [|split; repeat (apply Forall_cons || apply Forall_nil)].
    - rewrite seqlen_byte by (unfold byte; lia).
      destruct (Z.ltb_spec (0xF0 + cp / 262144) 0x80); [lia|].
      destruct (Z.ltb_spec (0xF0 + cp / 262144) 0xC0); [lia|].
      destruct (Z.ltb_spec (0xF0 + cp / 262144) 0xE0); [lia|].
      destruct (Z.ltb_spec (0xF0 + cp / 262144) 0xF0); [lia|].
      destruct (Z.ltb_spec (0xF0 + cp / 262144) 0xF8); [reflexivity|lia].
    - apply Htr, Hm.
    - apply Htr, Hm.
    - apply Htr, Hm.
    - specialize (Hm (cp / 4096)%Z). lia.
    - specialize (Hm (cp / 64)%Z). lia.
    - specialize (Hm cp). lia. }
Qed.

(** Every position is inside some encoded character. *)
Lemma position_cases : forall cps p, Forall scalar cps -> p < length (flat_map enc cps) ->
  exists c1 cp c2 k, cps = c1 ++ cp :: c2 /\ p = length (flat_map enc c1) + k /\ k < length (enc cp).
Proof.
  induction cps as [|cp cps IH]; intros p Hs Hp; [cbn in Hp; lia|].
  cbn [flat_map] in Hp. rewrite app_length in Hp. inversion Hs; subst.
  destruct (Nat.lt_ge_cases p (length (enc cp))).
  - exists [], cp, cps, p. auto.
  - destruct (IH (p - length (enc cp)) ltac:(assumption) ltac:(lia)) as (c1 & cp' & c2 & k & -> & E & Hk).
    exists (cp :: c1), cp', c2, k. split; [reflexivity|]. split; [|assumption].
    cbn [flat_map]. rewrite app_length. lia.
Qed.

Lemma nth_mid : forall (a b c : list Z) k, k < length b -> nth (length a + k) (a ++ b ++ c) 0%Z = nth k b 0%Z.
Proof.
  intros. rewrite app_nth2 by lia. replace (length a + k - length a) with k by lia. apply app_nth1. assumption.
Qed.

(** At a position: either a boundary, where symbolLength is the length of the
    character, or inside of a character, where it is 1. *)
Lemma position_kind : forall text p, well_formed text -> p < length text ->
  (boundary text p /\ boundary text (p + symbol_length text p) /\ symbol_length text p <= 4) \/
  (symbol_length text p = 1 /\ nth p text 0%Z <> 32%Z /\ sequence_length (nth p text 0%Z) = 0%Z /\
   exists e, p < e <= p + 3 /\ boundary text e /\ forall q, p <= q < e -> symbol_length text q = 1).
Proof.
  intros text p (cps & Hs & ->) Hp.
  destruct (position_cases cps p Hs Hp) as (c1 & cp & c2 & k & -> & -> & Hk).
  apply Forall_app in Hs. destruct Hs as [Hs1 Hs2]. inversion Hs2; subst.
  rewrite flat_map_app. cbn [flat_map].
  destruct (seqlen_lead cp ltac:(assumption)) as (lead & trails & Eenc & Hsl & Htr & Hsp).
  assert (Hwf1 : well_formed (flat_map enc c1)) by (exists c1; split; auto).
  assert (Hwf2 : well_formed (flat_map enc c2)) by (exists c2; split; auto).
  assert (Hwfc : well_formed (enc cp)) by (exists [cp]; split; [constructor; [assumption|constructor]|cbn; rewrite app_nil_r; reflexivity]).
  pose proof (enc_length cp) as Hel.
  assert (Hin : forall j, 0 < j < length (enc cp) ->
             symbol_length (flat_map enc c1 ++ enc cp ++ flat_map enc c2) (length (flat_map enc c1) + j) = 1 /\
             nth (length (flat_map enc c1) + j) (flat_map enc c1 ++ enc cp ++ flat_map enc c2) 0%Z <> 32%Z /\
             sequence_length (nth (length (flat_map enc c1) + j) (flat_map enc c1 ++ enc cp ++ flat_map enc c2) 0%Z) = 0%Z).
  { intros j Hj. unfold symbol_length. rewrite nth_mid by lia. rewrite Eenc in *. cbn [length] in Hj.
    destruct j as [|j]; [lia|]. cbn [nth]. rewrite Forall_forall in Htr, Hsp.
    split; [rewrite (Htr (nth j trails 0%Z)) by (apply nth_In; lia); reflexivity|].
    split; [apply Hsp; apply nth_In; lia|]. apply Htr. apply nth_In. lia. }
  destruct k as [|k].
  - left. rewrite Nat.add_0_r.
    assert (Esym : symbol_length (flat_map enc c1 ++ enc cp ++ flat_map enc c2) (length (flat_map enc c1)) = length (enc cp)).
    { pose proof (nth_mid (flat_map enc c1) (enc cp) (flat_map enc c2) 0 ltac:(lia)) as E0.
      rewrite Nat.add_0_r in E0. unfold symbol_length. rewrite E0.
      replace (nth 0 (enc cp) 0%Z) with lead by (rewrite Eenc; reflexivity). rewrite Hsl.
      destruct (Nat.ltb_spec 0 (length (enc cp))); lia. }
    rewrite Esym. split; [|split; [|lia]].
    + exists (flat_map enc c1), (enc cp ++ flat_map enc c2). split; [reflexivity|]. split; [assumption|].
      split; [apply wf_app; assumption|reflexivity].
    + exists (flat_map enc c1 ++ enc cp), (flat_map enc c2). split; [rewrite app_assoc; reflexivity|].
      split; [apply wf_app; assumption|]. split; [assumption|]. apply app_length.
  - right. destruct (Hin (S k) ltac:(lia)) as (H1' & H2' & H3'). split; [assumption|]. split; [assumption|]. split; [assumption|].
    exists (length (flat_map enc c1) + length (enc cp)). split; [lia|]. split.
    + exists (flat_map enc c1 ++ enc cp), (flat_map enc c2). split; [rewrite app_assoc; reflexivity|].
      split; [apply wf_app; assumption|]. split; [assumption|]. apply app_length.
    + intros q Hq. replace q with (length (flat_map enc c1) + (q - length (flat_map enc c1))) by lia.
      apply Hin. lia.
Qed.

Lemma boundary_0 : forall text, well_formed text -> boundary text 0.
Proof. intros text H. exists [], text. split; [reflexivity|]. split; [apply well_formed_nil|]. auto. Qed.

Lemma boundary_lead : forall text p, boundary text p -> p < length text ->
  sequence_length (nth p text 0%Z) <> 0%Z.
Proof.
  intros text p (a & b & -> & Ha & (cb & Hcb & ->) & <-) Hp E.
  rewrite app_length in Hp. destruct cb as [|cp cb]; [cbn in Hp; lia|].
  inversion Hcb; subst. destruct (seqlen_lead cp ltac:(assumption)) as (lead & trails & Eenc & Hsl & _).
  cbn [flat_map] in E. rewrite <- (Nat.add_0_r (length a)), nth_mid in E by (rewrite Eenc; cbn; lia).
  rewrite Eenc in E at 1. cbn [nth] in E. rewrite E, Eenc in Hsl. cbn in Hsl. lia.
Qed.

Lemma boundary_step : forall text p, well_formed text -> boundary text p -> p < length text ->
  boundary text (p + symbol_length text p) /\ symbol_length text p <= 4.
Proof.
  intros text p Hwf Hb Hp. destruct (position_kind text p Hwf Hp) as [(_ & H)|(_ & _ & H & _)]; [assumption|].
  exfalso. eapply boundary_lead; eassumption.
Qed.

Lemma hard_scan_boundary : forall fuel text h c, well_formed text -> h <= length text ->
  boundary text c -> c <= h -> h - c <= fuel ->
  boundary text (hard_scan fuel text h c) /\ h < hard_scan fuel text h c + 4.
Proof.
  induction fuel as [|fuel IH]; intros text h c Hwf Hh Hb Hc Hf; cbn [hard_scan].
  - assert (c = h) by lia. subst. split; [assumption|lia].
  - destruct (Nat.ltb_spec c h) as [Hlt|]; [|split; [assumption|lia]].
    destruct (boundary_step text c Hwf Hb ltac:(lia)) as [K1 K2].
    destruct (Nat.ltb_spec h (c + symbol_length text c)); [split; [assumption|lia]|].
    pose proof (symbol_length_pos text c). apply IH; try assumption; lia.
Qed.

Lemma hard_scan_from : forall d fuel text h c e, well_formed text -> h <= length text ->
  e = c + d -> boundary text e -> e <= h -> h - c <= fuel ->
  (forall q, c <= q < e -> symbol_length text q = 1) ->
  boundary text (hard_scan fuel text h c) /\ h < hard_scan fuel text h c + 4.
Proof.
  induction d as [|d IH]; intros fuel text h c e Hwf Hh He Hb Heh Hf Hq.
  - replace e with c in * by lia. apply hard_scan_boundary; assumption || lia.
  - destruct fuel as [|fuel]; [lia|]. cbn [hard_scan].
    destruct (Nat.ltb_spec c h); [|lia]. rewrite Hq by lia.
    destruct (Nat.ltb_spec h (c + 1)); [lia|].
    apply (IH fuel text h (c + 1) e); try assumption; try lia. intros; apply Hq; lia.
Qed.

Lemma find_hard_boundary : forall hard text c, well_formed text -> c + hard <= length text ->
  (4 <= hard -> find_hard hard text c <> None) /\
  (forall r, find_hard hard text c = Some r -> boundary text r).
Proof.
  intros hard text c Hwf Hl.
  set (h := c + hard) in *.
  set (s := if Nat.ltb 4 h then h - 4 else 0).
  assert (Hs : boundary text (hard_scan (h - s) text h s) /\ h < hard_scan (h - s) text h s + 4).
  { unfold s. destruct (Nat.ltb_spec 4 h).
    - destruct (position_kind text (h - 4) Hwf ltac:(lia)) as [(Hb & _)|(_ & _ & _ & e & He & Hbe & Hq)].
      + apply hard_scan_boundary; assumption || lia.
      + apply (hard_scan_from (e - (h - 4)) _ text h (h - 4) e); try assumption; lia.
    - apply hard_scan_boundary; try assumption; try lia. apply boundary_0. assumption. }
  unfold find_hard. cbv zeta. fold h. fold s. destruct Hs as [Hs1 Hs2].
  destruct (Nat.leb_spec (hard_scan (h - s) text h s) c).
  - split; [intros; unfold h in *; lia|discriminate].
  - split; [discriminate|]. intros r E. injection E as <-. assumption.
Qed.

Lemma space_boundary : forall text p, well_formed text -> p < length text -> nth p text 0%Z = 32%Z -> boundary text p.
Proof.
  intros text p Hwf Hp E. destruct (position_kind text p Hwf Hp) as [(H & _)|(_ & H & _)]; [assumption|congruence].
Qed.

Lemma fragment_boundaries : forall fuel soft hard text pos len c,
  well_formed text -> pos + len <= length text -> boundary text (pos + len) -> boundary text c ->
  pos <= c <= pos + len -> pos + len - c <= fuel -> hard = 0 \/ 4 <= hard ->
  exists fs, fragment fuel soft hard text pos len c = Some fs /\
    Forall (fun f => boundary text (fst f) /\ boundary text (fst f + snd f)) fs.
Proof.
  induction fuel as [|fuel IH]; intros soft hard text pos len c Hwf Hl Hbe Hbc Hc Hf Hh.
  - exists []. split; [reflexivity|constructor].
  - destruct (Nat.eq_dec c (pos + len)) as [->|Hne].
    { exists []. cbn [fragment]. rewrite Nat.ltb_irrefl. split; [reflexivity|constructor]. }
    rewrite fragment_step by lia. cbv zeta.
    assert (HH : exists h, (if limit_broken hard (pos + len - c) then
             match find_hard hard text c with Some p => Some (Some p) | None => None end
           else Some None) = Some h /\
           (limit_broken hard (pos + len - c) = true -> exists h', h = Some h' /\ c < h' <= c + hard) /\
           (limit_broken hard (pos + len - c) = false -> h = None) /\
           (forall h', h = Some h' -> boundary text h')).
    { destruct (limit_broken hard (pos + len - c)) eqn:El.
      - apply limit_broken_iff in El.
        destruct (find_hard_boundary hard text c Hwf ltac:(lia)) as [F1 F2].
        destruct (find_hard hard text c) as [h'|] eqn:Ef; [|exfalso; apply F1; [lia|reflexivity]].
        eexists. split; [reflexivity|]. split; [|split; [discriminate|]].
        + intros _. eexists. split; [reflexivity|]. eapply find_hard_range; eassumption.
        + intros h'' E. injection E as <-. apply F2. reflexivity.
      - eexists. split; [reflexivity|]. split; [discriminate|]. split; [reflexivity|discriminate]. }
    destruct HH as (h & Eh & Hh1 & Hh2 & Hh3). rewrite Eh.
    pose proof (cut_of_spec soft hard text (pos + len) c h ltac:(lia) Hh1 Hh2) as (C1 & C2 & C3 & C4).
    cbv zeta in *. set (r := cut_of soft hard text (pos + len) c h) in *.
    assert (Hbr : boundary text r).
    { destruct C4 as [->|[E|E]]; [assumption|auto|].
      destruct (Nat.eq_dec r (pos + len)) as [->|]; [assumption|]. apply space_boundary; try assumption. lia. }
    destruct (IH soft hard text pos len r Hwf Hl Hbe Hbr ltac:(lia) ltac:(lia) Hh) as (fs & -> & Hfs).
    eexists. split; [reflexivity|]. constructor; [|assumption]. cbn [fst snd].
    replace (c + (r - c)) with r by lia. auto.
Qed.

(** The text between two boundaries is well formed. *)
Lemma boundary_between : forall text p n, boundary text p -> boundary text (p + n) -> well_formed (sub text p n).
Proof.
  intros text p n (a & b & E & (ca & Ha & Ea) & (cb & Hb & Eb) & Hp) (a' & b' & E' & (ca' & Ha' & Ea') & (cb' & Hb' & Eb') & Hp').
  assert (Ecps : ca ++ cb = ca' ++ cb').
  { apply (encodes_unique _ _ text).
    - split; [apply Forall_app; auto|]. rewrite flat_map_app. congruence.
    - split; [apply Forall_app; auto|]. rewrite flat_map_app. congruence. }
  (* a is a prefix of a', as lists of characters *)
  assert (Hpre : exists m, ca' = ca ++ m).
  { assert (Hlen : length (flat_map enc ca) <= length (flat_map enc ca')) by (rewrite <- Ea, <- Ea'; lia).
    clear - Ecps Hlen. revert ca' cb cb' Ecps Hlen.
    induction ca as [|x ca IH]; intros ca' cb cb' E Hl; [exists ca'; reflexivity|].
    destruct ca' as [|y ca'].
    - cbn [flat_map] in Hl. rewrite app_length in Hl. pose proof (enc_length x). cbn in Hl. lia.
    - cbn in E. injection E as -> E. cbn [flat_map] in Hl. rewrite !app_length in Hl.
      destruct (IH ca' cb cb' E ltac:(lia)) as (m & ->). exists m. reflexivity. }
  destruct Hpre as (m & ->). rewrite Forall_app in Ha'. destruct Ha' as [_ Hm].
  rewrite flat_map_app in Ea'.
  assert (Hn : n = length (flat_map enc m)).
  { subst a a'. rewrite app_length in Hp'. lia. }
  exists m. split; [assumption|]. unfold sub. rewrite E', Ea', <- app_assoc.
  rewrite skipn_app. replace (p - length (flat_map enc ca)) with 0 by (rewrite <- Ea; lia).
  rewrite skipn_all2 by (rewrite <- Ea; lia). cbn [app skipn]. subst n.
  rewrite firstn_app, Nat.sub_diag, firstn_all, app_nil_r. reflexivity.
Qed.

Lemma nth_firstn_lt : forall (l : list Z) n i, i < n -> nth i (firstn n l) 0%Z = nth i l 0%Z.
Proof.
  induction l as [|x l IH]; intros [|n] [|i] H; cbn; try lia; try reflexivity. apply IH. lia.
Qed.
Lemma nth_skipn' : forall (l : list Z) n i, nth i (skipn n l) 0%Z = nth (n + i) l 0%Z.
Proof.
  induction l as [|x l IH]; intros [|n] i; cbn; try reflexivity. - destruct i; reflexivity. - apply IH.
Qed.

(** ** C21 *)
Definition frag_text (text : list Z) (f : nat * nat) : list Z := sub text (fst f) (snd f).

Lemma consecutive_concat : forall text fs a b, consecutive a b fs -> b <= length text ->
  flat_map (frag_text text) fs = sub text a (b - a).
Proof.
  induction fs as [|[p n] fs IH]; intros a b H Hb; cbn [consecutive] in H.
  - subst. rewrite Nat.sub_diag. reflexivity.
  - destruct H as (-> & Hn & H). cbn [flat_map]. rewrite (IH _ _ H Hb).
    assert (Hle : a + n <= b).
    { clear - H. revert H. generalize (a + n). induction fs as [|[p m] fs IH]; intros c H; cbn in H; [lia|].
      destruct H as (_ & Hm & H). specialize (IH _ H). lia. }
    unfold frag_text, sub. cbn [fst snd].
    replace (b - a) with (n + (b - (a + n))) by lia.
    rewrite <- (firstn_skipn n (skipn a text)) at 2.
    rewrite firstn_app, firstn_firstn, firstn_length, skipn_length.
    replace (Nat.min (n + (b - (a + n))) n) with n by lia. f_equal.
    replace (n + (b - (a + n)) - Nat.min n (length text - a)) with (b - (a + n)) by lia.
    f_equal. clear. revert text. induction a as [|a IH]; intro text; [reflexivity|].
    destruct text; cbn; [destruct n; reflexivity|]. apply IH.
Qed.

(** Any text: if the hard limit is not reported as too small, the fragments
    concatenate to the segment, none is empty, none exceeds the hard limit, and
    none has a space at or after the soft limit. *)
Theorem C21_fragments : forall soft hard text pos len fs,
  pos + len <= length text -> fragment_segment soft hard text pos len = Some fs ->
  let pieces := map (frag_text text) fs in
  List.concat pieces = sub text pos len /\
  (forall f, In f pieces -> f <> []) /\
  (hard <> 0 -> forall f, In f pieces -> length f <= hard) /\
  (soft <> 0 -> forall f i, In f pieces -> soft <= i < length f -> nth i f 0%Z <> 32%Z) /\
  consecutive pos (pos + len) fs.
Proof.
  intros soft hard text pos len fs Hl E. cbv zeta.
  destruct (fragment_spec len soft hard text pos len pos fs ltac:(lia) ltac:(lia) E) as [H1 H2].
  assert (Hlen : forall f, In f fs -> length (frag_text text f) = snd f /\ 0 < snd f /\ fst f + snd f <= pos + len).
  { intros f Hf. assert (G : 0 < snd f /\ fst f + snd f <= pos + len).
    { clear - H1 Hf. revert H1. generalize pos at 1. generalize (pos + len) as e. intros e a.
      revert a. induction fs as [|[p n] fs IH]; intros a H; [contradiction|].
      cbn in H. destruct H as (-> & Hn & H).
      assert (Hle : a + n <= e).
      { clear - H. revert H. generalize (a + n). induction fs as [|[p m] fs IH]; intros c H; cbn in H; [lia|].
        destruct H as (_ & Hm & H). specialize (IH _ H). lia. }
      destruct Hf as [<-|Hf]; [cbn; lia|]. eapply IH; eassumption. }
    split; [|assumption]. unfold frag_text, sub. rewrite firstn_length, skipn_length. lia. }
  split; [|split; [|split; [|split]]].
  - rewrite <- flat_map_concat_map. rewrite (consecutive_concat text fs pos (pos + len) H1 Hl). f_equal. lia.
  - intros f Hf Ef. apply in_map_iff in Hf. destruct Hf as (g & <- & Hg). destruct (Hlen g Hg) as (L1 & L2 & _).
    rewrite Ef in L1. cbn in L1. lia.
  - intros Hh f Hf. apply in_map_iff in Hf. destruct Hf as (g & <- & Hg). destruct (Hlen g Hg) as (-> & _).
    rewrite Forall_forall in H2. apply H2; assumption.
  - intros Hs f i Hf Hi. apply in_map_iff in Hf. destruct Hf as (g & <- & Hg). destruct (Hlen g Hg) as (L1 & _ & L2).
    rewrite Forall_forall in H2. destruct (H2 g Hg) as [_ G]. rewrite L1 in Hi. specialize (G Hs i Hi).
    unfold frag_text, sub. rewrite nth_firstn_lt, nth_skipn' by lia. assumption.
  - assumption.
Qed.
Print Assumptions C21_fragments.

(** Well-formed text: with a hard limit of at least four bytes (or none) there is no
    exception and every fragment is a sequence of whole characters. *)
Theorem C21_fragments_utf8 : forall soft hard text pos len,
  well_formed text -> boundary text pos -> boundary text (pos + len) ->
  hard = 0 \/ 4 <= hard ->
  exists fs, fragment_segment soft hard text pos len = Some fs /\
    forall f, In f (map (frag_text text) fs) -> well_formed f.
Proof.
  intros soft hard text pos len Hwf Hb1 Hb2 Hh.
  assert (Hl : pos + len <= length text).
  { destruct Hb2 as (a & b & -> & _ & _ & E). rewrite app_length. lia. }
  destruct (fragment_boundaries len soft hard text pos len pos Hwf Hl Hb2 Hb1 ltac:(lia) ltac:(lia) Hh) as (fs & E & H).
  exists fs. split; [exact E|]. intros f Hf. apply in_map_iff in Hf. destruct Hf as (g & <- & Hg).
  rewrite Forall_forall in H. destruct (H g Hg) as [G1 G2]. apply boundary_between; assumption.
Qed.
Print Assumptions C21_fragments_utf8.

(** ** Driving a cutter over a text *)
Section Run.
Context {A St : Type}.
Variable do_cut_off : St -> list Z -> nat -> St * (A * list Z) * option nat.
Variables soft hard : nat.

(** The contract of a concrete cutter: it moves forward, stays within the text and
    the text of its item is what it passed over. *)
Definition honest (text : list Z) : Prop := forall s pos, pos < length text ->
  let '(_, item, pos') := do_cut_off s text pos in
  let p := match pos' with Some p => p | None => length text end in
  pos < p <= length text /\ snd item = sub text pos (p - pos).

(** ... and cuts at character boundaries. *)
Definition honest_utf8 (text : list Z) : Prop := forall s pos, pos < length text -> boundary text pos ->
  let '(_, item, pos') := do_cut_off s text pos in
  match pos' with Some p => boundary text p | None => True end.

Definition span_of (r : (A * list Z) * nat * nat) : nat * nat := (snd (fst r), snd r).

(** The queue holds the texts of consecutive fragments starting at [pos]. *)
Definition queue_ok (text : list Z) (pos : nat) (q : list (A * list Z)) : Prop :=
  exists fs e, map snd q = map (frag_text text) fs /\ consecutive pos e fs /\ e <= length text /\
    Forall (frag_ok soft hard text) fs.

Lemma consecutive_le : forall fs a b, consecutive a b fs -> a <= b.
Proof.
  induction fs as [|[p n] fs IH]; intros a b H; cbn in H; [lia|]. destruct H as (_ & Hn & H). apply IH in H. lia.
Qed.

Lemma frag_text_length : forall text p n, p + n <= length text -> length (frag_text text (p, n)) = n.
Proof. intros. unfold frag_text, sub. cbn [fst snd]. rewrite firstn_length, skipn_length. lia. Qed.

(** One call. *)
Lemma cut_off_spec : forall c text pos c' item pos', honest text -> pos < length text ->
  queue_ok text pos (queue c) ->
  cut_off do_cut_off soft hard c text pos = Some (c', item, pos') ->
  let p := match pos' with Some p => p | None => length text end in
  pos < p <= length text /\ snd item = sub text pos (p - pos) /\ (hard <> 0 -> p - pos <= hard) /\
  (soft <> 0 -> forall i, pos + soft <= i < p -> nth i text 0%Z <> 32%Z) /\
  queue_ok text p (queue c').
Proof.
  intros c text pos c' item pos' Hh Hpos Hq E.
  (* taking the first of a non-empty queue *)
  assert (Hfirst : forall c0, queue c0 <> [] -> queue_ok text pos (queue c0) ->
    first_in_queue c0 text pos = Some (c', item, pos') ->
    let p := match pos' with Some p => p | None => length text end in
    pos < p <= length text /\ snd item = sub text pos (p - pos) /\ (hard <> 0 -> p - pos <= hard) /\
    (soft <> 0 -> forall i, pos + soft <= i < p -> nth i text 0%Z <> 32%Z) /\
    queue_ok text p (queue c')).
  { intros c0 Hne (fs & e & Hm & Hc & He & Hok) E0. unfold first_in_queue in E0.
    destruct (queue c0) as [|it q]; [congruence|]. destruct fs as [|[p0 n0] fs]; [discriminate|].
    cbn [map] in Hm. injection Hm as Hit Hm. cbn [consecutive] in Hc. destruct Hc as (-> & Hn & Hc).
    pose proof (consecutive_le _ _ _ Hc) as Hle.
    rewrite Hit, frag_text_length in E0 by lia.
    injection E0 as <- <- <-. inversion Hok as [|? ? [Ok1 Ok2] Hok']; subst. cbn [fst snd] in *.
    assert (Ep : match (if pos + n0 =? length text then None else Some (pos + n0)) with
                 | Some p => p | None => length text end = pos + n0).
    { destruct (Nat.eqb_spec (pos + n0) (length text)); [symmetry; assumption|reflexivity]. }
    rewrite Ep. cbv zeta. replace (pos + n0 - pos) with n0 by lia.
    split; [lia|]. split; [assumption|]. split; [assumption|]. split.
    - intros Hs i Hi. replace i with (pos + (i - pos)) by lia. apply Ok2; [assumption|lia].
    - exists fs, e. cbn [queue]. auto. }
  unfold cut_off in E. destruct (queue c) as [|it q] eqn:Eq.
  - specialize (Hh (st c) pos Hpos). destruct (do_cut_off (st c) text pos) as [[s' it] p0].
    cbv zeta in Hh, E. set (rp := match p0 with Some p => p | None => length text end) in *.
    destruct Hh as [Hr Ht].
    destruct (limit_broken soft (rp - pos) || limit_broken hard (rp - pos)) eqn:El.
    + destruct (fragment_segment soft hard text pos (rp - pos)) as [frags|] eqn:Ef; [|discriminate].
      destruct (fragment_spec (rp - pos) soft hard text pos (rp - pos) pos frags ltac:(lia) ltac:(lia) Ef) as [F1 F2].
      apply (Hfirst {| st := s'; queue := map (fun f => (fst it, sub text (fst f) (snd f))) frags |}).
      * cbn [queue]. destruct frags; [cbn in F1; lia|discriminate].
      * cbn [queue]. exists frags, (pos + (rp - pos)). split; [rewrite map_map; reflexivity|].
        split; [assumption|]. split; [lia|assumption].
      * assumption.
    + injection E as <- <- <-. apply orb_false_iff in El. destruct El as [El1 El2].
      fold rp. cbv zeta. split; [assumption|]. split; [assumption|].
      assert (L : forall l, l <> 0 -> limit_broken l (rp - pos) = false -> rp - pos < l).
      { intros l Hl Eb. destruct (Nat.lt_ge_cases (rp - pos) l); [assumption|].
        assert (limit_broken l (rp - pos) = true) by (apply limit_broken_iff; lia). congruence. }
      split; [intro Hd; specialize (L hard Hd El2); lia|]. split.
      * intros Hs i Hi. specialize (L soft Hs El1). lia.
      * exists [], rp. cbn. repeat split; auto. lia.
  - rewrite <- Eq in Hq. apply (Hfirst c); [rewrite Eq; discriminate|assumption|]. exact E.
Qed.

Lemma run_cutter_spec : forall fuel c text pos items, honest text -> pos < length text ->
  length text - pos <= fuel -> queue_ok text pos (queue c) ->
  run_cutter do_cut_off soft hard fuel c text pos = Some items ->
  consecutive pos (length text) (map span_of items) /\
  Forall (fun r => snd (fst (fst r)) = frag_text text (span_of r) /\ frag_ok soft hard text (span_of r)) items.
Proof.
  induction fuel as [|fuel IH]; intros c text pos items Hh Hpos Hf Hq E; [lia|].
  cbn [run_cutter] in E.
  destruct (cut_off do_cut_off soft hard c text pos) as [[[c' item] pos']|] eqn:Ec; [|discriminate].
  pose proof (cut_off_spec c text pos c' item pos' Hh Hpos Hq Ec) as (S1 & S2 & S3 & S4 & S5).
  cbv zeta in *. set (p := match pos' with Some p => p | None => length text end) in *.
  assert (Hthis : snd item = frag_text text (span_of (item, pos, p - pos)) /\ frag_ok soft hard text (span_of (item, pos, p - pos))).
  { split; [assumption|]. split; cbn [span_of fst snd]; [assumption|].
    intros Hs i Hi. apply S4; [assumption|lia]. }
  assert (Hlast : p = length text -> Some [(item, pos, p - pos)] = Some items ->
    consecutive pos (length text) (map span_of items) /\
    Forall (fun r => snd (fst (fst r)) = frag_text text (span_of r) /\ frag_ok soft hard text (span_of r)) items).
  { intros Ep E0. injection E0 as <-. cbn. split; [split; [reflexivity|]; split; lia|]. constructor; [assumption|constructor]. }
  destruct pos' as [p'|].
  - cbn in p. subst p. destruct (Nat.ltb_spec p' (length text)) as [Hlt|Hge]; [|apply Hlast; [lia|assumption]].
    destruct (run_cutter do_cut_off soft hard fuel c' text p') as [r|] eqn:Er; [|discriminate].
    injection E as <-. destruct (IH c' text p' r Hh Hlt ltac:(lia) S5 Er) as [I1 I2].
    split; [|constructor; assumption]. cbn. split; [reflexivity|]. split; [lia|].
    replace (pos + (p' - pos)) with p' by lia. assumption.
  - apply Hlast; [reflexivity|assumption].
Qed.

(** No exception on well-formed text, with a big enough hard limit. *)
Definition queue_ok8 (text : list Z) (pos : nat) (q : list (A * list Z)) : Prop :=
  exists fs e, map snd q = map (frag_text text) fs /\ consecutive pos e fs /\ e <= length text /\
    Forall (fun f => boundary text (fst f + snd f)) fs.

Lemma cut_off_total : forall c text pos, well_formed text -> hard = 0 \/ 4 <= hard ->
  honest text -> honest_utf8 text -> pos < length text -> boundary text pos ->
  queue_ok8 text pos (queue c) ->
  exists c' item pos', cut_off do_cut_off soft hard c text pos = Some (c', item, pos') /\
    match pos' with
    | Some p => boundary text p /\ queue_ok8 text p (queue c')
    | None => True
    end.
Proof.
  intros c text pos Hwf Hhard Hh Hh8 Hpos Hb Hq.
  assert (Hfirst : forall c0 : cutter A St, queue c0 <> [] -> queue_ok8 text pos (queue c0) ->
    exists c' item pos', first_in_queue c0 text pos = Some (c', item, pos') /\
    match pos' with
    | Some p => boundary text p /\ queue_ok8 text p (queue c')
    | None => True
    end).
  { intros c0 Hne (fs & e & Hm & Hc & He & Hok). unfold first_in_queue.
    destruct (queue c0) as [|it q]; [congruence|]. destruct fs as [|[p0 n0] fs]; [discriminate|].
    cbn [map] in Hm. injection Hm as Hit Hm. cbn [consecutive] in Hc. destruct Hc as (-> & Hn & Hc).
    pose proof (consecutive_le _ _ _ Hc) as Hle.
    rewrite Hit, frag_text_length by lia. do 3 eexists. split; [reflexivity|].
    inversion Hok; subst. cbn [fst snd] in *.
    destruct (pos + n0 =? length text); [exact I|]. split; [assumption|]. exists fs, e. cbn [queue]. auto. }
  unfold cut_off. destruct (queue c) as [|it q] eqn:Eq.
  - specialize (Hh (st c) pos Hpos). specialize (Hh8 (st c) pos Hpos Hb).
    destruct (do_cut_off (st c) text pos) as [[s' it] p0].
    cbv zeta in *. set (rp := match p0 with Some p => p | None => length text end) in *.
    destruct Hh as [Hr Ht].
    assert (Hbr : boundary text rp).
    { destruct p0 as [p|]; cbn in rp; subst rp; [assumption|].
      exists text, []. rewrite app_nil_r. split; [reflexivity|]. split; [assumption|]. split; [apply well_formed_nil|reflexivity]. }
    destruct (limit_broken soft (rp - pos) || limit_broken hard (rp - pos)) eqn:El.
    + assert (Hbr' : boundary text (pos + (rp - pos))) by (replace (pos + (rp - pos)) with rp by lia; assumption).
      destruct (fragment_boundaries (rp - pos) soft hard text pos (rp - pos) pos Hwf ltac:(lia) Hbr' Hb ltac:(lia) ltac:(lia) Hhard)
        as (frags & Ef & Hfr).
      unfold fragment_segment. rewrite Ef.
      destruct (fragment_spec (rp - pos) soft hard text pos (rp - pos) pos frags ltac:(lia) ltac:(lia) Ef) as [F1 F2].
      apply Hfirst; cbn [queue].
      * destruct frags; [cbn in F1; lia|discriminate].
      * exists frags, (pos + (rp - pos)). split; [rewrite map_map; reflexivity|].
        split; [assumption|]. split; [lia|]. eapply Forall_impl; [|apply Hfr]. cbn. tauto.
    + do 3 eexists. split; [reflexivity|]. destruct p0 as [p|]; [|exact I]. split; [assumption|].
      exists [], p. cbn. repeat split; auto. subst rp. lia.
  - rewrite <- Eq in Hq. apply (Hfirst c); [rewrite Eq; discriminate|assumption].
Qed.

Lemma run_cutter_total : forall fuel c text pos, well_formed text -> hard = 0 \/ 4 <= hard ->
  honest text -> honest_utf8 text -> pos < length text -> boundary text pos ->
  queue_ok8 text pos (queue c) ->
  run_cutter do_cut_off soft hard fuel c text pos <> None.
Proof.
  induction fuel as [|fuel IH]; intros c text pos Hwf Hhard Hh Hh8 Hpos Hb Hq; cbn [run_cutter]; [discriminate|].
  destruct (cut_off_total c text pos Hwf Hhard Hh Hh8 Hpos Hb Hq) as (c' & item & pos' & -> & H).
  destruct pos' as [p|]; [|discriminate]. destruct H as [H1 H2].
  destruct (Nat.ltb_spec p (length text)); [|discriminate].
  specialize (IH c' text p Hwf Hhard Hh Hh8 ltac:(assumption) H1 H2).
  destruct (run_cutter do_cut_off soft hard fuel c' text p); [discriminate|congruence].
Qed.

(** Any concrete cutter that keeps its contract: the run covers the whole text, each
    item has the text it covers, no item exceeds the hard limit. *)
Theorem C21_run : forall s0 text items, honest text -> text <> [] ->
  run_cutter do_cut_off soft hard (length text) {| st := s0; queue := [] |} text 0 = Some items ->
  List.concat (map (fun r => snd (fst (fst r))) items) = text /\
  consecutive 0 (length text) (map span_of items) /\
  (forall r, In r items -> snd (fst (fst r)) = sub text (snd (fst r)) (snd r)) /\
  (hard <> 0 -> forall r, In r items -> snd r <= hard) /\
  (soft <> 0 -> forall r i, In r items -> soft <= i < snd r -> nth i (snd (fst (fst r))) 0%Z <> 32%Z).
Proof.
  intros s0 text items Hh Hne E.
  assert (Hl : 0 < length text) by (destruct text; [congruence|cbn; lia]).
  assert (Hq : queue_ok text 0 (queue {| st := s0; queue := [] |})).
  { exists [], 0. cbn. repeat split; auto. lia. }
  destruct (run_cutter_spec (length text) _ text 0 items Hh Hl ltac:(lia) Hq E) as [H1 H2].
  rewrite Forall_forall in H2.
  assert (Hspan : forall r, In r items -> 0 < snd r /\ snd (fst r) + snd r <= length text).
  { clear - H1. revert H1. generalize 0 at 1. generalize (length text) as e. intros e a. revert a.
    induction items as [|[[it p] n] items IH]; intros a H r Hr; [contradiction|].
    cbn [map span_of consecutive fst snd] in H. destruct H as (-> & Hn & H). destruct Hr as [<-|Hr].
    - cbn. apply consecutive_le in H. lia.
    - eapply IH; eassumption. }
  split; [|split; [|split; [|split]]].
  - assert (Em : map (fun r : A * list Z * nat * nat => snd (fst (fst r))) items = map (frag_text text) (map span_of items)).
    { rewrite map_map. apply map_ext_in. intros r Hr. apply H2. assumption. }
    rewrite Em, <- flat_map_concat_map, (consecutive_concat text _ 0 (length text) H1 (le_n _)).
    unfold sub. cbn. rewrite Nat.sub_0_r. apply firstn_all.
  - assumption.
  - intros r Hr. apply H2. assumption.
  - intros Hd r Hr. apply (H2 r Hr). assumption.
  - intros Hs r i Hr Hi. destruct (H2 r Hr) as [G1 [_ G2]]. rewrite G1. specialize (Hspan r Hr).
    unfold frag_text, sub, span_of. cbn [fst snd]. rewrite nth_firstn_lt, nth_skipn' by lia.
    apply (G2 Hs). assumption.
Qed.

Theorem C21_run_utf8 : forall s0 text, honest text -> honest_utf8 text -> well_formed text -> text <> [] ->
  hard = 0 \/ 4 <= hard ->
  exists items, run_cutter do_cut_off soft hard (length text) {| st := s0; queue := [] |} text 0 = Some items.
Proof.
  intros s0 text Hh Hh8 Hwf Hne Hhard.
  destruct (run_cutter do_cut_off soft hard (length text) {| st := s0; queue := [] |} text 0) as [items|] eqn:E; [eauto|].
  exfalso. revert E. apply run_cutter_total; try assumption.
  - destruct text; [congruence|cbn; lia].
  - apply boundary_0. assumption.
  - exists [], 0. cbn. repeat split; auto. lia.
Qed.
End Run.
Print Assumptions C21_run.
Print Assumptions C21_run_utf8.

(** "za żółwiem" as one segment, soft limit 2 and hard limit 4: the cuts fall at
    the space and between characters only. *)
Definition one_segment (s : unit) (text : list Z) (pos : nat) : unit * (nat * list Z) * option nat :=
  (s, (7, skipn pos text), None).

Example C21_witness :
  let text := [122; 97; 32; 197; 188; 195; 179; 197; 130; 119; 105; 101; 109]%Z in
  option_map (map (fun r => (snd (fst (fst r)), snd (fst r))))
    (run_cutter one_segment 2 4 (length text) {| st := tt; queue := [] |} text 0) =
  Some [([122; 97]%Z, 0); ([32; 197; 188]%Z, 2); ([195; 179; 197; 130]%Z, 5); ([119; 105; 101; 109]%Z, 9)].
Proof. vm_compute. reflexivity. Qed.

Example C21_honest_instance : forall text, honest one_segment text /\ honest_utf8 one_segment text.
Proof.
  intro text. split; intros s pos H; cbn; [|auto]. split; [lia|].
  unfold sub. symmetry. apply firstn_all2. rewrite skipn_length. lia.
Qed.

(** A limit below four bytes can make the cutter throw on well-formed text. *)
Theorem C21_small_hard_limit_refuted :
  well_formed [240; 159; 144; 162]%Z /\ fragment_segment 0 3 [240; 159; 144; 162]%Z 0 4 = None.
Proof.
  split; [|vm_compute; reflexivity]. exists [128034%Z]. split; [|vm_compute; reflexivity].
  constructor; [|constructor]. right. lia.
Qed.
Print Assumptions C21_small_hard_limit_refuted.

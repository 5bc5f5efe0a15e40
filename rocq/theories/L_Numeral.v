(** Lemmas for numerals: facts about groups of digits by computation, and the loop over groups. *)
From Coq Require Import String Ascii List NArith PeanoNat Bool Lia.
From Verif Require Import M_Numeral S_Numeral.
Import ListNotations.
Local Open Scope string_scope.
Local Open Scope list_scope.
Local Open Scope nat_scope.

(** Values of digits. *)
Definition val (c : list ascii) : nat := fold_left (fun a d => 10 * a + dix d) c 0.
Definition number (n : list ascii) : N := fold_left (fun a d => (10 * a + N.of_nat (dix d))%N) n 0%N.
Definition digits : list ascii := map ascii_of_nat (seq 48 10).
Lemma digit_in c : is_digit c = true -> In c digits.
Proof.
  unfold is_digit. rewrite andb_true_iff, !Nat.leb_le. intros [L1 L2]. rewrite <- (ascii_nat_embedding c). apply in_map, in_seq. lia.
Qed.
Definition all_chunks : list (list ascii) :=
  map (fun a => [a]) digits ++ flat_map (fun a => map (fun b => [a; b]) digits) digits
  ++ flat_map (fun a => flat_map (fun b => map (fun c => [a; b; c]) digits) digits) digits.
Lemma chunk_in c : forallb is_digit c = true -> 1 <= length c <= 3 -> In c all_chunks.
Proof.
  intros D L. unfold all_chunks. rewrite !in_app_iff. destruct c as [|a [|b [|d [|]]]]; cbn in L; try lia; cbn in D; rewrite ?andb_true_iff in D.
  - left. apply (in_map (fun a => [a])). apply digit_in. tauto.
  - right; left. apply in_flat_map. exists a. split; [apply digit_in; tauto|]. apply (in_map (fun b => [a; b])). apply digit_in; tauto.
  - right; right. apply in_flat_map. exists a. split; [apply digit_in; tauto|]. apply in_flat_map. exists b. split; [apply digit_in; tauto|].
    apply (in_map (fun d => [a; b; d])). apply digit_in; tauto.
Qed.

(** Texts. *)
Fixpoint blanks (s : string) : nat := match s with EmptyString => 0 | String c s => (if (c =? " ")%char then 1 else 0) + blanks s end.
Definition good (w : string) : bool := match w with EmptyString => false | _ => blanks w =? 0 end.
Definition text (ws : list string) : string := String.concat " " ws.
Lemma append_nil s : (s ++ "")%string = s.
Proof. induction s; cbn; congruence. Qed.
Lemma append_assoc a b c : ((a ++ b) ++ c)%string = (a ++ (b ++ c))%string.
Proof. induction a; cbn; congruence. Qed.
Lemma blanks_app a b : blanks (a ++ b) = blanks a + blanks b.
Proof. induction a as [|c a IH]; cbn; [easy|]. rewrite IH. lia. Qed.
Lemma text_cons w ws : ws <> [] -> text (w :: ws) = (w ++ " " ++ text ws)%string.
Proof. destruct ws; easy. Qed.
Lemma text_app a b : a <> [] -> b <> [] -> text (a ++ b) = (text a ++ " " ++ text b)%string.
Proof.
  intros Na Nb. induction a as [|w a IH]; [easy|]. destruct a as [|x a].
  - cbn [app]. now rewrite text_cons.
  - change ((w :: x :: a) ++ b) with (w :: ((x :: a) ++ b)). rewrite text_cons, IH, (text_cons w) by easy. now rewrite !append_assoc.
Qed.
Lemma good_not_blank w : good w = true -> exists c s, w = String c s /\ (c =? " ")%char = false.
Proof. destruct w as [|c s]; [easy|]. cbn. destruct (c =? " ")%char eqn:E; [easy|]. intros _. exists c, s. easy. Qed.
Lemma text_starts ws : ws <> [] -> forallb good ws = true -> exists c s, text ws = String c s /\ (c =? " ")%char = false.
Proof.
  destruct ws as [|w ws]; [easy|]. intros _ G. cbn in G. apply andb_true_iff in G as [G _]. apply good_not_blank in G as (c & s & -> & E).
  destruct ws; [now exists c, s|]. rewrite text_cons by easy. exists c, (s ++ " " ++ text (s0 :: ws))%string. easy.
Qed.
Lemma text_empty ws : forallb good ws = true -> text ws = "" -> ws = [].
Proof. intros G E. destruct ws as [|w ws]; [easy|]. destruct (text_starts (w :: ws)) as (c & s & E' & _); [easy|easy|]. congruence. Qed.
Lemma prepend_text p ws : forallb good p = true -> forallb good ws = true -> prepend (text ws) (text p) CARDINAL = text (p ++ ws).
Proof.
  intros Gp Gw. destruct ws as [|w ws]; [cbn; now rewrite app_nil_r|]. destruct (text_starts (w :: ws)) as (c & s & E & Eb); [easy|easy|].
  unfold prepend. rewrite E, Eb. destruct p as [|x p]; [now rewrite <- E|]. destruct (text_starts (x :: p)) as (c' & s' & E' & _); [easy|easy|].
  rewrite E', <- E, <- E'. symmetry. apply text_app; easy.
Qed.
Lemma text_blanks ws : ws <> [] -> forallb good ws = true -> blanks (text ws) = length ws - 1.
Proof.
  induction ws as [|w ws IH]; [easy|]. intros _ G. cbn in G. apply andb_true_iff in G as [Gw G]. destruct ws as [|x ws].
  - cbn. destruct w; [easy|]. now apply Nat.eqb_eq in Gw.
  - rewrite text_cons by easy. rewrite !blanks_app, IH by easy. destruct w as [|c w]; [easy|]. unfold good in Gw. apply Nat.eqb_eq in Gw. rewrite Gw. cbn [length blanks]. cbn. lia.
Qed.

(** Facts about groups, each by trying all of them. *)
Definition list_eqb (a b : list string) : bool := if list_eq_dec string_dec a b then true else false.
Definition as_gov (g : nat) : government := match g with 0 => ZERO | 1 => JEDEN | _ => if few g then DWA else PIEC end.
Definition gov_eqb (a b : government) : bool := match a, b with ZERO, ZERO | JEDEN, JEDEN | DWA, DWA | PIEC, PIEC => true | _, _ => false end.
Definition filled (c : list ascii) : bool := negb (val c =? 0) || (length c =? 3).
Definition small_c := small below20 by_tens by_hundreds.
Definition codes_ok (r : string * string) : bool := (blanks (fst r) =? blanks (snd r)) && Bool.eqb (String.length (fst r) =? 0) (String.length (snd r) =? 0) && negb (prefix " " (fst r)) && negb (prefix " " (snd r)).
Definition chunk_ok (c : list ascii) : bool :=
  (val c <? 1000)
  && match select_government c with Some g => gov_eqb g (as_gov (val c)) | None => false end
  && forallb good (small_c (val c)) && forallb good (ordinal_group 0 (val c))
  && Bool.eqb (length (small_c (val c)) =? 0) (val c =? 0) && Bool.eqb (length (ordinal_group 0 (val c)) =? 0) (val c =? 0)
  && (negb (filled c) || ((fst (three_digits CARDINAL c) =? text (small_c (val c)))%string && codes_ok (three_digits CARDINAL c)
        && (fst (three_digits ORDINAL c) =? text (ordinal_group 0 (val c)))%string && codes_ok (three_digits ORDINAL c)))
  && ((val c =? 0) || (fst (three_digits BEFORE_NOUN c) =? String.concat "" (small below20_of by_tens_of by_hundreds_of (val c)))%string
        && (blanks (fst (three_digits BEFORE_NOUN c)) =? 0)).
Lemma chunks_checked : forallb chunk_ok all_chunks = true.
Proof. vm_compute. reflexivity. Qed.
Definition rank_ok (r : nat) : bool :=
  (thomil CARDINAL r =? one_power r)%string && (thomil CARDINAL_NPL r =? few_powers r)%string && (thomil CARDINAL_GPL r =? many_powers r)%string
  && (thomil ORDINAL r =? power_th r)%string && good (one_power r) && good (few_powers r) && good (many_powers r) && good (power_th r).
Lemma ranks_checked : forallb rank_ok (seq 1 219) = true.
Proof. vm_compute. reflexivity. Qed.

(** Codes. *)
Lemma codes_iff a : codes_ok a = true <->
  blanks (fst a) = blanks (snd a) /\ (fst a = "" <-> snd a = "") /\ prefix " " (fst a) = false /\ prefix " " (snd a) = false.
Proof.
  unfold codes_ok. rewrite !andb_true_iff, !negb_true_iff, Nat.eqb_eq, eqb_true_iff.
  assert (E : forall s, (String.length s =? 0) = true <-> s = "") by (intros []; split; intros X; cbn in *; congruence).
  split.
  - intros [[[A B] C] D]. split; [easy|]. split; [|easy]. split; intros X; apply E; apply E in X; congruence.
  - intros (A & B & C & D). split; [split; [split; [easy|]|easy]|easy]. apply eq_true_iff_eq. split; intros X; apply E; apply E in X; now apply B.
Qed.
Lemma prefix_blank c s : prefix " " (String c s) = false <-> (c =? " ")%char = false.
Proof.
  cbn [prefix]. destruct (ascii_dec " " c) as [<-|N]; cbn.
  - split; [|easy]. destruct s; easy.
  - split; [|easy]. intros _. apply Ascii.eqb_neq. congruence.
Qed.
Lemma prefix_app a b : a <> "" -> prefix " " (a ++ b) = prefix " " a.
Proof. destruct a as [|c a]; [easy|]. intros _. cbn [append prefix]. destruct (ascii_dec " " c); [|reflexivity]. destruct a; [destruct b|]; reflexivity. Qed.
Lemma prepend_codes a p : codes_ok a = true -> codes_ok p = true -> codes_ok (prepend (fst a) (fst p) CARDINAL, prepend (snd a) (snd p) CARDINAL) = true.
Proof.
  destruct a as [ta ca], p as [tp cp]. rewrite !codes_iff. cbn [fst snd]. intros (A1 & A2 & A3 & A4) (B1 & B2 & B3 & B4). unfold prepend.
  destruct ta as [|x ta].
  - assert (ca = "") as -> by now apply A2. easy.
  - destruct ca as [|y ca]; [exfalso; assert (String x ta = "") by (now apply A2); easy|]. apply prefix_blank in A3, A4. rewrite A3, A4.
    destruct tp as [|x' tp].
    + assert (cp = "") as -> by now apply B2. split; [easy|]. split; [easy|]. now rewrite !prefix_blank.
    + destruct cp as [|y' cp]; [exfalso; assert (String x' tp = "") by (now apply B2); easy|]. split; [|split; [|split]].
      * cbn [joiner is_form]. rewrite !blanks_app. unfold joiner. cbn [is_form]. rewrite A1, B1. easy.
      * easy.
      * now rewrite prefix_app.
      * now rewrite prefix_app.
Qed.
Lemma codes_snoc a u v : codes_ok a = true -> fst a <> "" -> blanks u = 0 -> blanks v = 0 -> codes_ok ((fst a ++ " " ++ u)%string, (snd a ++ " " ++ v)%string) = true.
Proof.
  rewrite !codes_iff. cbn [fst snd]. intros (A1 & A2 & A3 & A4) N U V. assert (N' : snd a <> "") by (intros E; apply N; now apply A2).
  rewrite !prefix_app by easy. rewrite !blanks_app, U, V, A1. split; [easy|]. split; [|easy]. destruct (fst a), (snd a); easy.
Qed.

(** Groups. *)
Lemma chunk_facts c : forallb is_digit c = true -> 1 <= length c <= 3 -> chunk_ok c = true.
Proof. intros D L. pose proof chunks_checked as K. rewrite forallb_forall in K. apply K. now apply chunk_in. Qed.
Lemma rank_facts r : 1 <= r < 220 -> rank_ok r = true.
Proof. intros L. pose proof ranks_checked as K. rewrite forallb_forall in K. apply K. apply in_seq. lia. Qed.
Lemma good_blanks w : good w = true -> blanks w = 0.
Proof. destruct w; [easy|]. unfold good. apply Nat.eqb_eq. Qed.
Lemma forallb_snoc {A} (f : A -> bool) l x : forallb f (l ++ [x]) = forallb f l && f x.
Proof. rewrite forallb_app. cbn. now rewrite andb_true_r. Qed.
Lemma small_nonempty c : chunk_ok c = true -> val c <> 0 -> small_c (val c) <> [].
Proof.
  unfold chunk_ok. rewrite !andb_true_iff. intros K N E. destruct K as [[[[[[[_ _] _] _] K] _] _] _]. rewrite E in K. cbn [length] in K. apply Nat.eqb_neq in N. rewrite N in K. easy.
Qed.
(** A part that is cardinal. *)
Lemma part_cardinal c r : forallb is_digit c = true -> 1 <= length c <= 3 -> r < 220 -> (r = 0 -> filled c = true) ->
  fst (convert_part CARDINAL c r) = text (cardinal_group r (val c)) /\ forallb good (cardinal_group r (val c)) = true
  /\ (cardinal_group r (val c) = [] <-> val c = 0) /\ codes_ok (convert_part CARDINAL c r) = true.
Proof.
  intros D L Lr F. pose proof (chunk_facts c D L) as K. pose proof (small_nonempty c K) as Ne. unfold chunk_ok in K. rewrite !andb_true_iff in K.
  destruct K as [[[[[[[_ Kg] Ks] _] Ke] _] Kf] _]. destruct r as [|r].
  - specialize (F eq_refl). rewrite F in Kf. cbn [negb orb] in Kf. rewrite !andb_true_iff in Kf. destruct Kf as [[[K1 K2] _] _].
    apply String.eqb_eq in K1. cbn [convert_part cardinal_group]. fold small_c. split; [easy|]. split; [easy|]. split; [|easy].
    apply eqb_prop in Ke. split; intros E.
    + rewrite E in Ke. cbn [length] in Ke. rewrite Nat.eqb_refl in Ke. exact (proj1 (Nat.eqb_eq _ _) (eq_sym Ke)).
    + rewrite (proj2 (Nat.eqb_eq _ _) E) in Ke. apply Nat.eqb_eq in Ke. now apply length_zero_iff_nil.
  - pose proof (rank_facts (S r) ltac:(lia)) as R. unfold rank_ok in R. rewrite !andb_true_iff in R. destruct R as [[[[[[[R1 R2] R3] R4] G1] G2] G3] G4].
    apply String.eqb_eq in R1, R2, R3, R4. cbn [convert_part]. unfold cardinal_part, cardinal_group. fold small_c.
    destruct (select_government c) as [g|] eqn:Eg; [|easy]. assert (g = as_gov (val c)) as -> by (destruct g, (as_gov (val c)); easy). clear Kg Eg.
    unfold large_unit. rewrite (proj2 (Nat.ltb_lt (S r) 220)) by lia. rewrite R1, R2, R3. unfold as_gov. destruct (val c) as [|[|k]] eqn:Ev.
    + split; [easy|]. split; [easy|]. split; [easy|]. easy.
    + cbn [fst snd]. split; [easy|]. split; [cbn [forallb]; now rewrite G1|]. split; [easy|]. apply codes_iff. cbn [fst snd].
      cbn [form_index nth]. split; [exact (good_blanks _ G1)|]. destruct (good_not_blank _ G1) as (x & s & -> & E). split; [easy|]. split; [now apply prefix_blank|easy].
    + rewrite <- Ev in *. assert (Fi : filled c = true) by (unfold filled; rewrite Ev; easy). rewrite Fi in Kf. cbn [negb orb] in Kf. rewrite !andb_true_iff in Kf. destruct Kf as [[[K1 K2] _] _].
      apply String.eqb_eq in K1. assert (N : small_c (val c) <> []) by (apply Ne; rewrite Ev; easy).
      assert (Nt : fst (three_digits CARDINAL c) <> "") by (rewrite K1; intros E; apply N; now apply text_empty).
      assert (Bc : blanks (one_power (S r) ++ "_R:3") = 0) by (rewrite blanks_app, (good_blanks _ G1); easy).
      destruct (few (val c)); cbn [fst snd].
      * split; [rewrite K1, text_app; easy|]. split; [rewrite forallb_snoc, Ks, G2; easy|]. split; [split; [now destruct (small_c (val c))|rewrite Ev; easy]|].
        apply codes_snoc; auto. now apply good_blanks.
      * split; [rewrite K1, text_app; easy|]. split; [rewrite forallb_snoc, Ks, G3; easy|]. split; [split; [now destruct (small_c (val c))|rewrite Ev; easy]|].
        apply codes_snoc; auto. now apply good_blanks.
Qed.
Lemma concat_snoc ws w : String.concat "" (ws ++ [w]) = (String.concat "" ws ++ w)%string.
Proof.
  induction ws as [|x ws IH]; [easy|]. destruct ws as [|y ws]; [reflexivity|].
  change (String.concat "" ((x :: y :: ws) ++ [w])) with (x ++ "" ++ String.concat "" ((y :: ws) ++ [w]))%string. rewrite IH.
  change (String.concat "" (x :: y :: ws)) with (x ++ "" ++ String.concat "" (y :: ws))%string. now rewrite !append_assoc.
Qed.
Lemma part_ordinal c r : forallb is_digit c = true -> 1 <= length c <= 3 -> r < 220 -> (r = 0 -> filled c = true) ->
  fst (convert_part ORDINAL c r) = text (ordinal_group r (val c)) /\ forallb good (ordinal_group r (val c)) = true
  /\ (ordinal_group r (val c) = [] <-> val c = 0) /\ codes_ok (convert_part ORDINAL c r) = true.
Proof.
  intros D L Lr F. pose proof (chunk_facts c D L) as K. unfold chunk_ok in K. rewrite !andb_true_iff in K.
  destruct K as [[[[[[[_ Kg] _] Ks] _] Ke] Kf] Kb]. destruct r as [|r].
  - specialize (F eq_refl). rewrite F in Kf. cbn [negb orb] in Kf. rewrite !andb_true_iff in Kf. destruct Kf as [[_ K1] K2].
    apply String.eqb_eq in K1. cbn [convert_part]. split; [easy|]. split; [easy|]. split; [|easy].
    apply eqb_prop in Ke. split; intros E.
    + rewrite E in Ke. cbn [length] in Ke. rewrite Nat.eqb_refl in Ke. exact (proj1 (Nat.eqb_eq _ _) (eq_sym Ke)).
    + rewrite (proj2 (Nat.eqb_eq _ _) E) in Ke. apply Nat.eqb_eq in Ke. now apply length_zero_iff_nil.
  - pose proof (rank_facts (S r) ltac:(lia)) as R. unfold rank_ok in R. rewrite !andb_true_iff in R. destruct R as [[[[[[[R1 R2] R3] R4] G1] G2] G3] G4].
    apply String.eqb_eq in R1, R2, R3, R4. cbn [convert_part]. unfold noncardinal_part. cbn [high_type]. unfold ordinal_group.
    destruct (select_government c) as [g|] eqn:Eg; [|easy]. assert (g = as_gov (val c)) as -> by (destruct g, (as_gov (val c)); easy). clear Kg Eg.
    unfold large_unit. rewrite (proj2 (Nat.ltb_lt (S r) 220)) by lia. rewrite R4. unfold as_gov. pose proof (good_blanks _ G4) as B4.
    destruct (val c) as [|[|k]] eqn:Ev.
    + split; [easy|]. split; [easy|]. split; [easy|]. easy.
    + cbn [fst snd]. split; [easy|]. split; [cbn [forallb]; now rewrite G4|]. split; [easy|]. apply codes_iff. cbn [fst snd form_index nth].
      split; [exact B4|]. destruct (good_not_blank _ G4) as (x & s & -> & E). split; [easy|]. split; [now apply prefix_blank|easy].
    + rewrite <- Ev in *. apply orb_true_iff in Kb as [Kb|Kb]; [apply Nat.eqb_eq in Kb; congruence|]. apply andb_true_iff in Kb as [Kb B]. apply String.eqb_eq in Kb. apply Nat.eqb_eq in B.
      rewrite concat_snoc, <- Kb. set (x := fst (three_digits BEFORE_NOUN c)) in *. assert (Bx : blanks (x ++ power_th (S r)) = 0) by (rewrite blanks_app, B, B4; easy).
      assert (Gx : good (x ++ power_th (S r)) = true).
      { unfold good. destruct (x ++ power_th (S r))%string eqn:E; [|now apply Nat.eqb_eq]. exfalso. destruct (good_not_blank _ G4) as (y & s & E2 & _). rewrite E2 in E. destruct x; easy. }
      assert (T : (if few (val c) then DWA else PIEC) = DWA \/ (if few (val c) then DWA else PIEC) = PIEC) by (destruct (few (val c)); auto).
      assert (Re : (fst (match (if few (val c) then DWA else PIEC) with ZERO => ("", "") | JEDEN => (power_th (S r), "LP-P") | _ => ((x ++ power_th (S r))%string, "LP-P") end)) = (x ++ power_th (S r))%string) by (destruct T as [-> | ->]; easy).
      split; [|split; [cbn [forallb]; now rewrite Gx|split; [rewrite Ev; easy|]]].
      * destruct (few (val c)); reflexivity.
      * destruct (good_not_blank _ Gx) as (y & s & E & E').
        assert (Q : codes_ok ((x ++ power_th (S r))%string, "LP-P") = true). { apply codes_iff. cbn [fst snd]. rewrite E in *. split; [exact Bx|]. split; [easy|]. split; [now apply prefix_blank|easy]. }
        destruct (few (val c)); exact Q.
Qed.

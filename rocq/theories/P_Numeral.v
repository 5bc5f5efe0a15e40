(** C77: numbers in Polish words. *)
From Coq Require Import String Ascii List NArith PeanoNat Bool Lia.
From Verif Require Import M_Numeral S_Numeral L_Numeral.
Import ListNotations.
Local Open Scope string_scope.
Local Open Scope list_scope.
Local Open Scope nat_scope.

Lemma nth_nil j : nth j (@nil nat) 0 = 0. Proof. now destruct j. Qed.
(** ** The loop over groups *)
Fixpoint cwords (r : nat) (vs : list nat) : list string := match vs with [] => [] | v :: vs => cwords (S r) vs ++ cardinal_group r v end.
Fixpoint owords (r : nat) (vs : list nat) : list string :=
  match vs with [] => [] | v :: vs => if v =? 0 then owords (S r) vs else cwords (S r) vs ++ ordinal_group r v end.
Definition chunk (c : list ascii) : Prop := forallb is_digit c = true /\ 1 <= length c <= 3.
Definition starts (r : nat) (cs : list (list ascii)) : Prop := match cs with c :: _ => r = 0 -> filled c = true | [] => True end.
Lemma starts_S r cs : starts (S r) cs. Proof. destruct cs; easy. Qed.
Lemma parts_cardinal cs : forall r acc ws, Forall chunk cs -> starts r cs -> r + length cs <= 220 ->
  fst acc = text ws -> forallb good ws = true -> codes_ok acc = true ->
  let p := convert_parts CARDINAL r cs acc in fst p = text (cwords r (map val cs) ++ ws) /\ forallb good (cwords r (map val cs) ++ ws) = true /\ codes_ok p = true.
Proof.
  induction cs as [|c cs IH]; intros r acc ws F St L E G K; cbn [convert_parts map cwords app]; [easy|]. inversion F as [|? ? [D Lc] F']; subst. cbn [length] in L.
  destruct (part_cardinal c r D Lc) as (P1 & P2 & _ & P4); [lia|exact St|].
  replace (match fst (convert_part CARDINAL c r) with "" => CARDINAL | _ => higher_units CARDINAL end) with CARDINAL by now destruct (fst (convert_part CARDINAL c r)).
  rewrite <- app_assoc. apply IH; auto; [apply starts_S|lia| | |].
  - cbn [fst]. rewrite E, P1. now apply prepend_text.
  - rewrite forallb_app, P2. easy.
  - now apply prepend_codes.
Qed.
Lemma parts_ordinal cs : forall r, Forall chunk cs -> starts r cs -> r + length cs <= 220 ->
  let p := convert_parts ORDINAL r cs ("", "") in fst p = text (owords r (map val cs)) /\ forallb good (owords r (map val cs)) = true /\ codes_ok p = true.
Proof.
  induction cs as [|c cs IH]; intros r F St L; cbn [convert_parts map owords]; [easy|]. inversion F as [|? ? [D Lc] F']; subst. cbn [length] in L.
  destruct (part_ordinal c r D Lc) as (P1 & P2 & P3 & P4); [lia|exact St|]. cbn [fst snd]. destruct (Nat.eqb_spec (val c) 0) as [Z|NZ].
  - assert (Eg : ordinal_group r (val c) = []) by now apply P3. rewrite Eg in P1. cbn in P1. rewrite P1. apply codes_iff in P4 as (_ & P5 & _). rewrite P1 in P5.
    assert (Es : snd (convert_part ORDINAL c r) = "") by now apply P5. rewrite Es. cbn [prepend]. apply IH; [easy|apply starts_S|lia].
  - assert (Ng : fst (convert_part ORDINAL c r) <> "") by (rewrite P1; intros E; apply text_empty in E; [|easy]; apply NZ; now apply P3).
    replace (match fst (convert_part ORDINAL c r) with "" => ORDINAL | _ => higher_units ORDINAL end) with CARDINAL by now destruct (fst (convert_part ORDINAL c r)).
    apply parts_cardinal; auto using starts_S; try lia; cbn [prepend]; now rewrite <- surjective_pairing.
Qed.

(** ** Groups of a number *)
Definition value (vs : list nat) : N := fold_right (fun v a => (N.of_nat v + 1000 * a)%N) 0%N vs.
Lemma number_acc n : forall a, fold_left (fun a d => (10 * a + N.of_nat (dix d))%N) n a = (a * 10 ^ N.of_nat (length n) + number n)%N.
Proof.
  unfold number. induction n as [|c n IH]; intros a; cbn [fold_left length]; [rewrite N.pow_0_r; lia|].
  rewrite IH, (IH (10 * 0 + N.of_nat (dix c))%N), Nat2N.inj_succ, N.pow_succ_r'. lia.
Qed.
Lemma number_app a b : number (a ++ b) = (number a * 10 ^ N.of_nat (length b) + number b)%N.
Proof. unfold number. rewrite fold_left_app, number_acc. easy. Qed.
Lemma val_number c : N.of_nat (val c) = number c.
Proof.
  enough (K : forall a, N.of_nat (fold_left (fun a d => 10 * a + dix d) c a) = fold_left (fun a d => (10 * a + N.of_nat (dix d))%N) c (N.of_nat a)) by apply (K 0).
  induction c as [|d c IH]; intros a; cbn [fold_left]; [easy|]. rewrite IH. f_equal. lia.
Qed.
Lemma value_lt c : chunk c -> val c < 1000.
Proof. intros [D L]. pose proof (chunk_facts c D L) as K. unfold chunk_ok in K. rewrite !andb_true_iff in K. now apply Nat.ltb_lt. Qed.
Lemma chunks_spec fuel : forall r, r <> [] -> length r <= fuel -> forallb is_digit r = true ->
  value (map val (chunks fuel r)) = number (rev r) /\ Forall chunk (chunks fuel r) /\ 3 * length (chunks fuel r) <= length r + 2
  /\ exists c cs, chunks fuel r = c :: cs /\ (length c = 3 \/ c = rev r).
Proof.
  induction fuel as [|f IH]; intros r N L D; [destruct r; cbn in L; [easy|lia]|]. cbn [chunks]. destruct (Nat.leb_spec (length r) 3) as [L3|L3].
  - assert (Dr : forallb is_digit (rev r) = true) by (rewrite forallb_forall in *; intros x I; apply D; now apply in_rev).
    split; [cbn [map value fold_right]; rewrite val_number; lia|]. split; [constructor; [|constructor]|].
    + split; [easy|]. rewrite rev_length. destruct r; [easy|cbn in *; lia].
    + split; [destruct r; [easy|cbn in *; lia]|]. exists (rev r), []. auto.
  - pose proof (firstn_skipn 3 r) as Sp. assert (L1 : length (firstn 3 r) = 3) by (rewrite firstn_length; lia). assert (L2 : length (skipn 3 r) = length r - 3) by now rewrite skipn_length.
    rewrite <- Sp, forallb_app in D. apply andb_true_iff in D as [D1 D2].
    destruct (IH (skipn 3 r)) as (V & F & Lc & _); [destruct (skipn 3 r); [cbn in L2; lia|easy]|lia|easy|].
    split; [|split; [|split]].
    + cbn [map value fold_right]. fold (value (map val (chunks f (skipn 3 r)))). rewrite V, val_number. rewrite <- Sp at 3. rewrite rev_app_distr, number_app, rev_length, L1. lia.
    + constructor; [|easy]. split; [|rewrite rev_length; lia]. rewrite forallb_forall in *. intros x I. apply D1. now apply in_rev.
    + cbn [length]. lia.
    + eexists _, _. split; [reflexivity|]. left. rewrite rev_length. lia.
Qed.
Lemma group_value r : forall vs, Forall (fun v => v < 1000) vs -> group_of (value vs) r = nth r vs 0.
Proof.
  unfold group_of. induction r as [|r IH]; intros vs F.
  - rewrite N.pow_0_r, N.div_1_r. destruct F as [|v vs Lv F]; cbn [value fold_right nth]; [easy|]. fold (value vs).
    replace (N.of_nat v + 1000 * value vs)%N with (N.of_nat v + value vs * 1000)%N by lia. rewrite N.mod_add by lia. rewrite N.mod_small by lia. lia.
  - destruct F as [|v vs Lv F]; cbn [value fold_right nth]; [now rewrite N.div_0_l by (apply N.pow_nonzero; lia)|]. fold (value vs).
    rewrite Nat2N.inj_succ, N.pow_succ_r', <- N.div_div by (try apply N.pow_nonzero; lia).
    replace (N.of_nat v + 1000 * value vs)%N with (N.of_nat v + value vs * 1000)%N by lia. rewrite N.div_add, (N.div_small (N.of_nat v)) by lia. now apply IH.
Qed.
Lemma flat_ext {A B} (f g : A -> list B) l : (forall x, In x l -> f x = g x) -> flat_map f l = flat_map g l.
Proof. intros E. induction l as [|x l IH]; [easy|]. cbn. rewrite E by now left. f_equal. apply IH. intros y I. apply E. now right. Qed.
Lemma group_zero r : cardinal_group r 0 = [] /\ ordinal_group r 0 = []. Proof. now destruct r. Qed.
Lemma cwords_flat m : forall vs k, length vs <= m -> cwords k vs = flat_map (fun r => cardinal_group r (nth (r - k) vs 0)) (rev (seq k m)).
Proof.
  induction m as [|m IH]; intros vs k L; [now destruct vs|]. cbn [seq rev]. rewrite flat_map_app. cbn [flat_map]. rewrite app_nil_r, Nat.sub_diag. destruct vs as [|v vs].
  - cbn [cwords nth]. rewrite (proj1 (group_zero k)), app_nil_r.
    rewrite (flat_ext _ (fun r => cardinal_group r (nth (r - S k) [] 0))); [rewrite <- IH; [easy|cbn; lia]|]. intros x _. now destruct (x - k), (x - S k).
  - cbn [cwords nth]. cbn [length] in L. f_equal. rewrite (IH vs (S k)) by lia. apply flat_ext. intros x I. apply in_rev, in_seq in I. now replace (x - k) with (S (x - S k)) by lia.
Qed.
Lemma owords_flat m : forall vs k, length vs <= m -> Forall (fun v => v < 1000) vs ->
  owords k vs = flat_map (fun r => if N.eqb (value vs mod 1000 ^ N.of_nat (r - k)) 0 then ordinal_group r (nth (r - k) vs 0) else cardinal_group r (nth (r - k) vs 0)) (rev (seq k m)).
Proof.
  induction m as [|m IH]; intros vs k L F; [now destruct vs|]. cbn [seq rev]. rewrite flat_map_app. cbn [flat_map]. rewrite app_nil_r, Nat.sub_diag.
  rewrite N.pow_0_r, N.mod_1_r. cbn [N.eqb]. destruct F as [|v vs Lv F].
  - cbn [owords]. rewrite (nth_nil 0), (proj2 (group_zero k)), app_nil_r. symmetry. clear IH. generalize (rev (seq (S k) m)) as l. intros l.
    rewrite (flat_ext _ (fun _ => [])); [now induction l|]. intros x _. rewrite nth_nil. destruct (group_zero x) as [-> ->]. now destruct (N.eqb _ _).
  - cbn [owords nth]. cbn [length] in L. assert (Md : forall x, In x (rev (seq (S k) m)) -> x - k = S (x - S k) /\
      (value (v :: vs) mod 1000 ^ N.of_nat (x - k) = N.of_nat v + 1000 * (value vs mod 1000 ^ N.of_nat (x - S k)))%N).
    { intros x I. apply in_rev, in_seq in I. assert (E : x - k = S (x - S k)) by lia. split; [easy|]. rewrite E, Nat2N.inj_succ, N.pow_succ_r'.
      cbn [value fold_right]. fold (value vs). set (M := (1000 ^ N.of_nat (x - S k))%N). assert (NM : M <> 0%N) by (apply N.pow_nonzero; lia).
      symmetry. apply (N.mod_unique _ _ (value vs / M)).
      - pose proof (N.mod_lt (value vs) M NM). nia.
      - pose proof (N.div_mod (value vs) M NM). nia. }
    destruct (Nat.eqb_spec v 0) as [->|NZ].
    + rewrite (proj2 (group_zero k)), app_nil_r. rewrite (IH vs (S k)) by (easy || lia). apply flat_ext. intros x I. destruct (Md x I) as [E1 E2].
      rewrite E2, E1. cbn [nth]. cbn [N.of_nat]. rewrite N.add_0_l. replace (1000 * (value vs mod 1000 ^ N.of_nat (x - S k)) =? 0)%N with (value vs mod 1000 ^ N.of_nat (x - S k) =? 0)%N; [easy|].
      apply eq_true_iff_eq. rewrite !N.eqb_eq. lia.
    + f_equal. rewrite (cwords_flat m vs (S k)) by lia. apply flat_ext. intros x I. destruct (Md x I) as [E1 E2]. rewrite E2, E1. cbn [nth].
      now rewrite (proj2 (N.eqb_neq _ _)) by lia.
Qed.

(** ** Zero and one *)
Lemma zeros_number n : forallb is_digit n = true -> forallb (fun c => (c =? "0")%char) n = true <-> number n = 0%N.
Proof.
  induction n as [|c n IH] using rev_ind; [easy|]. rewrite !forallb_app. cbn [forallb]. rewrite !andb_true_r, !andb_true_iff. intros [D Dc].
  rewrite (IH D), number_app. cbn [length]. change (number [c]) with (N.of_nat (dix c)). change (10 ^ N.of_nat 1)%N with 10%N.
  assert (E : (c =? "0")%char = true <-> dix c = 0).
  { apply digit_in in Dc. cbn in Dc. repeat (destruct Dc as [<-|Dc]; [cbn; easy|]). easy. }
  rewrite E. lia.
Qed.
Lemma equals_number n d : (d = "0"%char \/ d = "1"%char) -> n <> [] -> forallb is_digit n = true -> equals n d = true <-> number n = N.of_nat (dix d).
Proof.
  intros Hd N D. destruct (exists_last N) as (l & c & ->). unfold equals. rewrite last_last, removelast_last. rewrite forallb_app in D. apply andb_true_iff in D as [D Dc]. cbn in Dc. rewrite andb_true_r in Dc.
  rewrite andb_true_iff, (zeros_number l D), number_app. cbn [length]. change (number [c]) with (N.of_nat (dix c)). change (10 ^ N.of_nat 1)%N with 10%N.
  assert (E : (c =? d)%char = true <-> dix c = dix d).
  { apply digit_in in Dc. cbn in Dc. destruct Hd as [-> | ->]; (repeat (destruct Dc as [<-|Dc]; [cbn; easy|])); easy. }
  rewrite E. destruct Hd as [-> | ->]; cbn; lia.
Qed.
Lemma integer_parts n : forallb is_digit n = true -> 1 <= length n <= 660 -> number n <> 0%N -> number n <> 1%N ->
  let vs := map val (chunks (length n) (rev n)) in
  number n = value vs /\ Forall (fun v => v < 1000) vs /\ length vs <= 220
  /\ Forall chunk (chunks (length n) (rev n)) /\ starts 0 (chunks (length n) (rev n)).
Proof.
  intros D L N0 N1 vs. destruct (chunks_spec (length n) (rev n)) as (V & F & Lc & c & cs & E & St).
  - intros E. apply (f_equal (@rev ascii)) in E. rewrite rev_involutive in E. subst n. cbn in L. lia.
  - now rewrite rev_length.
  - rewrite forallb_forall in *. intros x I. apply D. now apply in_rev.
  - rewrite rev_involutive in *. split; [easy|]. split; [|split; [|split]].
    + unfold vs. apply Forall_map. eapply Forall_impl; [|exact F]. intros x. apply value_lt.
    + unfold vs. rewrite map_length. rewrite rev_length in Lc. lia.
    + easy.
    + rewrite E in *. cbn [starts]. intros _. unfold filled. destruct St as [St|St]; [rewrite St; apply orb_true_r|].
      rewrite (proj2 (Nat.eqb_neq (val c) 0)); [easy|]. intros Z. apply N0. rewrite <- St, <- val_number, Z. easy.
Qed.

(** ** Theorems *)
Lemma unfold_integer f n : forallb is_digit n = true -> n <> [] -> integer f n =
  if N.eqb (number n) 0 then Some (zero_words f) else if N.eqb (number n) 1 then Some (one_words f)
  else let nt := match f with CARDINAL_F => CARDINAL | CARDINAL_FG => CARDINAL_G | _ => f end in
       let r := convert_parts nt 0 (chunks (length n) (rev n)) ("", "") in
       Some (if is_form f CARDINAL_F && ends_with (fst r) "dwa" then ((cut_end 3 (fst r) ++ "dwie")%string, (cut_end 4 (snd r) ++ "dwa_LG:z")%string) else r).
Proof.
  intros D N. unfold integer. rewrite D. cbn [negb].
  pose proof (equals_number n "0"%char (or_introl eq_refl) N D) as E0. pose proof (equals_number n "1"%char (or_intror eq_refl) N D) as E1.
  change (N.of_nat (dix "0")) with 0%N in E0. change (N.of_nat (dix "1")) with 1%N in E1. rewrite <- N.eqb_eq in E0, E1. apply eq_true_iff_eq in E0, E1. rewrite E0, E1. now destruct n.
Qed.
(** Numbers of up to 660 digits as cardinals and ordinals; there is one code of inflection for each word. *)
Theorem C77_cardinal n : forallb is_digit n = true -> 1 <= length n <= 660 ->
  exists codes, integer CARDINAL n = Some (String.concat " " (cardinal 220 (number n)), codes) /\ blanks codes = length (cardinal 220 (number n)) - 1.
Proof.
  intros D L. rewrite unfold_integer; [|easy|intros ->; cbn in L; lia].
  destruct (N.eqb_spec (number n) 0) as [E|N0]; [rewrite E; exists "R:5"; easy|].
  destruct (N.eqb_spec (number n) 1) as [E|N1]; [rewrite E; exists "ZP:z"; split; vm_compute; reflexivity|].
  destruct (integer_parts n D L N0 N1) as (V & F & Lv & Fc & St). set (cs := chunks (length n) (rev n)) in *. cbv zeta. cbn [is_form form_eq andb]. 
  destruct (parts_cardinal cs 0 ("", "") []) as (P1 & P2 & P3); auto; [rewrite map_length in Lv; lia|]. rewrite app_nil_r in P1, P2.
  assert (W : cwords 0 (map val cs) = cardinal 220 (number n)).
  { rewrite (cwords_flat 220) by easy. unfold cardinal. rewrite (proj2 (N.eqb_neq _ _)) by easy. unfold down. apply flat_ext. intros r _. now rewrite V, (group_value r _ F), Nat.sub_0_r. }
  rewrite W in P1, P2. exists (snd (convert_parts CARDINAL 0 cs ("", ""))). change (is_form CARDINAL CARDINAL_F) with false. cbn [andb].
  fold (text (cardinal 220 (number n))). split; [rewrite <- P1; now rewrite <- surjective_pairing|].
  apply codes_iff in P3 as (P3 & P4 & _). rewrite <- P3, P1. destruct (cardinal 220 (number n)) as [|w ws] eqn:Ec; [easy|]. now apply text_blanks.
Qed.
Print Assumptions C77_cardinal.
Definition d (s : string) : list ascii := list_ascii_of_string s.
Example C77_cardinal_some : integer CARDINAL (d "1021002") = Some ("milion dwadzieścia jeden tysięcy dwa", "R:3 LG:r 0 tysiąc_R:3 LG:z") /\ number (d "1021002") = 1021002%N.
Proof. split; vm_compute; reflexivity. Qed.
Theorem C77_ordinal n : forallb is_digit n = true -> 1 <= length n <= 660 ->
  exists codes, integer ORDINAL n = Some (String.concat " " (ordinal 220 (number n)), codes) /\ blanks codes = length (ordinal 220 (number n)) - 1.
Proof.
  intros D L. rewrite unfold_integer; [|easy|intros ->; cbn in L; lia].
  destruct (N.eqb_spec (number n) 0) as [E|N0]; [rewrite E; exists "P"; easy|].
  destruct (N.eqb_spec (number n) 1) as [E|N1]; [rewrite E; exists "LP-P"; split; vm_compute; reflexivity|].
  destruct (integer_parts n D L N0 N1) as (V & F & Lv & Fc & St). set (cs := chunks (length n) (rev n)) in *. cbv zeta.
  destruct (parts_ordinal cs 0) as (P1 & P2 & P3); auto; [rewrite map_length in Lv; lia|].
  assert (W : owords 0 (map val cs) = ordinal 220 (number n)).
  { rewrite (owords_flat 220) by easy. unfold ordinal. rewrite (proj2 (N.eqb_neq _ _)) by easy. unfold down. apply flat_ext. intros r _. now rewrite V, (group_value r _ F), Nat.sub_0_r. }
  rewrite W in P1, P2. exists (snd (convert_parts ORDINAL 0 cs ("", ""))). change (is_form ORDINAL CARDINAL_F) with false. cbn [andb].
  fold (text (ordinal 220 (number n))). split; [rewrite <- P1; now rewrite <- surjective_pairing|].
  apply codes_iff in P3 as (P3 & P4 & _). rewrite <- P3, P1. destruct (ordinal 220 (number n)) as [|w ws] eqn:Ec; [easy|]. now apply text_blanks.
Qed.
Print Assumptions C77_ordinal.
Example C77_ordinal_some : integer ORDINAL (d "2000") = Some ("dwutysięczny", "LP-P") /\ integer ORDINAL (d "1200345") = Some ("milion dwieście tysięcy trzysta czterdziesty piąty", "R:3 LG:r tysiąc_R:3 0 LP-P LP-P")
  /\ String.concat " " (ordinal 220 1200345) = "milion dwieście tysięcy trzysta czterdziesty piąty".
Proof. split; [|split]; vm_compute; reflexivity. Qed.

(** ** Reading back *)
(** What a word means: so much more, or so many thousands of thousands. *)
Inductive meaning := Small (v : N) | Power (r : nat).
Definition dictionary : list (string * meaning) :=
  ("zero", Small 0) :: map (fun k => (nth k below20 "", Small (N.of_nat k))) (seq 1 19) ++ map (fun k => (nth k by_tens "", Small (N.of_nat (10 * k)))) (seq 2 8)
  ++ map (fun k => (nth k by_hundreds "", Small (N.of_nat (100 * k)))) (seq 1 9)
  ++ flat_map (fun r => [(one_power r, Power r); (few_powers r, Power r); (many_powers r, Power r)]) (seq 1 219).
Fixpoint lookup (w : string) (l : list (string * meaning)) : option meaning :=
  match l with [] => None | (k, m) :: l => if (k =? w)%string then Some m else lookup w l end.
Definition read_word (s : option (N * N)) (w : string) : option (N * N) :=
  match s, lookup w dictionary with
  | Some (total, group), Some (Small v) => Some (total, group + v)%N
  | Some (total, group), Some (Power r) => Some (total + (if N.eqb group 0 then 1 else group) * 1000 ^ N.of_nat r, 0)%N
  | _, _ => None
  end.
Definition read (ws : list string) : option N := option_map (fun s => fst s + snd s)%N (fold_left read_word ws (Some (0, 0)%N)).
Fixpoint split_blanks (s : string) : list string :=
  match s with
  | EmptyString => [""]
  | String c s => if (c =? " ")%char then "" :: split_blanks s else match split_blanks s with w :: ws => String c w :: ws | [] => [] end
  end.
Lemma split_good w s : blanks w = 0 -> split_blanks (w ++ s) = match split_blanks s with x :: ws => (w ++ x)%string :: ws | [] => [] end.
Proof.
  induction w as [|c w IH]; intros B; [cbn; now destruct (split_blanks s)|]. cbn [append split_blanks]. cbn [blanks] in B. destruct (c =? " ")%char; [lia|].
  rewrite IH by lia. now destruct (split_blanks s).
Qed.
Lemma split_text ws : ws <> [] -> forallb good ws = true -> split_blanks (text ws) = ws.
Proof.
  induction ws as [|w ws IH]; [easy|]. intros _ G. cbn in G. apply andb_true_iff in G as [Gw G]. apply good_blanks in Gw. destruct ws as [|x ws].
  - cbn. rewrite <- (append_nil w) at 1. rewrite split_good by easy. cbn. now rewrite append_nil.
  - rewrite text_cons, split_good by easy. cbn [append split_blanks]. rewrite Ascii.eqb_refl, IH by easy. now rewrite append_nil.
Qed.
Definition is_power (r : nat) (m : option meaning) : bool := match m with Some (Power r') => r' =? r | _ => false end.
Lemma is_power_iff r m : is_power r m = true -> m = Some (Power r).
Proof. destruct m as [[|k]|]; try discriminate. cbn. intros E. apply Nat.eqb_eq in E. now subst. Qed.
Definition powers_ok (r : nat) : bool := forallb (fun w => is_power r (lookup w dictionary)) [one_power r; few_powers r; many_powers r].
Lemma powers_checked : forallb powers_ok (seq 1 219) = true.
Proof. vm_compute. reflexivity. Qed.
Lemma powers_known r : 1 <= r < 220 -> lookup (one_power r) dictionary = Some (Power r) /\ lookup (few_powers r) dictionary = Some (Power r) /\ lookup (many_powers r) dictionary = Some (Power r).
Proof.
  intros L. pose proof powers_checked as K. rewrite forallb_forall in K. assert (I : In r (seq 1 219)) by (apply in_seq; lia). specialize (K r I). clear I.
  unfold powers_ok in K. cbn [forallb] in K. rewrite !andb_true_iff in K. destruct K as (K1 & K2 & K3 & _). split; [|split]; apply is_power_iff; assumption.
Qed.
Fixpoint sum_small (ws : list string) : option N :=
  match ws with [] => Some 0%N | w :: ws => match lookup w dictionary, sum_small ws with Some (Small v), Some t => Some (v + t)%N | _, _ => None end end.
Definition small_ok (g : nat) : bool := match sum_small (small below20 by_tens by_hundreds g) with Some t => N.eqb t (N.of_nat g) | None => false end.
Lemma small_checked : forallb small_ok (seq 0 (10 * 100)) = true.
Proof. vm_compute. reflexivity. Qed.
Lemma read_small ws : forall t g v, sum_small ws = Some v -> fold_left read_word ws (Some (t, g)) = Some (t, g + v)%N.
Proof.
  induction ws as [|w ws IH]; intros t g v E; cbn [sum_small fold_left] in *; [inversion E; now rewrite N.add_0_r|].
  destruct (lookup w dictionary) as [[x|]|] eqn:Ew; [|easy|easy]. destruct (sum_small ws) as [y|]; [|easy]. inversion E; subst.
  unfold read_word at 2. rewrite Ew. rewrite (IH _ _ y eq_refl). f_equal. f_equal. lia.
Qed.
Lemma read_group r g t : r < 220 -> g < 1000 ->
  fold_left read_word (cardinal_group r g) (Some (t, 0%N)) = Some (match r with 0 => (t, N.of_nat g) | _ => (t + N.of_nat g * 1000 ^ N.of_nat r, 0)%N end).
Proof.
  intros Lr Lg. pose proof small_checked as Ks. rewrite forallb_forall in Ks. assert (Is : In g (seq 0 (10 * 100))) by (apply in_seq; lia). specialize (Ks g Is). clear Is. unfold small_ok in Ks.
  destruct (sum_small (small below20 by_tens by_hundreds g)) as [v|] eqn:Es; [|easy]. apply N.eqb_eq in Ks. subst v. destruct r as [|r].
  - cbn [cardinal_group]. rewrite (read_small _ t 0%N _ Es). now rewrite N.add_0_l.
  - destruct (powers_known (S r)) as (E1 & E2 & E3); [lia|].
    unfold cardinal_group. destruct g as [|[|g]].
    + cbn [fold_left]. f_equal. f_equal. lia.
    + cbn [fold_left]. unfold read_word. rewrite E1. f_equal.
    + rewrite fold_left_app, (read_small _ t 0%N _ Es). cbn [fold_left]. rewrite N.add_0_l. destruct (few (S (S g))); unfold read_word; [rewrite E2|rewrite E3];
        (rewrite (proj2 (N.eqb_neq _ _)) by lia); reflexivity.
Qed.
Lemma read_cwords vs : forall r t, r + length vs < 220 -> Forall (fun v => v < 1000) vs ->
  fold_left read_word (cwords (S r) vs) (Some (t, 0%N)) = Some (t + 1000 ^ N.of_nat (S r) * value vs, 0)%N.
Proof.
  induction vs as [|v vs IH]; intros r t L F; cbn [cwords]; [cbn [fold_left value fold_right]; f_equal; f_equal; lia|]. inversion F; subst. cbn [length] in L.
  rewrite fold_left_app, IH, read_group by (easy || lia). f_equal. f_equal. cbn [value fold_right]. fold (value vs). rewrite !Nat2N.inj_succ, !N.pow_succ_r'. lia.
Qed.
(** The words of the text, read one by one, give the number; so numbers with the same text are the same. *)
Theorem C77_read n t codes : forallb is_digit n = true -> 1 <= length n <= 660 -> integer CARDINAL n = Some (t, codes) -> read (split_blanks t) = Some (number n).
Proof.
  intros D L. rewrite unfold_integer; [|easy|intros ->; cbn in L; lia].
  destruct (N.eqb_spec (number n) 0) as [E|N0]; [rewrite E; intros Q; inversion Q; subst; vm_compute; reflexivity|].
  destruct (N.eqb_spec (number n) 1) as [E|N1]; [rewrite E; intros Q; inversion Q; subst; vm_compute; reflexivity|].
  destruct (integer_parts n D L N0 N1) as (V & F & Lv & Fc & St). set (cs := chunks (length n) (rev n)) in *. cbv zeta.
  destruct (parts_cardinal cs 0 ("", "") []) as (P1 & P2 & P3); auto; [rewrite map_length in Lv; lia|]. rewrite app_nil_r in P1, P2.
  change (is_form CARDINAL CARDINAL_F) with false. cbn [andb]. intros Q. assert (Et : t = text (cwords 0 (map val cs))) by (rewrite <- P1; apply (f_equal (option_map fst)) in Q; cbn [option_map fst] in Q; congruence). clear Q.
  rewrite Et. destruct (map val cs) as [|v vs] eqn:Em; [cbn in V; congruence|].
  assert (Rd : fold_left read_word (cwords 0 (v :: vs)) (Some (0, 0)%N) = Some (1000 * value vs, N.of_nat v)%N).
  { cbn [cwords]. inversion F; subst. cbn [length] in Lv. rewrite fold_left_app, read_cwords, read_group by (easy || lia). f_equal. }
  rewrite split_text; [|intros Ez; rewrite Ez in Rd; cbn [fold_left] in Rd;
    assert (R1 : (1000 * value vs = 0)%N) by congruence; assert (R2 : N.of_nat v = 0%N) by congruence; apply N0; rewrite V; cbn [value fold_right]; fold (value vs); lia|easy].
  unfold read. rewrite Rd. cbn [option_map fst snd]. f_equal. rewrite V. cbn [value fold_right]. fold (value vs). lia.
Qed.
Print Assumptions C77_read.
Example C77_read_some : read ["milion"; "dwadzieścia"; "jeden"; "tysięcy"; "dwa"] = Some 1021002%N.
Proof. vm_compute. reflexivity. Qed.
Corollary C77_different n m t c c' : forallb is_digit n = true -> 1 <= length n <= 660 -> forallb is_digit m = true -> 1 <= length m <= 660 ->
  integer CARDINAL n = Some (t, c) -> integer CARDINAL m = Some (t, c') -> number n = number m.
Proof. intros D L D' L' E E'. pose proof (C77_read n t c D L E) as R. rewrite (C77_read m t c' D' L' E') in R. congruence. Qed.
Print Assumptions C77_different.

(** ** What the callers get *)
(** Digits alone are converted as they are. *)
Lemma split_none c n : forallb is_digit n = true -> is_digit c = false -> split_at c n = None.
Proof.
  intros D Nc. induction n as [|x n IH]; [easy|]. cbn [forallb split_at] in *. apply andb_true_iff in D as [D1 D2]. rewrite (IH D2).
  destruct (Ascii.eqb_spec x c); [subst; congruence|easy].
Qed.
Theorem C77_number f n : forallb is_digit n = true -> n <> [] -> num2pltext (length n) f n = option_map (fun r => (r, "")) (integer f n).
Proof.
  intros D N. destruct n as [|c n]; [easy|]. pose proof D as D'. cbn [forallb] in D. apply andb_true_iff in D as [Dc D]. cbn [length num2pltext].
  assert (X : forall y, is_digit y = false -> (c =? y)%char = false) by (intros y Y; destruct (Ascii.eqb_spec c y); congruence).
  rewrite (X "-"%char), (X "+"%char) by easy.
  assert (La : (last (c :: n) " " =? "%")%char = false).
  { assert (Il : is_digit (last (c :: n) " "%char) = true). { rewrite forallb_forall in D'. apply D'. destruct (exists_last N) as (l & z & ->). rewrite last_last. apply in_app_iff. right. now left. }
    destruct (Ascii.eqb_spec (last (c :: n) " "%char) "%"); [|easy]. rewrite e in Il. easy. }
  rewrite La. unfold decimal. rewrite !(split_none _ (c :: n)) by easy. easy.
Qed.
Print Assumptions C77_number.
(** A number without digits before or behind the comma reads before the beginning of an empty string. *)
Theorem C77_empty : (forall f n, integer f n = None <-> n = []) /\ num2pltext 2 ORDINAL (d ",5") = None /\ num2pltext 2 CARDINAL (d "1,") = None /\ num2pltext 2 CARDINAL (d "1/") = None.
Proof.
  split; [|easy]. intros f n. split; [|intros ->; easy]. unfold integer. destruct (negb _); [easy|]. destruct n; [easy|]. destruct (equals _ _); [easy|]. destruct (equals _ _); easy.
Qed.
Print Assumptions C77_empty.
(** Plural ordinals of round thousands are made of cardinals, unlike singular ones. *)
Theorem C77_plural_refuted : option_map fst (integer ORDINAL (d "2000")) = Some "dwutysięczny" /\ option_map fst (integer ORDINAL_F (d "2000")) = Some "dwutysięczna"
  /\ option_map fst (integer ORDINAL_NPL (d "2000")) = Some "dwatysięczne" /\ option_map fst (integer ORDINAL_GPL (d "2000")) = Some "dwatysięcznych".
Proof. easy. Qed.
Print Assumptions C77_plural_refuted.
(** Longer numbers have no name: a mark for an error is left inside of the text. *)
Theorem C77_long_refuted : option_map fst (integer CARDINAL (repeat "2"%char 1 ++ repeat "0"%char (11 * 60))) = Some "dwa #".
Proof. vm_compute. reflexivity. Qed.
Print Assumptions C77_long_refuted.
(** Four zeros behind the comma are read as five. *)
Theorem C77_zeros_refuted : num2pltext 6 CARDINAL (d "1,0000") = Some ("jeden przecinek zero zero zero zero zero", "ZP:z 0 0 0 0 0 R:5", "").
Proof. easy. Qed.
Print Assumptions C77_zeros_refuted.

(** ** Comparison *)
Lemma number_lt n : forallb is_digit n = true -> (number n < 10 ^ N.of_nat (length n))%N.
Proof.
  induction n as [|c n IH] using rev_ind; [easy|]. rewrite forallb_app, andb_true_iff. cbn [forallb]. rewrite andb_true_r. intros [D Dc]. specialize (IH D).
  rewrite number_app, app_length. cbn [length]. change (number [c]) with (N.of_nat (dix c)). change (10 ^ N.of_nat 1)%N with 10%N.
  assert (L : dix c < 10). { unfold is_digit in Dc. rewrite andb_true_iff, !Nat.leb_le in Dc. unfold dix. lia. }
  replace (N.of_nat (length n + 1)) with (N.succ (N.of_nat (length n))) by lia. rewrite N.pow_succ_r'. lia.
Qed.
Lemma leading_all n : forallb is_digit n = true -> leading n = length n.
Proof. induction n as [|c n IH]; cbn; [easy|]. rewrite andb_true_iff. intros [-> D]. now rewrite IH. Qed.
Lemma number_cons c n : number (c :: n) = (N.of_nat (dix c) * 10 ^ N.of_nat (length n) + number n)%N.
Proof. exact (number_app [c] n). Qed.
Lemma code_dix c : is_digit c = true -> code c = dix c + 48.
Proof. unfold is_digit, code, dix. rewrite andb_true_iff, !Nat.leb_le. lia. Qed.
Lemma cmp_spec a : forall b, forallb is_digit a = true -> forallb is_digit b = true -> length a = length b ->
  match cmp_digits (length a) a b with Some true => (number b < number a)%N | Some false => (number a < number b)%N | None => number a = number b end.
Proof.
  induction a as [|x a IH]; intros [|y b] Da Db L; try discriminate; [easy|]. cbn [forallb] in *. apply andb_true_iff in Da as [Dx Da], Db as [Dy Db]. cbn in L. injection L as L.
  cbn [cmp_digits length]. rewrite !number_cons, (code_dix x Dx), (code_dix y Dy), L.
  pose proof (number_lt a Da) as La. pose proof (number_lt b Db) as Lb. rewrite L in La. set (P := (10 ^ N.of_nat (length b))%N) in *.
  destruct (Nat.ltb_spec (dix y + 48) (dix x + 48)) as [C1|C1]; [nia|]. destruct (Nat.ltb_spec (dix x + 48) (dix y + 48)) as [C2|C2]; [nia|].
  assert (E : dix x = dix y) by lia. specialize (IH b Da Db L). rewrite E, <- L. destruct (cmp_digits (length a) a b) as [[]|]; lia.
Qed.
Definition no_leading_zero (n : list ascii) : Prop := match n with c :: _ => c <> "0"%char | [] => True end.
Lemma number_ge n : forallb is_digit n = true -> no_leading_zero n -> n <> [] -> (10 ^ N.of_nat (length n - 1) <= number n)%N.
Proof.
  destruct n as [|c n]; [easy|]. cbn [forallb no_leading_zero]. rewrite andb_true_iff. intros [Dc D] Nz _. rewrite number_cons. cbn [length]. rewrite Nat.sub_1_r. cbn [Nat.pred].
  assert (L : dix c <> 0).
  { intros E. apply Nz. unfold is_digit in Dc. rewrite andb_true_iff, !Nat.leb_le in Dc. unfold dix in E. rewrite <- (ascii_nat_embedding c). replace (nat_of_ascii c) with 48 by lia. easy. }
  nia.
Qed.
(** The comparison that decides between a difference and a range is right for integers without leading zeros. *)
Theorem C77_bigger a b : forallb is_digit a = true -> forallb is_digit b = true -> no_leading_zero a -> no_leading_zero b ->
  bigger a b = true <-> (number b < number a)%N.
Proof.
  intros Da Db Za Zb. unfold bigger. rewrite (leading_all a Da), (leading_all b Db).
  assert (Longer : forall x y, forallb is_digit x = true -> forallb is_digit y = true -> no_leading_zero x -> length y < length x -> (number y < number x)%N).
  { intros x y Dx Dy Zx L. assert (Nx : x <> []) by (intros ->; cbn in L; lia). pose proof (number_ge x Dx Zx Nx). pose proof (number_lt y Dy).
    assert (10 ^ N.of_nat (length y) <= 10 ^ N.of_nat (length x - 1))%N by (apply N.pow_le_mono_r; lia). lia. }
  destruct (Nat.ltb_spec (length b) (length a)) as [C1|C1]; [split; [intros _; now apply Longer|easy]|].
  destruct (Nat.ltb_spec (length a) (length b)) as [C2|C2]; [split; [easy|]; intros K; specialize (Longer b a Db Da Zb C2); lia|].
  assert (L : length a = length b) by lia. pose proof (cmp_spec a b Da Db L) as C. destruct (cmp_digits (length a) a b) as [[]|]; [easy|split; [easy|lia]|].
  rewrite L, !Nat.eqb_refl. cbn [andb]. split; [easy|lia].
Qed.
Print Assumptions C77_bigger.
Example C77_bigger_some : bigger (d "1024") (d "999") = true /\ bigger (d "1024") (d "1025") = false. Proof. easy. Qed.
(** Not for decimal fractions and leading zeros: ranges are then read as differences. *)
Theorem C77_bigger_refuted : bigger (d "1,29") (d "1,31") = true /\ bigger (d "1,25") (d "1,3") = true /\ bigger (d "007") (d "12") = true
  /\ option_map (fun p => fst (fst p)) (num2pltext 9 CARDINAL (d "1,29-1,31")) = Some "jeden i dwadzieścia dziewięć setnych minus jeden i trzydzieści jeden setnych".
Proof. split; [easy|]. split; [easy|]. split; [easy|]. vm_compute. reflexivity. Qed.
Print Assumptions C77_bigger_refuted.

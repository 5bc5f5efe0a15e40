(** Properties of the web server's text processing (C35, C48, C49). *)
From Coq Require Import List ZArith Bool Arith Lia.
From Verif Require Import M_Web.
Import ListNotations.
Open Scope Z_scope.

(** * Specification *)

(** Occurrence of a string inside another one. *)
Definition occurs (p s : list Z) : Prop := exists a b, s = a ++ p ++ b.

(** [h] is a hexadecimal digit of value [v]. *)
Inductive hexval : Z -> Z -> Prop :=
| hv_dec v : 0 <= v <= 9 -> hexval (48 + v) v
| hv_upper v : 10 <= v <= 15 -> hexval (65 + (v - 10)) v
| hv_lower v : 10 <= v <= 15 -> hexval (97 + (v - 10)) v.

(** [pct raw s t]: [t] is a percent-encoding of [s] in which only the bytes allowed by
    [raw] are left as they are; a blank may also be sent as +. *)
Inductive pct (raw : Z -> Prop) : list Z -> list Z -> Prop :=
| pct_nil : pct raw [] []
| pct_raw c s t : raw c -> c <> 37 -> c <> 43 -> pct raw s t -> pct raw (c :: s) (c :: t)
| pct_plus s t : pct raw s t -> pct raw (32 :: s) (43 :: t)
| pct_hex h l a b s t : hexval h a -> hexval l b -> pct raw s t ->
    pct raw (16 * a + b :: s) (37 :: h :: l :: t).

(** The encoder of a browser, to show that every byte string has an encoding. *)
Definition nibble (v : Z) : Z := if v <=? 9 then 48 + v else 55 + v.
Definition unreserved (c : Z) : bool :=
  ((48 <=? c) && (c <=? 57)) || ((65 <=? c) && (c <=? 90)) || ((97 <=? c) && (c <=? 122)).
Fixpoint browser_encode (s : list Z) : list Z :=
  match s with
  | [] => []
  | c :: s' => if c =? 32 then 43 :: browser_encode s'
               else if unreserved c then c :: browser_encode s'
               else 37 :: nibble (c / 16) :: nibble (c mod 16) :: browser_encode s'
  end.

Lemma nibble_hexval v : 0 <= v <= 15 -> hexval (nibble v) v.
Proof.
  intros H. unfold nibble. destruct (Z.leb_spec v 9).
  - apply hv_dec; lia.
  - replace (55 + v) with (65 + (v - 10)) by lia. apply hv_upper; lia.
Qed.
Theorem browser_encodes s :
  Forall (fun c => 0 <= c < 256) s -> pct (fun c => unreserved c = true) s (browser_encode s).
Proof.
  induction 1 as [|c s Hc Hs IH]; cbn [browser_encode]; [constructor|].
  destruct (Z.eqb_spec c 32) as [->|]; [now apply pct_plus|].
  destruct (unreserved c) eqn:E.
  - apply pct_raw; auto; intros ->; discriminate.
  - pose proof (Z.div_mod c 16 ltac:(lia)).
    assert (0 <= c / 16 <= 15).
    { split; [apply Z.div_pos; lia|]. apply Z.lt_succ_r. apply Z.div_lt_upper_bound; lia. }
    assert (0 <= c mod 16 <= 15) by (pose proof (Z.mod_pos_bound c 16); lia).
    replace (c :: s) with (16 * (c / 16) + c mod 16 :: s) by (f_equal; lia).
    apply pct_hex; auto using nibble_hexval.
Qed.

(** * C35 *)

Lemma hexval_digit h a : hexval h a -> hex_digit h = Some a /\ 0 <= a <= 15.
Proof.
  unfold hex_digit.
  intros [v H|v H|v H]; split; try lia;
  repeat (match goal with |- context[?x <=? ?y] => destruct (Z.leb_spec x y) end; cbn [andb]);
  try lia; f_equal; lia.
Qed.
Lemma hexval_range h a : hexval h a -> 48 <= h.
Proof. intros []; lia. Qed.

Lemma extract_two h l a b : hexval h a -> hexval l b -> extract_hex h l = Some (16 * a + b).
Proof.
  intros Hh Hl.
  pose proof (hexval_range _ _ Hh). pose proof (hexval_range _ _ Hl).
  apply hexval_digit in Hh. apply hexval_digit in Hl.
  destruct Hh as [Hh ?], Hl as [Hl ?].
  unfold extract_hex, is_space, is_sign.
  replace (h =? 32) with false by (symmetry; apply Z.eqb_neq; lia).
  replace (h <=? 13) with false by (symmetry; apply Z.leb_gt; lia).
  replace (h =? 43) with false by (symmetry; apply Z.eqb_neq; lia).
  replace (h =? 45) with false by (symmetry; apply Z.eqb_neq; lia).
  rewrite andb_false_r. cbn [orb]. now rewrite Hh, Hl.
Qed.

(** Decoding inverts every percent-encoding. *)
Theorem C35_decode s t : pct (fun _ => True) s t -> url_decode t = Some s.
Proof.
  induction 1 as [|c s t _ H1 H2 H IH|s t H IH|h l a b s t Hh Hl H IH]; cbn [url_decode].
  - reflexivity.
  - apply Z.eqb_neq in H1, H2. now rewrite H1, H2, IH.
  - now rewrite IH.
  - rewrite Z.eqb_refl, (extract_two _ _ _ _ Hh Hl), IH. f_equal. f_equal.
    apply hexval_digit in Hh, Hl. apply Z.mod_small. lia.
Qed.
Print Assumptions C35_decode.

Lemma pct_weaken (raw raw' : Z -> Prop) s t : (forall c, raw c -> raw' c) -> pct raw s t -> pct raw' s t.
Proof. induction 2; econstructor; eauto. Qed.

Corollary C35_decode_browser s :
  Forall (fun c => 0 <= c < 256) s -> url_decode (browser_encode s) = Some s.
Proof.
  intros H. apply C35_decode. eapply pct_weaken; [|now apply browser_encodes]. auto.
Qed.
Print Assumptions C35_decode_browser.

Example C35_decode_ex : (* "/a b%" with a lower-case and an upper-case digit *)
  url_decode [47; 97; 43; 98; 37; 50; 53; 37; 69; 50; 37; 99; 51] = Some [47; 97; 32; 98; 37; 226; 195].
Proof. vm_compute. reflexivity. Qed.

(** Malformed escapes are not rejected: "%4z" gives one control character. *)
Theorem C35_malformed_refuted :
  url_decode [37; 52; 122] = Some [4] /\ url_decode [37; 45; 49] = Some [255] /\
  url_decode [37; 32; 52] = Some [4].
Proof. vm_compute. auto. Qed.
Print Assumptions C35_malformed_refuted.

Lemma prefixb_spec p s : prefixb p s = true <-> exists b, s = p ++ b.
Proof.
  revert s; induction p as [|x p IH]; intros s; cbn [prefixb].
  - split; [intros _; now exists s|auto].
  - destruct s as [|y s]; [split; [discriminate|intros [b [=]]]|].
    rewrite andb_true_iff, Z.eqb_eq, IH. split.
    + intros [-> [b ->]]. now exists b.
    + intros [b [=]]. subst. split; eauto.
Qed.
Lemma find_in_none p s i : find_in p s i = None -> ~ occurs p s.
Proof.
  revert i; induction s as [|c s IH]; intros i H [a [b E]]; cbn [find_in] in H;
  destruct (prefixb p _) eqn:Ep; try discriminate.
  - destruct a; [|discriminate]. cbn in E. destruct p; [discriminate|discriminate].
  - destruct a as [|d a].
    + cbn in E. enough (prefixb p (c :: s) = true) by congruence. apply prefixb_spec. eauto.
    + injection E as -> E. apply (IH _ H). exists a, b. exact E.
Qed.
(** The first occurrence: nothing earlier. *)
Lemma find_in_some p s i k : find_in p s i = Some k ->
  exists a b, s = a ++ p ++ b /\ k = (i + length a)%nat /\
    (forall a' b', s = a' ++ p ++ b' -> (length a <= length a')%nat).
Proof.
  revert i; induction s as [|c s IH]; intros i H; cbn [find_in] in H;
  destruct (prefixb p _) eqn:Ep.
  - injection H as <-. apply prefixb_spec in Ep as [b E]. exists [], b. cbn. repeat split; [exact E|lia|intros; lia].
  - discriminate.
  - injection H as <-. apply prefixb_spec in Ep as [b E]. exists [], b. cbn [app length]. repeat split; [exact E|lia|intros; lia].
  - apply IH in H as [a [b [E [Ek Hm]]]]. exists (c :: a), b. cbn [app length]. repeat split.
    + now rewrite E.
    + lia.
    + intros [|d a'] b' E'.
      * cbn in E'. enough (prefixb p (c :: s) = true) by congruence. apply prefixb_spec. eauto.
      * injection E' as -> E'. apply Hm in E'. cbn. lia.
Qed.

(** ** Path safety *)

(** The components of a path. *)
Inductive component (x : list Z) (p : list Z) : Prop :=
| comp_intro a b : ~ In 47 x ->
    (a = [] \/ exists a', a = a' ++ [47]) -> (b = [] \/ exists b', b = 47 :: b') ->
    p = a ++ x ++ b -> component x p.

Definition safe_path (p : list Z) : Prop :=
  (exists p', p = 47 :: p') /\ ~ occurs [46; 46] p /\ ~ component [46; 46] p.

Lemma c_str_prefix s : exists b, s = c_str s ++ b.
Proof.
  induction s as [|c s [b E]]; cbn [c_str]; [now exists []|].
  destruct (c =? 0); [now exists (c :: s)|]. exists b. cbn. now rewrite <- E.
Qed.
Lemma c_str_no_nul s : ~ In 0 (c_str s).
Proof.
  induction s as [|c s IH]; cbn [c_str]; [auto|].
  destruct (Z.eqb_spec c 0); [auto|]. intros [|]; auto.
Qed.
Lemma c_str_app a b : ~ In 0 a -> c_str (a ++ b) = a ++ c_str b.
Proof.
  induction a as [|c a IH]; intros H; [reflexivity|]. cbn [app c_str].
  destruct (Z.eqb_spec c 0) as [->|]; [exfalso; apply H; now left|].
  f_equal. apply IH. intros ?; apply H; now right.
Qed.

Lemma dotdot_app_index p : last p 0 = 47 -> occurs [46; 46] (p ++ INDEX_HTML) -> occurs [46; 46] p.
Proof.
  intros Hl [a [b E]].
  assert (H : forall q x, q ++ INDEX_HTML = x ++ [46; 46] ++ b -> last q 0 = 47 -> occurs [46; 46] q).
  { clear. induction q as [|c q IH]; intros x E Hl; [discriminate|].
    destruct x as [|d x].
    - cbn in E. injection E as -> E. destruct q as [|e q]; [discriminate|].
      cbn in E. injection E as -> _. now exists [], q.
    - cbn in E. injection E as -> E.
      destruct q as [|e q].
      + exfalso. unfold INDEX_HTML in E. cbn in E.
        repeat (destruct x as [|? x]; [discriminate|]; cbn [app] in E; injection E as ? E).
        destruct x; discriminate.
      + destruct (IH x E) as [a' [b' E']]; [exact Hl|].
        exists (d :: a'), b'. cbn. now rewrite E'. }
  exact (H p a E Hl).
Qed.

(** Every file the server opens is the document root followed by a path that starts
    with a slash and in which nothing leads upwards. *)
Theorem C35_path doc_root uri f :
  ~ In 0 doc_root ->
  file_to_open doc_root uri = Some f ->
  exists p, f = doc_root ++ p /\ safe_path p /\ ~ In 0 p.
Proof.
  intros Hr H. unfold file_to_open in H.
  destruct (url_decode uri) as [path|]; [|discriminate].
  destruct path as [|c path0] eqn:Epath; [discriminate|].
  rewrite <- Epath in H.
  assert (Hhd : hd 0 path = c) by now rewrite Epath.
  rewrite Hhd in H.
  destruct (Z.eqb_spec c 47) as [->|]; [|discriminate]. cbn [negb] in H.
  destruct (find_from [46; 46] path 0) eqn:Ef; [discriminate|].
  unfold find_from in Ef. cbn [skipn] in Ef.
  apply find_in_none in Ef. injection H as <-.
  set (path' := if last path 0 =? 47 then path ++ INDEX_HTML else path).
  exists (c_str path'). rewrite c_str_app by assumption. split; [reflexivity|].
  assert (Hno : ~ occurs [46; 46] path').
  { unfold path'. destruct (Z.eqb_spec (last path 0) 47); [|exact Ef].
    intros Ho. apply Ef. now apply dotdot_app_index. }
  assert (Hno' : ~ occurs [46; 46] (c_str path')).
  { intros [a [b E]]. apply Hno. destruct (c_str_prefix path') as [z Ez].
    exists a, (b ++ z). rewrite Ez, E at 1. now rewrite <- !app_assoc. }
  split; [|apply c_str_no_nul].
  split; [|split; [exact Hno'|]].
  - assert (Hp : exists q, path' = 47 :: q).
    { unfold path'. rewrite Epath. destruct (last (47 :: path0) 0 =? 47); eexists; reflexivity. }
    destruct Hp as [q ->]. cbn [c_str]. cbn [Z.eqb]. eauto.
  - intros [a b _ _ _ E]. apply Hno'. now exists a, b.
Qed.
Print Assumptions C35_path.

(** A well-behaved path is served: the theorem above is not about an empty set. *)
Theorem C35_served doc_root p uri :
  ~ In 0 doc_root -> ~ In 0 p -> pct (fun _ => True) (47 :: p) uri -> ~ occurs [46; 46] (47 :: p) ->
  last (47 :: p) 0 <> 47 ->
  file_to_open doc_root uri = Some (doc_root ++ 47 :: p).
Proof.
  intros Hr Hp Hu Hd Hl. unfold file_to_open. rewrite (C35_decode _ _ Hu). cbn [hd Z.eqb negb].
  unfold find_from. destruct (find_in [46; 46] (skipn 0 (47 :: p)) 0) eqn:E.
  - exfalso. apply find_in_some in E as [a [b [E _]]]. apply Hd. now exists a, b.
  - apply Z.eqb_neq in Hl. rewrite Hl. f_equal. rewrite c_str_app by assumption. f_equal.
    rewrite <- (app_nil_r (47 :: p)). rewrite c_str_app; [cbn; now rewrite !app_nil_r|].
    intros [|]; [discriminate|auto].
Qed.
Print Assumptions C35_served.

Example C35_path_ex :
  file_to_open [119; 119; 119] [47; 97; 37; 50; 102] =
    Some ([119; 119; 119] ++ [47; 97; 47] ++ INDEX_HTML) /\
  file_to_open [119; 119; 119] [47; 37; 50; 101; 46; 47; 120] = None.
Proof. vm_compute. auto. Qed.

(** * C48: form data *)

(** [form_of ws u]: [u] is what a browser sends for the fields [ws]: names without
    "=", values percent-encoded, at least with & encoded. *)
Inductive form_of : list (list Z * list Z) -> list Z -> Prop :=
| fo_one n v t : ~ In 61 n -> pct (fun c => c <> 38) v t -> form_of [(n, v)] (n ++ 61 :: t)
| fo_more n v t ws u : ~ In 61 n -> pct (fun c => c <> 38) v t -> form_of ws u ->
    form_of ((n, v) :: ws) (n ++ 61 :: t ++ 38 :: u).

Lemma pct_form_decode raw v t fuel :
  pct raw v t -> (length t <= fuel)%nat -> form_decode fuel (plus_to_space t) = Some v.
Proof.
  intros H; revert fuel; induction H as [|c s t _ H1 H2 H IH|s t H IH|h l a b s t Hh Hl H IH];
  intros [|f] Hf; cbn [length] in Hf; try lia; try reflexivity; cbn [plus_to_space map form_decode].
  - apply Z.eqb_neq in H1, H2. rewrite H2, H1. fold (plus_to_space t). rewrite IH by lia. reflexivity.
  - cbn [Z.eqb]. fold (plus_to_space t). rewrite IH by lia. reflexivity.
  - pose proof (hexval_range _ _ Hh). pose proof (hexval_range _ _ Hl).
    replace (h =? 43) with false by (symmetry; apply Z.eqb_neq; lia).
    replace (l =? 43) with false by (symmetry; apply Z.eqb_neq; lia).
    change (37 =? 43) with false. change (37 =? 37) with true. cbv iota.
    fold (plus_to_space t). cbn [scan_hex skipn].
    apply hexval_digit in Hh, Hl. destruct Hh as [Hh ?], Hl as [Hl ?]. rewrite Hh, Hl, IH by lia.
    rewrite Z.mod_small by lia. reflexivity.
Qed.

Lemma find_in_char c a b i : ~ In c a -> find_in [c] (a ++ c :: b) i = Some (i + length a)%nat.
Proof.
  revert i; induction a as [|d a IH]; intros i H; cbn [app find_in prefixb length].
  - rewrite Z.eqb_refl. cbn. f_equal. lia.
  - destruct (Z.eqb_spec c d) as [->|]; [exfalso; apply H; now left|]. cbn [andb].
    rewrite IH; [f_equal; lia|]. intros ?; apply H; now right.
Qed.
Lemma find_in_char_none c a i : ~ In c a -> find_in [c] a i = None.
Proof.
  revert i; induction a as [|d a IH]; intros i H; cbn [find_in prefixb]; [reflexivity|].
  destruct (Z.eqb_spec c d) as [->|]; [exfalso; apply H; now left|]. cbn [andb].
  apply IH. intros ?; apply H; now right.
Qed.
Lemma skipn_len {A} (a b : list A) : skipn (length a) (a ++ b) = b.
Proof. rewrite skipn_app, skipn_all, Nat.sub_diag. reflexivity. Qed.
Lemma firstn_len {A} (a b : list A) : firstn (length a) (a ++ b) = a.
Proof. rewrite firstn_app, firstn_all, Nat.sub_diag. apply app_nil_r. Qed.

Lemma pct_no_amp v t : pct (fun c => c <> 38) v t -> ~ In 38 t.
Proof.
  induction 1 as [|c s t H0 H1 H2 H IH|s t H IH|h l a b s t Hh Hl H IH]; cbn [In]; intuition (try lia).
  - apply hexval_range in Hh; lia.
  - apply hexval_range in Hl; lia.
Qed.

Lemma plus_to_space_length t : length (plus_to_space t) = length t.
Proof. apply map_length. Qed.

Lemma parse_form_one pre n v t w fuel :
  ~ In 61 n -> pct (fun c => c <> 38) v t -> (w = [] \/ exists u, w = 38 :: u) ->
  parse_form (S fuel) (pre ++ n ++ 61 :: t ++ w) (length pre) =
    match w with
    | [] => Done [(n, v)]
    | _ => cons_write (n, v)
             (parse_form fuel (pre ++ n ++ 61 :: t ++ w) (length (pre ++ n ++ 61 :: t ++ [38])))
    end.
Proof.
  intros Hn Hv Hw. cbn [parse_form].
  assert (Hq : find_from [61] (pre ++ n ++ 61 :: t ++ w) (length pre) = Some (length pre + length n)%nat).
  { unfold find_from. now rewrite skipn_len, find_in_char by assumption. }
  rewrite Hq. cbn [to_int].
  assert (Hs1 : sub_from (pre ++ n ++ 61 :: t ++ w) (length pre)
                  (Z.of_nat (length pre + length n) - Z.of_nat (length pre)) = Some n).
  { unfold sub_from. rewrite app_length.
    destruct (Nat.ltb_spec (length pre + length (n ++ 61 :: t ++ w)) (length pre)); [lia|].
    destruct (Z.ltb_spec (Z.of_nat (length pre + length n) - Z.of_nat (length pre)) 0); [lia|].
    rewrite skipn_len. replace (Z.to_nat _) with (length n) by lia. now rewrite firstn_len. }
  rewrite Hs1.
  replace (Z.to_nat (Z.of_nat (length pre + length n) + 1)) with (length (pre ++ n ++ [61]))
    by (rewrite !app_length; cbn [length]; lia).
  replace (pre ++ n ++ 61 :: t ++ w) with ((pre ++ n ++ [61]) ++ t ++ w) by now rewrite <- !app_assoc.
  unfold find_from. rewrite skipn_len.
  pose proof (pct_no_amp _ _ Hv) as Hamp.
  destruct Hw as [->|[u ->]].
  - rewrite app_nil_r. rewrite (find_in_char_none _ _ _ Hamp). cbn [to_int].
    change (-1 =? -1) with true. cbv iota.
    assert (Hs2 : sub_from ((pre ++ n ++ [61]) ++ t) (length (pre ++ n ++ [61])) (-1) = Some t).
    { unfold sub_from. rewrite skipn_len. rewrite (app_length (pre ++ n ++ [61]) t).
      destruct (Nat.ltb_spec (length (pre ++ n ++ [61]) + length t) (length (pre ++ n ++ [61]))); [lia|].
      reflexivity. }
    rewrite Hs2. rewrite plus_to_space_length.
    rewrite (pct_form_decode _ v t _ Hv (le_n _)). reflexivity.
  - rewrite (find_in_char _ t u _ Hamp). cbn [to_int].
    set (pp := pre ++ n ++ [61]).
    destruct (Z.eqb_spec (Z.of_nat (length pp + length t)) (-1)); [lia|].
    assert (Hs2 : sub_from (pp ++ t ++ 38 :: u) (length pp)
                   (Z.of_nat (length pp + length t) - Z.of_nat (length pp)) = Some t).
    { unfold sub_from. rewrite app_length.
      destruct (Nat.ltb_spec (length pp + length (t ++ 38 :: u)) (length pp)); [lia|].
      destruct (Z.ltb_spec (Z.of_nat (length pp + length t) - Z.of_nat (length pp)) 0); [lia|].
      rewrite skipn_len. replace (Z.to_nat _) with (length t) by lia. now rewrite firstn_len. }
    rewrite Hs2. rewrite plus_to_space_length.
    rewrite (pct_form_decode _ v t _ Hv (le_n _)).
    f_equal. f_equal. unfold pp. rewrite !app_length. cbn [length]. rewrite !app_length. cbn [length]. lia.
Qed.

(** The fields that were sent are written to the session, in order and decoded. *)
Theorem C48_form ws u fuel pre :
  form_of ws u -> (length ws <= fuel)%nat -> parse_form fuel (pre ++ u) (length pre) = Done ws.
Proof.
  intros H; revert fuel pre; induction H as [n v t Hn Hv|n v t ws u Hn Hv H IH]; intros fuel pre Hf;
  cbn [length] in Hf; (destruct fuel as [|fuel]; [lia|]).
  - pose proof (parse_form_one pre n v t [] fuel Hn Hv (or_introl eq_refl)) as E.
    rewrite app_nil_r in E. exact E.
  - rewrite (parse_form_one pre n v t (38 :: u) fuel Hn Hv (or_intror (ex_intro _ u eq_refl))).
    replace (pre ++ n ++ 61 :: t ++ 38 :: u) with ((pre ++ n ++ 61 :: t ++ [38]) ++ u)
      by (rewrite <- !app_assoc; cbn [app]; now rewrite <- !app_assoc).
    rewrite IH by lia. reflexivity.
Qed.
Print Assumptions C48_form.

(** Every field list has such a form: values go through [browser_encode]. *)
Fixpoint browser_form (ws : list (list Z * list Z)) : list Z :=
  match ws with
  | [] => []
  | [(n, v)] => n ++ 61 :: browser_encode v
  | (n, v) :: ws' => n ++ 61 :: browser_encode v ++ 38 :: browser_form ws'
  end.
Corollary C48_browser_form ws :
  ws <> [] ->
  Forall (fun nv => ~ In 61 (fst nv) /\ Forall (fun c => 0 <= c < 256) (snd nv)) ws ->
  parse_form (length ws) (browser_form ws) 0 = Done ws.
Proof.
  intros Hne H. change 0%nat with (length (@nil Z)).
  change (browser_form ws) with ([] ++ browser_form ws). apply C48_form; [|lia].
  assert (Hp : forall v, Forall (fun c => 0 <= c < 256) v -> pct (fun c => c <> 38) v (browser_encode v)).
  { intros v Hv. eapply pct_weaken; [|now apply browser_encodes]. intros c Hc ->. discriminate. }
  induction H as [|[n v] ws [Hn Hv] H IH]; [congruence|].
  destruct ws as [|nv ws]; cbn [browser_form].
  - apply fo_one; auto.
  - apply fo_more; auto. apply IH. discriminate.
Qed.
Print Assumptions C48_browser_form.
Example C48_ex :
  parse_form 2 [97; 61; 49; 43; 37; 50; 54; 38; 98; 61] 0 = Done [([97], [49; 32; 38]); ([98], [])].
Proof. vm_compute. reflexivity. Qed.

(** A body whose last part has no "=" never ends the loop: no number of iterations is
    enough (a request with a trailing & blocks a server thread for ever). *)
Theorem C48_hang_refuted a w fuel p ws :
  ~ In 61 w -> parse_form fuel (a ++ 38 :: w) p <> Done ws.
Proof.
  intros Hw. revert p ws. induction fuel as [|f IH]; intros p ws; cbn [parse_form]; [discriminate|].
  set (u := a ++ 38 :: w) in *.
  assert (Hafter : forall p1, (p1 <= length a)%nat -> exists k, find_from [38] u p1 = Some k).
  { intros p1 Hp. unfold find_from, u. rewrite skipn_app.
    replace (p1 - length a)%nat with 0%nat by lia. cbn [skipn].
    destruct (find_in [38] (skipn p1 a ++ 38 :: w) p1) eqn:E; [eauto|].
    exfalso. apply find_in_none in E. apply E. now exists (skipn p1 a), w. }
  assert (Hp1 : (Z.to_nat (to_int (find_from [61%Z] u p) + 1)%Z <= length a)%nat).
  { destruct (find_from [61] u p) as [k|] eqn:E; cbn [to_int]; [|change (Z.to_nat (-1 + 1)) with 0%nat; lia].
    unfold find_from in E. apply find_in_some in E as [x [y [Ex [-> _]]]].
    destruct (Nat.lt_ge_cases (p + length x) (length a)); [lia|].
    exfalso. apply Hw.
    assert (Hin : nth_error u (p + length x) = Some 61).
    { rewrite <- (firstn_skipn p u), Ex.
      assert (Hlp : (p <= length u)%nat).
      { destruct (Nat.le_gt_cases p (length u)); [assumption|].
        rewrite skipn_all2 in Ex by lia. destruct x; discriminate. }
      rewrite nth_error_app2; rewrite firstn_length; [|lia].
      replace (p + length x - Nat.min p (length u))%nat with (length x) by lia.
      rewrite nth_error_app2 by lia. rewrite Nat.sub_diag. reflexivity. }
    unfold u in Hin. rewrite nth_error_app2 in Hin by lia.
    destruct (p + length x - length a)%nat as [|k]; [discriminate|].
    cbn in Hin. now apply nth_error_In in Hin. }
  destruct (Hafter _ Hp1) as [k Ek].
  destruct (sub_from u p _); [|discriminate]. rewrite Ek. cbn [to_int].
  destruct (Z.eqb_spec (Z.of_nat k) (-1)); [lia|].
  destruct (sub_from u _ _); [|discriminate].
  destruct (form_decode _ _); [|discriminate].
  specialize (IH (Z.to_nat (Z.of_nat k + 1))).
  destruct (parse_form f u _) eqn:E; cbn [cons_write]; try discriminate.
  exfalso. now apply (IH writes).
Qed.
Print Assumptions C48_hang_refuted.
Example C48_hang_ex : parse_form 50 [97; 61; 49; 38] 0 = Hang.
Proof. vm_compute. reflexivity. Qed.

(** Names are not decoded. *)
Theorem C48_names_refuted : parse_form 1 [97; 37; 50; 48; 61; 49] 0 = Done [([97; 37; 50; 48], [49])].
Proof. vm_compute. reflexivity. Qed.
Print Assumptions C48_names_refuted.

(** * C49: included texts *)

(** The code written in the markup <!--#psis m-->: [m] without its first and last
    characters (the blanks); if [m] is shorter, the rest of the page is taken. *)
Definition code_of (m b : list Z) : list Z :=
  match m with
  | [] => [45; 62] ++ b
  | [_] => [45; 45; 62] ++ b
  | _ :: m' => removelast m'
  end.

(** [expands gen s s']: the markups of [s], from left to right and without looking
    into the generated texts, are replaced by the texts generated for their codes. *)
Inductive expands (gen : list Z -> option (list Z)) : list Z -> list Z -> Prop :=
| ex_done s : ~ (exists a m b, s = a ++ OPEN ++ m ++ CLOSE ++ b) -> expands gen s s
| ex_step a m b b' t :
    (forall a' r, a ++ OPEN ++ m ++ CLOSE ++ b = a' ++ OPEN ++ r -> (length a <= length a')%nat) ->
    (forall m' r, m ++ CLOSE ++ b = m' ++ CLOSE ++ r -> (length m <= length m')%nat) ->
    (gen (code_of m b) = Some t \/ gen (code_of m b) = None /\ t = []) ->
    expands gen b b' ->
    expands gen (a ++ OPEN ++ m ++ CLOSE ++ b) (a ++ t ++ b').

Lemma find_close_open r i : find_in CLOSE (OPEN ++ r) i = find_in CLOSE r (i + 9).
Proof.
  cbn. f_equal. lia.
Qed.

Lemma include_loop_expands gen s : forall fuel d,
  (length s < fuel)%nat ->
  exists s', include_loop gen fuel (d ++ s) (length d) = IDone (d ++ s') /\ expands gen s s'.
Proof.
  remember (length s) as n eqn:En. revert s En.
  induction n as [n IH] using lt_wf_ind; intros s En fuel d Hf.
  destruct fuel as [|fuel]; [lia|]. cbn [include_loop]. unfold find_from at 1.
  rewrite skipn_len.
  destruct (find_in OPEN s (length d)) as [p|] eqn:Ep.
  2:{ exists s. split; [reflexivity|]. apply ex_done. intros [a [m [b E]]].
      apply find_in_none in Ep. apply Ep. now exists a, (m ++ CLOSE ++ b). }
  apply find_in_some in Ep as [a [r [Es [-> Hmin]]]].
  assert (Hsk : skipn (length d + length a) (d ++ s) = OPEN ++ r).
  { rewrite <- app_length, Es, app_assoc, skipn_len. reflexivity. }
  unfold find_from at 1. rewrite Hsk, find_close_open.
  destruct (find_in CLOSE r (length d + length a + 9)) as [q0|] eqn:Eq.
  2:{ exists s. split; [reflexivity|]. apply ex_done. intros [a' [m [b E]]].
      apply find_in_none in Eq. apply Eq.
      pose proof (Hmin a' (m ++ CLOSE ++ b) E) as Hle.
      exists (skipn (length a + 9) (a' ++ OPEN ++ m)), b.
      assert (Er : r = skipn (length a + 9) (a ++ OPEN ++ r)).
      { rewrite skipn_app. replace (length a + 9 - length a)%nat with 9%nat by lia.
        rewrite skipn_all2 by lia. reflexivity. }
      rewrite Er, <- Es, E.
      replace (a' ++ OPEN ++ m ++ CLOSE ++ b) with ((a' ++ OPEN ++ m) ++ CLOSE ++ b)
        by now rewrite <- !app_assoc.
      rewrite (skipn_app (length a + 9)).
      replace (length a + 9 - length (a' ++ OPEN ++ m))%nat with 0%nat; [reflexivity|].
      rewrite !app_length. cbn [OPEN length]. lia. }
  apply find_in_some in Eq as [m [b [Er [-> Hminm]]]]. subst r.
  set (P := (length d + length a)%nat).
  assert (Hq : (P + 9 + length m + 3)%nat = length (d ++ a ++ OPEN ++ m ++ CLOSE)).
  { unfold P. rewrite !app_length. cbn [OPEN CLOSE length]. lia. }
  assert (Hds : d ++ s = (d ++ a ++ OPEN ++ m ++ CLOSE) ++ b) by (rewrite Es; now rewrite <- !app_assoc).
  assert (Hcode : sub_from (d ++ s) (P + 10) (Z.of_nat (P + 9 + length m + 3) - Z.of_nat P - 14)
                  = Some (code_of m b)).
  { unfold sub_from.
    destruct (Nat.ltb_spec (length (d ++ s)) (P + 10)) as [Hlt|Hlt].
    { exfalso. rewrite Hds, app_length, <- Hq in Hlt. lia. }
    assert (Hsk10 : skipn (P + 10) (d ++ s) = skipn 1 (m ++ CLOSE ++ b)).
    { rewrite Es. replace (d ++ a ++ OPEN ++ m ++ CLOSE ++ b) with ((d ++ a ++ OPEN) ++ (m ++ CLOSE ++ b))
        by now rewrite <- !app_assoc.
      rewrite skipn_app.
      assert (Hl : length (d ++ a ++ OPEN) = (P + 9)%nat).
      { unfold P. rewrite !app_length. cbn [OPEN length]. lia. }
      rewrite Hl, skipn_all2 by lia. replace (P + 10 - (P + 9))%nat with 1%nat by lia. reflexivity. }
    rewrite Hsk10. replace (Z.of_nat (P + 9 + length m + 3) - Z.of_nat P - 14) with (Z.of_nat (length m) - 2) by lia.
    f_equal. destruct m as [|x [|y m]].
    - reflexivity.
    - reflexivity.
    - cbn [length]. destruct (Z.ltb_spec (Z.of_nat (S (S (length m))) - 2) 0); [lia|].
      replace (Z.to_nat _) with (length m) by lia.
      change (code_of (x :: y :: m) b) with (removelast (y :: m)).
      change (skipn 1 ((x :: y :: m) ++ CLOSE ++ b)) with ((y :: m) ++ CLOSE ++ b).
      destruct (exists_last (l := y :: m) ltac:(discriminate)) as [m0 [z Ez]].
      rewrite Ez. rewrite removelast_last.
      assert (Hl : length m = length m0).
      { apply (f_equal (@length Z)) in Ez. rewrite app_length in Ez. cbn [length] in Ez. lia. }
      rewrite Hl, <- app_assoc. apply firstn_len. }
  rewrite Hcode.
  set (t := match gen (code_of m b) with Some t => t | None => [] end).
  assert (Hf1 : firstn P (d ++ s) = d ++ a).
  { unfold P. rewrite <- app_length, Es, app_assoc. apply firstn_len. }
  assert (Hs2 : skipn (P + 9 + length m + 3) (d ++ s) = b).
  { rewrite Hq, Hds. apply skipn_len. }
  rewrite Hf1, Hs2.
  assert (Hlb : (length b < n)%nat).
  { rewrite En, Es, !app_length. cbn [OPEN length]. lia. }
  destruct (IH (length b) Hlb b eq_refl fuel ((d ++ a) ++ t) ltac:(lia)) as [b' [Eb Hb']].
  exists (a ++ t ++ b'). split.
  - replace ((d ++ a) ++ t ++ b) with (((d ++ a) ++ t) ++ b) by now rewrite <- !app_assoc.
    replace (d ++ a ++ t ++ b') with (((d ++ a) ++ t) ++ b') by now rewrite <- !app_assoc.
    rewrite <- Eb. f_equal.
    rewrite Hds. rewrite (app_length _ b), (app_length _ b), <- Hq. lia.
  - rewrite Es. apply ex_step; auto.
    + intros a' r E. apply (Hmin a' r). now rewrite Es.
    + unfold t. destruct (gen (code_of m b)); auto.
Qed.

(** A page is expanded as specified, and the loop ends, whatever the texts are. *)
Theorem C49_include gen page :
  exists page', include gen page = IDone page' /\ expands gen page page'.
Proof.
  destruct (include_loop_expands gen page (S (length page)) [] ltac:(lia)) as [s' [E H]].
  exists s'. split; [exact E|exact H].
Qed.
Print Assumptions C49_include.

(** The specification determines the page. *)
Theorem C49_expands_unique gen s s1 s2 : expands gen s s1 -> expands gen s s2 -> s1 = s2.
Proof.
  intros H; revert s2; induction H as [s Hno|a m b b' t Ha Hm Ht H IH]; intros s2 H2.
  - inversion H2; subst; [reflexivity|]. exfalso; apply Hno; eauto.
  - inversion H2 as [s Hno|a2 m2 b2 b2' t2 Ha2 Hm2 Ht2 Hb2 E]; subst.
    + exfalso; apply Hno; eauto.
    + change (a2 ++ OPEN ++ m2 ++ CLOSE ++ b2 = a ++ OPEN ++ m ++ CLOSE ++ b) in E.
      assert (Hla : length a2 = length a).
      { apply Nat.le_antisymm; [eapply Ha2|eapply Ha]; [exact E|symmetry; exact E]. }
      assert (Haa : a2 = a).
      { rewrite <- (firstn_len a2 (OPEN ++ m2 ++ CLOSE ++ b2)), E, Hla. apply firstn_len. }
      subst a2. apply app_inv_head in E. apply app_inv_head in E.
      assert (Hlm : length m2 = length m).
      { apply Nat.le_antisymm; [eapply Hm2|eapply Hm]; [exact E|symmetry; exact E]. }
      assert (Hmm : m2 = m).
      { rewrite <- (firstn_len m2 (CLOSE ++ b2)), E, Hlm. apply firstn_len. }
      subst m2. apply app_inv_head in E. apply app_inv_head in E. subst b2.
      rewrite (IH _ Hb2). f_equal. f_equal.
      destruct Ht as [Ht|[Ht ->]], Ht2 as [Ht2|[Ht2 ->]]; congruence.
Qed.
Print Assumptions C49_expands_unique.

Example C49_ex : (* a page "x<!--#psis ab -->y" with a text containing a markup *)
  include (fun c => if list_eq_dec Z.eq_dec c [97; 98] then Some (OPEN ++ CLOSE) else None)
    ([120] ++ OPEN ++ [32; 97; 98; 32] ++ CLOSE ++ [121])
  = IDone ([120] ++ OPEN ++ CLOSE ++ [121]).
Proof. vm_compute. reflexivity. Qed.

(** Sessions (C36). *)
From Coq Require Import List ZArith Bool Arith Lia.
From Verif Require Import M_Web P_Web M_Session.
Import ListNotations.
Open Scope Z_scope.

(** * Specification: reads against the history of calls *)

(** A call with the session it was made in. *)
Definition event := (list Z * (op * output))%type.

(** The value of a key in a session, from the calls made before, latest first. *)
Fixpoint value (older : list event) (sid k : list Z) : list Z :=
  match older with
  | [] => []
  | (sid', (o, _)) :: rest =>
      if list_eq_dec Z.eq_dec sid sid' then
        match o with
        | OSet k' v => if list_eq_dec Z.eq_dec k k' then v else value rest sid k
        | OClear k' => if list_eq_dec Z.eq_dec k k' then [] else value rest sid k
        | OGetOrSet k' v =>
            if list_eq_dec Z.eq_dec k k' then
              match value rest sid k with [] => v | x => x end
            else value rest sid k
        | _ => value rest sid k
        end
      else value rest sid k
  end.

(** The right result of a call. *)
Definition right_output (older : list event) (sid : list Z) (o : op) : output :=
  match o with
  | OGet k => OutText (value older sid k)
  | OIs k => OutBool (match value older sid k with [] => false | _ => true end)
  | OSet _ _ => OutNone
  | OClear _ => OutNone
  | OGetOrSet k v => OutText (match value older sid k with [] => v | x => x end)
  end.

(** All calls of a list of answers are right, given what happened before. *)
Fixpoint right_calls (older : list event) (sid : list Z) (cs : list (op * output)) : Prop :=
  match cs with
  | [] => True
  | c :: cs' => snd c = right_output older sid (fst c) /\ right_calls ((sid, c) :: older) sid cs'
  end.
Fixpoint push (older : list event) (sid : list Z) (cs : list (op * output)) : list event :=
  match cs with [] => older | c :: cs' => push ((sid, c) :: older) sid cs' end.

(** The identifier sent in a cookie header: PSISESSIONID= and 25 characters. *)
Definition sends (cookies id : list Z) : Prop :=
  exists pre post, cookies = pre ++ IDENT ++ [61] ++ id ++ post /\ ~ occurs IDENT pre /\ length id = 25%nat.

(** [good issued older answers requests]: every request whose cookie names an identifier
    issued before works in that session; every other one gets an identifier never issued
    before; all calls are right. *)
Fixpoint good (issued : list (list Z)) (older : list event) (rs : list request) (l : list answer) : Prop :=
  match rs, l with
  | [], [] => True
  | r :: rs', a :: l' =>
      (forall id, sends (r_cookies r) id -> In id issued -> a_id a = id /\ a_new a = false) /\
      (a_new a = true -> ~ In (a_id a) issued /\ length (a_id a) = 25%nat) /\
      (a_new a = false -> In (a_id a) issued) /\
      map fst (a_calls a) = r_ops r /\
      right_calls older (a_id a) (a_calls a) /\
      good (if a_new a then a_id a :: issued else issued) (push older (a_id a) (a_calls a)) rs' l'
  | _, _ => False
  end.

(** * Lemmas *)
Lemma str_eqb_spec a b : reflect (a = b) (str_eqb a b).
Proof. unfold str_eqb. destruct (list_eq_dec Z.eq_dec a b); constructor; auto. Qed.
Lemma str_eqb_refl a : str_eqb a a = true.
Proof. destruct (str_eqb_spec a a); congruence. Qed.

(** ** Identifiers *)
Lemma dec_rev_more n : forall fuel, 0 <= n -> (S (Z.to_nat n) <= fuel)%nat ->
  exists rest, dec_rev fuel n ++ repeat 48 4 = (48 + n mod 10) :: rest.
Proof.
  intros [|f] Hn Hf; [lia|]. cbn [dec_rev]. destruct (Z.ltb_spec n 10).
  - rewrite Z.mod_small by lia. eexists. reflexivity.
  - eexists. reflexivity.
Qed.
(** The first [k] digits, padded with zeros. *)
Fixpoint digits_lsb (k : nat) (n : Z) : list Z :=
  match k with O => [] | S k' => (48 + n mod 10) :: digits_lsb k' (n / 10) end.
Lemma digits_zero k : digits_lsb k 0 = repeat 48 k.
Proof. induction k as [|k IH]; [reflexivity|]. cbn [digits_lsb repeat]. rewrite Zdiv_0_l, IH. reflexivity. Qed.
Lemma dec_rev_digits k : forall fuel n, 0 <= n -> (Z.to_nat n < fuel)%nat ->
  firstn k (dec_rev fuel n ++ repeat 48 k) = digits_lsb k n.
Proof.
  induction k as [|k IH]; intros [|f] n Hn Hf; try lia; [reflexivity|].
  cbn [dec_rev digits_lsb]. destruct (Z.ltb_spec n 10).
  - rewrite Z.mod_small, Z.div_small, digits_zero by lia.
    change ([48 + n] ++ repeat 48 (S k)) with ((48 + n) :: repeat 48 (S k)).
    cbn [firstn]. f_equal. clear. replace (S k) with (k + 1)%nat by lia.
    rewrite repeat_app, firstn_app, repeat_length, Nat.sub_diag. cbn [firstn].
    rewrite app_nil_r. rewrite <- (repeat_length 48 k) at 1. apply firstn_all.
  - cbn [app firstn]. f_equal. rewrite <- (IH f (n / 10)).
    + replace (S k) with (k + 1)%nat by lia. rewrite repeat_app, app_assoc, firstn_app.
      replace (k - length (dec_rev f (n / 10)%Z ++ repeat 48%Z k))%nat with 0%nat
        by (rewrite app_length, repeat_length; lia).
      cbn [firstn]. now rewrite app_nil_r.
    + apply Z.div_pos; lia.
    + assert (n / 10 < n) by (apply Z.div_lt; lia). assert (0 <= n / 10) by (apply Z.div_pos; lia). lia.
Qed.

Lemma skipn_rev {A} (l : list A) k : (k <= length l)%nat -> skipn (length l - k) (rev l) = rev (firstn k l).
Proof.
  intros H. rewrite <- (firstn_skipn k l) at 2. rewrite rev_app_distr, skipn_app.
  rewrite rev_length, skipn_length.
  replace (length l - k - (length l - k))%nat with 0%nat by lia. cbn [skipn].
  rewrite skipn_all2; [reflexivity|]. rewrite rev_length, skipn_length. lia.
Qed.
Lemma zero_pad_spec n : 0 <= n -> zero_pad n = rev (digits_lsb 4 n).
Proof.
  intros Hn. unfold zero_pad. set (dr := dec_rev (S (Z.to_nat n)) n).
  rewrite <- (dec_rev_digits 4 (S (Z.to_nat n)) n Hn) by lia. fold dr.
  rewrite rev_length.
  assert (E : repeat 48 (4 - length dr) ++ rev dr = rev (dr ++ repeat 48 (4 - length dr))).
  { rewrite rev_app_distr. f_equal. clear. induction (4 - length dr)%nat as [|k IH]; [reflexivity|].
    cbn [repeat rev]. rewrite <- IH. clear. induction k; [reflexivity|]. cbn. now f_equal. }
  rewrite E, rev_length, skipn_rev.
  - f_equal. destruct (Nat.le_gt_cases 4 (length dr)) as [Hl|Hl].
    + replace (4 - length dr)%nat with 0%nat by lia. cbn [repeat]. rewrite app_nil_r.
      rewrite firstn_app. replace (4 - length dr)%nat with 0%nat by lia. cbn [firstn]. now rewrite app_nil_r.
    + rewrite !firstn_app. f_equal.
      replace (repeat 48 4) with (repeat 48 (4 - length dr) ++ repeat 48 (length dr)).
      * rewrite firstn_app, repeat_length, Nat.sub_diag. cbn [firstn]. now rewrite app_nil_r.
      * rewrite <- repeat_app. f_equal. lia.
  - rewrite app_length, repeat_length. lia.
Qed.
Lemma digits_lsb_length k n : length (digits_lsb k n) = k.
Proof. revert n; induction k; intros; cbn; auto. Qed.
Lemma digits_inj a b : 0 <= a < 10000 -> 0 <= b < 10000 -> digits_lsb 4 a = digits_lsb 4 b -> a = b.
Proof.
  intros Ha Hb E. cbn [digits_lsb] in E.
  pose proof (f_equal (fun l => nth 0 l 0) E) as E0. pose proof (f_equal (fun l => nth 1 l 0) E) as E1.
  pose proof (f_equal (fun l => nth 2 l 0) E) as E2. pose proof (f_equal (fun l => nth 3 l 0) E) as E3.
  cbv beta in E0, E1, E2, E3. cbn [nth] in E0, E1, E2, E3. clear E.
  pose proof (Z.div_mod a 10 ltac:(lia)). pose proof (Z.div_mod b 10 ltac:(lia)).
  pose proof (Z.div_mod (a / 10) 10 ltac:(lia)). pose proof (Z.div_mod (b / 10) 10 ltac:(lia)).
  pose proof (Z.div_mod (a / 10 / 10) 10 ltac:(lia)). pose proof (Z.div_mod (b / 10 / 10) 10 ltac:(lia)).
  pose proof (Z.div_mod (a / 10 / 10 / 10) 10 ltac:(lia)). pose proof (Z.div_mod (b / 10 / 10 / 10) 10 ltac:(lia)).
  assert (a / 10 / 10 / 10 / 10 = 0) by (rewrite !Z.div_div by lia; apply Z.div_small; lia).
  assert (b / 10 / 10 / 10 / 10 = 0) by (rewrite !Z.div_div by lia; apply Z.div_small; lia).
  lia.
Qed.

Lemma guid_length c d r : 0 <= c -> length d = 6%nat -> length r = 13%nat -> length (get_guid c d r) = 25%nat.
Proof.
  intros Hc Hd Hr. unfold get_guid. rewrite !app_length, zero_pad_spec, rev_length, digits_lsb_length by lia.
  cbn [length]. lia.
Qed.
Lemma guid_inj c c' d r d' r' : 0 <= c < 9999 -> 0 <= c' < 9999 ->
  length d = 6%nat -> length d' = 6%nat ->
  get_guid c d r = get_guid c' d' r' -> c = c'.
Proof.
  intros Hc Hc' Hd Hd' E. unfold get_guid in E. rewrite !zero_pad_spec in E by lia.
  apply (f_equal (fun l => firstn 4 (skipn 7 l))) in E.
  assert (H : forall d z r, length d = 6%nat -> length z = 4%nat ->
                 firstn 4 (skipn 7 (d ++ [45] ++ z ++ [45] ++ r)) = z).
  { clear. intros d z r Hd Hz. rewrite app_assoc.
    replace 7%nat with (length (d ++ [45])) by (rewrite app_length; cbn; lia).
    rewrite skipn_len. rewrite <- Hz. apply firstn_len. }
  rewrite !H in E by (auto; rewrite rev_length; apply digits_lsb_length).
  apply (f_equal (@rev Z)) in E. rewrite !rev_involutive in E.
  apply digits_inj in E; lia.
Qed.

(** ** The cookie *)
Lemma ident_no_border pre rest a b :
  pre ++ IDENT ++ rest = a ++ IDENT ++ b -> ~ occurs IDENT pre -> (length pre <= length a)%nat.
Proof.
  intros E Hno. destruct (Nat.le_gt_cases (length pre) (length a)) as [|Hlt]; [assumption|exfalso].
  assert (Hk : exists k, (k < 12)%nat /\ (0 < k)%nat /\ pre = a ++ firstn k IDENT).
  { assert (Hpre : pre = a ++ firstn (length pre - length a) (IDENT ++ b)).
    { pose proof (f_equal (firstn (length pre)) E) as E'.
      rewrite firstn_len in E'. etransitivity; [exact E'|]. rewrite firstn_app, (firstn_all2 a) by lia. reflexivity. }
    destruct (Nat.lt_ge_cases (length pre - length a) 12) as [Hs|Hs].
    - exists (length pre - length a)%nat. split; [exact Hs|]. split; [lia|].
      etransitivity; [exact Hpre|]. f_equal. rewrite firstn_app.
      replace (length pre - length a - length IDENT)%nat with 0%nat by (cbn [IDENT length]; lia).
      cbn [firstn]. apply app_nil_r.
    - exfalso. apply Hno. exists a, (firstn (length pre - length a - 12) b).
      etransitivity; [exact Hpre|]. f_equal. rewrite firstn_app. f_equal. apply firstn_all2. exact Hs. }
  destruct Hk as [k [Hk1 [Hk2 ->]]]. rewrite <- app_assoc in E. apply app_inv_head in E.
  do 12 (destruct k as [|k]; [try lia; discriminate E|]). lia.
Qed.
Theorem C36_cookie cookies id : sends cookies id -> session_id cookies = Some id.
Proof.
  intros [pre [post [-> [Hno Hl]]]]. unfold session_id.
  unfold find_from. cbn [skipn].
  destruct (find_in IDENT (pre ++ IDENT ++ [61] ++ id ++ post) 0) as [k|] eqn:Ek.
  - apply find_in_some in Ek as [a [b [E [-> Hmin]]]].
    assert (length a = length pre).
    { apply Nat.le_antisymm.
      - apply (Hmin pre ([61] ++ id ++ post)). reflexivity.
      - eapply ident_no_border; [exact E|exact Hno]. }
    assert (Hs : (0 + length a + 12 + 1)%nat = length (pre ++ IDENT ++ [61])).
    { rewrite !app_length. cbn [IDENT length]. lia. }
    rewrite Hs.
    replace (pre ++ IDENT ++ [61] ++ id ++ post) with ((pre ++ IDENT ++ [61]) ++ (id ++ post))
      by now rewrite <- !app_assoc.
    rewrite (app_length (pre ++ IDENT ++ [61]) (id ++ post)).
    destruct (Nat.ltb_spec (length (pre ++ IDENT ++ [61]) + length (id ++ post)) (length (pre ++ IDENT ++ [61]))); [lia|].
    rewrite skipn_len. rewrite <- Hl. now rewrite firstn_len.
  - exfalso. apply find_in_none in Ek. apply Ek. now exists pre, ([61] ++ id ++ post).
Qed.
Print Assumptions C36_cookie.

(** What is sent as a cookie comes back as the same identifier. *)
Corollary C36_cookie_roundtrip id pre post :
  length id = 25%nat -> ~ occurs IDENT pre -> session_id (pre ++ cookie_header_value id ++ post) = Some id.
Proof.
  intros Hl Hp. apply C36_cookie. exists pre, post. unfold cookie_header_value. now rewrite <- !app_assoc.
Qed.
Print Assumptions C36_cookie_roundtrip.

(** ** The map of sessions *)
Lemma lookup_update_same id d s x : lookup id s = Some x -> lookup id (update id d s) = Some d.
Proof.
  induction s as [|[i y] s IH]; cbn [lookup update]; [discriminate|].
  destruct (str_eqb_spec id i) as [->|]; intros H; cbn [lookup].
  - now rewrite str_eqb_refl.
  - destruct (str_eqb_spec id i); [congruence|auto].
Qed.
Lemma lookup_update_other id id' d s : id <> id' -> lookup id (update id' d s) = lookup id s.
Proof.
  intros Hne. induction s as [|[i y] s IH]; cbn [lookup update]; [reflexivity|].
  destruct (str_eqb_spec id' i) as [->|]; cbn [lookup].
  - destruct (str_eqb_spec id i); [congruence|reflexivity].
  - destruct (str_eqb_spec id i); auto.
Qed.

(** The invariant: the map holds the issued identifiers, every key has its value, and
    the identifiers carry numbers up to the counter. *)
Record inv (issued : list (list Z)) (older : list event) (m : manager) : Prop := {
  inv_map : forall id, In id issued <-> exists d, lookup id (sessions m) = Some d;
  inv_data : forall id d k, lookup id (sessions m) = Some d -> get_data d k = value older id k;
  inv_num : forall id, In id issued -> exists n d r, 0 <= n < counter m /\ length d = 6%nat /\ id = get_guid n d r;
  inv_old : forall sid c, In (sid, c) older -> In sid issued;
  inv_counter : 0 <= counter m
}.

Lemma value_never older sid k : (forall c, ~ In (sid, c) older) -> value older sid k = [].
Proof.
  induction older as [|[s [o out]] older IH]; intros H; [reflexivity|]. cbn [value].
  destruct (list_eq_dec Z.eq_dec sid s) as [->|].
  - exfalso. apply (H (o, out)). now left.
  - apply IH. intros c Hc. apply (H c). now right.
Qed.

Lemma is_data_get d k : is_data d k = match get_data d k with [] => false | _ => true end.
Proof. unfold is_data, get_data. destruct (lookup k d) as [[|]|]; reflexivity. Qed.

Lemma get_set d k v k' : get_data (set_data d k v) k' = if list_eq_dec Z.eq_dec k' k then v else get_data d k'.
Proof. unfold get_data, set_data. cbn [lookup]. unfold str_eqb. destruct (list_eq_dec Z.eq_dec k' k); reflexivity. Qed.

(** One call on the data of a session. *)
Lemma data_op_right older sid d o :
  (forall k, get_data d k = value older sid k) ->
  snd (data_op d o) = right_output older sid o /\
  (forall k out, get_data (fst (data_op d o)) k = value ((sid, (o, out)) :: older) sid k).
Proof.
  intros H. destruct (list_eq_dec Z.eq_dec sid sid) as [Heq|Hne]; [|congruence].
  destruct o as [k0|k0|k0 v0|k0|k0 v0]; cbn [data_op right_output fst snd value];
  (destruct (list_eq_dec Z.eq_dec sid sid) as [_|]; [|congruence]).
  - split; [now rewrite H|auto].
  - split; [now rewrite is_data_get, H|auto].
  - split; [reflexivity|]. intros k out. rewrite get_set. destruct (list_eq_dec _ k k0); auto.
  - split; [reflexivity|]. intros k out. change (clear_data d k0) with (set_data d k0 []).
    rewrite get_set. destruct (list_eq_dec _ k k0); auto.
  - unfold get_or_set. cbn [fst snd]. rewrite is_data_get.
    destruct (get_data d k0) as [|x xs] eqn:Eg; cbn [fst snd].
    + rewrite <- H, Eg. split.
      * rewrite get_set. destruct (list_eq_dec Z.eq_dec k0 k0); congruence.
      * intros k out. rewrite get_set. destruct (list_eq_dec Z.eq_dec k k0) as [->|]; [|auto].
        now rewrite <- H, Eg.
    + rewrite <- H, Eg. split; [reflexivity|]. intros k out.
      destruct (list_eq_dec Z.eq_dec k k0) as [->|]; [|auto]. now rewrite <- H, Eg.
Qed.

Lemma current_op_right issued older m date random o :
  inv issued older m -> In (current m) issued ->
  exists m', current_op date random m o = (m', right_output older (current m) o) /\
    inv issued ((current m, (o, right_output older (current m) o)) :: older) m' /\
    current m' = current m /\ counter m' = counter m.
Proof.
  intros I Hc. unfold current_op, get_session, is_session.
  destruct (proj1 (inv_map _ _ _ I _) Hc) as [d Hd]. rewrite Hd.
  cbv iota beta. rewrite Hd.
  destruct (data_op_right older (current m) d o) as [Hout Hval].
  { intros k. now apply (inv_data _ _ _ I). }
  destruct (data_op d o) as [d' r] eqn:Eo. cbn [fst snd] in *. subst r.
  eexists. split; [reflexivity|]. split; [|split; reflexivity].
  constructor; cbn [sessions counter].
  - intros id. rewrite (inv_map _ _ _ I). destruct (list_eq_dec Z.eq_dec id (current m)) as [->|Hne].
    + split; intros _; [|eauto]. exists d'. eapply lookup_update_same; eauto.
    + rewrite lookup_update_other by assumption. reflexivity.
  - intros id e k He. destruct (list_eq_dec Z.eq_dec id (current m)) as [->|Hne].
    + rewrite (lookup_update_same _ _ _ _ Hd) in He. injection He as <-. apply Hval.
    + rewrite lookup_update_other in He by assumption. cbn [value].
      destruct (list_eq_dec Z.eq_dec id (current m)); [congruence|]. now apply (inv_data _ _ _ I).
  - apply (inv_num _ _ _ I).
  - intros sid c [E|Hin]; [injection E as <- _; assumption|]. now apply (inv_old _ _ _ I) in Hin.
  - apply (inv_counter _ _ _ I).
Qed.

Lemma run_ops_right issued date random os : forall older m,
  inv issued older m -> In (current m) issued ->
  exists m' cs, run_ops date random m os = (m', cs) /\ map fst cs = os /\
    right_calls older (current m) cs /\ inv issued (push older (current m) cs) m' /\ counter m' = counter m.
Proof.
  induction os as [|o os IH]; intros older m I Hc; cbn [run_ops].
  - exists m, []. cbn. auto.
  - destruct (current_op_right issued older m date random o I Hc) as [m1 [E1 [I1 [Hc1 Hk1]]]].
    rewrite E1.
    destruct (IH _ m1 I1) as [m2 [cs [E2 [Hm [Hr [I2 Hk2]]]]]]; [now rewrite Hc1|].
    rewrite E2. rewrite Hc1 in Hr, I2. exists m2, ((o, right_output older (current m) o) :: cs).
    split; [reflexivity|]. cbn [map fst snd right_calls push].
    split; [now rewrite Hm|]. split; [split; [reflexivity|exact Hr]|]. split; [exact I2|congruence].
Qed.

(** Requests whose cookie header does not make SessionId throw and whose environment is
    what the clock and rand() can give. *)
Definition well_formed (r : request) : Prop :=
  session_id (r_cookies r) <> None /\ length (r_date r) = 6%nat /\ length (r_random r) = 13%nat.

Lemma run_good rs : forall issued older m,
  inv issued older m -> Forall well_formed rs -> counter m + Z.of_nat (length rs) < 10000 ->
  exists m' l, run m rs = Some (m', l) /\ good issued older rs l.
Proof.
  induction rs as [|r rs IH]; intros issued older m I Hwf Hn; cbn [run].
  - exists m, []. cbn. auto.
  - inversion Hwf as [|? ? [Hs [Hd Hr]] Hwf']; subst. cbn [length] in Hn.
    unfold run_request, begin_request.
    destruct (session_id (r_cookies r)) as [id|] eqn:Eid; [|congruence]. clear Hs.
    destruct (is_session m id) eqn:Eis.
    + (* existing session *)
      unfold get_session. rewrite Eis. cbn [pointer_id].
      assert (Hin : In id issued).
      { apply (inv_map _ _ _ I). unfold is_session in Eis. destruct (lookup id (sessions m)); [eauto|discriminate]. }
      assert (I1 : inv issued older (set_current m id)).
      { destruct I. constructor; auto. }
      destruct (run_ops_right issued (r_date r) (r_random r) (r_ops r) older (set_current m id) I1 Hin)
        as [m2 [cs [E2 [Hm [Hrc [I2 Hk]]]]]].
      rewrite E2. cbn [set_current counter current] in *.
      destruct (IH issued (push older id cs) m2 I2 Hwf') as [m3 [l [E3 Hg]]]; [lia|].
      rewrite E3. eexists _, _. split; [reflexivity|].
      cbn [good a_id a_new a_calls negb]. repeat split; auto.
      * intros. apply C36_cookie in H. congruence.
      * intros; discriminate.
      * intros; discriminate.
    + (* new session *)
      unfold new_session. cbn [pointer_id].
      set (nid := get_guid (counter m) (r_date r) (r_random r)).
      pose proof (inv_counter _ _ _ I) as Hc0.
      assert (Hfresh : ~ In nid issued).
      { intros Hin. destruct (inv_num _ _ _ I _ Hin) as [n [d [x [Hnn [Hld E]]]]].
        unfold nid in E. apply guid_inj in E; auto; lia. }
      assert (Eis2 : is_session m nid = false).
      { unfold is_session. destruct (lookup nid (sessions m)) eqn:E; [|reflexivity].
        exfalso. apply Hfresh. apply (inv_map _ _ _ I). eauto. }
      rewrite Eis2.
      set (m1 := set_current _ nid).
      assert (I1 : inv (nid :: issued) older m1).
      { constructor; unfold m1; cbn [set_current sessions counter].
        - intros i. cbn [lookup]. destruct (str_eqb_spec i nid) as [->|Hne].
          + split; intros _; [eauto|now left].
          + rewrite <- (inv_map _ _ _ I). split; [intros [|]; congruence|now right].
        - intros i d k. cbn [lookup]. destruct (str_eqb_spec i nid) as [->|Hne].
          + intros [= <-]. cbn. symmetry. apply value_never. intros c Hc. apply Hfresh.
            eapply (inv_old _ _ _ I); eauto.
          + apply (inv_data _ _ _ I).
        - intros i [<-|Hin].
          + exists (counter m), (r_date r), (r_random r). repeat split; auto; lia.
          + destruct (inv_num _ _ _ I _ Hin) as [n [d [x [? [? ?]]]]]. exists n, d, x. repeat split; auto; lia.
        - intros s c Hin. right. eapply (inv_old _ _ _ I); eauto.
        - lia. }
      destruct (run_ops_right (nid :: issued) (r_date r) (r_random r) (r_ops r) older m1 I1)
        as [m2 [cs [E2 [Hm [Hrc [I2 Hk]]]]]]; [now left|].
      rewrite E2. change (current m1) with nid in *.
      change (counter m1) with (counter m + 1) in Hk.
      destruct (IH (nid :: issued) (push older nid cs) m2 I2 Hwf') as [m3 [l [E3 Hg]]]; [lia|].
      rewrite E3. eexists _, _. split; [reflexivity|].
      cbn [good a_id a_new a_calls negb]. split; [|split; [|split; [|split; [|split]]]]; auto.
      * intros i Hsend Hin. exfalso. apply C36_cookie in Hsend.
        assert (i = id) by congruence. subst i.
        apply (inv_map _ _ _ I) in Hin as [d Hd']. unfold is_session in Eis. rewrite Hd' in Eis. discriminate.
      * intros _. split; [exact Hfresh|]. now apply guid_length.
      * discriminate.
Qed.

(** For every history of fewer than 10000 requests, handled one after the other, every
    client works in its own session and reads what was last written there. *)
Theorem C36_isolated rs :
  Forall well_formed rs -> Z.of_nat (length rs) < 10000 ->
  exists m l, run initial rs = Some (m, l) /\ good [] [] rs l.
Proof.
  intros Hwf Hn. apply run_good; [|exact Hwf|cbn [initial counter]; lia].
  constructor; cbn.
  - intros id. split; [intros []|intros [d [=]]].
  - discriminate.
  - intros id [].
  - intros sid c [].
  - lia.
Qed.
Print Assumptions C36_isolated.

(** ** A concrete history: two clients, the first comes back with its cookie. *)
Definition DATE : list Z := [50; 54; 48; 49; 48; 49].
Definition RND : list Z := repeat 97 13.
Definition ID1 : list Z := get_guid 0 DATE RND.
Example C36_ex :
  match run initial
    [ {| r_cookies := []; r_date := DATE; r_random := RND; r_ops := [OSet [107] [49]] |};
      {| r_cookies := []; r_date := DATE; r_random := RND; r_ops := [OGet [107]; OSet [107] [50]] |};
      {| r_cookies := [120; 61; 59] ++ cookie_header_value ID1; r_date := DATE; r_random := RND;
         r_ops := [OGet [107]; OIs [108]; OGetOrSet [108] [51]] |} ] with
  | Some (_, l) => map (fun a => (a_new a, map snd (a_calls a))) l
  | None => []
  end = [(true, [OutNone]); (true, [OutText []; OutNone]);
         (false, [OutText [49]; OutBool false; OutText [51]])].
Proof. vm_compute. reflexivity. Qed.

(** ** What does not hold *)

(** With several threads: thread 1 works in session ID1, thread 2 begins a request of a
    new client; the value thread 1 now writes is read by thread 2. *)
Theorem C36_threads_refuted :
  exists id2, id2 <> ID1 /\
  run_steps initial
    [ SBegin 1 [] DATE RND; SBegin 2 [] DATE RND; SOp 1 DATE RND (OSet [107] [49]); SOp 2 DATE RND (OGet [107]) ]
  = Some [ (1%nat, inl ID1); (2%nat, inl id2); (1%nat, inr OutNone); (2%nat, inr (OutText [49])) ].
Proof. exists (get_guid 1 DATE RND). split; [discriminate|]. vm_compute. reflexivity. Qed.
Print Assumptions C36_threads_refuted.

(** A cookie header that ends with the identifier makes SessionId throw. *)
Theorem C36_cookie_throws_refuted pre : ~ occurs IDENT pre -> session_id (pre ++ IDENT) = None.
Proof.
  intros Hno. unfold session_id, find_from. cbn [skipn].
  destruct (find_in IDENT (pre ++ IDENT) 0) as [k|] eqn:Ek.
  - apply find_in_some in Ek as [a [b [E [-> Hmin]]]].
    assert (length pre <= length a)%nat.
    { eapply (ident_no_border pre []); [|exact Hno]. rewrite app_nil_r. exact E. }
    rewrite app_length. change (length IDENT) with 12%nat.
    destruct (Nat.ltb_spec (length pre + 12) (0 + length a + 12 + 1)); [reflexivity|lia].
  - exfalso. apply find_in_none in Ek. apply Ek. exists pre, []. now rewrite app_nil_r.
Qed.
Print Assumptions C36_cookie_throws_refuted.

(** After 10000 identifiers the numbers repeat: identifiers then differ only by the
    date and the random part. *)
Theorem C36_number_wraps_refuted c d r : 0 <= c -> get_guid (c + 10000) d r = get_guid c d r.
Proof.
  intros Hc. unfold get_guid. rewrite !zero_pad_spec by lia. f_equal. f_equal. f_equal. f_equal.
  replace (c + 10000 + 1) with (c + 1 + 10000) by lia. generalize (c + 1). clear. intros n.
  cbn [digits_lsb].
  replace (n + 10000) with (n + 1000 * 10) by lia. rewrite Z.mod_add, Z.div_add by lia.
  replace (n / 10 + 1000) with (n / 10 + 100 * 10) by lia. rewrite Z.mod_add, Z.div_add by lia.
  replace (n / 10 / 10 + 100) with (n / 10 / 10 + 10 * 10) by lia. rewrite Z.mod_add, Z.div_add by lia.
  replace (n / 10 / 10 / 10 + 10) with (n / 10 / 10 / 10 + 1 * 10) by lia. rewrite Z.mod_add by lia.
  reflexivity.
Qed.
Print Assumptions C36_number_wraps_refuted.

(** HTTP request parsing (C33, C34). *)
From Coq Require Import List ZArith Bool Arith Lia.
From Verif Require Import M_Http S_Http.
Import ListNotations.
Open Scope Z_scope.

(** * C33: packets *)
Lemma parse_app p r s t :
  parse p r (s ++ t) =
  match parse p r s with
  | (More, p', r', n) => let '(v, p2, r2, k) := parse p' r' t in (v, p2, r2, (n + k)%nat)
  | res => res
  end.
Proof.
  revert p r; induction s as [|c s IH]; intros p r; cbn [app parse].
  - destruct (parse p r t) as [[[v p2] r2] k]. reflexivity.
  - destruct (consume p r c) as [[[| |] p1] r1]; try reflexivity.
    rewrite IH. destruct (parse p1 r1 s) as [[[[| |] p2] r2] n]; try reflexivity.
    destruct (parse p2 r2 t) as [[[v3 p3] r3] k]. reflexivity.
Qed.

(** The verdict, the parser, the request and the number of bytes consumed are the same
    for every partition of the stream into packets. *)
Theorem C33_packets p r packets : read_packets p r packets = parse p r (concat packets).
Proof.
  revert p r; induction packets as [|s packets IH]; intros p r; cbn [read_packets concat]; [reflexivity|].
  rewrite parse_app. destruct (parse p r s) as [[[[| |] p'] r'] n]; try reflexivity.
  now rewrite IH.
Qed.
Print Assumptions C33_packets.
Corollary C33_same_stream p r packets packets' :
  concat packets = concat packets' -> read_packets p r packets = read_packets p r packets'.
Proof. intros E. now rewrite !C33_packets, E. Qed.
Print Assumptions C33_same_stream.

(** Never more bytes consumed than there are, and all of them while more are needed. *)
Theorem C33_consumed p r s v p' r' n :
  parse p r s = (v, p', r', n) -> (n <= length s)%nat /\ (v = More -> n = length s).
Proof.
  revert p r n; induction s as [|c s IH]; intros p r n; cbn [parse length].
  - intros [= <- _ _ <-]. auto.
  - destruct (consume p r c) as [[[| |] p1] r1]; try (intros [= <- _ _ <-]; split; [lia|discriminate]).
    destruct (parse p1 r1 s) as [[[v2 p2] r2] k] eqn:E. intros [= -> -> -> <-].
    apply IH in E as [E1 E2]. split; [lia|]. intros H; apply E2 in H. lia.
Qed.
Print Assumptions C33_consumed.
Example C33_ex : (* "GET / HT" | "TP/1.0\r\n\r\nx" *)
  exists p r, read_packets initial_parser initial_req
    [[71; 69; 84; 32; 47; 32; 72; 84]; [84; 80; 47; 49; 46; 48; 13; 10; 13; 10; 120]] = (Complete, p, r, 18%nat)
    /\ r = Req [71; 69; 84] [47] 1 0 [] [].
Proof. eexists _, _. split; [vm_compute; reflexivity|reflexivity]. Qed.

(** * C34: well-formed requests *)

(** ** The character classes *)
Lemma is_ctl_spec c : is_ctl c = true <-> control c.
Proof.
  unfold is_ctl, control. rewrite orb_true_iff, andb_true_iff, !Z.leb_le, Z.eqb_eq. reflexivity.
Qed.
Lemma is_ctl_false c : is_ctl c = false <-> ~ control c.
Proof. rewrite <- is_ctl_spec. destruct (is_ctl c); split; congruence. Qed.
Lemma is_tspecial_spec c : is_tspecial c = true <-> separator c.
Proof.
  unfold is_tspecial, separator. rewrite existsb_exists. split.
  - intros [x [Hx E]]. apply Z.eqb_eq in E. now subst.
  - intros H. exists c. split; [exact H|apply Z.eqb_refl].
Qed.
Lemma not_token_spec c : not_token c = false <-> token_char c.
Proof.
  unfold not_token, token_char. rewrite !orb_false_iff, is_ctl_false.
  assert (is_tspecial c = false <-> ~ separator c).
  { rewrite <- is_tspecial_spec. destruct (is_tspecial c); split; congruence. }
  assert (negb (is_char c) = false <-> 0 <= c <= 127).
  { unfold is_char. rewrite negb_false_iff, andb_true_iff, !Z.leb_le. reflexivity. }
  tauto.
Qed.
Lemma is_digit_spec c : is_digit c = true <-> 48 <= c <= 57.
Proof. unfold is_digit. rewrite andb_true_iff, !Z.leb_le. reflexivity. Qed.
Lemma token_char_not c x : token_char c -> In x [32; 58; 9] -> c <> x.
Proof. intros [_ [_ H]] Hx ->. apply H. unfold separator. cbn in *. intuition. Qed.
Lemma token_char_nocr c : token_char c -> c <> 13.
Proof. intros [_ [H _]] ->. apply H. left; lia. Qed.
Lemma str_eqb_true a b : str_eqb a b = true <-> a = b.
Proof. unfold str_eqb. destruct (list_eq_dec Z.eq_dec a b); split; congruence. Qed.

(** ** Forward: a rendered request is understood *)
Definition moves (p : parser) (r : req) (s : list Z) (p' : parser) (r' : req) : Prop :=
  parse p r s = (More, p', r', length s).
Lemma moves_nil p r : moves p r [] p r.
Proof. reflexivity. Qed.
Lemma moves_app p r s p1 r1 t p2 r2 : moves p r s p1 r1 -> moves p1 r1 t p2 r2 -> moves p r (s ++ t) p2 r2.
Proof. unfold moves. intros H1 H2. rewrite parse_app, H1, H2, app_length. reflexivity. Qed.
Lemma moves_cons p r c p1 r1 t p2 r2 :
  consume p r c = (More, p1, r1) -> moves p1 r1 t p2 r2 -> moves p r (c :: t) p2 r2.
Proof. unfold moves. intros H1 H2. cbn [parse]. rewrite H1, H2. reflexivity. Qed.
Lemma moves_one p r c p1 r1 : consume p r c = (More, p1, r1) -> moves p r [c] p1 r1.
Proof. intros H. eapply moves_cons; [exact H|apply moves_nil]. Qed.

(** The parser in a state, before any body. *)
Definition at_ (s : state) : parser := Parser s 0 0.

Lemma moves_method m u ma mi hs b s : Forall token_char s ->
  moves (at_ method) (Req m u ma mi hs b) s (at_ method) (Req (m ++ s) u ma mi hs b).
Proof.
  intros H; revert m; induction H as [|c s Hc H IH]; intros m.
  - rewrite app_nil_r. apply moves_nil.
  - eapply moves_cons.
    + cbn [consume at_ p_state].
      replace (c =? 32) with false by (symmetry; apply Z.eqb_neq; eapply token_char_not; [exact Hc|cbn; auto]).
      apply not_token_spec in Hc. rewrite Hc. reflexivity.
    + replace (m ++ c :: s) with ((m ++ [c]) ++ s) by now rewrite <- app_assoc. apply IH.
Qed.
Lemma moves_uri m u ma mi hs b s : uri_text s ->
  moves (at_ uri) (Req m u ma mi hs b) s (at_ uri) (Req m (u ++ s) ma mi hs b).
Proof.
  intros H; revert u; induction H as [|c s [Hc Hc'] H IH]; intros u.
  - rewrite app_nil_r. apply moves_nil.
  - eapply moves_cons.
    + cbn [consume at_ p_state]. apply Z.eqb_neq in Hc'. apply is_ctl_false in Hc.
      rewrite Hc', Hc. reflexivity.
    + replace (u ++ c :: s) with ((u ++ [c]) ++ s) by now rewrite <- app_assoc. apply IH.
Qed.
Definition number_from (n : Z) (s : list Z) : Z := fold_left (fun n c => 10 * n + (c - 48)) s n.
Lemma moves_major m u ma mi hs b s : Forall (fun c => 48 <= c <= 57) s ->
  moves (at_ http_version_major) (Req m u ma mi hs b) s (at_ http_version_major) (Req m u (number_from ma s) mi hs b).
Proof.
  intros H; revert ma; induction H as [|c s Hc H IH]; intros ma; [apply moves_nil|].
  eapply moves_cons; [|apply IH].
  cbn [consume at_ p_state]. replace (c =? 46) with false by (symmetry; apply Z.eqb_neq; lia).
  rewrite (proj2 (is_digit_spec c) Hc). cbn [r_major r_minor set_version r_method r_uri r_headers r_post].
  unfold goto. cbn [p_length p_counter]. replace (ma * 10 + c - 48) with (10 * ma + (c - 48)) by lia. reflexivity.
Qed.
Lemma moves_minor m u ma mi hs b s : Forall (fun c => 48 <= c <= 57) s ->
  moves (at_ http_version_minor) (Req m u ma mi hs b) s (at_ http_version_minor) (Req m u ma (number_from mi s) hs b).
Proof.
  intros H; revert mi; induction H as [|c s Hc H IH]; intros mi; [apply moves_nil|].
  eapply moves_cons; [|apply IH].
  cbn [consume at_ p_state]. replace (c =? 13) with false by (symmetry; apply Z.eqb_neq; lia).
  rewrite (proj2 (is_digit_spec c) Hc). cbn [r_major r_minor set_version r_method r_uri r_headers r_post].
  unfold goto. cbn [p_length p_counter]. replace (mi * 10 + c - 48) with (10 * mi + (c - 48)) by lia. reflexivity.
Qed.
Lemma back_name_app hs n v c : back_name (hs ++ [(n, v)]) c = hs ++ [(n ++ [c], v)].
Proof.
  induction hs as [|h hs IH]; [reflexivity|]. cbn [app back_name]. rewrite IH.
  destruct h as [n' v']. destruct (hs ++ [(n, v)]) eqn:E; [destruct hs; discriminate|reflexivity].
Qed.
Lemma back_value_app hs n v c : back_value (hs ++ [(n, v)]) c = hs ++ [(n, v ++ [c])].
Proof.
  induction hs as [|h hs IH]; [reflexivity|]. cbn [app back_value]. rewrite IH.
  destruct h as [n' v']. destruct (hs ++ [(n, v)]) eqn:E; [destruct hs; discriminate|reflexivity].
Qed.
Lemma moves_name m u ma mi hs b n s : Forall token_char s ->
  moves (at_ header_name) (Req m u ma mi (hs ++ [(n, [])]) b) s
        (at_ header_name) (Req m u ma mi (hs ++ [(n ++ s, [])]) b).
Proof.
  intros H; revert n; induction H as [|c s Hc H IH]; intros n.
  - rewrite app_nil_r. apply moves_nil.
  - eapply moves_cons.
    + cbn [consume at_ p_state].
      replace (c =? 58) with false by (symmetry; apply Z.eqb_neq; eapply token_char_not; [exact Hc|cbn; auto]).
      apply not_token_spec in Hc. rewrite Hc. unfold set_headers. cbn [r_headers].
      rewrite back_name_app. reflexivity.
    + replace (n ++ c :: s) with ((n ++ [c]) ++ s) by now rewrite <- app_assoc. apply IH.
Qed.
Lemma ctl_13 : control 13. Proof. left; lia. Qed.
Lemma ctl_10 : control 10. Proof. left; lia. Qed.
Lemma moves_value m u ma mi hs b n v s : text s ->
  moves (at_ header_value) (Req m u ma mi (hs ++ [(n, v)]) b) s
        (at_ header_value) (Req m u ma mi (hs ++ [(n, v ++ s)]) b).
Proof.
  intros H; revert v; induction H as [|c s Hc H IH]; intros v.
  - rewrite app_nil_r. apply moves_nil.
  - eapply moves_cons.
    + cbn [consume at_ p_state].
      replace (c =? 13) with false by (symmetry; apply Z.eqb_neq; intros ->; apply Hc, ctl_13).
      apply is_ctl_false in Hc. rewrite Hc. unfold set_headers. cbn [r_headers].
      rewrite back_value_app. reflexivity.
    + replace (v ++ c :: s) with ((v ++ [c]) ++ s) by now rewrite <- app_assoc. apply IH.
Qed.
Lemma moves_blanks r s : Forall (fun c => c = 32 \/ c = 9) s -> moves (at_ header_lws) r s (at_ header_lws) r.
Proof.
  induction 1 as [|c s Hc H IH]; [apply moves_nil|].
  eapply moves_cons; [|exact IH]. cbn [consume at_ p_state]. destruct Hc as [-> | ->]; reflexivity.
Qed.
Lemma moves_crlf r : moves (at_ header_value) r CRLF (at_ header_line_start) r.
Proof. reflexivity. Qed.
Lemma moves_crlf_lws r : moves (at_ header_lws) r CRLF (at_ header_line_start) r.
Proof. reflexivity. Qed.

(** A continuation line. *)
Lemma moves_continuation m u ma mi hs b n v i s :
  blanks i -> text s -> match s with c :: _ => c <> 32 /\ c <> 9 | [] => True end ->
  moves (at_ header_line_start) (Req m u ma mi (hs ++ [(n, v)]) b) (i ++ s ++ CRLF)
        (at_ header_line_start) (Req m u ma mi (hs ++ [(n, v ++ s)]) b).
Proof.
  intros [Hne Hi] Hs Hf. destruct i as [|c i]; [congruence|]. inversion Hi as [|? ? Hc Hi']; subst.
  eapply (moves_app _ _ (c :: i)).
  - eapply moves_cons; [|apply moves_blanks; exact Hi'].
    cbn [consume at_ p_state r_headers].
    replace (match hs ++ [(n, v)] with [] => true | _ => false end) with false by (destruct hs; reflexivity).
    destruct Hc as [-> | ->]; reflexivity.
  - destruct s as [|d s].
    + rewrite app_nil_r. apply moves_crlf_lws.
    + inversion Hs as [|? ? Hd Hs']; subst. destruct Hf as [Hf1 Hf2].
      replace (v ++ d :: s) with ((v ++ [d]) ++ s) by now rewrite <- app_assoc.
      change ((d :: s) ++ CRLF) with (d :: (s ++ CRLF)). eapply moves_cons.
      * cbn [consume at_ p_state].
        replace (d =? 13) with false by (symmetry; apply Z.eqb_neq; intros ->; apply Hd, ctl_13).
        apply Z.eqb_neq in Hf1, Hf2. rewrite Hf1, Hf2. apply is_ctl_false in Hd. rewrite Hd.
        unfold set_headers. cbn [orb r_headers]. rewrite back_value_app. reflexivity.
      * eapply moves_app; [apply moves_value; exact Hs'|apply moves_crlf].
Qed.
Lemma moves_continuations m u ma mi hs b n ls : forall v,
  Forall (fun l => blanks (fst l) /\ text (snd l) /\
                   match snd l with c :: _ => c <> 32 /\ c <> 9 | [] => True end) ls ->
  moves (at_ header_line_start) (Req m u ma mi (hs ++ [(n, v)]) b)
        (concat (map (fun l => fst l ++ snd l ++ CRLF) ls))
        (at_ header_line_start) (Req m u ma mi (hs ++ [(n, v ++ concat (map snd ls))]) b).
Proof.
  induction ls as [|[i s] ls IH]; intros v H; cbn [map concat].
  - rewrite app_nil_r. apply moves_nil.
  - inversion H as [|? ? [H1 [H2 H3]] H']; subst. cbn [fst snd] in *.
    rewrite (app_assoc v s). eapply moves_app; [now apply moves_continuation|apply IH; exact H'].
Qed.
Lemma moves_header m u ma mi hs b h : header_ok h ->
  moves (at_ header_line_start) (Req m u ma mi hs b) (render_header h)
        (at_ header_line_start) (Req m u ma mi (hs ++ [header_meaning h]) b).
Proof.
  intros [[Hne Hn] [Hv Hl]]. unfold render_header, header_meaning.
  destruct h as [n v ls]. cbn [h_name h_first h_more] in *.
  destruct n as [|c n]; [congruence|]. inversion Hn as [|? ? Hc Hn']; subst.
  eapply (moves_app _ _ (c :: n)).
  { eapply moves_cons; [|apply (moves_name m u ma mi hs b [c] n Hn')].
    cbn [consume at_ p_state].
    replace (c =? 13) with false by (symmetry; apply Z.eqb_neq; now apply token_char_nocr).
    replace (c =? 32) with false by (symmetry; apply Z.eqb_neq; eapply token_char_not; [exact Hc|cbn; auto]).
    replace (c =? 9) with false by (symmetry; apply Z.eqb_neq; eapply token_char_not; [exact Hc|cbn; auto]).
    cbn [orb]. rewrite andb_false_r. apply not_token_spec in Hc. rewrite Hc. reflexivity. }
  change ([c] ++ n) with (c :: n).
  eapply moves_app; [reflexivity|].
  eapply moves_app; [apply moves_value; exact Hv|].
  eapply moves_app; [apply moves_crlf|].
  apply moves_continuations. exact Hl.
Qed.
Lemma moves_headers m u ma mi b hs' : forall hs, Forall header_ok hs' ->
  moves (at_ header_line_start) (Req m u ma mi hs b) (concat (map render_header hs'))
        (at_ header_line_start) (Req m u ma mi (hs ++ map header_meaning hs') b).
Proof.
  induction hs' as [|h hs' IH]; intros hs H; cbn [map concat].
  - rewrite app_nil_r. apply moves_nil.
  - inversion H; subst. eapply moves_app; [apply moves_header; assumption|].
    replace (hs ++ header_meaning h :: map header_meaning hs')
      with ((hs ++ [header_meaning h]) ++ map header_meaning hs') by now rewrite <- app_assoc.
    now apply IH.
Qed.

(** The components of a head. *)
Definition meaning (q : head) (body : list Z) : req :=
  Req (q_method q) (q_uri q) (number (q_major q)) (number (q_minor q)) (map header_meaning (q_headers q)) body.

(** Everything before the last line feed of the head. *)
Definition head_but_lf (q : head) : list Z :=
  q_method q ++ [32] ++ q_uri q ++ [32; 72; 84; 84; 80; 47] ++ q_major q ++ [46] ++ q_minor q ++ CRLF ++
  concat (map render_header (q_headers q)) ++ [13].
Lemma render_head_split q : render_head q = head_but_lf q ++ [10].
Proof. unfold render_head, head_but_lf, CRLF. rewrite <- !app_assoc. reflexivity. Qed.

Lemma moves_head q : head_ok q ->
  moves initial_parser initial_req (head_but_lf q) (at_ expecting_newline_3) (meaning q []).
Proof.
  intros [[Hm1 Hm2] [Hu [[Ha1 Ha2] [[Hi1 Hi2] Hh]]]]. unfold head_but_lf, meaning.
  destruct q as [m u ma mi hs]. cbn [q_method q_uri q_major q_minor q_headers] in *.
  destruct m as [|c m]; [congruence|]. destruct ma as [|d ma]; [congruence|]. destruct mi as [|e mi]; [congruence|].
  inversion Hm2 as [|? ? Hc Hm']; subst. inversion Ha2 as [|? ? Hd Ha']; subst. inversion Hi2 as [|? ? He Hi']; subst.
  eapply (moves_app _ _ (c :: m)).
  { eapply moves_cons; [|apply (moves_method [c] [] 0 0 [] [] m Hm')].
    cbn [consume initial_parser p_state]. apply not_token_spec in Hc. rewrite Hc. reflexivity. }
  change ([c] ++ m) with (c :: m).
  eapply (moves_app _ _ [32]); [apply moves_one; reflexivity|].
  eapply moves_app; [apply moves_uri; exact Hu|]. cbn [app].
  eapply (moves_app _ _ [32; 72; 84; 84; 80; 47]).
  { unfold moves. reflexivity. }
  unfold set_version. cbn [r_method r_uri r_headers r_post].
  eapply (moves_app _ _ (d :: ma)).
  { eapply moves_cons; [|apply moves_major; exact Ha'].
    cbn [consume at_ goto p_state]. rewrite (proj2 (is_digit_spec d) Hd). reflexivity. }
  cbn [set_version r_major r_minor r_method r_uri r_headers r_post].
  eapply (moves_app _ _ [46]); [apply moves_one; reflexivity|].
  eapply (moves_app _ _ (e :: mi)).
  { eapply moves_cons; [|apply moves_minor; exact Hi'].
    cbn [consume at_ goto p_state p_length p_counter]. rewrite (proj2 (is_digit_spec e) He). reflexivity. }
  cbn [set_version r_major r_minor r_method r_uri r_headers r_post].
  eapply (moves_app _ _ CRLF); [unfold moves; reflexivity|].
  cbn [goto p_length p_counter].
  eapply moves_app; [apply (moves_headers _ _ _ _ _ hs [] Hh)|].
  apply moves_one. cbn [consume at_ p_state]. cbn [app].
  replace (0 * 10 + d - 48) with (10 * 0 + (d - 48)) by lia.
  replace (0 * 10 + e - 48) with (10 * 0 + (e - 48)) by lia. reflexivity.
Qed.

(** A request without a body is complete exactly at its end. *)
Theorem C34_no_body q rest :
  head_ok q -> q_method q <> POST ->
  exists p, parse initial_parser initial_req (render_head q ++ rest)
            = (Complete, p, meaning q [], length (render_head q)).
Proof.
  intros Hq Hm. rewrite render_head_split, <- app_assoc.
  rewrite parse_app, (moves_head q Hq). cbn [app parse consume at_ p_state].
  change (10 =? 10) with true. cbv iota. cbn [meaning r_method].
  destruct (str_eqb (q_method q) POST) eqn:E; [apply str_eqb_true in E; congruence|].
  eexists. rewrite app_length. reflexivity.
Qed.
Print Assumptions C34_no_body.

(** ** Bodies *)
Lemma find_rev_last name (l : list (list Z * list Z)) v :
  header_value_is name l v ->
  match find (fun h : list Z * list Z => str_eqb (fst h) name) (rev l) with Some h => snd h | None => [] end = v.
Proof.
  assert (Hnone : forall l', (forall w, ~ In (name, w) l') -> find (fun h : list Z * list Z => str_eqb (fst h) name) (rev l') = None).
  { intros l' H. destruct (find _ (rev l')) as [[n w]|] eqn:E; [|reflexivity].
    apply find_some in E as [E1 E2]. cbn in E2. apply str_eqb_true in E2. subst n.
    exfalso. apply (H w). now apply in_rev. }
  intros [l' H|l1 w l2 H].
  - now rewrite Hnone.
  - rewrite rev_app_distr. cbn [rev]. rewrite <- app_assoc.
    assert (Hf : forall a b, find (fun h : list Z * list Z => str_eqb (fst h) name) a = None ->
              find (fun h : list Z * list Z => str_eqb (fst h) name) (a ++ b) = find (fun h : list Z * list Z => str_eqb (fst h) name) b).
    { clear. induction a as [|x a IH]; intros b; cbn [app find]; [auto|].
      destruct (str_eqb (fst x) name); [discriminate|auto]. }
    rewrite Hf by now apply Hnone. cbn [app find fst].
    rewrite (proj2 (str_eqb_true name name) eq_refl). reflexivity.
Qed.

Lemma atoi_number v : digits v -> atoi v = number v.
Proof.
  intros [Hne H]. destruct v as [|c v]; [congruence|]. inversion H as [|? ? Hc H']; subst.
  cbn [atoi].
  replace (c =? 32) with false by (symmetry; apply Z.eqb_neq; lia).
  replace (c <=? 13) with false by (symmetry; apply Z.leb_gt; lia).
  replace (c =? 45) with false by (symmetry; apply Z.eqb_neq; lia).
  replace (c =? 43) with false by (symmetry; apply Z.eqb_neq; lia).
  rewrite andb_false_r. cbn [orb].
  unfold number. generalize 0. clear Hc H' Hne. revert H. generalize (c :: v). clear.
  induction l as [|c l IH]; intros H n; [reflexivity|]. inversion H; subst.
  cbn [atoi_digits fold_left]. rewrite (proj2 (is_digit_spec c)) by assumption. now apply IH.
Qed.

(** The announced length of the body. *)
Definition announces (q : head) (n : Z) : Prop :=
  exists v, header_value_is CONTENT_LENGTH (map header_meaning (q_headers q)) v /\ digits v /\ n = number v.
Definition multipart (q : head) : Prop :=
  exists rest, header_value_is CONTENT_TYPE (map header_meaning (q_headers q)) (MULTIPART ++ rest).
Definition not_multipart (q : head) : Prop :=
  exists v, header_value_is CONTENT_TYPE (map header_meaning (q_headers q)) v /\ forall rest, v <> MULTIPART ++ rest.

Lemma announces_model q b n : announces q n -> post_data_length (meaning q b) = n.
Proof.
  intros [v [Hv [Hd ->]]]. unfold post_data_length, get_header_value. cbn [meaning r_headers].
  rewrite (find_rev_last _ _ _ Hv). rewrite <- atoi_number by exact Hd.
  destruct Hd as [Hne _]. destruct v; [congruence|reflexivity].
Qed.
Lemma multipart_model q b : multipart q -> is_multipart (meaning q b) = true.
Proof.
  intros [rest H]. unfold is_multipart, get_header_value. cbn [meaning r_headers].
  rewrite (find_rev_last _ _ _ H). reflexivity.
Qed.
Lemma not_multipart_model q b : not_multipart q -> is_multipart (meaning q b) = false.
Proof.
  intros [v [H Hn]]. unfold is_multipart, get_header_value. cbn [meaning r_headers].
  rewrite (find_rev_last _ _ _ H). destruct (str_eqb _ _) eqn:E; [|reflexivity].
  apply str_eqb_true in E. exfalso. apply (Hn (skipn 9 v)). rewrite <- E. symmetry. apply firstn_skipn.
Qed.

Lemma parse_post len r : forall body k rest,
  body <> [] -> Forall (fun c => c <> 10 /\ c <> 13) body -> k = len - Z.of_nat (length body) + 1 ->
  exists p, parse (Parser post_line_start len k) r (body ++ rest)
    = (Complete, p, Req (r_method r) (r_uri r) (r_major r) (r_minor r) (r_headers r) (r_post r ++ body), length body).
Proof.
  intros body. revert r. induction body as [|c body IH]; intros r k rest Hne H Hk; [congruence|].
  inversion H as [|? ? [H10 H13] H']; subst. cbn [app parse consume p_state length].
  apply Z.eqb_neq in H10, H13. rewrite H10, H13. cbn [negb andb p_counter p_length].
  cbn [length] in *. destruct body as [|d body].
  - replace (len - Z.of_nat (S (length (@nil Z))) + 1 <? len) with false by (symmetry; apply Z.ltb_ge; cbn [length]; lia).
    eexists. reflexivity.
  - replace (len - Z.of_nat (S (length (d :: body))) + 1 <? len) with true by (symmetry; apply Z.ltb_lt; cbn [length]; lia).
    destruct (IH (add_post r c) (len - Z.of_nat (S (length (d :: body))) + 1 + 1) rest) as [p E];
      [discriminate|assumption|cbn [length]; lia|].
    rewrite E. eexists. cbn [add_post r_method r_uri r_major r_minor r_headers r_post].
    rewrite <- app_assoc. reflexivity.
Qed.

(** A form sent with POST is read completely. *)
Theorem C34_post q body rest :
  head_ok q -> q_method q = POST -> not_multipart q ->
  announces q (Z.of_nat (length body)) -> body <> [] -> Forall (fun c => c <> 10 /\ c <> 13) body ->
  exists p, parse initial_parser initial_req (render_head q ++ body ++ rest)
            = (Complete, p, meaning q body, length (render_head q ++ body)).
Proof.
  intros Hq Hm Hmp Ha Hne Hb. rewrite render_head_split, <- app_assoc.
  rewrite parse_app, (moves_head q Hq). cbn [app parse consume at_ p_state].
  change (10 =? 10) with true. cbv iota. cbn [r_method].
  change (r_method (meaning q [])) with (q_method q).
  rewrite (proj2 (str_eqb_true _ _) Hm), (not_multipart_model _ _ Hmp), (announces_model _ _ _ Ha).
  destruct (parse_post (Z.of_nat (length body)) (meaning q []) body 1 rest) as [p E]; [assumption|assumption|lia|].
  rewrite E. exists p. cbn [meaning r_method r_uri r_major r_minor r_headers r_post app].
  rewrite !app_length. cbn [length]. f_equal; lia.
Qed.
Print Assumptions C34_post.

Lemma parse_multipart len r : forall body k last rest,
  k = len - Z.of_nat (length body) ->
  exists p, parse (Parser multipart_start len k) r (body ++ last :: rest)
    = (Complete, p, Req (r_method r) (r_uri r) (r_major r) (r_minor r) (r_headers r) (r_post r ++ body), S (length body)).
Proof.
  intros body. revert r. induction body as [|c body IH]; intros r k last rest Hk;
  cbn [app parse consume p_state p_counter p_length length] in *; subst k.
  - replace (len - Z.of_nat 0 <? len) with false by (symmetry; apply Z.ltb_ge; lia).
    eexists. rewrite app_nil_r. destruct r; reflexivity.
  - replace (len - Z.of_nat (S (length body)) <? len) with true by (symmetry; apply Z.ltb_lt; lia).
    destruct (IH (add_post r c) (len - Z.of_nat (S (length body)) + 1) last rest) as [p E]; [lia|].
    rewrite E. eexists. cbn [add_post r_method r_uri r_major r_minor r_headers r_post].
    rewrite <- app_assoc. reflexivity.
Qed.

(** An upload: the request is complete exactly at the end of the body, but the last byte
    of the body is not stored. *)
Theorem C34_multipart q body last rest :
  head_ok q -> q_method q = POST -> multipart q -> announces q (Z.of_nat (length (body ++ [last]))) ->
  exists p, parse initial_parser initial_req (render_head q ++ body ++ [last] ++ rest)
            = (Complete, p, meaning q body, length (render_head q ++ body ++ [last])).
Proof.
  intros Hq Hm Hmp Ha. rewrite render_head_split, <- app_assoc.
  rewrite parse_app, (moves_head q Hq). cbn [app parse consume at_ p_state].
  change (10 =? 10) with true. cbv iota.
  change (r_method (meaning q [])) with (q_method q).
  rewrite (proj2 (str_eqb_true _ _) Hm), (multipart_model _ _ Hmp), (announces_model _ _ _ Ha).
  rewrite app_length. cbn [length].
  destruct (parse_multipart (Z.of_nat (length body + 1)) (meaning q []) body 1 last rest) as [p E]; [lia|].
  rewrite E. exists p. cbn [meaning r_method r_uri r_major r_minor r_headers r_post app].
  rewrite !app_length. cbn [length]. f_equal; lia.
Qed.
Print Assumptions C34_multipart.

(** ** Backward: what is accepted is a rendered request *)
Definition request_line (q : head) : list Z :=
  q_method q ++ [32] ++ q_uri q ++ [32; 72; 84; 84; 80; 47] ++ q_major q ++ [46] ++ q_minor q ++ CRLF.
Definition headers_text (hs : list header) : list Z := concat (map render_header hs).

(** The last line of the last header. *)
Definition ends_blank (h : header) : Prop := exists ls i, h_more h = ls ++ [(i, [])].
Definition ends_text (h : header) : Prop :=
  h_more h = [] \/ exists ls i c s, h_more h = ls ++ [(i, c :: s)].

(** What has been read when the parser is in a given state. *)
Definition read_so_far (p : parser) (r : req) (t : list Z) : Prop :=
  exists q, let mk ma mi hs b := r = Req (q_method q) (q_uri q) ma mi hs b in
  match p_state p with
  | method_start => t = [] /\ r = initial_req
  | method => token (q_method q) /\ q_uri q = [] /\ mk 0 0 [] [] /\ t = q_method q
  | uri_start => False
  | uri => token (q_method q) /\ uri_text (q_uri q) /\ mk 0 0 [] [] /\ t = q_method q ++ [32] ++ q_uri q
  | http_version_h => token (q_method q) /\ uri_text (q_uri q) /\ mk 0 0 [] [] /\ t = q_method q ++ [32] ++ q_uri q ++ [32]
  | http_version_t_1 => token (q_method q) /\ uri_text (q_uri q) /\ mk 0 0 [] [] /\ t = q_method q ++ [32] ++ q_uri q ++ [32; 72]
  | http_version_t_2 => token (q_method q) /\ uri_text (q_uri q) /\ mk 0 0 [] [] /\ t = q_method q ++ [32] ++ q_uri q ++ [32; 72; 84]
  | http_version_p => token (q_method q) /\ uri_text (q_uri q) /\ mk 0 0 [] [] /\ t = q_method q ++ [32] ++ q_uri q ++ [32; 72; 84; 84]
  | http_version_slash => token (q_method q) /\ uri_text (q_uri q) /\ mk 0 0 [] [] /\ t = q_method q ++ [32] ++ q_uri q ++ [32; 72; 84; 84; 80]
  | http_version_major_start => token (q_method q) /\ uri_text (q_uri q) /\ mk 0 0 [] [] /\
      t = q_method q ++ [32] ++ q_uri q ++ [32; 72; 84; 84; 80; 47]
  | http_version_major => token (q_method q) /\ uri_text (q_uri q) /\ digits (q_major q) /\ mk (number (q_major q)) 0 [] [] /\
      t = q_method q ++ [32] ++ q_uri q ++ [32; 72; 84; 84; 80; 47] ++ q_major q
  | http_version_minor_start => token (q_method q) /\ uri_text (q_uri q) /\ digits (q_major q) /\ mk (number (q_major q)) 0 [] [] /\
      t = q_method q ++ [32] ++ q_uri q ++ [32; 72; 84; 84; 80; 47] ++ q_major q ++ [46]
  | http_version_minor => token (q_method q) /\ uri_text (q_uri q) /\ digits (q_major q) /\ digits (q_minor q) /\
      mk (number (q_major q)) (number (q_minor q)) [] [] /\
      t = q_method q ++ [32] ++ q_uri q ++ [32; 72; 84; 84; 80; 47] ++ q_major q ++ [46] ++ q_minor q
  | expecting_newline_1 => token (q_method q) /\ uri_text (q_uri q) /\ digits (q_major q) /\ digits (q_minor q) /\
      mk (number (q_major q)) (number (q_minor q)) [] [] /\
      t = q_method q ++ [32] ++ q_uri q ++ [32; 72; 84; 84; 80; 47] ++ q_major q ++ [46] ++ q_minor q ++ [13]
  | header_line_start => head_ok q /\ r = meaning q [] /\ t = request_line q ++ headers_text (q_headers q)
  | header_name => exists n, token n /\ head_ok q /\
      mk (number (q_major q)) (number (q_minor q)) (map header_meaning (q_headers q) ++ [(n, [])]) [] /\
      t = request_line q ++ headers_text (q_headers q) ++ n
  | space_before_header_value => exists n, token n /\ head_ok q /\
      mk (number (q_major q)) (number (q_minor q)) (map header_meaning (q_headers q) ++ [(n, [])]) [] /\
      t = request_line q ++ headers_text (q_headers q) ++ n ++ [58]
  | header_lws => head_ok q /\ r = meaning q [] /\ (exists hs h, q_headers q = hs ++ [h] /\ ends_blank h) /\
      t ++ CRLF = request_line q ++ headers_text (q_headers q)
  | header_value => head_ok q /\ r = meaning q [] /\ (exists hs h, q_headers q = hs ++ [h] /\ ends_text h) /\
      t ++ CRLF = request_line q ++ headers_text (q_headers q)
  | expecting_newline_2 => head_ok q /\ r = meaning q [] /\ t ++ [10] = request_line q ++ headers_text (q_headers q)
  | expecting_newline_3 => head_ok q /\ r = meaning q [] /\ t = request_line q ++ headers_text (q_headers q) ++ [13]
  | post_line_start => exists body, head_ok q /\ q_method q = POST /\ is_multipart (meaning q []) = false /\
      p_length p = post_data_length (meaning q []) /\ p_counter p = 1 + Z.of_nat (length body) /\
      (Z.of_nat (length body) < Z.max 1 (p_length p)) /\
      Forall (fun c => c <> 10 /\ c <> 13) body /\ r = meaning q body /\ t = render_head q ++ body
  | multipart_start => exists body, head_ok q /\ q_method q = POST /\ is_multipart (meaning q []) = true /\
      p_length p = post_data_length (meaning q []) /\ p_counter p = 1 + Z.of_nat (length body) /\
      (Z.of_nat (length body) < Z.max 1 (p_length p)) /\
      r = meaning q body /\ t = render_head q ++ body
  end.

(** A complete request: the head with, for POST, a body of the announced length (at
    least one byte), which for an upload is stored without its last byte. *)
Definition complete_request (r : req) (t : list Z) : Prop :=
  exists q, head_ok q /\
  ((q_method q <> POST /\ r = meaning q [] /\ t = render_head q) \/
   (q_method q = POST /\ exists body, t = render_head q ++ body /\
      Z.of_nat (length body) = Z.max 1 (post_data_length (meaning q [])) /\
      ((is_multipart (meaning q []) = false /\ r = meaning q body /\ Forall (fun c => c <> 10 /\ c <> 13) body) \/
       (is_multipart (meaning q []) = true /\ r = meaning q (removelast body))))).

Ltac norm := repeat (rewrite <- app_assoc || (progress cbn [app])); try reflexivity.

Lemma digits_snoc s c : digits s -> 48 <= c <= 57 -> digits (s ++ [c]).
Proof.
  intros [H1 H2] Hc. split; [destruct s; discriminate|]. apply Forall_app. auto.
Qed.
Lemma token_snoc s c : token s -> token_char c -> token (s ++ [c]).
Proof. intros [H1 H2] Hc. split; [destruct s; discriminate|]. apply Forall_app. auto. Qed.
Lemma number_snoc s c : number (s ++ [c]) = number s * 10 + c - 48.
Proof. unfold number. rewrite fold_left_app. cbn [fold_left]. lia. Qed.

(** Changing the last header. *)
Definition set_hs (q : head) (hs : list header) : head := Head (q_method q) (q_uri q) (q_major q) (q_minor q) hs.
Lemma headers_text_snoc hs h : headers_text (hs ++ [h]) = headers_text hs ++ render_header h.
Proof. unfold headers_text. rewrite map_app, concat_app. cbn [map concat]. now rewrite app_nil_r. Qed.
Lemma app_crlf_inv (a b : list Z) : a ++ CRLF = b ++ CRLF -> a = b.
Proof. intros H. now apply app_inv_tail in H. Qed.

(** One more character in the last line of a header. *)
Definition extend (h : header) (c : Z) : header :=
  match rev (h_more h) with
  | [] => Header (h_name h) (h_first h ++ [c]) []
  | (i, s) :: ls => Header (h_name h) (h_first h) (rev ls ++ [(i, s ++ [c])])
  end.
Lemma extend_nil n v c : extend (Header n v []) c = Header n (v ++ [c]) [].
Proof. reflexivity. Qed.
Lemma extend_snoc n v ls i s c : extend (Header n v (ls ++ [(i, s)])) c = Header n v (ls ++ [(i, s ++ [c])]).
Proof. unfold extend. cbn [h_more]. rewrite rev_app_distr. cbn [rev app]. now rewrite rev_involutive. Qed.

Lemma extend_render h c x :
  x ++ CRLF = render_header h -> render_header (extend h c) = x ++ [c] ++ CRLF.
Proof.
  destruct h as [n v ls]. destruct (rev ls) as [|[i s] rls] eqn:E.
  - assert (ls = []) by (rewrite <- (rev_involutive ls), E; reflexivity). subst ls.
    rewrite extend_nil. unfold render_header. cbn [h_name h_first h_more map concat].
    intros H. rewrite !app_nil_r in *. rewrite !app_assoc in H. apply app_crlf_inv in H. subst x.
    now rewrite <- !app_assoc.
  - assert (El : ls = rev rls ++ [(i, s)]) by (rewrite <- (rev_involutive ls), E; reflexivity). subst ls.
    rewrite extend_snoc. unfold render_header. cbn [h_name h_first h_more].
    rewrite !map_app, !concat_app. cbn [map concat fst snd]. rewrite !app_nil_r. intros H.
    rewrite !app_assoc in H. apply app_crlf_inv in H. subst x. now rewrite <- !app_assoc.
Qed.
Lemma extend_meaning h c :
  header_meaning (extend h c) = (fst (header_meaning h), snd (header_meaning h) ++ [c]).
Proof.
  destruct h as [n v ls]. destruct (rev ls) as [|[i s] rls] eqn:E.
  - assert (ls = []) by (rewrite <- (rev_involutive ls), E; reflexivity). subst ls.
    rewrite extend_nil. unfold header_meaning. cbn [h_name h_first h_more map concat fst snd]. now rewrite !app_nil_r.
  - assert (El : ls = rev rls ++ [(i, s)]) by (rewrite <- (rev_involutive ls), E; reflexivity). subst ls.
    rewrite extend_snoc. unfold header_meaning. cbn [h_name h_first h_more fst snd].
    rewrite !map_app, !concat_app. cbn [map concat snd]. rewrite !app_nil_r. f_equal. now rewrite <- !app_assoc.
Qed.
Lemma extend_ok h c : header_ok h -> ~ control c -> (ends_text h \/ (c <> 32 /\ c <> 9)) -> header_ok (extend h c).
Proof.
  destruct h as [n v ls]. intros [Hn [Hv Hl]] Hc Hf. cbn [h_name h_first h_more] in *.
  destruct (rev ls) as [|[i s] rls] eqn:E.
  - assert (ls = []) by (rewrite <- (rev_involutive ls), E; reflexivity). subst ls.
    rewrite extend_nil. split; [exact Hn|]. cbn [h_first h_more]. split; [apply Forall_app; auto|constructor].
  - assert (El : ls = rev rls ++ [(i, s)]) by (rewrite <- (rev_involutive ls), E; reflexivity). subst ls.
    rewrite extend_snoc. split; [exact Hn|]. cbn [h_first h_more]. split; [exact Hv|].
    apply Forall_app in Hl as [Hl1 Hl2]. inversion Hl2 as [|? ? [H1 [H2 H3]] _]; subst. cbn [fst snd] in *.
    apply Forall_app. split; [exact Hl1|]. constructor; [|constructor]. cbn [fst snd].
    split; [exact H1|]. split; [apply Forall_app; auto|].
    destruct s as [|d s]; [|exact H3]. cbn [app].
    destruct Hf as [[Hf|[ls' [i' [c' [s' Hf]]]]]|Hf]; [| |exact Hf]; cbn [h_more] in Hf.
    + destruct (rev rls); discriminate.
    + apply app_inj_tail in Hf as [_ Hf]. discriminate.
Qed.
Lemma extend_text h c : ends_text (extend h c).
Proof.
  destruct h as [n v ls]. destruct (rev ls) as [|[i s] rls] eqn:E.
  - assert (ls = []) by (rewrite <- (rev_involutive ls), E; reflexivity). subst ls. rewrite extend_nil. now left.
  - assert (El : ls = rev rls ++ [(i, s)]) by (rewrite <- (rev_involutive ls), E; reflexivity). subst ls.
    rewrite extend_snoc. right. cbn [h_more]. destruct s as [|d s]; cbn [app]; eauto.
Qed.

(** The two states that read the value of a header. *)
Lemma value_step q hs h t c :
  head_ok q -> q_headers q = hs ++ [h] -> t ++ CRLF = request_line q ++ headers_text (q_headers q) ->
  ~ control c -> (ends_text h \/ (c <> 32 /\ c <> 9)) ->
  let q' := set_hs q (hs ++ [extend h c]) in
  head_ok q' /\ set_headers (meaning q []) (back_value (r_headers (meaning q [])) c) = meaning q' [] /\
  (t ++ [c]) ++ CRLF = request_line q' ++ headers_text (q_headers q').
Proof.
  intros Hq Eh Et Hc Hf q'. destruct Hq as [H1 [H2 [H3 [H4 H5]]]].
  rewrite Eh in H5. apply Forall_app in H5 as [H5 H6]. inversion H6 as [|? ? H7 _]; subst.
  split; [|split].
  - repeat split; try (now destruct H1) || (now destruct H3) || (now destruct H4); auto.
    cbn [set_hs q' q_headers]. apply Forall_app. split; [exact H5|]. constructor; [|constructor]. now apply extend_ok.
  - unfold q', meaning, set_headers. cbn [set_hs q_method q_uri q_major q_minor q_headers r_headers r_method r_uri r_major r_minor r_post].
    f_equal. rewrite Eh, !map_app. cbn [map]. rewrite extend_meaning.
    rewrite (surjective_pairing (header_meaning h)) at 1. now rewrite back_value_app.
  - change (request_line q') with (request_line q). cbn [q' set_hs q_headers].
    rewrite Eh in Et. rewrite headers_text_snoc in *.
    assert (Hx : exists x, x ++ CRLF = render_header h).
    { clear. destruct h as [n v ls]. unfold render_header. cbn [h_name h_first h_more].
      destruct (rev ls) as [|[i s] rls] eqn:E.
      - assert (ls = []) by (rewrite <- (rev_involutive ls), E; reflexivity). subst ls.
        exists (n ++ [58; 32] ++ v). cbn [map concat]. rewrite app_nil_r. now rewrite <- !app_assoc.
      - assert (El : ls = rev rls ++ [(i, s)]) by (rewrite <- (rev_involutive ls), E; reflexivity). subst ls.
        exists (n ++ [58; 32] ++ v ++ CRLF ++ concat (map (fun l => fst l ++ snd l ++ CRLF) (rev rls)) ++ i ++ s).
        rewrite !map_app, !concat_app. cbn [map concat fst snd]. rewrite app_nil_r. now rewrite <- !app_assoc. }
    destruct Hx as [x Hx]. rewrite (extend_render h c x Hx).
    rewrite <- Hx in Et. rewrite !app_assoc in Et. apply app_crlf_inv in Et. rewrite Et. now rewrite <- !app_assoc.
Qed.

Lemma read_step p r t c v p' r' :
  read_so_far p r t -> consume p r c = (v, p', r') ->
  match v with
  | More => read_so_far p' r' (t ++ [c])
  | Complete => complete_request r' (t ++ [c])
  | Bad => True
  end.
Proof.
  intros [q H] E. destruct p as [st len k]. cbn [p_state] in H.
  destruct st; cbn [consume p_state goto p_length p_counter] in E.
  - (* method_start *)
    destruct (not_token c) eqn:En; injection E as <- <- <-; [exact I|]. apply not_token_spec in En.
    destruct H as [-> ->]. exists (Head [c] [] [] [] []). cbn. repeat split; auto. discriminate.
  - (* method *)
    destruct H as [H1 [H2 [-> ->]]].
    destruct (Z.eqb_spec c 32) as [->|Hc].
    { injection E as <- <- <-. exists q. cbn. rewrite H2. repeat split; try (now destruct H1); constructor. }
    destruct (not_token c) eqn:En; injection E as <- <- <-; [exact I|]. apply not_token_spec in En.
    exists (Head (q_method q ++ [c]) [] [] [] []). cbn. split; [now apply token_snoc|]. repeat split.
    now rewrite H2.
  - destruct H.
  - (* uri *)
    destruct H as [H1 [H2 [-> ->]]].
    destruct (Z.eqb_spec c 32) as [->|Hc].
    { injection E as <- <- <-. exists q. cbn. repeat split; try (now destruct H1); auto.
      now rewrite <- !app_assoc. }
    destruct (is_ctl c) eqn:En; injection E as <- <- <-; [exact I|]. apply is_ctl_false in En.
    exists (Head (q_method q) (q_uri q ++ [c]) [] [] []). cbn. repeat split; try (now destruct H1).
    + apply Forall_app. split; [exact H2|]. constructor; auto.
    + now rewrite <- !app_assoc.
  - destruct H as [H1 [H2 [-> ->]]]. destruct (Z.eqb_spec c 72) as [->|]; injection E as <- <- <-; [|exact I].
    exists q. cbn. repeat split; try (now destruct H1); auto. norm.
  - destruct H as [H1 [H2 [-> ->]]]. destruct (Z.eqb_spec c 84) as [->|]; injection E as <- <- <-; [|exact I].
    exists q. cbn. repeat split; try (now destruct H1); auto. norm.
  - destruct H as [H1 [H2 [-> ->]]]. destruct (Z.eqb_spec c 84) as [->|]; injection E as <- <- <-; [|exact I].
    exists q. cbn. repeat split; try (now destruct H1); auto. norm.
  - destruct H as [H1 [H2 [-> ->]]]. destruct (Z.eqb_spec c 80) as [->|]; injection E as <- <- <-; [|exact I].
    exists q. cbn. repeat split; try (now destruct H1); auto. norm.
  - destruct H as [H1 [H2 [-> ->]]]. destruct (Z.eqb_spec c 47) as [->|]; injection E as <- <- <-; [|exact I].
    exists q. cbn. repeat split; try (now destruct H1); auto. norm.
  - destruct H as [H1 [H2 [-> ->]]]. destruct (is_digit c) eqn:Ed; injection E as <- <- <-; [|exact I].
    apply is_digit_spec in Ed.
    exists (Head (q_method q) (q_uri q) [c] [] []). cbn -[number]. split; [exact H1|]. split; [exact H2|].
    split; [split; [discriminate|auto]|]. split.
    + unfold set_version. cbn [r_method r_uri r_major r_minor r_headers r_post]. f_equal.
    + norm.
  - destruct H as [H1 [H2 [H3 [-> ->]]]]. destruct (Z.eqb_spec c 46) as [->|Hc].
    { injection E as <- <- <-. exists q. cbn -[number]. repeat split; try (now destruct H1); try (now destruct H3); auto.
      norm. }
    destruct (is_digit c) eqn:Ed; injection E as <- <- <-; [|exact I]. apply is_digit_spec in Ed.
    exists (Head (q_method q) (q_uri q) (q_major q ++ [c]) [] []).
    cbn [p_state q_method q_uri q_major q_minor]. split; [exact H1|]. split; [exact H2|].
    split; [now apply digits_snoc|]. split.
    + unfold set_version. cbn [r_method r_uri r_major r_minor r_headers r_post]. now rewrite number_snoc.
    + rewrite <- !app_assoc. reflexivity.
  - destruct H as [H1 [H2 [H3 [-> ->]]]]. destruct (is_digit c) eqn:Ed; injection E as <- <- <-; [|exact I].
    apply is_digit_spec in Ed.
    exists (Head (q_method q) (q_uri q) (q_major q) [c] []).
    cbn [p_state q_method q_uri q_major q_minor]. split; [exact H1|]. split; [exact H2|]. split; [exact H3|].
    split; [split; [discriminate|auto]|]. split.
    + unfold set_version. cbn [r_method r_uri r_major r_minor r_headers r_post]. f_equal.
    + rewrite <- !app_assoc. reflexivity.
  - destruct H as [H1 [H2 [H3 [H4 [-> ->]]]]]. destruct (Z.eqb_spec c 13) as [->|Hc].
    { injection E as <- <- <-. exists q. cbn -[number]. repeat split; try (now destruct H1); try (now destruct H3); try (now destruct H4); auto.
      norm. }
    destruct (is_digit c) eqn:Ed; injection E as <- <- <-; [|exact I]. apply is_digit_spec in Ed.
    exists (Head (q_method q) (q_uri q) (q_major q) (q_minor q ++ [c]) []).
    cbn [p_state q_method q_uri q_major q_minor]. split; [exact H1|]. split; [exact H2|]. split; [exact H3|].
    split; [now apply digits_snoc|]. split.
    + unfold set_version. cbn [r_method r_uri r_major r_minor r_headers r_post]. now rewrite number_snoc.
    + rewrite <- !app_assoc. reflexivity.
  - (* expecting_newline_1 *)
    destruct H as [H1 [H2 [H3 [H4 [-> ->]]]]]. destruct (Z.eqb_spec c 10) as [->|]; injection E as <- <- <-; [|exact I].
    exists (set_hs q []). cbn [p_state]. split; [|split].
    + unfold head_ok. cbn [set_hs q_method q_uri q_major q_minor q_headers]. auto.
    + reflexivity.
    + unfold request_line, CRLF. cbn [set_hs q_method q_uri q_major q_minor q_headers headers_text map concat].
      rewrite app_nil_r, <- !app_assoc. reflexivity.
  - (* header_line_start *)
    destruct H as [H1 [-> ->]]. destruct (Z.eqb_spec c 13) as [->|Hc].
    { injection E as <- <- <-. exists q. cbn [p_state]. split; [exact H1|]. split; [reflexivity|]. now rewrite <- app_assoc. }
    destruct (negb _ && _) eqn:Eb.
    { injection E as <- <- <-. apply andb_prop in Eb as [Eb1 Eb2].
      assert (Hb : c = 32 \/ c = 9).
      { apply orb_true_iff in Eb2 as [Eb2|Eb2]; apply Z.eqb_eq in Eb2; auto. }
      cbn [meaning r_headers] in Eb1.
      destruct (exists_last (l := q_headers q)) as [hs [h Eh]].
      { intros E0. rewrite E0 in Eb1. discriminate. }
      destruct h as [n v ls].
      exists (set_hs q (hs ++ [Header n v (ls ++ [([c], [])])])). cbn [p_state].
      destruct H1 as [H1 [H2 [H3 [H4 H5]]]]. rewrite Eh in H5. apply Forall_app in H5 as [H5 H6].
      inversion H6 as [|? ? [H7 [H8 H9]] _]; subst.
      split; [|split; [|split]].
      - split; [exact H1|]. split; [exact H2|]. split; [exact H3|]. split; [exact H4|].
        cbn [set_hs q_headers]. apply Forall_app. split; [exact H5|]. constructor; [|constructor].
        split; [exact H7|]. split; [exact H8|]. cbn [h_more]. apply Forall_app. split; [exact H9|].
        constructor; [|constructor]. cbn [fst snd]. repeat split; [discriminate|auto|constructor].
      - unfold meaning. cbn [set_hs q_method q_uri q_major q_minor q_headers]. f_equal. rewrite Eh, !map_app.
        f_equal. cbn [map]. unfold header_meaning. cbn [h_name h_first h_more]. rewrite map_app, concat_app.
        cbn [map concat snd]. now rewrite !app_nil_r.
      - cbn [set_hs q_headers]. eexists _, _. split; [reflexivity|]. exists ls, [c]. reflexivity.
      - change (request_line (set_hs q _)) with (request_line q). cbn [set_hs q_headers]. rewrite Eh, !headers_text_snoc.
        unfold render_header. cbn [h_name h_first h_more]. rewrite map_app, concat_app. cbn [map concat fst snd].
        rewrite app_nil_r. rewrite <- !app_assoc. reflexivity. }
    destruct (not_token c) eqn:En; injection E as <- <- <-; [exact I|]. apply not_token_spec in En.
    exists q. cbn [p_state]. exists [c]. split; [split; [discriminate|auto]|]. split; [exact H1|]. split.
    + reflexivity.
    + now rewrite <- app_assoc.
  - (* header_lws *)
    destruct H as [H1 [-> [[hs [h [Eh Hb]]] Et]]]. destruct (Z.eqb_spec c 13) as [->|Hc].
    { injection E as <- <- <-. exists q. cbn [p_state]. split; [exact H1|]. split; [reflexivity|].
      rewrite <- Et, <- app_assoc. reflexivity. }
    destruct ((c =? 32) || (c =? 9)) eqn:Eb.
    { injection E as <- <- <-.
      assert (Hcb : c = 32 \/ c = 9).
      { apply orb_true_iff in Eb as [Eb|Eb]; apply Z.eqb_eq in Eb; auto. }
      destruct Hb as [ls [i El]]. destruct h as [n v ls0]. cbn [h_more] in El. subst ls0.
      exists (set_hs q (hs ++ [Header n v (ls ++ [(i ++ [c], [])])])). cbn [p_state].
      destruct H1 as [H1 [H2 [H3 [H4 H5]]]]. rewrite Eh in H5. apply Forall_app in H5 as [H5 H6].
      inversion H6 as [|? ? [H7 [H8 H9]] _]; subst. cbn [h_more h_name h_first] in *.
      apply Forall_app in H9 as [H9 H10]. inversion H10 as [|? ? [[H11 H12] [H13 _]] _]; subst. cbn [fst snd] in *.
      split; [|split; [|split]].
      - split; [exact H1|]. split; [exact H2|]. split; [exact H3|]. split; [exact H4|].
        cbn [set_hs q_headers]. apply Forall_app. split; [exact H5|]. constructor; [|constructor].
        split; [exact H7|]. split; [exact H8|]. cbn [h_more]. apply Forall_app. split; [exact H9|].
        constructor; [|constructor]. cbn [fst snd]. split; [|split; [constructor|exact I]].
        split; [destruct i; discriminate|]. apply Forall_app. auto.
      - unfold meaning. cbn [set_hs q_method q_uri q_major q_minor q_headers]. f_equal. rewrite Eh, !map_app.
        f_equal. cbn [map]. unfold header_meaning. cbn [h_name h_first h_more]. rewrite !map_app, !concat_app.
        reflexivity.
      - cbn [set_hs q_headers]. eexists _, _. split; [reflexivity|]. exists ls, (i ++ [c]). reflexivity.
      - change (request_line (set_hs q _)) with (request_line q). cbn [set_hs q_headers].
        rewrite Eh in Et. rewrite !headers_text_snoc in *.
        unfold render_header in *. cbn [h_name h_first h_more] in *. rewrite map_app, concat_app in *. cbn [map concat fst snd] in *.
        rewrite app_nil_r in *. cbn [app] in Et. cbn [app].
        match type of Et with ?a ++ CRLF = ?b ++ ?c0 ++ ?n0 ++ _ :: _ :: ?v0 ++ CRLF ++ ?l0 ++ ?i0 ++ CRLF =>
          assert (Et' : a = b ++ c0 ++ n0 ++ [58; 32] ++ v0 ++ CRLF ++ l0 ++ i0) end.
        { apply app_crlf_inv. rewrite Et. norm. }
        rewrite Et'. norm. }
    destruct (is_ctl c) eqn:Ec; injection E as <- <- <-; [exact I|]. apply is_ctl_false in Ec.
    apply orb_false_iff in Eb as [Eb1 Eb2]. apply Z.eqb_neq in Eb1, Eb2.
    destruct (value_step q hs h t c H1 Eh Et Ec (or_intror (conj Eb1 Eb2))) as [Hv1 [Hv2 Hv3]].
    exists (set_hs q (hs ++ [extend h c])). cbn [p_state]. split; [exact Hv1|]. split; [exact Hv2|]. split; [|exact Hv3].
    eexists _, _. split; [reflexivity|apply extend_text].
  - (* header_name *)
    destruct H as [n [Hn [H1 [-> ->]]]]. destruct (Z.eqb_spec c 58) as [->|Hc].
    { injection E as <- <- <-. exists q. cbn [p_state]. exists n. split; [exact Hn|]. split; [exact H1|]. split; [reflexivity|].
      now rewrite <- !app_assoc. }
    destruct (not_token c) eqn:En; injection E as <- <- <-; [exact I|]. apply not_token_spec in En.
    exists q. cbn [p_state]. exists (n ++ [c]). split; [now apply token_snoc|]. split; [exact H1|]. split.
    + unfold set_headers. cbn [r_headers r_method r_uri r_major r_minor r_post]. now rewrite back_name_app.
    + now rewrite <- !app_assoc.
  - (* space_before_header_value *)
    destruct H as [n [Hn [H1 [-> ->]]]]. destruct (Z.eqb_spec c 32) as [->|]; injection E as <- <- <-; [|exact I].
    exists (set_hs q (q_headers q ++ [Header n [] []])). cbn [p_state].
    destruct H1 as [H1 [H2 [H3 [H4 H5]]]]. split; [|split; [|split]].
    + split; [exact H1|]. split; [exact H2|]. split; [exact H3|]. split; [exact H4|].
      cbn [set_hs q_headers]. apply Forall_app. split; [exact H5|]. constructor; [|constructor].
      split; [exact Hn|]. split; constructor.
    + unfold meaning. cbn [set_hs q_method q_uri q_major q_minor q_headers]. f_equal. now rewrite map_app.
    + cbn [set_hs q_headers]. eexists _, _. split; [reflexivity|]. now left.
    + change (request_line (set_hs q _)) with (request_line q). cbn [set_hs q_headers]. rewrite headers_text_snoc.
      unfold render_header. cbn [h_name h_first h_more map concat]. rewrite app_nil_r, <- !app_assoc. reflexivity.
  - (* header_value *)
    destruct H as [H1 [-> [[hs [h [Eh Hb]]] Et]]]. destruct (Z.eqb_spec c 13) as [->|Hc].
    { injection E as <- <- <-. exists q. cbn [p_state]. split; [exact H1|]. split; [reflexivity|].
      rewrite <- Et, <- app_assoc. reflexivity. }
    destruct (is_ctl c) eqn:Ec; injection E as <- <- <-; [exact I|]. apply is_ctl_false in Ec.
    destruct (value_step q hs h t c H1 Eh Et Ec (or_introl Hb)) as [Hv1 [Hv2 Hv3]].
    exists (set_hs q (hs ++ [extend h c])). cbn [p_state]. split; [exact Hv1|]. split; [exact Hv2|]. split; [|exact Hv3].
    eexists _, _. split; [reflexivity|apply extend_text].
  - (* expecting_newline_2 *)
    destruct H as [H1 [-> Et]]. destruct (Z.eqb_spec c 10) as [->|]; injection E as <- <- <-; [|exact I].
    exists q. cbn [p_state]. split; [exact H1|]. split; [reflexivity|exact Et].
  - (* expecting_newline_3 *)
    destruct H as [H1 [-> ->]]. destruct (Z.eqb_spec c 10) as [->|]; [|injection E as <- <- <-; exact I].
    assert (Eh : (request_line q ++ headers_text (q_headers q) ++ [13]) ++ [10] = render_head q).
    { unfold request_line, headers_text, render_head, CRLF. rewrite <- !app_assoc. reflexivity. }
    rewrite Eh. change (r_method (meaning q [])) with (q_method q) in E.
    destruct (str_eqb (q_method q) POST) eqn:Ep; injection E as <- <- <-.
    + apply str_eqb_true in Ep. exists q. destruct (is_multipart (meaning q [])) eqn:Em; cbn [p_state p_length p_counter].
      * exists []. repeat split; try (apply H1); auto; try (cbn [length]; lia). now rewrite app_nil_r.
      * exists []. repeat split; try (apply H1); auto; try (cbn [length]; lia). now rewrite app_nil_r.
    + exists q. split; [exact H1|]. left. repeat split. intros Ep'. rewrite (proj2 (str_eqb_true _ _) Ep') in Ep. discriminate.
  - (* post_line_start *)
    destruct H as [body [H1 [H2 [H3 [H4 [H5 [H6 [H7 [-> ->]]]]]]]]]. cbn [p_length p_counter] in *.
    destruct (negb (c =? 10) && negb (c =? 13)) eqn:Ec; [|injection E as <- <- <-; exact I].
    apply andb_prop in Ec as [Ec1 Ec2]. apply negb_true_iff in Ec1, Ec2. apply Z.eqb_neq in Ec1, Ec2.
    assert (Hf : Forall (fun c => c <> 10 /\ c <> 13) (body ++ [c])) by (apply Forall_app; auto).
    destruct (Z.ltb_spec k len); injection E as <- <- <-.
    + exists q. cbn [p_state p_length p_counter]. exists (body ++ [c]). rewrite app_length. cbn [length].
      repeat split; try (apply H1); auto; try lia. now rewrite <- app_assoc.
    + exists q. split; [exact H1|]. right. split; [exact H2|]. exists (body ++ [c]). split; [now rewrite <- app_assoc|].
      split; [rewrite app_length; cbn [length]; lia|]. left. auto.
  - (* multipart_start *)
    destruct H as [body [H1 [H2 [H3 [H4 [H5 [H6 [-> ->]]]]]]]]. cbn [p_length p_counter] in *.
    destruct (Z.ltb_spec k len); injection E as <- <- <-.
    + exists q. cbn [p_state p_length p_counter]. exists (body ++ [c]). rewrite app_length. cbn [length].
      repeat split; try (apply H1); auto; try lia. now rewrite <- app_assoc.
    + exists q. split; [exact H1|]. right. split; [exact H2|]. exists (body ++ [c]). split; [now rewrite <- app_assoc|].
      split; [rewrite app_length; cbn [length]; lia|]. right. split; [exact H3|]. now rewrite removelast_last.
Qed.

Lemma parse_sound s : forall p r t p' r' n,
  read_so_far p r t -> parse p r s = (Complete, p', r', n) -> complete_request r' (t ++ firstn n s).
Proof.
  induction s as [|c s IH]; intros p r t p' r' n H E; cbn [parse] in E; [discriminate|].
  destruct (consume p r c) as [[v p1] r1] eqn:Ec. pose proof (read_step _ _ _ _ _ _ _ H Ec) as Hs.
  destruct v.
  - injection E as <- <- <-. exact Hs.
  - discriminate.
  - destruct (parse p1 r1 s) as [[[v2 p2] r2] k] eqn:Ep. injection E as -> -> -> <-.
    specialize (IH _ _ _ _ _ _ Hs Ep). now rewrite <- app_assoc in IH.
Qed.

(** Whatever is accepted is a well-formed request with these components. *)
Theorem C34_sound s p r n :
  parse initial_parser initial_req s = (Complete, p, r, n) -> complete_request r (firstn n s).
Proof.
  intros E. apply (parse_sound s _ _ [] _ _ _) in E; [exact E|].
  exists (Head [] [] [] [] []). cbn. auto.
Qed.
Print Assumptions C34_sound.

(** ** Examples and what does not hold *)
Definition GET : list Z := [71; 69; 84].
Definition ex_head (m : list Z) (hs : list header) : head := Head m [47; 120] [49] [49] hs.
Example C34_ex : (* a GET with a folded header *)
  parse initial_parser initial_req (render_head (ex_head GET [Header [65] [98] [([9; 32], [99; 32])]; Header [66] [] []]) ++ [33])
  = (Complete, at_ expecting_newline_3, Req GET [47; 120] 1 1 [([65], [98; 99; 32]); ([66], [])] [], 36%nat).
Proof. vm_compute. reflexivity. Qed.

Lemma ex_post_ok body_length ct :
  digits body_length -> text ct -> head_ok (ex_head POST [Header CONTENT_LENGTH body_length []; Header CONTENT_TYPE ct []]).
Proof.
  assert (Ht : forall l, l <> [] -> forallb (fun c => negb (not_token c)) l = true -> token l).
  { intros l Hn H. split; [exact Hn|]. apply Forall_forall. intros c Hc. rewrite forallb_forall in H.
    specialize (H c Hc). apply negb_true_iff in H. now apply not_token_spec. }
  intros [Hd1 Hd2] Hc. unfold head_ok. cbn [ex_head q_method q_uri q_major q_minor q_headers].
  split; [apply Ht; [discriminate|vm_compute; reflexivity]|].
  split; [repeat apply Forall_cons; try apply Forall_nil; (split; [intros [|]; lia|lia])|].
  assert (Hone : digits [49]) by (split; [discriminate|repeat constructor; lia]).
  split; [exact Hone|]. split; [exact Hone|].
  apply Forall_cons; [|apply Forall_cons; [|apply Forall_nil]].
  - split; [apply Ht; [discriminate|vm_compute; reflexivity]|]. split; [|apply Forall_nil]. cbn [h_first].
    apply Forall_forall. intros c Hin. rewrite Forall_forall in Hd2. specialize (Hd2 c Hin). intros [|]; lia.
  - split; [apply Ht; [discriminate|vm_compute; reflexivity]|]. split; [exact Hc|apply Forall_nil].
Qed.
Example C34_post_ex : (* Content-Length: 3, body "a=b" *)
  exists p, parse initial_parser initial_req
    (render_head (ex_head POST [Header CONTENT_LENGTH [51] []; Header CONTENT_TYPE [120] []]) ++ [97; 61; 98] ++ [33])
  = (Complete, p, meaning (ex_head POST [Header CONTENT_LENGTH [51] []; Header CONTENT_TYPE [120] []]) [97; 61; 98],
     length (render_head (ex_head POST [Header CONTENT_LENGTH [51] []; Header CONTENT_TYPE [120] []]) ++ [97; 61; 98])).
Proof.
  apply C34_post.
  - apply ex_post_ok; [split; [discriminate|repeat constructor; lia]|repeat constructor; intros [|]; lia].
  - reflexivity.
  - exists [120]. split; [|discriminate].
    apply (hvi_last CONTENT_TYPE [(CONTENT_LENGTH, [51])] [120] []). intros w [].
  - exists [51]. split; [|split; [split; [discriminate|repeat constructor; lia]|reflexivity]].
    apply (hvi_last CONTENT_LENGTH [] [51] [(CONTENT_TYPE, [120])]). intros w [[=]|[]].
  - discriminate.
  - repeat constructor; discriminate.
Qed.

(** The last byte of an upload is lost ... *)
Theorem C34_multipart_refuted :
  exists p, parse initial_parser initial_req
    (render_head (ex_head POST [Header CONTENT_LENGTH [51] []; Header CONTENT_TYPE MULTIPART []]) ++ [97; 98; 99])
  = (Complete, p, meaning (ex_head POST [Header CONTENT_LENGTH [51] []; Header CONTENT_TYPE MULTIPART []]) [97; 98], 67%nat).
Proof. eexists. vm_compute. reflexivity. Qed.
Print Assumptions C34_multipart_refuted.

(** ... a form with a line break is rejected, although its length was announced ... *)
Theorem C34_line_break_refuted q b1 b2 c rest :
  head_ok q -> q_method q = POST -> not_multipart q -> c = 10 \/ c = 13 ->
  announces q (Z.of_nat (length (b1 ++ c :: b2))) -> Forall (fun c => c <> 10 /\ c <> 13) b1 ->
  exists p r n, parse initial_parser initial_req (render_head q ++ b1 ++ c :: b2 ++ rest) = (Bad, p, r, n).
Proof.
  intros Hq Hm Hmp Hc Ha Hb. rewrite render_head_split, <- app_assoc.
  rewrite parse_app, (moves_head q Hq). cbn [app parse consume at_ p_state].
  change (10 =? 10) with true. cbv iota.
  change (r_method (meaning q [])) with (q_method q).
  rewrite (proj2 (str_eqb_true _ _) Hm), (not_multipart_model _ _ Hmp), (announces_model _ _ _ Ha).
  rewrite app_length. cbn [length].
  assert (Hbad : forall b k r, Forall (fun c => c <> 10 /\ c <> 13) b -> k + Z.of_nat (length b) <= Z.of_nat (length b1 + S (length b2)) ->
     exists p r' n, parse (Parser post_line_start (Z.of_nat (length b1 + S (length b2))) k) r (b ++ c :: b2 ++ rest) = (Bad, p, r', n)).
  { induction b as [|d b IH]; intros k r Hf Hk; cbn [app parse consume p_state p_counter p_length length] in *.
    - destruct Hc as [-> | ->]; cbn; eexists _, _, _; reflexivity.
    - inversion Hf as [|? ? [H10 H13] Hf']; subst. apply Z.eqb_neq in H10, H13. rewrite H10, H13. cbn [negb andb].
      destruct (Z.ltb_spec k (Z.of_nat (length b1 + S (length b2)))); [|lia].
      destruct (IH (k + 1) (add_post r d) Hf' ltac:(lia)) as [p [r' [n E]]]. rewrite E. eexists _, _, _. reflexivity. }
  destruct (Hbad b1 1 (meaning q []) Hb ltac:(lia)) as [p [r' [n E]]]. rewrite E. eexists _, _, _. reflexivity.
Qed.
Print Assumptions C34_line_break_refuted.

(** ... and an empty form is never complete: the server waits for a byte that will not come. *)
Theorem C34_empty_form_refuted q :
  head_ok q -> q_method q = POST -> announces q 0 ->
  exists p r, parse initial_parser initial_req (render_head q) = (More, p, r, length (render_head q)).
Proof.
  intros Hq Hm Ha. rewrite render_head_split.
  rewrite parse_app, (moves_head q Hq). cbn [app parse consume at_ p_state].
  change (10 =? 10) with true. cbv iota.
  change (r_method (meaning q [])) with (q_method q).
  rewrite (proj2 (str_eqb_true _ _) Hm). eexists _, _. rewrite app_length. reflexivity.
Qed.
Print Assumptions C34_empty_form_refuted.

(** Uploads (C37). *)
From Coq Require Import List ZArith Bool Arith Lia.
From Verif Require Import M_Web P_Web M_Upload.
Import ListNotations.
Open Scope nat_scope.
Local Arguments skipn : simpl never.
Local Arguments firstn : simpl never.

(** * What is compared: every field ever created, with everything sent to it *)
Definition contents (fs : fields) : list (list Z * (bool * list Z * list Z * list Z)) :=
  map (fun nf => (fst nf, (f_file (snd nf), f_filename (snd nf), f_type (snd nf), file_content (snd nf)))) fs.

(** * Finding is stable when data is appended *)
Lemma prefixb_app p s y : prefixb p s = true -> prefixb p (s ++ y) = true.
Proof. intros H. apply prefixb_spec in H as [b ->]. apply prefixb_spec. exists (b ++ y). now rewrite app_assoc. Qed.
Lemma find_in_app p s y i k : find_in p s i = Some k -> find_in p (s ++ y) i = Some k.
Proof.
  intros H. apply find_in_some in H as [a [b [E [-> Hmin]]]].
  destruct (find_in p (s ++ y) i) as [k|] eqn:Ek.
  - apply find_in_some in Ek as [a2 [b2 [E2 [-> Hmin2]]]]. f_equal. f_equal.
    assert (length a2 <= length a).
    { apply (Hmin2 a (b ++ y)). rewrite E. now rewrite <- !app_assoc. }
    destruct (Nat.eq_dec (length a2) (length a)) as [|Hne]; [assumption|exfalso].
    assert (Hs : length a2 + length p <= length s).
    { rewrite E, !app_length. lia. }
    assert (Hin : exists b3, s = a2 ++ p ++ b3).
    { exists (skipn (length a2 + length p) s).
      pose proof (f_equal (firstn (length a2 + length p)) E2) as F.
      rewrite firstn_app in F. replace (length a2 + length p - length s) with 0 in F by lia.
      cbn [firstn] in F. rewrite app_nil_r in F. rewrite (app_assoc a2 p b2) in F.
      rewrite <- app_length in F. rewrite firstn_len in F. rewrite app_length in F.
      rewrite app_assoc, <- F. symmetry. apply firstn_skipn. }
    destruct Hin as [b3 Hb3]. apply Hmin in Hb3. lia.
  - exfalso. apply find_in_none in Ek. apply Ek. exists a, (b ++ y). rewrite E. now rewrite <- !app_assoc.
Qed.
Lemma find_in_bound p s k : find_in p s 0 = Some k -> k + length p <= length s.
Proof. intros H. apply find_in_some in H as [a [b [-> [-> _]]]]. rewrite !app_length. lia. Qed.

(** * A lazy parser that sends the content of a field in one piece *)
Section Lazy.
Variable boundary : list Z.
Hypothesis Hb : 2 <= length boundary.

Definition lround (p : parser) : outcome :=
  match p_status p with
  | Looking | Headers => round boundary p
  | Content =>
      match find_from boundary (p_data p) 0 with
      | Some i =>
          Go (match i - 2 with
              | 0 => Parser (p_data p) Looking (p_fields p) (p_name p)
              | n => Parser (skipn n (p_data p)) Looking (send (p_fields p) (p_name p) (firstn n (p_data p))) (p_name p)
              end)
      | None => Stop p
      end
  end.
Fixpoint lprocess (fuel : nat) (p : parser) : option parser :=
  match fuel with
  | 0 => Some p
  | S f => match lround p with Go p' => lprocess f p' | Stop p' => Some p' | Throw => None end
  end.
Definition more (p : parser) (y : list Z) : parser := Parser (p_data p ++ y) (p_status p) (p_fields p) (p_name p).

Definition measure (p : parser) : nat := 2 * length (p_data p) + match p_status p with Content => 1 | _ => 0 end.

Lemma find_from_0 p s : find_from p s 0 = find_in p s 0.
Proof. reflexivity. Qed.

Lemma lround_measure p p' : lround p = Go p' -> measure p' < measure p.
Proof.
  unfold lround, round, measure. destruct p as [d st fs n]. cbn [p_status p_data p_fields p_name]. destruct st.
  - rewrite find_from_0. destruct (find_in boundary d 0) as [k|] eqn:E; [|discriminate]. intros [= <-].
    cbn [p_data p_status]. apply find_in_bound in E. rewrite skipn_length. lia.
  - rewrite find_from_0. destruct (find_in CR4 d 0) as [k|] eqn:E; [|discriminate].
    destruct (parse_headers _) as [[n' f]|]; [|discriminate]. intros [= <-].
    cbn [p_data p_status]. apply find_in_bound in E. rewrite skipn_length. cbn [CR4 length] in E. lia.
  - destruct (find_from boundary d 0) as [k|] eqn:E; [|discriminate]. intros H. injection H as <-.
    destruct (k - 2) ; cbn [p_data p_status]; [lia|]. rewrite skipn_length. lia.
Qed.
Lemma round_measure p p' : round boundary p = Go p' -> measure p' < measure p.
Proof.
  unfold round, measure. destruct p as [d st fs n]. cbn [p_status p_data p_fields p_name]. destruct st.
  - rewrite find_from_0. destruct (find_in boundary d 0) as [k|] eqn:E; [|discriminate]. intros [= <-].
    cbn [p_data p_status]. apply find_in_bound in E. rewrite skipn_length. lia.
  - rewrite find_from_0. destruct (find_in CR4 d 0) as [k|] eqn:E; [|discriminate].
    destruct (parse_headers _) as [[n' f]|]; [|discriminate]. intros [= <-].
    cbn [p_data p_status]. apply find_in_bound in E. rewrite skipn_length. cbn [CR4 length] in E. lia.
  - destruct (find_from boundary d 0) as [k|] eqn:E; [|destruct (length d - _); discriminate].
    destruct (k - 2); intros [= <-]; cbn [p_data p_status]; [lia|]. rewrite skipn_length. lia.
Qed.

Lemma lprocess_fuel f1 : forall f2 p, measure p < f1 -> measure p < f2 -> lprocess f1 p = lprocess f2 p.
Proof.
  induction f1 as [|f1 IH]; intros [|f2] p H1 H2; try lia. cbn [lprocess].
  destruct (lround p) as [p'|p'|] eqn:E; try reflexivity.
  apply lround_measure in E. apply IH; lia.
Qed.
Definition lrun (p : parser) : option parser := lprocess (S (measure p)) p.
Lemma lrun_unfold p : lrun p = match lround p with Go p' => lrun p' | Stop p' => Some p' | Throw => None end.
Proof.
  unfold lrun at 1. cbn [lprocess]. destruct (lround p) as [p'|p'|] eqn:E; try reflexivity.
  apply lround_measure in E. apply lprocess_fuel; lia.
Qed.
Lemma process_fuel f1 : forall f2 p, measure p < f1 -> measure p < f2 -> process boundary f1 p = process boundary f2 p.
Proof.
  induction f1 as [|f1 IH]; intros [|f2] p H1 H2; try lia. cbn [process].
  destruct (round boundary p) as [p'|p'|] eqn:E; try reflexivity.
  apply round_measure in E. apply IH; lia.
Qed.
Definition run (p : parser) : option parser := process boundary (S (measure p)) p.
Lemma run_unfold p : run p = match round boundary p with Go p' => run p' | Stop p' => Some p' | Throw => None end.
Proof.
  unfold run at 1. cbn [process]. destruct (round boundary p) as [p'|p'|] eqn:E; try reflexivity.
  apply round_measure in E. apply process_fuel; lia.
Qed.

Lemma skipn_app_le {A} k (s y : list A) : k <= length s -> skipn k (s ++ y) = skipn k s ++ y.
Proof. intros H. rewrite skipn_app. now replace (k - length s) with 0 by lia. Qed.
Lemma firstn_app_le {A} k (s y : list A) : k <= length s -> firstn k (s ++ y) = firstn k s.
Proof. intros H. rewrite firstn_app. replace (k - length s) with 0 by lia. cbn [firstn]. apply app_nil_r. Qed.

(** Appending data does not change what the lazy parser has already decided. *)
Lemma lround_more p y :
  match lround p with
  | Go p' => lround (more p y) = Go (more p' y)
  | Throw => lround (more p y) = Throw
  | Stop p' => p' = p
  end.
Proof.
  unfold lround, round, more. destruct p as [d st fs n]. cbn [p_status p_data p_fields p_name]. destruct st.
  - rewrite !find_from_0. destruct (find_in boundary d 0) as [k|] eqn:E; [|reflexivity].
    rewrite (find_in_app _ _ y _ _ E). apply find_in_bound in E. cbn [p_data p_status p_fields p_name].
    now rewrite skipn_app_le.
  - rewrite !find_from_0. destruct (find_in CR4 d 0) as [k|] eqn:E; [|reflexivity].
    rewrite (find_in_app _ _ y _ _ E). apply find_in_bound in E. cbn [CR4 length] in E. rewrite firstn_app_le by lia.
    destruct (parse_headers _) as [[n' f]|]; [|reflexivity]. cbn [p_data p_status p_fields p_name].
    now rewrite skipn_app_le.
  - rewrite !find_from_0. destruct (find_in boundary d 0) as [k|] eqn:E; [|reflexivity].
    rewrite (find_in_app _ _ y _ _ E). apply find_in_bound in E.
    destruct (k - 2) as [|m] eqn:Ek; cbn [p_data p_status p_fields p_name]; [reflexivity|].
    rewrite skipn_app_le, firstn_app_le by lia. reflexivity.
Qed.

Lemma lrun_more p y : lrun (more p y) = match lrun p with Some p' => lrun (more p' y) | None => None end.
Proof.
  remember (measure p) as m eqn:Em. revert p Em. induction m as [m IH] using lt_wf_ind; intros p Em.
  rewrite (lrun_unfold p). pose proof (lround_more p y) as H.
  destruct (lround p) as [p'|p'|] eqn:E.
  - rewrite (lrun_unfold (more p y)), H. apply lround_measure in E. apply (IH (measure p')); [lia|reflexivity].
  - now rewrite H.
  - now rewrite (lrun_unfold (more p y)), H.
Qed.

(** * The parser against the lazy one *)

(** [ahead d c l]: the parser [c] has sent [d] more than the lazy parser [l]. *)
Definition never_before (s : list Z) (k : nat) : Prop :=
  forall y a b, s ++ y = a ++ boundary ++ b -> k <= length a.

Record ahead (d : list Z) (c l : parser) : Prop := {
  ah_status : p_status c = p_status l;
  ah_name : p_name c = p_name l;
  ah_data : p_data l = d ++ p_data c;
  ah_fields : contents (p_fields c) = contents (send (p_fields l) (p_name l) d);
  ah_none : p_status l <> Content -> d = [];
  ah_never : d <> [] -> never_before (p_data l) (length d + 2);
  ah_keep : d <> [] -> length boundary + 2 <= length (p_data c)
}.

Lemma contents_send fs n x :
  contents (send fs n x) =
  (fix go (l : list (list Z * (bool * list Z * list Z * list Z))) :=
     match l with
     | [] => []
     | (n', (a, b, c, s)) :: l' => if name_eqb n n' then (n', (a, b, c, s ++ x)) :: l' else (n', (a, b, c, s)) :: go l'
     end) (contents fs).
Proof.
  induction fs as [|[n' f] fs IH]; [reflexivity|]. cbn [contents map send fst snd].
  destruct (name_eqb n n').
  - cbn [map fst snd f_file f_filename f_type]. f_equal. f_equal. f_equal. unfold file_content. cbn [f_chunks].
    rewrite concat_app. cbn [concat]. now rewrite app_nil_r.
  - cbn [map fst snd]. f_equal. exact IH.
Qed.
Lemma contents_send_ext fs fs' n x : contents fs = contents fs' -> contents (send fs n x) = contents (send fs' n x).
Proof. intros H. now rewrite !contents_send, H. Qed.
Lemma contents_send_nil fs n : contents (send fs n []) = contents fs.
Proof.
  rewrite contents_send. generalize (contents fs). induction l as [|[n' [[[a b] c] s]] l IH]; [reflexivity|].
  destruct (name_eqb n n'); [now rewrite app_nil_r|now rewrite IH].
Qed.
Lemma contents_send_app fs n x y : contents (send (send fs n x) n y) = contents (send fs n (x ++ y)).
Proof.
  induction fs as [|[n' f] fs IH]; [reflexivity|]. cbn [send]. destruct (name_eqb n n') eqn:E.
  - cbn [send]. rewrite E. cbn [contents map fst snd f_file f_filename f_type]. f_equal. f_equal. f_equal.
    unfold file_content. cbn [f_chunks]. rewrite !concat_app. cbn [concat]. rewrite !app_nil_r. now rewrite app_assoc.
  - cbn [send]. rewrite E. cbn [contents map]. f_equal. exact IH.
Qed.

(** The position of the boundary as the two parsers see it. *)
Lemma find_ahead (d s : list Z) : (d <> [] -> never_before (d ++ s) (length d + 2)) ->
  find_in boundary (d ++ s) 0 = match find_in boundary s 0 with Some k => Some (length d + k) | None => None end.
Proof.
  intros H. destruct d as [|x d]; [cbn [app length]; destruct (find_in boundary s 0); reflexivity|].
  specialize (H ltac:(discriminate)). set (dd := x :: d) in *.
  destruct (find_in boundary (dd ++ s) 0) as [k|] eqn:E.
  - apply find_in_some in E as [a [b [E [-> Hmin]]]].
    assert (Hk : length dd + 2 <= length a).
    { apply (H [] a b). now rewrite app_nil_r. }
    assert (Ha : a = dd ++ skipn (length dd) a).
    { pose proof (f_equal (firstn (length dd)) E) as F. rewrite firstn_len in F.
      rewrite firstn_app_le in F by lia. rewrite F at 1. symmetry. apply firstn_skipn. }
    assert (Es : s = skipn (length dd) a ++ boundary ++ b).
    { rewrite Ha, <- app_assoc in E. now apply app_inv_head in E. }
    destruct (find_in boundary s 0) as [k|] eqn:Es'.
    + apply find_in_some in Es' as [a2 [b2 [E2 [-> Hmin2]]]]. f_equal.
      assert (length a <= length (dd ++ a2)).
      { apply (Hmin _ b2). rewrite E2. now rewrite <- app_assoc. }
      assert (length a2 <= length (skipn (length dd) a)) by (apply (Hmin2 _ b); exact Es).
      rewrite app_length in *. rewrite skipn_length in *. lia.
    + exfalso. apply find_in_none in Es'. apply Es'. eexists _, _. exact Es.
  - destruct (find_in boundary s 0) as [k|] eqn:Es'; [|reflexivity].
    exfalso. apply find_in_some in Es' as [a2 [b2 [E2 _]]]. apply find_in_none in E. apply E.
    exists (dd ++ a2), b2. rewrite E2. now rewrite <- app_assoc.
Qed.

(** After a run: in the content of a field, everything but the last bytes has been sent. *)
Definition settled (c : parser) : Prop := p_status c = Content -> length (p_data c) <= length boundary + 2.

Lemma round_ahead d c l : ahead d c l ->
  match lround l with
  | Go l' => exists c', round boundary c = Go c' /\ ahead [] c' l'
  | Stop l' => exists c' d', round boundary c = Stop c' /\ ahead d' c' l' /\ settled c'
  | Throw => round boundary c = Throw
  end.
Proof.
  intros [H1 H2 H3 H4 H5 H6 H7]. destruct c as [dc sc fc nc], l as [dl sl fl nl].
  cbn [p_status p_name p_data p_fields] in *. subst sc nc dl. unfold lround, round.
  cbn [p_status p_name p_data p_fields]. destruct sl.
  - assert (d = []) by (apply H5; discriminate). subst d. cbn [app]. rewrite !find_from_0.
    rewrite contents_send_nil in H4.
    destruct (find_in boundary dc 0) as [k|] eqn:E.
    + eexists. split; [reflexivity|]. constructor; cbn; try congruence; try (now rewrite contents_send_nil).
    + eexists _, []. split; [reflexivity|]. split; [|discriminate].
      constructor; cbn; try congruence; try (now rewrite contents_send_nil).
  - assert (d = []) by (apply H5; discriminate). subst d. cbn [app]. rewrite !find_from_0.
    rewrite contents_send_nil in H4.
    destruct (find_in CR4 dc 0) as [k|] eqn:E.
    + destruct (parse_headers _) as [[n' f]|]; [|reflexivity].
      eexists. split; [reflexivity|]. constructor; cbn -[send]; try congruence.
      rewrite contents_send_nil. cbn [contents map]. f_equal. exact H4.
    + eexists _, []. split; [reflexivity|]. split; [|discriminate].
      constructor; cbn; try congruence; try (now rewrite contents_send_nil).
  - rewrite !find_from_0. rewrite (find_ahead d dc H6).
    destruct (find_in boundary dc 0) as [k|] eqn:E.
    + (* the boundary is there *)
      pose proof (find_in_bound _ _ _ E) as Hk.
      destruct d as [|x d].
      * cbn [length app Nat.add]. rewrite contents_send_nil in H4.
        destruct (k - 2) as [|m].
        { eexists. split; [reflexivity|]. constructor; cbn; try congruence; try (now rewrite contents_send_nil). }
        { eexists. split; [reflexivity|]. constructor; cbn -[send skipn firstn]; try congruence.
          rewrite contents_send_nil. now apply contents_send_ext. }
      * set (dd := x :: d) in *. specialize (H6 ltac:(discriminate)).
        assert (Hk2 : 2 <= k).
        { apply find_in_some in E as [a [b [E [-> _]]]]. cbn.
          specialize (H6 [] (dd ++ a) b). rewrite app_nil_r in H6. rewrite app_length in H6.
          enough (length dd + 2 <= length dd + length a) by lia. apply H6. rewrite E. now rewrite <- app_assoc. }
        replace (length dd + k - 2) with (length dd + (k - 2)) by lia.
        assert (Hf : firstn (length dd + (k - 2)) (dd ++ dc) = dd ++ firstn (k - 2) dc) by apply firstn_app_2.
        assert (Hs : skipn (length dd + (k - 2)) (dd ++ dc) = skipn (k - 2) dc).
        { rewrite skipn_app. rewrite skipn_all2 by lia. cbn [app]. f_equal. lia. }
        destruct (length dd + (k - 2)) as [|m] eqn:Em; [cbn [dd length] in Em; lia|].
        rewrite Hf, Hs. destruct (k - 2) as [|m'] eqn:Ek2.
        { change (skipn 0 dc) with dc. change (firstn 0 dc) with (@nil Z).
          eexists. split; [reflexivity|]. constructor; cbn -[send]; try congruence.
          rewrite contents_send_nil, app_nil_r. exact H4. }
        { eexists. split; [reflexivity|]. constructor; cbn [p_status p_name p_data p_fields]; try congruence; try reflexivity.
          rewrite contents_send_nil. rewrite <- contents_send_app. now apply contents_send_ext. }
    + (* not there *)
      destruct (length dc - (length boundary + 2)) as [|m] eqn:Em.
      * eexists _, d. split; [reflexivity|]. split; [|intros _; cbn; lia].
        constructor; cbn; auto; congruence.
      * set (n := S m) in *. eexists _, (d ++ firstn n dc). split; [reflexivity|].
        split; [|intros _; cbn -[skipn n]; rewrite skipn_length; lia].
        assert (Hn : n < length dc) by lia.
        constructor; cbn -[send skipn firstn n]; try congruence.
        -- rewrite <- app_assoc. f_equal. now rewrite firstn_skipn.
        -- rewrite <- contents_send_app. now apply contents_send_ext.
        -- intros _ y a b Ey. rewrite app_length, firstn_length, Nat.min_l by lia.
           destruct (Nat.le_gt_cases (length (d ++ dc) + 1) (length a + length boundary)) as [Hle|Hgt].
           { rewrite app_length in Hle. lia. }
           exfalso.
           assert (Hocc : occurs boundary (d ++ dc)).
           { exists a, (skipn (length a + length boundary) (d ++ dc)).
             pose proof (f_equal (firstn (length a + length boundary)) Ey) as F.
             rewrite firstn_app_le in F by lia.
             rewrite (app_assoc a boundary b) in F. rewrite <- app_length in F. rewrite firstn_len in F.
             rewrite app_assoc, <- F, app_length. symmetry. apply firstn_skipn. }
           pose proof (find_ahead d dc H6) as Hfa. rewrite E in Hfa. apply find_in_none in Hfa. auto.
        -- intros _. rewrite skipn_length. lia.
Qed.

Lemma run_ahead l : forall d c, ahead d c l ->
  match lrun l with
  | Some l' => exists c' d', run c = Some c' /\ ahead d' c' l' /\ settled c'
  | None => run c = None
  end.
Proof.
  remember (measure l) as m eqn:Em. revert l Em. induction m as [m IH] using lt_wf_ind; intros l Em d c H.
  rewrite lrun_unfold, run_unfold. pose proof (round_ahead d c l H) as Hr.
  destruct (lround l) as [l'|l'|] eqn:E.
  - destruct Hr as [c' [Ec Hc']]. rewrite Ec. apply lround_measure in E.
    apply (IH (measure l') ltac:(lia) l' eq_refl [] c' Hc').
  - destruct Hr as [c' [d' [Ec [Hc' Hs]]]]. rewrite Ec. eauto.
  - now rewrite Hr.
Qed.

Lemma ahead_more d c l y : ahead d c l -> ahead d (more c y) (more l y).
Proof.
  intros [H1 H2 H3 H4 H5 H6 H7]. constructor; cbn [more p_status p_name p_data p_fields]; auto.
  - rewrite H3. now rewrite app_assoc.
  - intros Hd y' a b E. rewrite <- app_assoc in E. apply (H6 Hd _ _ _ E).
  - intros Hd. rewrite app_length. specialize (H7 Hd). lia.
Qed.

(** * Packets *)
Variable max : nat.

Lemma run_size p p' : run p = Some p' -> length (p_data p') <= length (p_data p).
Proof.
  remember (measure p) as m eqn:Em. revert p Em. induction m as [m IH] using lt_wf_ind; intros p Em.
  rewrite run_unfold. destruct (round boundary p) as [q|q|] eqn:E; [| |discriminate].
  - intros Hq. pose proof (round_measure _ _ E) as Hm.
    apply (IH (measure q) ltac:(lia) q eq_refl) in Hq.
    enough (length (p_data q) <= length (p_data p)) by lia. clear - E.
    unfold round in E. destruct p as [d st fs n]. cbn [p_status p_data p_fields p_name] in *. destruct st.
    + destruct (find_from boundary d 0); [|discriminate]. injection E as <-. cbn [p_data]. rewrite skipn_length. lia.
    + destruct (find_from CR4 d 0); [|discriminate]. destruct (parse_headers _) as [[? ?]|]; [|discriminate].
      injection E as <-. cbn [p_data]. rewrite skipn_length. lia.
    + destruct (find_from boundary d 0) as [k|]; [|destruct (length d - _); discriminate].
      destruct (k - 2); injection E as <-; cbn [p_data]; [lia|]. rewrite skipn_length. lia.
  - intros [= <-]. clear - E. unfold round in E. destruct p as [d st fs n]. cbn [p_status p_data p_fields p_name] in *. destruct st.
    + destruct (find_from boundary d 0); [discriminate|]. injection E as <-. reflexivity.
    + destruct (find_from CR4 d 0); [destruct (parse_headers _) as [[? ?]|]; discriminate|]. injection E as <-. reflexivity.
    + destruct (find_from boundary d 0) as [k|]; [destruct (k - 2); discriminate|].
      destruct (length d - _); injection E as <-; cbn [p_data]; [lia|]. rewrite skipn_length. lia.
Qed.

Lemma accept_run p chunk : length (p_data p ++ chunk) <= max -> accept boundary max p chunk = run (more p chunk).
Proof.
  intros H. unfold accept. destruct (Nat.ltb_spec max (length (p_data p ++ chunk))); [lia|].
  apply process_fuel; unfold measure, more; cbn [p_data p_status]; destruct (p_status p); lia.
Qed.

Definition lfinal (body : list Z) : option parser := lrun (more initial body).

Lemma accept_all_lazy chunks : forall body c l d,
  lfinal body = Some l -> ahead d c l -> settled c ->
  length (p_data c ++ concat chunks) <= max ->
  match lfinal (body ++ concat chunks) with
  | Some l' => exists c' d', accept_all boundary max c chunks = Some c' /\ ahead d' c' l' /\ settled c'
  | None => accept_all boundary max c chunks = None
  end.
Proof.
  induction chunks as [|x chunks IH]; intros body c l d Hl Ha Hs Hm; cbn [concat accept_all].
  - rewrite app_nil_r, Hl. eauto.
  - cbn [concat] in Hm. rewrite !app_length in Hm.
    rewrite accept_run by (rewrite app_length; lia).
    assert (Hx : lfinal (body ++ x) = lrun (more l x)).
    { unfold lfinal in *. replace (more initial (body ++ x)) with (more (more initial body) x) by reflexivity.
      rewrite lrun_more. now rewrite Hl. }
    rewrite app_assoc.
    pose proof (run_ahead (more l x) d (more c x) (ahead_more _ _ _ x Ha)) as Hr. rewrite <- Hx in Hr.
    destruct (lfinal (body ++ x)) as [l'|] eqn:El.
    + destruct Hr as [c' [d' [Ec [Hc' Hs']]]]. rewrite Ec. apply (IH (body ++ x) c' l' d' El Hc' Hs').
      apply run_size in Ec. cbn [more p_data] in Ec. rewrite !app_length in *. lia.
    + rewrite Hr.
      assert (Hn : lfinal ((body ++ x) ++ concat chunks) = None).
      { unfold lfinal in *. replace (more initial ((body ++ x) ++ concat chunks))
          with (more (more initial (body ++ x)) (concat chunks)) by (unfold more; cbn; reflexivity).
        rewrite lrun_more. now rewrite El. }
      now rewrite Hn.
Qed.

Lemma contents_names_send fs n x : map fst (contents (send fs n x)) = map fst (contents fs).
Proof.
  induction fs as [|[n' f] fs IH]; [reflexivity|]. cbn [send]. destruct (name_eqb n n'); [reflexivity|].
  cbn [contents map fst]. f_equal. exact IH.
Qed.

(** The fields and what was sent to them do not depend on the partition of the body. *)
Theorem chunks_independent chunks chunks' :
  concat chunks = concat chunks' -> length (concat chunks) <= max ->
  match accept_all boundary max initial chunks, accept_all boundary max initial chunks' with
  | Some c, Some c' => contents (p_fields c) = contents (p_fields c') /\ p_data c = p_data c' /\ p_status c = p_status c'
  | None, None => True
  | _, _ => False
  end.
Proof.
  intros E Hm.
  assert (H0 : lfinal [] = Some initial).
  { unfold lfinal. rewrite lrun_unfold. unfold lround, round, more, initial. cbn [p_status p_data app].
    rewrite find_from_0. destruct boundary; [cbn in Hb; lia|]. reflexivity. }
  assert (Ha : ahead [] initial initial) by (constructor; cbn; congruence).
  assert (Hs : settled initial) by discriminate.
  pose proof (accept_all_lazy chunks [] initial initial [] H0 Ha Hs Hm) as H1.
  rewrite E in Hm. pose proof (accept_all_lazy chunks' [] initial initial [] H0 Ha Hs Hm) as H2.
  rewrite <- E in H2. cbn [app] in *.
  destruct (lfinal (concat chunks)) as [l|].
  - destruct H1 as [c [d [E1 [A1 S1]]]], H2 as [c' [d' [E2 [A2 S2]]]]. rewrite E1, E2.
    assert (Hd : d = d').
    { assert (Hlen : forall d c, ahead d c l -> settled c -> p_status l = Content ->
                length d = length (p_data l) - (length boundary + 2)).
      { clear. intros d c A S Hc. destruct A as [B1 B2 B3 B4 B5 B6 B7].
        unfold settled in S. rewrite B1 in S. specialize (S Hc). rewrite B3, app_length.
        destruct d as [|x d]; [cbn [length]; lia|]. specialize (B7 ltac:(discriminate)). lia. }
      destruct (p_status l) eqn:Est.
      - rewrite (ah_none _ _ _ A1), (ah_none _ _ _ A2); congruence.
      - rewrite (ah_none _ _ _ A1), (ah_none _ _ _ A2); congruence.
      - pose proof (Hlen _ _ A1 S1 eq_refl) as L1. pose proof (Hlen _ _ A2 S2 eq_refl) as L2.
        pose proof (ah_data _ _ _ A1) as D1. pose proof (ah_data _ _ _ A2) as D2.
        rewrite <- (firstn_len d (p_data c)), <- D1.
        rewrite <- (firstn_len d' (p_data c')), <- D2. congruence. }
    subst d'. destruct A1 as [B1 B2 B3 B4 _ _ _], A2 as [C1 C2 C3 C4 _ _ _].
    split; [congruence|]. split; [|congruence]. rewrite B3 in C3. now apply app_inv_head in C3.
  - now rewrite H1, H2.
Qed.

(** * The content of a field *)

(** [upload body parts]: the parts of a complete body: the headers and the content of
    each part; the content lies between the empty line after the headers and the line
    break before the next boundary; nothing of this form follows the last boundary. *)
Definition first_at (p s : list Z) (k : nat) : Prop := forall a b, s = a ++ p ++ b -> k <= length a.
Inductive upload : list Z -> list (list Z * list Z) -> Prop :=
| up_last a s : first_at boundary (a ++ boundary ++ s) (length a) -> ~ occurs CR4 s ->
    upload (a ++ boundary ++ s) []
| up_part a h x nl s parts :
    first_at boundary (a ++ boundary ++ h ++ CR4 ++ x ++ nl ++ boundary ++ s) (length a) ->
    first_at CR4 (h ++ CR4 ++ x ++ nl ++ boundary ++ s) (length h) ->
    length nl = 2 ->
    first_at boundary (x ++ nl ++ boundary ++ s) (length x + 2) ->
    upload (nl ++ boundary ++ s) parts ->
    upload (a ++ boundary ++ h ++ CR4 ++ x ++ nl ++ boundary ++ s) ((h, x) :: parts).

Lemma find_in_first p a b : first_at p (a ++ p ++ b) (length a) -> find_in p (a ++ p ++ b) 0 = Some (length a).
Proof.
  intros H. destruct (find_in p (a ++ p ++ b) 0) as [k|] eqn:E.
  - apply find_in_some in E as [a' [b' [E [-> Hmin]]]]. f_equal.
    pose proof (H _ _ E). pose proof (Hmin a b eq_refl). lia.
  - exfalso. apply find_in_none in E. apply E. now exists a, b.
Qed.

(** The field made of one part. *)
Definition pieces (x : list Z) : list (list Z) := match x with [] => [] | _ => [x] end.
Definition part_field (hx : list Z * list Z) : list Z * field :=
  match parse_headers (c_str (fst hx)) with
  | Some (n, f) => (n, Field (f_file f) (f_filename f) (f_type f) (pieces (snd hx)))
  | None => ([], Field false [] [] [])
  end.
Lemma parse_headers_chunks h n f : parse_headers h = Some (n, f) -> f_chunks f = [].
Proof.
  unfold parse_headers. destruct (find_from FORM_DATA h 0); [|discriminate].
  destruct (quoted NAME h) as [[?|]|]; try discriminate.
  destruct (quoted FILENAME h) as [[?|]|]; try discriminate; now intros [= <- <-].
Qed.

Lemma lazy_upload body parts : upload body parts -> forall fs n,
  Forall (fun hx => parse_headers (c_str (fst hx)) <> None) parts ->
  exists l, lrun (Parser body Looking fs n) = Some l /\ p_status l = Headers /\
    p_fields l = rev (map part_field parts) ++ fs.
Proof.
  induction 1 as [a s Ha Hs|a h x nl s parts Ha Hh Hnl Hx Hu IH]; intros fs n Hp.
  - rewrite lrun_unfold. unfold lround, round. cbn [p_status p_data p_fields p_name].
    rewrite find_from_0, find_in_first by exact Ha.
    rewrite lrun_unfold. unfold lround, round. cbn [p_status p_data p_fields p_name].
    replace (skipn (length a + length boundary) (a ++ boundary ++ s)) with s
      by (rewrite app_assoc, <- app_length; symmetry; apply skipn_len).
    rewrite find_from_0.
    destruct (find_in CR4 s 0) as [k|] eqn:E.
    + exfalso. apply find_in_some in E as [a' [b' [E _]]]. apply Hs. now exists a', b'.
    + eexists. split; [reflexivity|]. split; reflexivity.
  - inversion Hp as [|? ? Hp1 Hp2]; subst. cbn [fst snd] in Hp1.
    destruct (parse_headers (c_str h)) as [[n' f]|] eqn:Eh; [|congruence].
    rewrite lrun_unfold. unfold lround, round. cbn [p_status p_data p_fields p_name].
    rewrite find_from_0, find_in_first by exact Ha.
    rewrite lrun_unfold. unfold lround, round. cbn [p_status p_data p_fields p_name].
    replace (skipn (length a + length boundary) (a ++ boundary ++ h ++ CR4 ++ x ++ nl ++ boundary ++ s))
      with (h ++ CR4 ++ x ++ nl ++ boundary ++ s)
      by (rewrite (app_assoc a), <- app_length; symmetry; apply skipn_len).
    rewrite find_from_0, find_in_first by exact Hh. rewrite firstn_len, Eh.
    rewrite lrun_unfold. unfold lround. cbn [p_status p_data p_fields p_name].
    replace (skipn (length h + 4) (h ++ CR4 ++ x ++ nl ++ boundary ++ s)) with (x ++ nl ++ boundary ++ s)
      by (rewrite (app_assoc h CR4); change 4 with (length CR4); rewrite <- app_length; symmetry; apply skipn_len).
    rewrite find_from_0.
    assert (Hf : find_in boundary (x ++ nl ++ boundary ++ s) 0 = Some (length x + 2)).
    { rewrite (app_assoc x nl). rewrite (app_assoc x nl) in Hx.
      rewrite find_in_first; rewrite app_length, Hnl; [reflexivity|exact Hx]. }
    rewrite Hf. replace (length x + 2 - 2) with (length x) by lia.
    set (fs1 := match length x with 0 => (n', f) :: fs | _ => send ((n', f) :: fs) n' x end).
    assert (Hp' : (match length x with
       | 0 => Parser (x ++ nl ++ boundary ++ s) Looking ((n', f) :: fs) n'
       | S m => Parser (skipn (S m) (x ++ nl ++ boundary ++ s)) Looking
                  (send ((n', f) :: fs) n' (firstn (S m) (x ++ nl ++ boundary ++ s))) n'
       end) = Parser (nl ++ boundary ++ s) Looking fs1 n').
    { unfold fs1. destruct x as [|z x]; [reflexivity|]. cbn [length].
      rewrite (skipn_len (z :: x) (nl ++ boundary ++ s) : skipn (S (length x)) _ = _).
      now rewrite (firstn_len (z :: x) (nl ++ boundary ++ s) : firstn (S (length x)) _ = _). }
    rewrite Hp'. destruct (IH fs1 n' Hp2) as [l [El [Hst Hl]]].
    exists l. split; [exact El|]. split; [exact Hst|]. rewrite Hl. cbn [map rev]. rewrite <- app_assoc.
    f_equal. cbn [app]. unfold part_field. cbn [fst snd]. rewrite Eh. pose proof (parse_headers_chunks _ _ _ Eh) as Hc.
    unfold fs1. destruct x as [|z x].
    + cbn [length pieces]. destruct f; cbn in *. now rewrite Hc.
    + cbn [length send pieces]. unfold name_eqb. destruct (list_eq_dec Z.eq_dec n' n'); [|congruence].
      now rewrite Hc.
Qed.

Lemma lrun_run l : forall p, lrun p = Some l -> p_status l <> Content -> run p = Some l.
Proof.
  intros p. remember (measure p) as m eqn:Em. revert p Em. induction m as [m IH] using lt_wf_ind; intros p Em.
  rewrite lrun_unfold, run_unfold. destruct (lround p) as [p'|p'|] eqn:E; [| |discriminate].
  - assert (Hr : round boundary p = Go p').
    { unfold lround in E. destruct p as [d st fs n]. cbn [p_status p_data p_fields p_name] in E.
      destruct st; [exact E|exact E|]. unfold round. cbn [p_status p_data p_fields p_name].
      destruct (find_from boundary d 0) as [k|]; [|discriminate]. destruct (k - 2); exact E. }
    rewrite Hr. intros Hl Hs. apply lround_measure in E. apply (IH (measure p')); [lia|reflexivity|assumption|assumption].
  - intros [= <-] Hs. pose proof (lround_more p []) as Hm. rewrite E in Hm. subst p'.
    unfold lround in E. destruct p as [d st fs n]. cbn [p_status p_data p_fields p_name] in *.
    destruct st; [now rewrite E|now rewrite E|congruence].
Qed.

Theorem upload_fields body parts chunks :
  upload body parts -> Forall (fun hx => parse_headers (c_str (fst hx)) <> None) parts ->
  concat chunks = body -> length body <= max ->
  exists c, accept_all boundary max initial chunks = Some c /\
    contents (p_fields c) = contents (rev (map part_field parts)).
Proof.
  intros Hu Hp E Hm. subst body.
  assert (H0 : lfinal [] = Some initial).
  { unfold lfinal. rewrite lrun_unfold. unfold lround, round, more, initial. cbn [p_status p_data app].
    rewrite find_from_0. destruct boundary; [cbn in Hb; lia|]. reflexivity. }
  assert (Ha : ahead [] initial initial) by (constructor; cbn; congruence).
  assert (Hs : settled initial) by discriminate.
  pose proof (accept_all_lazy chunks [] initial initial [] H0 Ha Hs Hm) as H1. cbn [app] in H1.
  destruct (lazy_upload _ _ Hu [] [] Hp) as [l [El [Hst Hl]]].
  unfold lfinal in H1. change (more initial (concat chunks)) with (Parser (concat chunks) Looking [] []) in H1.
  rewrite El in H1. destruct H1 as [c' [d' [Ec [A S]]]]. exists c'. split; [exact Ec|].
  rewrite (ah_fields _ _ _ A). assert (d' = []) by (apply (ah_none _ _ _ A); congruence). subst d'.
  rewrite contents_send_nil, Hl. now rewrite app_nil_r.
Qed.
Theorem upload_whole body parts :
  upload body parts -> Forall (fun hx => parse_headers (c_str (fst hx)) <> None) parts -> length body <= max ->
  exists c, accept_all boundary max initial [body] = Some c /\ p_fields c = rev (map part_field parts).
Proof.
  intros Hu Hp Hm. destruct (lazy_upload _ _ Hu [] [] Hp) as [l [El [Hst Hl]]].
  exists l. rewrite app_nil_r in Hl. split; [|exact Hl]. cbn [accept_all].
  rewrite accept_run by (cbn [initial p_data app]; exact Hm).
  change (more initial body) with (Parser body Looking [] []). rewrite (lrun_run _ _ El) by congruence. reflexivity.
Qed.
End Lazy.

(** * Headers as a browser writes them *)
Definition PRE : list Z := [13; 10]%Z ++ FORM_DATA ++ [32%Z].
Definition text_header (name : list Z) : list Z := PRE ++ NAME ++ name ++ QUOTE.
Definition file_header (name fn ty : list Z) : list Z :=
  PRE ++ NAME ++ name ++ QUOTE ++ [59; 32]%Z ++ FILENAME ++ fn ++ QUOTE ++ [13; 10]%Z ++ CTYPE ++ ty.

Definition plain (s : list Z) : Prop := ~ In 34%Z s /\ ~ In 0%Z s.
Definition FILENAME_ : list Z := firstn 9 FILENAME.

Lemma prefixb_sep p c : ~ In c p -> forall a b, prefixb p (a ++ c :: b) = true -> prefixb p a = true.
Proof.
  induction p as [|x p IH]; intros Hc [|y a] b; cbn; try reflexivity.
  - destruct (Z.eqb_spec x c); [subst; exfalso; apply Hc; now left|discriminate].
  - intros H. apply andb_true_iff in H as [H1 H2]. rewrite H1. cbn. apply (IH (fun H => Hc (or_intror H)) _ _ H2).
Qed.
Lemma find_sep p c b : ~ In c p -> p <> [] -> forall a i, ~ occurs p a ->
  find_in p (a ++ c :: b) i = find_in p b (i + length a + 1).
Proof.
  intros Hc Hp. induction a as [|y a IH]; intros i Ho; cbn [app find_in length].
  - destruct (prefixb p (c :: b)) eqn:E.
    + exfalso. destruct p as [|x p]; [auto|]. cbn in E. apply andb_true_iff in E as [E _].
      apply Z.eqb_eq in E. subst. apply Hc. now left.
    + f_equal. lia.
  - destruct (prefixb p (y :: a ++ c :: b)) eqn:E.
    + exfalso. apply (prefixb_sep p c Hc (y :: a) b) in E. apply prefixb_spec in E as [z Ez]. apply Ho.
      exists [], z. now rewrite Ez.
    + rewrite IH; [f_equal; lia|]. intros [u [v E']]. apply Ho. exists (y :: u), v. now rewrite E'.
Qed.
(** The marker ends with the quote. *)
Lemma prefixb_last p c : ~ In c p -> forall a b, ~ In c a ->
  prefixb (p ++ [c]) (a ++ c :: b) = true -> a = p.
Proof.
  induction p as [|x p IH]; intros Hc [|y a] b Ha; cbn; try reflexivity.
  - destruct (Z.eqb_spec c y); [subst; exfalso; apply Ha; now left|discriminate].
  - destruct (Z.eqb_spec x c); [subst; exfalso; apply Hc; now left|discriminate].
  - intros H. apply andb_true_iff in H as [H1 H2]. apply Z.eqb_eq in H1. subst y. f_equal.
    apply (IH (fun H => Hc (or_intror H)) _ _ (fun H => Ha (or_intror H)) H2).
Qed.
Lemma find_last p c b : ~ In c p -> forall a i, ~ In c a -> (forall u, a <> u ++ p) ->
  p <> [] -> find_in (p ++ [c]) (a ++ c :: b) i = find_in (p ++ [c]) b (i + length a + 1).
Proof.
  intros Hc a. induction a as [|y a IH]; intros i Ha Hu Hp.
  - cbn [app length]. cbn [find_in]. destruct (prefixb (p ++ [c]) (c :: b)) eqn:E.
    + exfalso. apply (prefixb_last p c Hc [] b) in E; [|assumption]. congruence.
    + f_equal. lia.
  - cbn [app length]. cbn [find_in]. destruct (prefixb (p ++ [c]) (y :: a ++ c :: b)) eqn:E.
    + exfalso. apply (prefixb_last p c Hc (y :: a) b) in E; [|assumption]. apply (Hu []). exact E.
    + rewrite IH; [f_equal; lia| | |assumption].
      * intros H. apply Ha. now right.
      * intros u E'. apply (Hu (y :: u)). now rewrite E'.
Qed.

Lemma c_str_id s : ~ In 0%Z s -> c_str s = s.
Proof. intros H. rewrite <- (app_nil_r s) at 1. rewrite c_str_app by assumption. apply app_nil_r. Qed.

Lemma find_pre p rest : (exists k, find_in p PRE 0 = Some k) -> find_in p (PRE ++ rest) 0 = find_in p PRE 0.
Proof. intros [k E]. rewrite E. now apply find_in_app. Qed.

Lemma quoted_at marker h a s b :
  find_in marker h 0 = Some (length a) -> h = a ++ marker ++ s ++ QUOTE ++ b -> ~ In 34%Z s ->
  quoted marker h = Some (Some s).
Proof.
  intros E -> Hs. unfold quoted. change (find_from marker) with (fun s i => find_in marker (skipn i s) i). cbn beta.
  change (skipn 0 (a ++ marker ++ s ++ QUOTE ++ b)) with (a ++ marker ++ s ++ QUOTE ++ b). rewrite E.
  rewrite (app_assoc a marker). rewrite <- app_length. unfold find_from. rewrite skipn_len.
  unfold QUOTE. cbn [app]. rewrite find_in_char by assumption. f_equal. f_equal.
  replace (length (a ++ marker) + length s - length (a ++ marker)) with (length s) by lia. apply firstn_len.
Qed.
Lemma quoted_none marker h : find_in marker h 0 = None -> quoted marker h = None.
Proof. intros E. unfold quoted. change (find_from marker h 0) with (find_in marker h 0). now rewrite E. Qed.

Lemma not_in_34 (s : list Z) : existsb (Z.eqb 34) s = false -> ~ In 34%Z s.
Proof. intros H Hin. assert (existsb (Z.eqb 34) s = true) by (apply existsb_exists; exists 34%Z; split; [assumption|reflexivity]). congruence. Qed.

Lemma find_name rest : find_in NAME (PRE ++ NAME ++ rest) 0 = Some (length PRE).
Proof. reflexivity. Qed.
Lemma find_form rest : find_in FORM_DATA (PRE ++ rest) 0 = Some 2.
Proof. reflexivity. Qed.
Lemma find_filename_pre rest i : find_in FILENAME (PRE ++ NAME ++ rest) i = find_in FILENAME rest (length PRE + 6 + i).
Proof. reflexivity. Qed.
Lemma find_ctype_pre rest i : find_in CTYPE (PRE ++ NAME ++ rest) i = find_in CTYPE rest (length PRE + 6 + i).
Proof. reflexivity. Qed.
Lemma find_ctype_mid rest i : find_in CTYPE ([59; 32]%Z ++ FILENAME ++ rest) i = find_in CTYPE rest (12 + i).
Proof. reflexivity. Qed.

Lemma no_nul_header (l : list Z) : forallb (fun c => negb (c =? 0)%Z) l = true -> ~ In 0%Z l.
Proof.
  intros H Hin. rewrite forallb_forall in H. apply H in Hin. discriminate.
Qed.

Lemma text_header_parsed name : plain name -> (forall u, name <> u ++ FILENAME_) ->
  parse_headers (c_str (text_header name)) = Some (name, Field false [] [] []).
Proof.
  intros [Hq Hz] Hf. unfold text_header. rewrite c_str_id.
  2:{ rewrite !in_app_iff. intros [H|[H|[H|H]]]; [| |auto|]; revert H; apply no_nul_header; reflexivity. }
  unfold parse_headers. change (find_from FORM_DATA ?h 0) with (find_in FORM_DATA h 0). rewrite find_form.
  rewrite (quoted_at NAME _ PRE name []); [|apply find_name|now rewrite app_nil_r|assumption].
  rewrite quoted_none; [reflexivity|]. rewrite find_filename_pre.
  change FILENAME with (FILENAME_ ++ [34%Z]) at 1. unfold QUOTE.
  rewrite find_last; [reflexivity| |assumption|assumption|discriminate].
  apply not_in_34. reflexivity.
Qed.

Lemma file_header_parsed name fn ty : plain name -> (forall u, name <> u ++ FILENAME_) -> plain fn ->
  ~ occurs CTYPE name -> ~ occurs CTYPE fn -> ~ In 0%Z ty ->
  (forall c, In c ty -> c <> 32 /\ c <> 10 /\ c <> 13)%Z ->
  parse_headers (c_str (file_header name fn ty)) = Some (name, Field true fn ty []).
Proof.
  intros [Hq Hz] Hf [Hfq Hfz] Hc1 Hc2 Htz Ht. unfold file_header. rewrite c_str_id.
  2:{ rewrite !in_app_iff. intros [H|[H|[H|[H|[H|[H|[H|[H|[H|[H|H]]]]]]]]]]; auto;
      revert H; apply no_nul_header; reflexivity. }
  unfold parse_headers. change (find_from FORM_DATA ?h 0) with (find_in FORM_DATA h 0). rewrite find_form.
  rewrite (quoted_at NAME _ PRE name _ (find_name _) eq_refl Hq).
  set (mid := [13; 10]%Z ++ CTYPE ++ ty).
  set (A := PRE ++ NAME ++ name ++ QUOTE ++ [59; 32]%Z).
  assert (EA : PRE ++ NAME ++ name ++ QUOTE ++ [59; 32]%Z ++ FILENAME ++ fn ++ QUOTE ++ mid
               = A ++ FILENAME ++ fn ++ QUOTE ++ mid).
  { unfold A. now rewrite <- !app_assoc. }
  assert (Hfn : find_in FILENAME (PRE ++ NAME ++ name ++ QUOTE ++ [59; 32]%Z ++ FILENAME ++ fn ++ QUOTE ++ mid) 0
                = Some (length A)).
  { rewrite find_filename_pre. change FILENAME with (FILENAME_ ++ [34%Z]) at 1. unfold QUOTE at 1. cbn [app].
    rewrite find_last; [|apply not_in_34; reflexivity|assumption|assumption|discriminate].
    change (FILENAME_ ++ [34%Z]) with FILENAME.
    transitivity (Some (2 + (length PRE + 6 + 0 + length name + 1))); [reflexivity|].
    unfold A. rewrite !app_length. cbn [NAME QUOTE map length]. f_equal. lia. }
  rewrite (quoted_at FILENAME _ A fn mid Hfn EA Hfq). f_equal. f_equal. f_equal.
  unfold content_type. change (find_from CTYPE ?h 0) with (find_in CTYPE h 0).
  set (B := A ++ FILENAME ++ fn ++ QUOTE ++ [13; 10]%Z).
  assert (Hct : find_in CTYPE (PRE ++ NAME ++ name ++ QUOTE ++ [59; 32]%Z ++ FILENAME ++ fn ++ QUOTE ++ mid) 0
                = Some (length B)).
  { rewrite find_ctype_pre. unfold QUOTE at 1. cbn [app].
    change (34%Z :: 59%Z :: 32%Z :: ?r) with (34%Z :: [59; 32]%Z ++ r).
    rewrite find_sep; [|apply not_in_34; reflexivity|discriminate|assumption].
    rewrite find_ctype_mid. unfold QUOTE. cbn [app].
    rewrite find_sep; [|apply not_in_34; reflexivity|discriminate|assumption].
    transitivity (Some (2 + (12 + (length PRE + 6 + 0 + length name + 1) + length fn + 1))); [reflexivity|].
    unfold B, A. rewrite !app_length. cbn [NAME FILENAME QUOTE map length]. f_equal. lia. }
  rewrite Hct.
  assert (EB : PRE ++ NAME ++ name ++ QUOTE ++ [59; 32]%Z ++ FILENAME ++ fn ++ QUOTE ++ mid = (B ++ CTYPE) ++ ty).
  { unfold B, A, mid. now rewrite <- !app_assoc. }
  rewrite EB. replace (length B + 14) with (length (B ++ CTYPE)) by (rewrite app_length; reflexivity).
  rewrite skipn_len.
  assert (He : forall s i, (forall c, In c s -> c <> 32 /\ c <> 10 /\ c <> 13)%Z -> find_end s i = None).
  { clear. induction s as [|c s IH]; intros i H; [reflexivity|]. cbn [find_end].
    destruct (H c (or_introl eq_refl)) as [H1 [H2 H3]].
    destruct (Z.eqb_spec c 32); [congruence|]. destruct (Z.eqb_spec c 10); [congruence|].
    destruct (Z.eqb_spec c 13); [congruence|]. apply IH. intros c' Hc'. apply H. now right. }
  now rewrite He.
Qed.

(** * C37 *)
Definition field_view (f : field) : bool * list Z * list Z * list Z :=
  (f_file f, f_filename f, f_type f, file_content f).
Lemma contents_get fs fs' n : contents fs = contents fs' ->
  option_map field_view (get_field fs n) = option_map field_view (get_field fs' n).
Proof.
  revert fs'. induction fs as [|[m f] fs IH]; intros [|[m' f'] fs'] E; try discriminate; [reflexivity|].
  cbn [contents map fst snd] in E. injection E as -> E1 E2 E3 E4 E5. cbn [get_field].
  destruct (name_eqb n m'); [|apply IH; exact E5]. cbn [option_map]. unfold field_view. congruence.
Qed.

(** The fields do not depend on how the body is split, as long as it fits. *)
Theorem C37_chunks boundary max chunks chunks' n : 2 <= length boundary ->
  concat chunks = concat chunks' -> length (concat chunks) <= max ->
  match accept_all boundary max initial chunks, accept_all boundary max initial chunks' with
  | Some c, Some c' => option_map field_view (get_field (p_fields c) n) = option_map field_view (get_field (p_fields c') n)
  | None, None => True
  | _, _ => False
  end.
Proof.
  intros Hb E Hm. pose proof (chunks_independent boundary Hb max chunks chunks' E Hm) as H.
  destruct (accept_all boundary max initial chunks), (accept_all boundary max initial chunks'); try exact H.
  now apply contents_get.
Qed.

(** The description of a part, as the form has it. *)
Inductive described : list Z -> list Z -> bool -> list Z -> list Z -> Prop :=
| ds_text n : plain n -> (forall u, n <> u ++ FILENAME_) -> described (text_header n) n false [] []
| ds_file n fn ty : plain n -> (forall u, n <> u ++ FILENAME_) -> plain fn ->
    ~ occurs CTYPE n -> ~ occurs CTYPE fn -> ~ In 0%Z ty -> (forall c, In c ty -> c <> 32 /\ c <> 10 /\ c <> 13)%Z ->
    described (file_header n fn ty) n true fn ty.
Lemma described_parsed h n k fn ty : described h n k fn ty ->
  parse_headers (c_str h) = Some (n, Field k fn ty []).
Proof. intros [|]; [now apply text_header_parsed|now apply file_header_parsed]. Qed.

Record form_part := FormPart { fp_header : list Z; fp_name : list Z; fp_file : bool; fp_filename : list Z;
                               fp_type : list Z; fp_bytes : list Z }.
Definition well_described (p : form_part) : Prop :=
  described (fp_header p) (fp_name p) (fp_file p) (fp_filename p) (fp_type p).
Definition raw (p : form_part) : list Z * list Z := (fp_header p, fp_bytes p).

Lemma described_ok parts : Forall well_described parts ->
  Forall (fun hx => parse_headers (c_str (fst hx)) <> None) (map raw parts).
Proof.
  induction 1 as [|p parts Hp _ IH]; constructor; [|exact IH]. cbn [raw fst].
  rewrite (described_parsed _ _ _ _ _ Hp). discriminate.
Qed.
Lemma get_field_last fs n f rest : (forall m g, In (m, g) rest -> m <> n) ->
  get_field (rest ++ (n, f) :: fs) n = Some f.
Proof.
  intros H. induction rest as [|[m g] rest IH]; cbn [app get_field].
  - unfold name_eqb. destruct (list_eq_dec Z.eq_dec n n); [reflexivity|congruence].
  - unfold name_eqb. destruct (list_eq_dec Z.eq_dec n m); [subst; exfalso; apply (H m g); [now left|reflexivity]|].
    apply IH. intros m' g' Hin. apply (H m' g'). now right.
Qed.
Lemma part_field_last before p after : Forall well_described (before ++ p :: after) ->
  (forall q, In q after -> fp_name q <> fp_name p) ->
  get_field (rev (map part_field (map raw (before ++ p :: after)))) (fp_name p)
  = Some (Field (fp_file p) (fp_filename p) (fp_type p) (pieces (fp_bytes p))).
Proof.
  intros Hd Ha. rewrite !map_app. cbn [map]. rewrite rev_app_distr. cbn [rev]. rewrite <- app_assoc. cbn [app].
  apply Forall_app in Hd as [_ Hd]. inversion Hd as [|? ? Hp Hd']; subst.
  unfold part_field at 2. cbn [raw fst snd]. rewrite (described_parsed _ _ _ _ _ Hp). cbn [f_file f_filename f_type].
  apply get_field_last. intros m g Hin. apply in_rev in Hin. apply in_map_iff in Hin as [hx [E Hin]].
  apply in_map_iff in Hin as [q [<- Hq]]. rewrite Forall_forall in Hd'.
  unfold part_field in E. cbn [raw fst snd] in E. rewrite (described_parsed _ _ _ _ _ (Hd' _ Hq)) in E.
  injection E as <- _. now apply Ha.
Qed.

(** A file field holds exactly the bytes between its headers and the line break before
    the next boundary, whatever the partition of the body. *)
Theorem C37_content boundary max before p after body chunks : 2 <= length boundary ->
  upload boundary body (map raw (before ++ p :: after)) -> Forall well_described (before ++ p :: after) ->
  (forall q, In q after -> fp_name q <> fp_name p) ->
  concat chunks = body -> length body <= max ->
  exists c f, accept_all boundary max initial chunks = Some c /\
    get_field (p_fields c) (fp_name p) = Some f /\
    f_file f = fp_file p /\ f_filename f = fp_filename p /\ f_type f = fp_type p /\
    file_content f = fp_bytes p.
Proof.
  intros Hb Hu Hd Ha E Hm.
  destruct (upload_fields boundary Hb max body _ chunks Hu (described_ok _ Hd) E Hm) as [c [Ec Hc]].
  apply (contents_get _ _ (fp_name p)) in Hc. rewrite (part_field_last before p after Hd Ha) in Hc.
  destruct (get_field (p_fields c) (fp_name p)) as [f|] eqn:Ef; [|discriminate].
  exists c, f. split; [exact Ec|]. split; [exact Ef|]. cbn [option_map] in Hc. unfold field_view in Hc.
  injection Hc as -> -> -> H. cbn [f_file f_filename f_type]. repeat (split; [reflexivity|]).
  rewrite H. unfold file_content. cbn [f_chunks]. unfold pieces. destruct (fp_bytes p); [reflexivity|].
  cbn [concat]. apply app_nil_r.
Qed.

(** A text field of a body that comes in one piece holds its bytes up to the first NUL. *)
Theorem C37_text boundary max before p after body : 2 <= length boundary ->
  upload boundary body (map raw (before ++ p :: after)) -> Forall well_described (before ++ p :: after) ->
  (forall q, In q after -> fp_name q <> fp_name p) -> length body <= max -> ~ In 0%Z (fp_bytes p) ->
  exists c f, accept_all boundary max initial [body] = Some c /\
    get_field (p_fields c) (fp_name p) = Some f /\ text_content f = fp_bytes p.
Proof.
  intros Hb Hu Hd Ha Hm Hz.
  destruct (upload_whole boundary Hb max body _ Hu (described_ok _ Hd) Hm) as [c [Ec Hc]].
  exists c. rewrite Hc, (part_field_last before p after Hd Ha). eexists. split; [exact Ec|]. split; [reflexivity|].
  unfold text_content. cbn [f_chunks]. unfold pieces. destruct (fp_bytes p) eqn:E; [reflexivity|].
  cbn [last]. now apply c_str_id.
Qed.

(** * Witnesses *)
Definition B : list Z := [45; 45; 66; 66; 66]%Z.
Definition NL : list Z := [13; 10]%Z.
Definition t_part (name x : list Z) : form_part := FormPart (text_header name) name false [] [] x.
Definition f_part (name fn ty x : list Z) : form_part := FormPart (file_header name fn ty) name true fn ty x.
Definition body_of (parts : list form_part) : list Z :=
  concat (map (fun p => B ++ fp_header p ++ CR4 ++ fp_bytes p ++ NL) parts) ++ B ++ [45; 45]%Z ++ NL.

Definition first_atb (p s : list Z) (k : nat) : bool := match find_in p s 0 with Some j => j =? k | None => false end.
Lemma first_atb_spec p s k : first_atb p s k = true -> first_at p s k.
Proof.
  unfold first_atb. destruct (find_in p s 0) as [j|] eqn:E; [|discriminate]. intros H. apply Nat.eqb_eq in H. subst j.
  apply find_in_some in E as [a [b [_ [-> Hmin]]]]. intros a' b' E'. apply (Hmin a' b' E').
Qed.
Definition ex_parts : list form_part :=
  [t_part [110]%Z [65; 45; 45; 66; 13; 10]%Z; f_part [102]%Z [98]%Z [116; 47; 112]%Z [0; 255; 13; 10; 45; 45; 66; 66]%Z].
Example ex_described : Forall well_described ex_parts.
Proof.
  constructor; [|constructor; [|constructor]].
  - apply ds_text; [split; cbn; intuition discriminate|]. intros u E. apply (f_equal (@length Z)) in E.
    rewrite app_length in E. change (length FILENAME_) with 9 in E. cbn in E. lia.
  - apply ds_file; try (split; cbn; intuition discriminate).
    + intros u E. apply (f_equal (@length Z)) in E. rewrite app_length in E. change (length FILENAME_) with 9 in E. cbn in E. lia.
    + apply (find_in_none _ _ 0). reflexivity.
    + apply (find_in_none _ _ 0). reflexivity.
    + cbn. intuition discriminate.
    + cbn. intros c H. destruct H as [<-|[<-|[<-|[]]]]; intuition discriminate.
Qed.
Example ex_upload : upload B (body_of ex_parts) (map raw ex_parts).
Proof.
  change (upload B ([] ++ B ++ text_header [110]%Z ++ CR4 ++ [65; 45; 45; 66; 13; 10]%Z ++ NL ++ B ++
                    (file_header [102]%Z [98]%Z [116; 47; 112]%Z ++ CR4 ++ [0; 255; 13; 10; 45; 45; 66; 66]%Z ++ NL ++ B ++ [45; 45; 13; 10]%Z))
           (map raw ex_parts)).
  apply (up_part B [] (text_header [110]%Z) _ NL); [apply first_atb_spec; reflexivity|apply first_atb_spec; reflexivity|reflexivity|
                   apply first_atb_spec; reflexivity|].
  apply (up_part B NL (file_header [102]%Z [98]%Z [116; 47; 112]%Z) _ NL); [apply first_atb_spec; reflexivity|apply first_atb_spec; reflexivity|reflexivity|
                   apply first_atb_spec; reflexivity|].
  apply (up_last B NL); [apply first_atb_spec; reflexivity|]. apply (find_in_none _ _ 0). reflexivity.
Qed.
Example ex_split : exists c f,
  accept_all B 1000 initial (map (fun b => [b]) (body_of ex_parts)) = Some c /\ get_field (p_fields c) [102]%Z = Some f /\
  f_filename f = [98]%Z /\ f_type f = [116; 47; 112]%Z /\ file_content f = [0; 255; 13; 10; 45; 45; 66; 66]%Z.
Proof. eexists _, _. split; [vm_compute; reflexivity|]. split; [vm_compute; reflexivity|]. repeat split. Qed.
Example ex_by_theorem chunks : concat chunks = body_of ex_parts ->
  exists c f, accept_all B 1000 initial chunks = Some c /\ get_field (p_fields c) [102]%Z = Some f /\
    f_file f = true /\ f_filename f = [98]%Z /\ f_type f = [116; 47; 112]%Z /\
    file_content f = [0; 255; 13; 10; 45; 45; 66; 66]%Z.
Proof.
  intros H.
  refine (C37_content B 1000 (firstn 1 ex_parts) (nth 1 ex_parts (t_part [] [])) [] _ chunks _ ex_upload ex_described _ H _).
  - cbn. lia.
  - intros q [].
  - apply Nat.leb_le. vm_compute. reflexivity.
Qed.

(** * What does depend on the partition, or is lost *)

(** A text longer than the boundary loses its beginning when it comes in two pieces. *)
Definition long_text : form_part := t_part [110]%Z (repeat 65%Z 20).
Theorem C37_text_refuted :
  exists chunks c f, concat chunks = body_of [long_text] /\
    accept_all B 1000 initial chunks = Some c /\ get_field (p_fields c) [110]%Z = Some f /\
    f_file f = false /\ text_content f <> fp_bytes long_text /\
    exists c1 f1, accept_all B 1000 initial [body_of [long_text]] = Some c1 /\
      get_field (p_fields c1) [110]%Z = Some f1 /\ text_content f1 = fp_bytes long_text.
Proof.
  exists [firstn 70 (body_of [long_text]); skipn 70 (body_of [long_text])].
  eexists _, _. split; [vm_compute; reflexivity|]. split; [vm_compute; reflexivity|].
  split; [vm_compute; reflexivity|]. split; [reflexivity|]. split; [vm_compute; discriminate|].
  eexists _, _. split; [vm_compute; reflexivity|]. split; vm_compute; reflexivity.
Qed.
(** A text with a NUL is cut there. *)
Theorem C37_nul_refuted : exists c f,
  accept_all B 1000 initial [body_of [t_part [110]%Z [65; 0; 66]%Z]] = Some c /\
  get_field (p_fields c) [110]%Z = Some f /\ text_content f = [65]%Z.
Proof. eexists _, _. split; [vm_compute; reflexivity|]. split; vm_compute; reflexivity. Qed.
(** The content type loses its last character when anything follows it. *)
Theorem C37_type_refuted : exists f,
  parse_headers (c_str (file_header [102] [98] [116; 47; 112] ++ NL)%Z) = Some ([102]%Z, f) /\ f_type f = [116; 47]%Z.
Proof. eexists. split; vm_compute; reflexivity. Qed.
(** The name is looked for inside "filename" when that comes first. *)
Theorem C37_name_refuted : exists n f,
  parse_headers (PRE ++ FILENAME ++ [98; 34; 59; 32] ++ NAME ++ [110; 34])%Z = Some (n, f) /\ n = [98]%Z.
Proof. eexists _, _. split; vm_compute; reflexivity. Qed.

Print Assumptions C37_chunks.
Print Assumptions C37_content.
Print Assumptions C37_text.
Print Assumptions C37_text_refuted.
Print Assumptions C37_nul_refuted.
Print Assumptions C37_type_refuted.
Print Assumptions C37_name_refuted.

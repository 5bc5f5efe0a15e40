(** C57: a line of the PSI format reads back as it was written. *)
From Coq Require Import String Ascii List NArith ZArith Bool Arith Lia.
From Verif Require Import M_Quoter S_Quoter L_Quoter M_Psi L_Psi.
From Verif Require M_Utf8 S_Utf8 L_Utf8.
Import ListNotations.
Local Open Scope char_scope.
Local Open Scope nat_scope.

Section Line.
Context {Sc : Type}.
Variable same_score : Sc -> Sc -> bool.
Variable zero : Sc.
Variable show : Sc -> str.
Variable scan : str -> option (Sc * str).

(** * Specification *)
(** What the line should say. *)
Definition meant_link (l : link) : Z * str :=
  match l_number l with
  | Some n => (Z.of_N n, match l_role l with Some r => r | None => [] end)
  | None => (0%Z, [])
  end.
Definition meant_part (p : part Sc) : read_part Sc := ReadPart (map meant_link (pt_links p)) (pt_tags p) (pt_score p).
Definition meant (e : edge Sc) (t : str) : line Sc :=
  Line (Z.of_N (ordinal e))
    (match source e with Free _ => true | At _ => false end)
    (match source e with Free k => Z.of_N k | At p => Z.of_N p end)
    (match source e, target e with At _, At _ => false | _, _ => true end)
    (match target e with Free _ => true | At _ => false end)
    (match target e, source e with Free k, _ => Z.of_N k | At q, Free _ => Z.of_N q | At _, At _ => Z.of_N (edge_length e) end)
    t (tag_names e) (item_text e) (category e) (score e) (values e)
    (if is_default e then from_symbols else of_parts (map meant_part (parts e))).

(** ** What can be written *)
Definition without (l : list ascii) (s : str) : Prop := forall c, In c s -> ~ In c l.
(** No vertical tab and no form feed in front: the reader skips them. *)
Definition solid (s : str) : Prop := forall c r, s = c :: r -> c <> "011" /\ c <> "012".
Definition place_fits (v : vertex) : Prop := match v with At p => fits p | Free k => fits k end.
(** A tag that quoting leaves as it is. *)
Definition name (s : str) : Prop := s <> [] /\ quote s = s /\ without [" "; ","; ")"; "]"] s.
Definition legible (x : Sc) : Prop :=
  (forall r, scan (show x ++ ">" :: r) = Some (x, ">" :: r)) /\ show x <> [] /\ quote (show x) = show x /\ without [">"; "]"] (show x).
Definition link_ok (l : link) : Prop :=
  match l_number l with
  | Some n => fits n /\ (forall r, l_role l = Some r -> r <> [] /\ without ["$"; "("; "<"; "]"; ","] r)
  | None => True
  end.
(** Edges with numbers first, then edges without; not one edge without a number alone. *)
Inductive links_ok : list link -> Prop :=
  | L_free l : Forall (fun x => l_number x = None) l -> links_ok l
  | L_number x l : l_number x <> None -> links_ok l -> links_ok (x :: l).
Definition part_ok (e : edge Sc) (p : part Sc) : Prop :=
  Forall link_ok (pt_links p) /\ links_ok (pt_links p) /\ join ["-"] (map link_text (pt_links p)) <> [] /\
  (pt_tags p <> tag_names e -> pt_tags p <> [] /\ Forall name (pt_tags p)) /\ (pt_score p <> score e -> legible (pt_score p)).
Record writable (e : edge Sc) : Prop := {
  w_ordinal : fits (ordinal e);
  w_source : place_fits (source e);
  w_target : place_fits (target e);
  w_length : fits (edge_length e);
  w_text : solid (edge_text e);
  w_tags : tag_names e <> [] /\ Forall name (tag_names e) /\ Forall solid (tag_names e);
  w_item_text : solid (item_text e);
  w_category : category e <> [] /\ solid (category e) /\ without [","; "["; "<"] (category e);
  w_score : score e <> zero -> legible (score e);
  w_values : Forall (fun av => fst av <> [] /\ snd av <> [] /\ without [","; "="; "["] (fst av) /\ without [","; "="; "["] (snd av)) (values e);
  w_parts : is_default e = true \/ parts e = [Part [] (tag_names e) (score e)] \/ parts e <> [] /\ Forall (part_ok e) (parts e)
}.

(** * Proofs *)
Lemma without_other l s : without l s <-> forallb (other l) s = true.
Proof. symmetry. apply other_in. Qed.
Lemma without_incl l m s : incl m l -> without l s -> without m s.
Proof. intros I H c Hc K. exact (H c Hc (I c K)). Qed.
Ltac sub_chars := let c := fresh in let K := fresh in intros c K; cbn in K |- *; intuition.
Lemma without_app l a b : without l (a ++ b) <-> without l a /\ without l b.
Proof. rewrite !without_other, forallb_app, andb_true_iff. reflexivity. Qed.
Lemma without_two l a b : without l a -> without l b -> without l (a ++ b).
Proof. intros Ha Hb. now apply without_app. Qed.
Lemma without_quote l s : (forall c, In c l -> ~ In c ["\"; "n"; "t"; "r"; "_"]) -> without l s -> without l (quote s).
Proof. rewrite !without_other. apply quote_other. Qed.
Lemma without_digits l s : forallb is_digit s = true -> forallb (fun c => negb (is_digit c)) l = true -> without l s.
Proof. intros H K c Hc Hl. rewrite forallb_forall in H, K. specialize (H c Hc). specialize (K c Hl). rewrite H in K. discriminate. Qed.
Ltac chars := let c := fresh in let K := fresh in let Q := fresh in intros c K Q; cbn in K, Q; repeat (destruct K as [<-|K]; [repeat (destruct Q as [Q|Q]; [discriminate Q|]); contradiction|]); contradiction.
Lemma solid_quote s : solid s -> starts is_space (quote s) = false.
Proof.
  intros H. rewrite quote_start. destruct s as [|c s]; [reflexivity|]. destruct (H c s eq_refl) as [H1 H2].
  apply orb_false_iff. split; apply Ascii.eqb_neq; assumption.
Qed.

(** ** The row *)
Lemma row_step pos als c d cs : row pos als (c :: d :: cs) =
  match M_Utf8.distance (bytes c) with
  | None => None
  | Some n => option_map (fun r => c ++ repeat " " (hd 0 als - (pos + n)) ++ " " :: r) (row (pos + n + (hd 0 als - (pos + n)) + 1) (tl als) (d :: cs))
  end.
Proof. reflexivity. Qed.
Lemma row_shape pos als c d cs s : row pos als (c :: d :: cs) = Some s -> exists k r pos' als', s = c ++ gap k ++ r /\ row pos' als' (d :: cs) = Some r.
Proof.
  rewrite row_step. destruct (M_Utf8.distance (bytes c)) as [n|]; [|discriminate].
  destruct (row _ _ (d :: cs)) as [r|] eqn:E; [|discriminate]. cbn [option_map]. intros H. injection H as <-.
  exists (hd 0 als - (pos + n)), r, (pos + n + (hd 0 als - (pos + n)) + 1), (tl als). split; [|exact E]. f_equal. unfold gap.
  generalize (hd 0 als - (pos + n)). intros k. induction k as [|k IH]; [reflexivity|]. cbn [repeat app]. f_equal. exact IH.
Qed.
Lemma row_last pos als c s : row pos als [c] = Some s -> s = c.
Proof. cbn. destruct (M_Utf8.distance _); congruence. Qed.

(** ** The cells *)
Lemma without_firstn l n s : without l s -> without l (firstn n s).
Proof. intros H c Hc. apply H. rewrite <- (firstn_skipn n s). apply in_app_iff. now left. Qed.
Lemma without_skipn l n s : without l s -> without l (skipn n s).
Proof. intros H c Hc. apply H. rewrite <- (firstn_skipn n s). apply in_app_iff. now right. Qed.
Lemma some_eq {A} (a b : A) : Some a = Some b -> a = b.
Proof. congruence. Qed.
Lemma text_cell_ok (e : edge Sc) c : solid (edge_text e) -> text_cell e = Some c -> c <> [] /\ without [" "] c /\ starts is_space c = false.
Proof.
  intros H. unfold text_cell. destruct (M_Utf8.distance (bytes (quote (edge_text e)))) as [n|] eqn:E; [|discriminate].
  intros K. apply some_eq in K. subst c. pose proof (proj2 (without_other [" "] _) (quote_no_space (edge_text e))) as Q. pose proof (solid_quote _ H) as F.
  destruct (n =? 0) eqn:En; [split; [discriminate|]; split; [chars|reflexivity]|].
  destruct ((13 <? n) && negb (whole e)).
  - split; [intros K; apply app_eq_nil in K as [_ K]; discriminate|]. split.
    + apply without_two; [now apply without_firstn|]. apply (without_two _ (lit "...")); [chars|now apply without_skipn].
    + generalize (first_chars 6 (bytes (quote (edge_text e)))). intros k. destruct k as [|k]; [reflexivity|]. destruct (quote (edge_text e)); [reflexivity|exact F].
  - split; [|split; assumption]. intros K. rewrite K in E. injection E as <-. discriminate.
Qed.
Lemma unquote_plain s : without ["\"; "_"] s -> unquote s = Some s.
Proof.
  unfold unquote. induction s as [|c s IH]; intros H; [reflexivity|]. cbn [unescape].
  destruct (Ascii.eqb_spec c ch_under) as [->|_]; [destruct (H ch_under); cbn; tauto|].
  destruct (Ascii.eqb_spec c ch_bs) as [->|_]; [destruct (H ch_bs); cbn; tauto|].
  rewrite IH; [reflexivity|]. intros d Hd. apply H. now right.
Qed.
Lemma unquote_same s : quote s = s -> unquote s = Some s.
Proof. intros H. rewrite <- H at 1. apply unquote_quote. Qed.
Lemma unquote_join {A} (sep : str) (f g : A -> str) l : unquote sep = Some sep -> (forall x, In x l -> unquote (f x) = Some (g x)) -> unquote (join sep (map f l)) = Some (join sep (map g l)).
Proof.
  intros Hs. destruct l as [|x l]; intros H; [reflexivity|]. cbn [map join]. apply unquote_two; [apply H; now left|].
  assert (K : forall y, In y l -> unquote (f y) = Some (g y)) by (intros y Hy; apply H; now right). clear H. induction l as [|y l IH]; [reflexivity|].
  cbn [map List.concat]. apply unquote_two; [apply unquote_two; [assumption|apply K; now left]|]. apply IH. intros z Hz. apply K. now right.
Qed.
Lemma without_join {A} l sep (f : A -> str) xs : without l sep -> (forall x, In x xs -> without l (f x)) -> without l (join sep (map f xs)).
Proof.
  intros Hs. destruct xs as [|x xs]; intros H; [intros ? []|]. cbn [map join]. apply without_two; [apply H; now left|].
  assert (K : forall y, In y xs -> without l (f y)) by (intros y Hy; apply H; now right). clear H. induction xs as [|y xs IH]; [intros ? []|].
  cbn [map List.concat]. apply without_two; [apply without_two; [assumption|apply K; now left]|]. apply IH. intros z Hz. apply K. now right.
Qed.

(** ** A partition *)
Definition raw_link (l : link) : str :=
  match l_number l with None => [] | Some n => decimal n ++ match l_role l with None => [] | Some r => "$" :: r ++ ["$"] end end.
Definition raw_part (e : edge Sc) (p : part Sc) : str :=
  join ["-"] (map raw_link (pt_links p)) ++
  (if names_eqb (pt_tags p) (tag_names e) then [] else "(" :: join [","] (pt_tags p) ++ [")"]) ++
  (if same_score (pt_score p) (score e) then [] else "<" :: show (pt_score p) ++ [">"]).
Hypothesis same_spec : forall a b, same_score a b = true <-> a = b.
Lemma names_eqb_spec a b : names_eqb a b = true <-> a = b.
Proof. unfold names_eqb. destruct (list_eq_dec (list_eq_dec ascii_dec) a b); split; congruence. Qed.
Lemma decimal_plain n l : forallb (fun c => negb (is_digit c)) l = true -> without l (decimal n).
Proof. intros H. apply without_digits; [apply decimal_spec|assumption]. Qed.
Lemma unquote_link l : unquote (link_text l) = Some (raw_link l).
Proof.
  unfold link_text, raw_link. destruct (l_number l) as [n|]; [|reflexivity]. apply unquote_two; [apply unquote_plain, decimal_plain; reflexivity|].
  destruct (l_role l) as [r|]; [|reflexivity]. change (unquote (["$"] ++ (quote r ++ ["$"])) = Some (["$"] ++ r ++ ["$"])).
  apply unquote_two; [reflexivity|]. apply unquote_two; [apply unquote_quote|reflexivity].
Qed.
Lemma unquote_part e p : part_ok e p -> unquote (part_text same_score show e p) = Some (raw_part e p).
Proof.
  intros [_ [_ [_ [Ht Hs]]]]. unfold part_text, raw_part. apply unquote_two; [apply unquote_join; [reflexivity|intros; apply unquote_link]|]. apply unquote_two.
  - destruct (names_eqb (pt_tags p) (tag_names e)) eqn:E; [reflexivity|]. assert (N : pt_tags p <> tag_names e) by (intros K; apply names_eqb_spec in K; congruence).
    destruct (Ht N) as [_ F]. change (unquote (["("] ++ (join [","] (pt_tags p) ++ [")"])) = Some (["("] ++ join [","] (pt_tags p) ++ [")"])).
    apply unquote_two; [reflexivity|]. apply unquote_two; [|reflexivity]. rewrite <- (map_id (pt_tags p)). apply unquote_join; [reflexivity|]. intros x Hx.
    rewrite Forall_forall in F. apply unquote_same. now destruct (F x Hx) as [_ [F2 _]].
  - destruct (same_score (pt_score p) (score e)) eqn:E; [reflexivity|]. assert (N : pt_score p <> score e) by (intros K; apply same_spec in K; congruence).
    destruct (Hs N) as [_ [_ [Q _]]]. change (unquote (["<"] ++ (show (pt_score p) ++ [">"])) = Some (["<"] ++ show (pt_score p) ++ [">"])).
    apply unquote_two; [reflexivity|]. apply unquote_two; [now apply unquote_same|reflexivity].
Qed.
(** After the edges of a partition. *)
Definition closed (r : str) : Prop := starts (other ["("; "<"]) r = false.
Lemma closed_cases r : closed r -> r = [] \/ exists s, r = "(" :: s \/ r = "<" :: s.
Proof.
  destruct r as [|c r]; [now left|]. unfold closed. cbn [starts]. unfold other. intros H. apply negb_false_iff in H. cbn in H. right. exists r.
  destruct (Ascii.eqb_spec c "("); [subst; now left|]. destruct (Ascii.eqb_spec c "<"); [subst; now right|discriminate].
Qed.
Ltac cases_closed H := destruct (closed_cases _ H) as [->|[? [->| ->]]].
Lemma int_none s : starts is_digit s = false -> (forall r, s = "-" :: r \/ s = "+" :: r -> starts is_digit r = false) -> int_ s = None.
Proof.
  intros H K. unfold int_. assert (X : forall r, starts is_digit r = false -> span is_digit r = ([], r)) by (intros r Hr; change r with ([] ++ r) at 1; now apply span_app).
  destruct s as [|c s]; [reflexivity|]. destruct (Ascii.eqb_spec c "-") as [->|]; [rewrite X by (apply K; now left); reflexivity|].
  destruct (Ascii.eqb_spec c "+") as [->|]; [rewrite X by (apply K; now right); reflexivity|]. rewrite X by assumption. reflexivity.
Qed.
Lemma free_edge l r : Forall (fun x => l_number x = None) l -> closed r -> edge_ (tail_text "-" raw_link l r) = Some ((0%Z, []), tail_text "-" raw_link l r).
Proof.
  intros F C. assert (S : forall f m, Forall (fun x => l_number x = None) m -> f "-" = false -> starts f r = false -> starts f (tail_text "-" raw_link m r) = false).
  { intros f m _ H1 H2. now apply starts_tail. }
  assert (D : starts is_digit r = false) by (cases_closed C; reflexivity).
  unfold edge_, edge_number, role. rewrite int_none.
  - rewrite char_fails; [reflexivity|]. apply S; [assumption|reflexivity|]. cases_closed C; reflexivity.
  - now apply S.
  - intros q H. destruct l as [|x l].
    + cbn in H. subst. cases_closed C; destruct H; discriminate.
    + inversion F as [|? ? Fx Fl]; subst. unfold tail_text in H. cbn [map List.concat app] in H. unfold raw_link at 1 3 in H. rewrite Fx in H. cbn [app] in H.
      destruct H as [H|H]; [|discriminate]. injection H as <-. exact (S is_digit l Fl eq_refl D).
Qed.
Lemma number_edge x l r n : l_number x = Some n -> link_ok x -> closed r -> edge_ (raw_link x ++ tail_text "-" raw_link l r) = Some (meant_link x, tail_text "-" raw_link l r).
Proof.
  intros E Hx C. unfold link_ok in Hx. unfold raw_link at 1, meant_link. rewrite E in *. destruct Hx as [Hf Hr].
  assert (D : starts is_digit (tail_text "-" raw_link l r) = false) by (apply starts_tail; [reflexivity|]; cases_closed C; reflexivity).
  assert (T : starts (Ascii.eqb "$") (tail_text "-" raw_link l r) = false) by (apply starts_tail; [reflexivity|]; cases_closed C; reflexivity).
  unfold edge_, edge_number, role. rewrite <- app_assoc. destruct (l_role x) as [ro|].
  - destruct (Hr ro eq_refl) as [R1 R2]. rewrite int_decimal; [|assumption|reflexivity]. cbn [app]. rewrite char_cons. rewrite <- app_assoc. cbn [app].
    rewrite span_app; [|apply without_other; eapply without_incl; [|exact R2]; sub_chars|reflexivity]. destruct ro; [congruence|]. rewrite char_cons. reflexivity.
  - cbn [app]. rewrite int_decimal by assumption. now rewrite char_fails.
Qed.
Lemma reads_links l r : Forall link_ok l -> links_ok l -> closed r -> reads "-" raw_link edge_ meant_link l r.
Proof.
  intros F K C. induction K as [l K|x l Hx K IH].
  - clear F. induction K as [|x l Hx K IH]; [exact I|]. split; [|exact IH]. unfold raw_link at 1, meant_link. rewrite Hx. cbn [app]. now apply free_edge.
  - inversion F as [|? ? Fx Fl]; subst. split; [|now apply IH]. destruct (l_number x) as [n|] eqn:E; [|congruence]. now apply (number_edge x l r n).
Qed.
Lemma reads_links_nil l : Forall link_ok l -> links_ok l -> reads "-" raw_link edge_ meant_link l [].
Proof. intros. now apply reads_links. Qed.
Definition raw_tags (e : edge Sc) (p : part Sc) : str := if names_eqb (pt_tags p) (tag_names e) then [] else "(" :: join [","] (pt_tags p) ++ [")"].
Definition raw_score (e : edge Sc) (p : part Sc) : str := if same_score (pt_score p) (score e) then [] else "<" :: show (pt_score p) ++ [">"].
Lemma closed_score e p : closed (raw_score e p).
Proof. unfold raw_score. destruct (same_score _ _); reflexivity. Qed.
Lemma closed_end e p : closed (raw_tags e p ++ raw_score e p).
Proof. unfold raw_tags. destruct (names_eqb _ _); [apply closed_score|reflexivity]. Qed.
Lemma names_join (l : list str) : l <> [] -> Forall name l -> join [","] l <> [] /\ without [")"; "]"] (join [","] l).
Proof.
  intros N F. split.
  - destruct l as [|x l]; [congruence|]. inversion F as [|? ? Fx _]; subst. intros K. apply app_eq_nil in K as [K _]. now apply Fx.
  - rewrite <- (map_id l). apply without_join; [chars|]. intros x Hx. rewrite Forall_forall in F. destruct (F x Hx) as [_ [_ K]]. eapply without_incl; [|exact K]. sub_chars.
Qed.
Lemma part_tags_spec e p : part_ok e p -> part_tags (raw_tags e p ++ raw_score e p) = Some (if names_eqb (pt_tags p) (tag_names e) then [] else pt_tags p, raw_score e p).
Proof.
  intros [_ [_ [_ [Ht _]]]]. unfold raw_tags. destruct (names_eqb (pt_tags p) (tag_names e)) eqn:E.
  - cbn [app]. unfold part_tags. rewrite char_fails; [reflexivity|]. unfold raw_score. now destruct (same_score _ _).
  - assert (N : pt_tags p <> tag_names e) by (intros K; apply names_eqb_spec in K; congruence). destruct (Ht N) as [N1 F]. cbn [app]. unfold part_tags. rewrite char_cons.
    rewrite <- app_assoc. cbn [app]. destruct (pt_tags p) as [|x l]; [congruence|]. rewrite <- (map_id (x :: l)) at 1.
    rewrite (list_reads "," (fun y => y) (plus [")"; " "; ","]) (fun y => y) x l); [rewrite char_cons; now rewrite map_id|reflexivity|].
    apply reads_plus; [cbn; tauto|reflexivity|]. intros y Hy. rewrite Forall_forall in F. destruct (F y Hy) as [F1 [_ F3]]. split; [assumption|]. apply without_other. eapply without_incl; [|exact F3]. sub_chars.
Qed.
Lemma part_score_spec e p : part_ok e p -> part_score scan (raw_score e p) = Some (if same_score (pt_score p) (score e) then None else Some (pt_score p), []).
Proof.
  intros [_ [_ [_ [_ Hs]]]]. unfold raw_score, part_score. destruct (same_score (pt_score p) (score e)) eqn:E; [reflexivity|].
  assert (N : pt_score p <> score e) by (intros K; apply same_spec in K; congruence). destruct (Hs N) as [S1 _]. rewrite char_cons, S1, char_cons. reflexivity.
Qed.
Lemma join_links_nil l : join ["-"] (map link_text l) <> [] -> l <> [].
Proof. intros H K. subst. now apply H. Qed.
Lemma part_spec e p : part_ok e p -> read_one_part scan (tag_names e) (score e) (raw_part e p) = meant_part p.
Proof.
  intros H. pose proof H as [H1 [H2 [H3 _]]]. apply join_links_nil in H3. unfold read_one_part, part_. change (raw_part e p) with (join ["-"] (map raw_link (pt_links p)) ++ (raw_tags e p ++ raw_score e p)).
  destruct (pt_links p) as [|x l] eqn:El; [congruence|]. rewrite (list_reads "-" raw_link edge_ meant_link x l).
  - rewrite (part_tags_spec _ _ H), (part_score_spec _ _ H). unfold meant_part. rewrite El. f_equal.
    + destruct (names_eqb (pt_tags p) (tag_names e)) eqn:E; [now apply names_eqb_spec in E|]. destruct H as [_ [_ [_ [Ht _]]]].
      assert (N : pt_tags p <> tag_names e) by (intros K; apply names_eqb_spec in K; congruence). destruct (Ht N) as [N1 _]. now destruct (pt_tags p).
    + destruct (same_score (pt_score p) (score e)) eqn:E; [|reflexivity]. symmetry. now apply same_spec.
  - pose proof (closed_end e p) as C. cases_closed C; reflexivity.
  - apply reads_links; [assumption|assumption|apply closed_end].
Qed.

(** ** The partitions *)
Lemma unquote_nil s : unquote s = Some [] -> s = [].
Proof.
  unfold unquote. destruct s as [|c s]; [reflexivity|]. cbn [unescape]. destruct (Ascii.eqb c ch_under); [destruct (unescape _ s); discriminate|].
  destruct (Ascii.eqb c ch_bs); [|destruct (unescape _ s); discriminate]. destruct s as [|d s]; [discriminate|]. destruct (unescape_quoted _ d); [|discriminate]. destruct (unescape _ s); discriminate.
Qed.
Lemma raw_links_ok l : Forall link_ok l -> without ["("; "<"; "]"; ","] (join ["-"] (map raw_link l)).
Proof.
  intros F. apply without_join; [chars|]. intros x Hx. rewrite Forall_forall in F. specialize (F x Hx). unfold link_ok in F. unfold raw_link. destruct (l_number x) as [n|]; [|intros ? []].
  destruct F as [_ F]. apply without_two; [apply decimal_plain; reflexivity|]. destruct (l_role x) as [r|]; [|intros ? []]. destruct (F r eq_refl) as [_ F2].
  apply (without_two _ ["$"]); [chars|]. apply without_two; [eapply without_incl; [|exact F2]; sub_chars|chars].
Qed.
Definition ended (r : str) : Prop := starts (other ["]"; ","]) r = false.
Lemma ended_cases r : ended r -> r = [] \/ exists s, r = "]" :: s \/ r = "," :: s.
Proof.
  destruct r as [|c r]; [now left|]. unfold ended. cbn [starts]. unfold other. intros H. apply negb_false_iff in H. cbn in H. right. exists r.
  destruct (Ascii.eqb_spec c "]"); [subst; now left|]. destruct (Ascii.eqb_spec c ","); [subst; now right|discriminate].
Qed.
Lemma enclosed_ok a b x r : x <> [] -> without [b] x -> enclosed a b ((a :: x ++ [b]) ++ r) = (a :: x ++ [b], r).
Proof.
  intros N W. unfold enclosed. cbn [app]. rewrite char_cons. rewrite <- app_assoc. cbn [app]. rewrite plus_app; [now rewrite char_cons|assumption|now apply without_other|].
  cbn [starts app]. unfold other. cbn [existsb]. rewrite Ascii.eqb_refl. reflexivity.
Qed.
Lemma enclosed_no a b r : starts (Ascii.eqb a) r = false -> enclosed a b r = ([], r).
Proof. intros H. unfold enclosed. now rewrite char_fails. Qed.
Lemma partition_spec e p r : part_ok e p -> ended r -> partition_ (raw_part e p ++ r) = Some (raw_part e p, r).
Proof.
  intros H C. pose proof H as [H1 [H2 [H3 [Ht Hs]]]]. unfold partition_. change (raw_part e p) with (join ["-"] (map raw_link (pt_links p)) ++ (raw_tags e p ++ raw_score e p)).
  assert (E : starts (other ["("; "<"; "]"; ","]) (raw_score e p ++ r) = false).
  { unfold raw_score. destruct (same_score _ _); [|reflexivity]. destruct (ended_cases _ C) as [->|[? [->| ->]]]; reflexivity. }
  rewrite <- !app_assoc. rewrite plus_app.
  - assert (Et : enclosed "(" ")" (raw_tags e p ++ raw_score e p ++ r) = (raw_tags e p, raw_score e p ++ r)).
    { unfold raw_tags. destruct (names_eqb (pt_tags p) (tag_names e)) eqn:En.
      - apply enclosed_no. unfold raw_score. destruct (same_score _ _); [|reflexivity]. destruct (ended_cases _ C) as [->|[? [->| ->]]]; reflexivity.
      - assert (N : pt_tags p <> tag_names e) by (intros K; apply names_eqb_spec in K; congruence). destruct (Ht N) as [N1 N2]. destruct (names_join _ N1 N2) as [J1 J2].
        apply enclosed_ok; [assumption|]. eapply without_incl; [|exact J2]. sub_chars. }
    rewrite Et. assert (Es : enclosed "<" ">" (raw_score e p ++ r) = (raw_score e p, r)).
    { unfold raw_score. destruct (same_score (pt_score p) (score e)) eqn:En.
      - apply enclosed_no. destruct (ended_cases _ C) as [->|[? [->| ->]]]; reflexivity.
      - assert (N : pt_score p <> score e) by (intros K; apply same_spec in K; congruence). destruct (Hs N) as [_ [L2 [_ L4]]].
        apply enclosed_ok; [assumption|]. eapply without_incl; [|exact L4]. sub_chars. }
    rewrite Es. reflexivity.
  - intros K. apply H3. apply unquote_nil. refine (eq_trans (unquote_join ["-"] _ raw_link _ eq_refl _) (f_equal Some K)). intros; apply unquote_link.
  - apply without_other. now apply raw_links_ok.
  - unfold raw_tags. destruct (names_eqb _ _); [exact E|reflexivity].
Qed.
Lemma reads_parts e ps r : Forall (part_ok e) ps -> ended r -> reads "," (raw_part e) partition_ (raw_part e) ps r.
Proof.
  intros F C. induction F as [|p ps Hp F IH]; [exact I|]. split; [|exact IH]. apply partition_spec; [assumption|].
  destruct ps; [exact C|reflexivity].
Qed.
Lemma content_spec e : parts e <> [] -> Forall (part_ok e) (parts e) ->
  read_content scan (tag_names e) (score e) ("[" :: join [","] (map (raw_part e) (parts e)) ++ ["]"]) = of_parts (map meant_part (parts e)).
Proof.
  intros N F. unfold read_content, partitions_. rewrite char_cons. destruct (parts e) as [|p ps] eqn:E; [congruence|].
  rewrite (list_reads "," (raw_part e) partition_ (raw_part e) p ps); [|reflexivity|apply reads_parts; [assumption|reflexivity]].
  rewrite char_cons. f_equal. rewrite map_map. apply map_ext_in. intros q Hq. apply part_spec. rewrite Forall_forall in F. now apply F.
Qed.

(** ** The values *)
Definition value_text (av : str * str) : str := fst av ++ "=" :: snd av.
Lemma values_join l : values_text l = match l with [] => [] | _ => "," :: join [","] (map value_text l) end.
Proof.
  destruct l as [|x l]; [reflexivity|]. unfold values_text, value_text. cbn [map join]. rewrite map_map. reflexivity.

Qed.
Definition value_ok (av : str * str) : Prop := fst av <> [] /\ snd av <> [] /\ without [","; "="; "["] (fst av) /\ without [","; "="; "["] (snd av).
Lemma read_values_spec l : l <> [] -> Forall value_ok l -> read_values (join [","] (map value_text l)) = l.
Proof.
  intros N F. unfold read_values. destruct l as [|x l]; [congruence|]. rewrite <- (app_nil_r (join _ _)).
  assert (K : forall av, value_ok av -> value_text av <> [] /\ forallb (other [","]) (value_text av) = true).
  { intros [a v] [K1 [K2 [K3 K4]]]. cbn [fst snd] in *. unfold value_text. cbn [fst snd]. split; [intros Q; apply app_eq_nil in Q as [_ Q]; discriminate|]. apply without_other.
    apply without_two; [eapply without_incl; [|exact K3]; sub_chars|]. apply (without_two _ ["="]); [chars|]. eapply without_incl; [|exact K4]; sub_chars. }
  rewrite (list_reads "," value_text (plus [","]) value_text x l); [|reflexivity|].
  - clear N. induction F as [|[a v] m Hav F IH]; [reflexivity|]. cbn [map flat_map]. rewrite IH. destruct Hav as [K1 [K2 [K3 K4]]]. cbn [fst snd] in *. unfold value_text, pair_. cbn [fst snd].
    rewrite plus_app; [|assumption|apply without_other; eapply without_incl; [|exact K3]; sub_chars|reflexivity]. rewrite char_cons.
    rewrite <- (app_nil_r v) at 1. rewrite plus_app; [reflexivity|assumption|apply without_other; eapply without_incl; [|exact K4]; sub_chars|reflexivity].
  - clear N. induction F as [|y m Hy F IH]; [exact I|]. split; [|exact IH]. destruct (K y Hy) as [A B]. apply plus_app; [assumption|assumption|]. apply starts_tail; reflexivity.
Qed.

(** ** The annotation *)
Definition values_part (e : edge Sc) : str := match values e with [] => [] | l => quote (join [","] (map value_text l)) end.
Definition parts_part (e : edge Sc) : str := if is_default e then [] else "[" :: join [","] (map (part_text same_score show e) (parts e)) ++ ["]"].
Lemma part_text_ok e p : part_ok e p -> without ["]"] (part_text same_score show e p).
Proof.
  intros [H1 [_ [_ [Ht Hs]]]]. unfold part_text. apply without_two; [|apply without_two].
  - apply without_join; [chars|]. intros x Hx. rewrite Forall_forall in H1. specialize (H1 x Hx). unfold link_ok in H1. unfold link_text. destruct (l_number x); [|intros ? []].
    apply without_two; [apply decimal_plain; reflexivity|]. destruct H1 as [_ H1]. destruct (l_role x) as [r|]; [|intros ? []]. destruct (H1 r eq_refl) as [_ H2].
    apply (without_two _ ["$"]); [chars|]. apply without_two; [|chars]. apply without_quote; [chars|]. eapply without_incl; [|exact H2]. sub_chars.
  - destruct (names_eqb (pt_tags p) (tag_names e)) eqn:E; [intros ? []|]. assert (N : pt_tags p <> tag_names e) by (intros K; apply names_eqb_spec in K; congruence).
    destruct (Ht N) as [N1 N2]. destruct (names_join _ N1 N2) as [_ J2]. apply (without_two _ ["("]); [chars|]. apply without_two; [eapply without_incl; [|exact J2]; sub_chars|chars].
  - destruct (same_score (pt_score p) (score e)) eqn:E; [intros ? []|]. assert (N : pt_score p <> score e) by (intros K; apply same_spec in K; congruence).
    destruct (Hs N) as [_ [_ [_ L4]]]. apply (without_two _ ["<"]); [chars|]. apply without_two; [eapply without_incl; [|exact L4]; sub_chars|chars].
Qed.
Lemma empty_part_text e : part_text same_score show e (Part [] (tag_names e) (score e)) = [].
Proof.
  unfold part_text. cbn [pt_links pt_tags pt_score map join app]. rewrite (proj2 (names_eqb_spec _ _) eq_refl), (proj2 (same_spec _ _) eq_refl). reflexivity.
Qed.
Lemma parts_part_spec e : writable e -> parts_ (parts_part e) = Some (parts_part e, []) /\
  exists r, unquote (parts_part e) = Some r /\ read_content scan (tag_names e) (score e) r = if is_default e then from_symbols else of_parts (map meant_part (parts e)).
Proof.
  intros W. unfold parts_part. destruct (is_default e) eqn:Ed; [split; [reflexivity|]; exists []; split; reflexivity|].
  assert (Q : without ["]"] (join [","] (map (part_text same_score show e) (parts e)))).
  { destruct (w_parts _ W) as [K|[K|[_ K]]]; [congruence| |].
    - rewrite K. cbn [map join List.concat]. rewrite empty_part_text. intros ? [].
    - apply without_join; [chars|]. intros p Hp. rewrite Forall_forall in K. apply part_text_ok. now apply K. }
  split.
  - unfold parts_. rewrite char_cons. rewrite span_app; [|now apply without_other|reflexivity]. now rewrite char_cons.
  - destruct (w_parts _ W) as [K|[K|[N K]]]; [congruence| |].
    + rewrite K. cbn [map join List.concat]. rewrite empty_part_text. exists (lit "[]"). split; reflexivity.
    + exists ("[" :: join [","] (map (raw_part e) (parts e)) ++ ["]"]). split; [|now apply content_spec].
      apply (unquote_two ["["] ["["]); [reflexivity|]. apply unquote_two; [|reflexivity]. apply unquote_join; [reflexivity|]. intros p Hp. apply unquote_part. rewrite Forall_forall in K. now apply K.
Qed.
Lemma annotation_spec e : writable e ->
  annotation_ zero scan (annotation_cell same_score zero show e) = Some (Annotation (quote (category e)) (score e) (values_part e) (parts_part e), []).
Proof.
  intros W. unfold annotation_, annotation_cell. change (if is_default e then [] else _) with (parts_part e). destruct (w_category _ W) as [C1 [C2 C3]].
  assert (P0 : parts_part e = [] \/ exists r, parts_part e = "[" :: r) by (unfold parts_part; destruct (is_default e); [now left|right; eauto]).
  assert (V0 : quote (values_text (values e)) = match values e with [] => [] | _ => "," :: values_part e end).
  { rewrite values_join. unfold values_part. destruct (values e); reflexivity. }
  rewrite plus_app; [| |apply without_other|].
  - assert (Es : score_ zero scan ((if same_score (score e) zero then [] else "<" :: show (score e) ++ [">"]) ++ quote (values_text (values e)) ++ parts_part e)
      = Some (score e, quote (values_text (values e)) ++ parts_part e)).
    { unfold score_. destruct (same_score (score e) zero) eqn:E.
      - apply same_spec in E. rewrite E. cbn [app]. rewrite char_fails; [reflexivity|]. rewrite V0. destruct (values e); [|reflexivity]. destruct P0 as [->|[r ->]]; reflexivity.
      - assert (N : score e <> zero) by (intros K; apply same_spec in K; congruence). destruct (w_score _ W N) as [S1 _]. cbn [app]. rewrite char_cons. rewrite <- app_assoc. cbn [app]. rewrite S1, char_cons. reflexivity. }
    rewrite Es. assert (Ev : values_ (quote (values_text (values e)) ++ parts_part e) = Some (values_part e, parts_part e)).
    { rewrite V0. unfold values_, values_part. pose proof (w_values _ W) as F. destruct (values e) as [|x l].
      - cbn [app]. rewrite char_fails; [reflexivity|]. destruct P0 as [->|[r ->]]; reflexivity.
      - cbn [app]. rewrite char_cons. rewrite plus_app; [reflexivity| | |].
        + intros K. apply quote_nil in K. inversion F as [|? ? Hx _]; subst. destruct Hx as [Hx _]. cbn in K. apply app_eq_nil in K as [K _]. apply app_eq_nil in K as [K _]. now apply Hx.
        + apply without_other. apply without_quote; [chars|]. apply without_join; [chars|]. intros [a v] Ha. rewrite Forall_forall in F. destruct (F _ Ha) as [_ [_ [F3 F4]]]. unfold value_text. cbn [fst snd] in *.
          apply without_two; [eapply without_incl; [|exact F3]; sub_chars|]. apply (without_two _ ["="]); [chars|]. eapply without_incl; [|exact F4]; sub_chars.
        + destruct P0 as [->|[r ->]]; reflexivity. }
    rewrite Ev. destruct (parts_part_spec e W) as [Ep _]. rewrite Ep. reflexivity.
  - intros K. now apply quote_nil in K.
  - assert (X : without [","; "["; "<"] (quote (category e))) by (apply without_quote; [chars|assumption]). pose proof (proj2 (without_other [" "] _) (quote_no_space (category e))) as Y.
    intros c Hc [<-|K]; [now apply (Y " " Hc); left|]. exact (X c Hc K).
  - destruct (same_score (score e) zero); [|reflexivity]. cbn [app]. rewrite V0. destruct (values e); [|reflexivity]. destruct P0 as [->|[r ->]]; reflexivity.
Qed.

(** ** The words *)
Definition word (w : str) : Prop := w <> [] /\ without [" "] w /\ starts is_space w = false.
Definition tail_words (l : list (nat * str)) : str := flat_map (fun p => gap (fst p) ++ snd p) l.
Lemma starts_word f w r : w <> [] -> starts f (w ++ r) = starts f w.
Proof. destruct w; [congruence|reflexivity]. Qed.
Lemma tail_words_start l : starts (other [" "]) (tail_words l) = false.
Proof. destruct l; reflexivity. Qed.
Lemma more_words_tail l : forall n, Forall (fun p => word (snd p)) l -> List.length l <= n -> more_words n (tail_words l) = List.length l.
Proof.
  induction l as [|[k w] l IH]; intros n F Hn.
  - destruct n; reflexivity.
  - destruct n as [|n]; [cbn in Hn; lia|]. inversion F as [|? ? Hw F']; subst. destruct Hw as [W1 [W2 W3]]. cbn [fst snd] in *. cbn [more_words List.length].
    unfold tail_words. cbn [flat_map fst snd]. fold (tail_words l). rewrite <- app_assoc. rewrite whitespaces_gap by now rewrite starts_word.
    rewrite plus_app; [|assumption|now apply without_other|apply tail_words_start]. rewrite IH; [reflexivity|assumption|cbn in Hn; lia].
Qed.
Lemma tail_words_length l : List.length l <= List.length (tail_words l).
Proof. induction l as [|[k w] l IH]; [cbn; lia|]. unfold tail_words. cbn [flat_map fst snd List.length]. fold (tail_words l). rewrite !app_length. unfold gap. rewrite repeat_length. lia. Qed.
Lemma words_spec w l : word w -> Forall (fun p => word (snd p)) l -> words (w ++ tail_words l) = Some (S (List.length l)).
Proof.
  intros [W1 [W2 W3]] F. unfold words. rewrite plus_app; [|assumption|now apply without_other|apply tail_words_start]. rewrite more_words_tail; [reflexivity|assumption|apply tail_words_length].
Qed.
Lemma digits_word s : forallb is_digit s = true -> s <> [] -> word s.
Proof.
  intros D N. split; [assumption|]. split; [apply without_digits; [assumption|reflexivity]|]. destruct s as [|c s]; [congruence|]. cbn in D. apply andb_true_iff in D as [D _]. cbn.
  unfold is_digit in D. unfold is_space. apply andb_true_iff in D as [D1 D2]. apply Nat.leb_le in D1, D2. apply orb_false_iff. split; [apply andb_false_iff; right; apply Nat.leb_gt; lia|apply Nat.eqb_neq; lia].
Qed.
Lemma wide_word w n : word (decimal_wide w n).
Proof. destruct (wide_spec w n) as [A [_ C]]. now apply digits_word. Qed.
Lemma decimal_word n : word (decimal n).
Proof. destruct (decimal_spec n) as [A [_ C]]. now apply digits_word. Qed.
Lemma cons_word c w : is_space c = false -> word w -> word (c :: w).
Proof. intros H [_ [W _]]. split; [discriminate|]. split; [|exact H]. intros d [<-|Hd]; [|now apply W]. intros [<-|[]]. discriminate H. Qed.
Lemma beginning_word (e : edge Sc) : word (beginning_cell e).
Proof. unfold beginning_cell. destruct (source e); [apply wide_word|]. apply cons_word; [reflexivity|apply decimal_word]. Qed.
Lemma length_word (e : edge Sc) : word (length_cell e).
Proof.
  unfold length_cell. destruct (target e); [destruct (source e)|]; [apply wide_word|apply cons_word; [reflexivity|apply wide_word]|].
  apply cons_word; [reflexivity|]. apply cons_word; [reflexivity|apply decimal_word].
Qed.
Lemma quote_join_same l : Forall (fun s => quote s = s) l -> quote (join [","] l) = join [","] l.
Proof.
  intros F. destruct l as [|x l]; [reflexivity|]. inversion F as [|? ? Hx Hl]; subst. cbn [join]. rewrite quote_app, Hx. f_equal. clear F Hx.
  induction Hl as [|y l Hy Hl IH]; [reflexivity|]. cbn [map List.concat]. rewrite !quote_app, Hy, IH. reflexivity.
Qed.
Lemma tags_same e : writable e -> tags_cell e = join [","] (tag_names e).
Proof. intros W. destruct (w_tags _ W) as [_ [F _]]. apply quote_join_same. eapply Forall_impl; [|exact F]. now intros a [_ [H _]]. Qed.
Lemma tags_word e : writable e -> word (tags_cell e).
Proof.
  intros W. pose proof (w_tags _ W) as [N [F G]]. split; [|split].
  - rewrite tags_same by assumption. destruct (tag_names e) as [|x l]; [congruence|]. inversion F as [|? ? [Hx _] _]; subst. intros K. apply app_eq_nil in K as [K _]. now apply Hx.
  - apply without_other, quote_no_space.
  - rewrite tags_same by assumption. destruct (tag_names e) as [|x l]; [congruence|]. inversion F as [|? ? [Hx [Hq _]] _]; subst. inversion G as [|? ? Gx _]; subst.
    cbn [join]. rewrite starts_word by assumption. rewrite <- Hq. now apply solid_quote.
Qed.
Lemma item_word e : writable e -> item_text e <> [] -> word (quote (item_text e)).
Proof.
  intros W N. split; [intros K; now apply quote_nil in K|]. split; [apply without_other, quote_no_space|]. apply solid_quote. apply (w_item_text _ W).
Qed.
Lemma quoted_plain s : quote s = s -> without [" "] s.
Proof. intros H. rewrite <- H. apply without_other, quote_no_space. Qed.
Lemma part_no_space e p : part_ok e p -> without [" "] (part_text same_score show e p).
Proof.
  intros [H1 [_ [_ [Ht Hs]]]]. unfold part_text. apply without_two; [|apply without_two].
  - apply without_join; [chars|]. intros x _. unfold link_text. destruct (l_number x); [|intros ? []]. apply without_two; [apply decimal_plain; reflexivity|].
    destruct (l_role x); [|intros ? []]. apply (without_two _ ["$"]); [chars|]. apply without_two; [apply without_other, quote_no_space|chars].
  - destruct (names_eqb (pt_tags p) (tag_names e)) eqn:E; [intros ? []|]. assert (N : pt_tags p <> tag_names e) by (intros K; apply names_eqb_spec in K; congruence).
    destruct (Ht N) as [_ F]. apply (without_two _ ["("]); [chars|]. apply without_two; [|chars]. apply quoted_plain, quote_join_same. eapply Forall_impl; [|exact F]. now intros a [_ [H _]].
  - destruct (same_score (pt_score p) (score e)) eqn:E; [intros ? []|]. assert (N : pt_score p <> score e) by (intros K; apply same_spec in K; congruence).
    destruct (Hs N) as [_ [_ [L _]]]. apply (without_two _ ["<"]); [chars|]. apply without_two; [now apply quoted_plain|chars].
Qed.
Lemma annotation_word e : writable e -> word (annotation_cell same_score zero show e).
Proof.
  intros W. destruct (w_category _ W) as [C1 [C2 C3]]. assert (N : quote (category e) <> []) by (intros K; now apply quote_nil in K). unfold annotation_cell. split; [|split].
  - intros K. apply app_eq_nil in K as [K _]. now apply N.
  - apply without_two; [apply without_other, quote_no_space|]. apply without_two; [|apply without_two].
    + destruct (same_score (score e) zero) eqn:E; [intros ? []|]. assert (N' : score e <> zero) by (intros K; apply same_spec in K; congruence).
      destruct (w_score _ W N') as [_ [_ [L _]]]. apply (without_two _ ["<"]); [chars|]. apply without_two; [now apply quoted_plain|chars].
    + apply without_other, quote_no_space.
    + destruct (is_default e) eqn:Ed; [intros ? []|]. apply (without_two _ ["["]); [chars|]. apply without_two; [|chars].
      destruct (w_parts _ W) as [K|[K|[_ K]]]; [congruence| |].
      * rewrite K. cbn [map join List.concat]. rewrite empty_part_text. intros ? [].
      * apply without_join; [chars|]. intros p Hp. rewrite Forall_forall in K. apply part_no_space. now apply K.
  - rewrite starts_word by assumption. now apply solid_quote.
Qed.

(** ** The line *)
Lemma digit_char c s r : is_digit c = false -> forallb is_digit s = true -> s <> [] -> starts (Ascii.eqb c) (s ++ r) = false.
Proof. intros H D N. destruct s as [|a s]; [congruence|]. cbn in *. apply andb_true_iff in D as [D _]. destruct (Ascii.eqb_spec c a); [subst; congruence|reflexivity]. Qed.
Lemma wide_char c w n r : is_digit c = false -> starts (Ascii.eqb c) (decimal_wide w n ++ r) = false.
Proof. intros H. destruct (wide_spec w n) as [A [_ C]]. now apply digit_char. Qed.
Lemma beginning_spec (e : edge Sc) r : place_fits (source e) -> starts is_digit r = false -> exists s',
  flag "@" (beginning_cell e ++ r) = Some (match source e with Free _ => true | At _ => false end, s') /\
  int_ s' = Some (match source e with Free k => Z.of_N k | At p => Z.of_N p end, r).
Proof.
  intros F K. unfold beginning_cell. destruct (source e) as [p|k]; cbn in F.
  - exists (decimal_wide 4 p ++ r). split; [apply flag_fails, wide_char; reflexivity|now apply int_wide].
  - exists (decimal k ++ r). split; [apply flag_cons|now apply int_decimal].
Qed.
Lemma length_spec (e : edge Sc) r : place_fits (source e) -> place_fits (target e) -> fits (edge_length e) -> starts is_digit r = false -> exists s' s'',
  flag "*" (length_cell e ++ r) = Some (match source e, target e with At _, At _ => false | _, _ => true end, s') /\
  flag "@" s' = Some (match target e with Free _ => true | At _ => false end, s'') /\
  int_ s'' = Some (match target e, source e with Free k, _ => Z.of_N k | At q, Free _ => Z.of_N q | At _, At _ => Z.of_N (edge_length e) end, r).
Proof.
  intros F1 F2 F3 K. unfold length_cell. destruct (target e) as [q|k]; [destruct (source e) as [p|k]|].
  - exists (decimal_wide 2 (edge_length e) ++ r), (decimal_wide 2 (edge_length e) ++ r). split; [apply flag_fails, wide_char; reflexivity|]. split; [apply flag_fails, wide_char; reflexivity|now apply int_wide].
  - exists (decimal_wide 4 q ++ r), (decimal_wide 4 q ++ r). split; [apply flag_cons|]. split; [apply flag_fails, wide_char; reflexivity|now apply int_wide].
  - exists ("@" :: decimal k ++ r), (decimal k ++ r). split; [destruct (source e); apply flag_cons|]. split; [apply flag_cons|now apply int_decimal].
Qed.
Lemma gap_other l n r : In " " l -> starts (other l) (gap n ++ r) = false.
Proof. intros H. cbn. unfold other. apply negb_false_iff, existsb_exists. exists " ". split; [assumption|reflexivity]. Qed.
Lemma tags_spec e n r : writable e -> list_of "," (plus [" "; ","]) (tags_cell e ++ gap n ++ r) = Some (tag_names e, gap n ++ r).
Proof.
  intros W. rewrite tags_same by assumption. pose proof (w_tags _ W) as [N [F _]]. destruct (tag_names e) as [|x l]; [congruence|].
  rewrite <- (map_id (x :: l)) at 1. rewrite (list_reads "," (fun y => y) (plus [" "; ","]) (fun y => y) x l); [now rewrite map_id|reflexivity|].
  apply reads_plus; [right; now left|apply gap_other; now left|]. intros y Hy. rewrite Forall_forall in F. destruct (F y Hy) as [F1 [_ F3]]. split; [assumption|].
  apply without_other. eapply without_incl; [|exact F3]. sub_chars.
Qed.
(** The item text that the grammar gives; the reader drops it if there are not seven words. *)
Definition read_item_text (e : edge Sc) : str := match item_text e with [] => annotation_cell same_score zero show e | t => quote t end.
Lemma gap_gap j k r : gap j ++ gap k ++ r = gap (j + S k) ++ r.
Proof. unfold gap. rewrite app_assoc, <- repeat_app. reflexivity. Qed.
Lemma item_text_spec e j k : writable e -> exists r,
  whitespaces (gap j ++ quote (item_text e) ++ gap k ++ annotation_cell same_score zero show e) = Some (tt, r) /\
  item_text_ r = Some (read_item_text e, annotation_cell same_score zero show e).
Proof.
  intros W. pose proof (annotation_word e W) as [A1 [A2 A3]]. unfold read_item_text. destruct (item_text e) as [|c t] eqn:E.
  - change (quote []) with (@nil ascii). cbn [app]. rewrite gap_gap. exists (annotation_cell same_score zero show e). split; [now apply whitespaces_gap|].
    unfold item_text_. rewrite <- (app_nil_r (annotation_cell same_score zero show e)) at 1. rewrite plus_app; [reflexivity|assumption|now apply without_other|reflexivity].
  - rewrite <- E. pose proof (item_word e W) as [I1 [I2 I3]]; [rewrite E; discriminate|]. eexists. split; [apply whitespaces_gap; now rewrite starts_word|].
    unfold item_text_. rewrite plus_app; [|assumption|now apply without_other|reflexivity]. rewrite whitespaces_gap by assumption. reflexivity.
Qed.
Lemma word_other w r : word w -> starts is_space (w ++ r) = false.
Proof. intros [W1 [_ W3]]. now rewrite starts_word. Qed.
Lemma not_skipped w r : word w -> starts (Ascii.eqb "#") w = false -> skipped (w ++ r) = false.
Proof.
  intros [W1 [_ W3]] H. unfold skipped. destruct w as [|c w]; [congruence|]. cbn in W3, H. cbn [app span]. rewrite W3. cbn [snd]. rewrite Ascii.eqb_sym. exact H.
Qed.

Lemma line_any e c s : writable e -> text_cell e = Some c -> write same_score zero show e = Some s ->
  read zero scan s = match unquote c with Some t => Got (meant e t) | None => WrongEscape end.
Proof.
  intros W Tc Ws. destruct (text_cell_ok e c (w_text _ W) Tc) as [T1 [T2 T3]]. assert (Tw : word c) by (split; [|split]; assumption).
  unfold write, cells in Ws. rewrite Tc in Ws.
  apply row_shape in Ws as (k1 & s2 & q2 & a2 & -> & Ws). apply row_shape in Ws as (k2 & s3 & q3 & a3 & -> & Ws). apply row_shape in Ws as (k3 & s4 & q4 & a4 & -> & Ws).
  apply row_shape in Ws as (k4 & s5 & q5 & a5 & -> & Ws). apply row_shape in Ws as (k5 & s6 & q6 & a6 & -> & Ws). apply row_shape in Ws as (k6 & s7 & q7 & a7 & -> & Ws). apply row_last in Ws. subst s7.
  pose proof (wide_word 2 (ordinal e)) as W1. pose proof (beginning_word e) as W2. pose proof (length_word e) as W3. pose proof (tags_word e W) as W5. pose proof (annotation_word e W) as W7.
  set (an := annotation_cell same_score zero show e) in *.
  assert (Hw : words (decimal_wide 2 (ordinal e) ++ gap k1 ++ beginning_cell e ++ gap k2 ++ length_cell e ++ gap k3 ++ c ++ gap k4 ++ tags_cell e ++ gap k5 ++ quote (item_text e) ++ gap k6 ++ an)
    = Some (match item_text e with [] => 6 | _ => 7 end)).
  { destruct (item_text e) as [|x it] eqn:E.
    - change (quote []) with (@nil ascii). cbn [app]. rewrite (gap_gap k5 k6).
      refine (eq_trans (f_equal words _) (words_spec (decimal_wide 2 (ordinal e)) [(k1, beginning_cell e); (k2, length_cell e); (k3, c); (k4, tags_cell e); (k5 + S k6, an)] W1 _)).
      + unfold tail_words. cbn [flat_map fst snd]. rewrite <- !app_assoc, app_nil_r. reflexivity.
      + repeat (apply Forall_cons; [cbn [snd]; assumption|]). constructor.
    - rewrite <- E. pose proof (item_word e W ltac:(rewrite E; discriminate)) as W6.
      refine (eq_trans (f_equal words _) (words_spec (decimal_wide 2 (ordinal e)) [(k1, beginning_cell e); (k2, length_cell e); (k3, c); (k4, tags_cell e); (k5, quote (item_text e)); (k6, an)] W1 _)).
      + unfold tail_words. cbn [flat_map fst snd]. rewrite <- !app_assoc, app_nil_r. reflexivity.
      + repeat (apply Forall_cons; [cbn [snd]; assumption|]). constructor. }
  assert (Hl : line_ zero scan (decimal_wide 2 (ordinal e) ++ gap k1 ++ beginning_cell e ++ gap k2 ++ length_cell e ++ gap k3 ++ c ++ gap k4 ++ tags_cell e ++ gap k5 ++ quote (item_text e) ++ gap k6 ++ an)
    = Some (Item (n_ordinal (meant e [])) (n_loose (meant e [])) (n_beginning (meant e [])) (n_point (meant e [])) (n_length_loose (meant e [])) (n_length (meant e [])) c (tag_names e) (read_item_text e)
        (Annotation (quote (category e)) (score e) (values_part e) (parts_part e)), [])).
  { unfold line_. rewrite int_wide; [|apply (w_ordinal _ W)|reflexivity]. rewrite whitespaces_gap by now apply word_other.
    destruct (beginning_spec e (gap k2 ++ length_cell e ++ gap k3 ++ c ++ gap k4 ++ tags_cell e ++ gap k5 ++ quote (item_text e) ++ gap k6 ++ an) (w_source _ W) eq_refl) as (x1 & -> & ->).
    rewrite whitespaces_gap by now apply word_other.
    destruct (length_spec e (gap k3 ++ c ++ gap k4 ++ tags_cell e ++ gap k5 ++ quote (item_text e) ++ gap k6 ++ an) (w_source _ W) (w_target _ W) (w_length _ W) eq_refl) as (x2 & x3 & -> & -> & ->).
    rewrite whitespaces_gap by now apply word_other. rewrite plus_app; [|assumption|now apply without_other|reflexivity]. rewrite whitespaces_gap by now apply word_other.
    rewrite tags_spec by assumption. destruct (item_text_spec e k5 k6 W) as (x4 & Hx & Hy). unfold an. rewrite Hx, Hy. rewrite annotation_spec by assumption. reflexivity. }
  unfold read. rewrite not_skipped; [|assumption|rewrite <- (app_nil_r (decimal_wide _ _)); apply wide_char; reflexivity].
  rewrite Hl, Hw. cbn [i_item_text i_annotation i_text an_category an_values an_parts i_ordinal i_loose i_beginning i_point i_length_loose i_length i_tags an_score].
  destruct (unquote c) as [t|]; [|reflexivity]. match goal with |- context [match unquote ?x with _ => _ end] => replace (unquote x) with (Some (item_text e)) by (unfold read_item_text; destruct (item_text e); [reflexivity|symmetry; apply unquote_quote]) end.
  rewrite unquote_quote. assert (Uv : exists v, unquote (values_part e) = Some v /\ read_values v = values e).
  { unfold values_part. pose proof (w_values _ W) as F. destruct (values e) as [|x l]; [exists []; split; reflexivity|]. eexists. split; [apply unquote_quote|]. now apply read_values_spec. }
  destruct Uv as (v & -> & Hv). destruct (parts_part_spec e W) as [_ (r & -> & Hr)]. rewrite Hv, Hr. reflexivity.
Qed.
Theorem C57_line e c t s : writable e -> text_cell e = Some c -> unquote c = Some t -> write same_score zero show e = Some s -> read zero scan s = Got (meant e t).
Proof. intros W Tc Ut Ws. now rewrite (line_any e c s W Tc Ws), Ut. Qed.

End Line.
(** ** The text *)
(** The text as it is written has [n] characters. *)
Definition written_chars (t : str) (n : nat) : Prop := exists cps, S_Utf8.encodes cps (bytes (quote t)) /\ List.length cps = n.
Theorem C57_text {Sc} (e : edge Sc) c n : text_cell e = Some c -> edge_text e <> [] -> written_chars (edge_text e) n -> whole e = true \/ n <= 13 ->
  unquote c = Some (edge_text e).
Proof.
  unfold text_cell. intros K N (cps & Ec & <-) H. rewrite (L_Utf8.distance_encodes _ _ Ec) in K. apply some_eq in K. subst c.
  destruct (List.length cps =? 0) eqn:En.
  - exfalso. apply N. apply quote_nil. apply Nat.eqb_eq, length_zero_iff_nil in En. subst cps. destruct Ec as [_ Ec]. destruct (quote (edge_text e)); [reflexivity|discriminate].
  - replace ((13 <? List.length cps) && negb (whole e)) with false; [apply unquote_quote|]. symmetry. apply andb_false_iff. destruct H as [->|H]; [now right|]. left. now apply Nat.ltb_ge.
Qed.
(** A text that is too long, cut between whole characters of the text. *)
Lemma first_chars_spec cps : forall r, Forall S_Utf8.scalar cps -> first_chars (List.length cps) (flat_map S_Utf8.enc cps ++ r) = List.length (flat_map S_Utf8.enc cps).
Proof.
  induction cps as [|c cps IH]; intros r F; [reflexivity|]. inversion F; subst. cbn [List.length first_chars flat_map]. rewrite <- app_assoc. rewrite L_Utf8.unchecked_next_enc by assumption.
  rewrite IH by assumption. rewrite !app_length. lia.
Qed.
Lemma last_chars_spec cps : forall r, Forall S_Utf8.scalar cps -> last_chars (List.length cps) (r ++ flat_map S_Utf8.enc cps) = List.length (flat_map S_Utf8.enc cps).
Proof.
  induction cps as [|c cps IH] using rev_ind; intros r F; [reflexivity|]. apply Forall_app in F as [F1 F2]. inversion F2; subst. rewrite app_length, Nat.add_comm. cbn [List.length Nat.add last_chars].
  rewrite flat_map_app. cbn [flat_map]. rewrite app_nil_r, app_assoc. rewrite L_Utf8.unchecked_prior_enc by assumption. rewrite IH by assumption. rewrite !app_length. lia.
Qed.
Lemma bytes_app a b : bytes (a ++ b) = bytes a ++ bytes b.
Proof. apply map_app. Qed.
Theorem C57_shortened {Sc} (e : edge Sc) a m b n : edge_text e = a ++ m ++ b -> written_chars a 6 -> written_chars m n -> written_chars b 3 -> 4 < n -> whole e = false ->
  exists c, text_cell e = Some c /\ unquote c = Some (a ++ lit "..." ++ b).
Proof.
  intros E (ca & [A1 A2] & A3) (cm & [M1 M2] & M3) (cb & [B1 B2] & B3) Hn W. unfold text_cell. rewrite E, !quote_app, !bytes_app.
  assert (D : S_Utf8.encodes (ca ++ cm ++ cb) (bytes (quote a) ++ bytes (quote m) ++ bytes (quote b))).
  { split; [rewrite !Forall_app; auto|]. rewrite A2, M2, B2, !flat_map_app. reflexivity. }
  rewrite (L_Utf8.distance_encodes _ _ D). rewrite W, !app_length. eexists. split; [reflexivity|].
  replace (List.length ca + (List.length cm + List.length cb) =? 0) with false by (symmetry; apply Nat.eqb_neq; lia).
  replace (13 <? List.length ca + (List.length cm + List.length cb)) with true by (symmetry; apply Nat.ltb_lt; lia). cbn [andb negb].
  rewrite <- A3, <- B3. rewrite A2, B2 at 1. rewrite (first_chars_spec ca) by assumption. rewrite B2, (app_assoc (bytes (quote a))), (last_chars_spec cb) by assumption.
  rewrite <- A2, <- B2. unfold bytes. rewrite !map_length. rewrite firstn_app, Nat.sub_diag, firstn_all, app_nil_r.
  replace (List.length (quote a) + (List.length (quote m) + List.length (quote b)) - List.length (quote b)) with (List.length (quote a ++ quote m)) by (rewrite app_length; lia).
  rewrite (app_assoc (quote a) (quote m)), skipn_app, Nat.sub_diag, skipn_all. cbn [app skipn].
  apply unquote_two; [apply unquote_quote|]. apply unquote_two; [reflexivity|apply unquote_quote].
Qed.
Print Assumptions C57_line.
Print Assumptions C57_text.
Print Assumptions C57_shortened.

(** * Examples *)
(** Scores that are whole numbers. *)
Definition show_Z (z : Z) : str := (if (z <? 0)%Z then ["-"] else []) ++ decimal (Z.abs_N z).
Definition write_Z := write Z.eqb 0%Z show_Z.
Definition read_Z := read 0%Z int_.
Definition ex_edge : edge Z :=
  {| ordinal := 18; source := At 0; target := At 22; edge_length := 22; edge_text := lit "Ala ma <b>kota</b>"; whole := false;
     tag_names := [lit "gobio"; lit "parse"]; item_text := lit "a b"; category := lit "full_phrase"; score := (-342)%Z;
     values := [(lit "C", lit "x y_"); (lit "L", lit "1")];
     parts := [Part [Link (Some 3%N) None false; Link (Some 4%N) (Some (lit "su#b")) false; Link None None true; Link None None true] [lit "gobio"] (-1186)%Z;
               Part [Link (Some 3%N) None false; Link (Some 4%N) None false] [lit "gobio"; lit "parse"] (-342)%Z] |}.
Definition again (e : edge Z) : option (outcome Z) := option_map read_Z (write_Z e).
Example C57_example_again : again ex_edge = Some (Got (meant ex_edge (lit "Ala ma.../b>"))).
Proof. vm_compute. reflexivity. Qed.
Ltac plain_chars := let c := fresh in let K := fresh in let Q := fresh in intros c K Q; vm_compute in K; cbn in Q;
  repeat (destruct K as [<-|K]; [repeat (destruct Q as [Q|Q]; [discriminate Q|]); contradiction|]); contradiction.
Ltac no_space_first := let c := fresh in let r := fresh in let H := fresh in intros c r H; vm_compute in H; injection H as <- _; split; discriminate.
Example C57_example_writable : writable 0%Z show_Z int_ ex_edge.
Proof.
  constructor; try reflexivity; try no_space_first.
  - split; [discriminate|]. split; repeat (apply Forall_cons || apply Forall_nil); try no_space_first; (split; [discriminate|]; split; [reflexivity|plain_chars]).
  - split; [discriminate|]. split; [no_space_first|plain_chars].
  - intros _. split; [intros r; reflexivity|]. split; [discriminate|]. split; [reflexivity|plain_chars].
  - repeat (apply Forall_cons || apply Forall_nil); (split; [discriminate|]; split; [discriminate|]; split; plain_chars).
  - right. right. split; [discriminate|]. apply Forall_cons; [|apply Forall_cons; [|apply Forall_nil]].
    + split; [repeat (apply Forall_cons || apply Forall_nil); cbn; first [exact I|split; [reflexivity|]; intros r Hr; first [discriminate Hr|injection Hr as <-; split; [discriminate|plain_chars]]]|].
      split; [apply L_number; [discriminate|]; apply L_number; [discriminate|]; apply L_free; repeat constructor|]. split; [discriminate|].
      split; [intros _; split; [discriminate|]; apply Forall_cons; [|apply Forall_nil]; split; [discriminate|]; split; [reflexivity|plain_chars]|].
      intros _. split; [intros r; reflexivity|]. split; [discriminate|]. split; [reflexivity|plain_chars].
    + split; [repeat (apply Forall_cons || apply Forall_nil); cbn; (split; [reflexivity|]; intros r Hr; discriminate Hr)|].
      split; [apply L_number; [discriminate|]; apply L_number; [discriminate|]; apply L_free; constructor|]. split; [discriminate|]. split; intros K; now destruct K.
Qed.
Example C57_example_line s : write_Z ex_edge = Some s -> read_Z s = Got (meant ex_edge (lit "Ala ma.../b>")).
Proof.
  apply (C57_line Z.eqb 0%Z show_Z int_ Z.eqb_eq ex_edge (lit "Ala_ma.../b>")); [apply C57_example_writable|vm_compute; reflexivity|vm_compute; reflexivity].
Qed.
Example C57_example_shortened : exists c, text_cell ex_edge = Some c /\ unquote c = Some (lit "Ala ma" ++ lit "..." ++ lit "/b>").
Proof.
  apply (C57_shortened ex_edge (lit "Ala ma") (lit " <b>kota<") (lit "/b>") 9); try reflexivity; try lia;
    (eexists; split; [split; [|match goal with |- bytes (quote ?x) = _ => instantiate (1 := bytes (quote x)); reflexivity end]|reflexivity]); repeat (apply Forall_cons; [left; split; reflexivity || discriminate|]); apply Forall_nil.
Qed.

(** * What is not read back *)
(** An edge over symbols, with the given tags, category, values and partitions. *)
Definition small (t : str) (tg : list str) (cat : str) (vs : list (str * str)) (ps : list (part Z)) : edge Z :=
  {| ordinal := 7; source := At 0; target := At 3; edge_length := 3; edge_text := t; whole := false;
     tag_names := tg; item_text := lit "abc"; category := cat; score := 0%Z; values := vs; parts := ps |}.
Definition over (l : list (option N)) (tg : list str) : part Z := Part (map (fun n => Link n None (match n with None => true | Some _ => false end)) l) tg 0%Z.
Definition tags_back (o : option (outcome Z)) := match o with Some (Got l) => Some (n_tags l) | _ => None end.
Definition category_back (o : option (outcome Z)) := match o with Some (Got l) => Some (n_category l) | _ => None end.
Definition values_back (o : option (outcome Z)) := match o with Some (Got l) => Some (n_values l) | _ => None end.
Definition content_back (o : option (outcome Z)) := match o with Some (Got l) => Some (n_content l) | _ => None end.
Definition rp (l : list Z) (tg : list str) : read_part Z := ReadPart (map (fun n => (n, [])) l) tg 0%Z.
Definition tok := [lit "token"].

(** A tag with an underscore comes back with a backslash in it. *)
Theorem C57_tag_refuted : tags_back (again (small (lit "abc") [lit "text_tag"] (lit "T") [] [over [None] [lit "text_tag"]])) = Some [lit "text\_tag"].
Proof. vm_compute. reflexivity. Qed.
Print Assumptions C57_tag_refuted.
(** A category ends at a comma, the rest of it is taken for an attribute. *)
Theorem C57_category_refuted :
  category_back (again (small (lit "abc") tok (lit "a,b") [] [over [None] tok])) = Some (lit "a") /\
  again (small (lit "abc") tok (lit ",") [] [over [None] tok]) = Some SyntaxError /\
  again (small (lit "abc") tok [] [] [over [None] tok]) = Some SyntaxError.
Proof. vm_compute. auto. Qed.
Print Assumptions C57_category_refuted.
Theorem C57_values_refuted :
  values_back (again (small (lit "abc") tok (lit "T") [(lit "A", lit "x,y"); (lit "B", lit "z")] [over [None] tok])) = Some [(lit "A", lit "x"); (lit "B", lit "z")] /\
  values_back (again (small (lit "abc") tok (lit "T") [(lit "A", []); (lit "B", lit "z")] [over [None] tok])) = Some [(lit "B", lit "z")].
Proof. vm_compute. auto. Qed.
Print Assumptions C57_values_refuted.
(** An edge without a number in front of an edge with a number: 9, a symbol, 11. *)
Theorem C57_sequence_refuted :
  content_back (again (small (lit "abc") tok (lit "T") [] [over [Some 9%N; None; Some 11%N] tok])) = Some (of_parts [rp [9; (-11)]%Z tok]).
Proof. vm_compute. reflexivity. Qed.
Print Assumptions C57_sequence_refuted.
(** One partition over symbols hides the others. *)
Theorem C57_partitions_refuted :
  content_back (again (small (lit "abc") tok (lit "T") [] [over [Some 5%N] tok; over [None; None; None] tok])) = Some from_symbols /\
  content_back (again (small (lit "abc") tok (lit "T") [] [over [None; None; None] tok; over [Some 5%N] tok])) = Some from_symbols.
Proof. vm_compute. auto. Qed.
Print Assumptions C57_partitions_refuted.
(** Of an empty partition and another one nothing but an empty partition comes back, or the other one. *)
Theorem C57_empty_partition_refuted :
  content_back (again (small (lit "abc") tok (lit "T") [] [over [] tok; over [Some 5%N; Some 6%N] tok])) = Some (of_parts [rp [] tok]) /\
  content_back (again (small (lit "abc") tok (lit "T") [] [over [Some 5%N; Some 6%N] tok; over [] tok])) = Some (of_parts [rp [] tok]).
Proof. vm_compute. auto. Qed.
Print Assumptions C57_empty_partition_refuted.
(** A long text is cut in the middle of an escape: the line cannot be read. *)
Theorem C57_shortened_refuted : exists e, text_cell e <> None /\ again e = Some WrongEscape.
Proof. exists (small (lit "abcde" ++ ["010"] ++ lit "fghijklm") tok (lit "T") [] [over [None] tok]). split; [discriminate|]. vm_compute. reflexivity. Qed.
Print Assumptions C57_shortened_refuted.

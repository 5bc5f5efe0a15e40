(** Lattices over well-formed texts with vertices between characters. *)
From Coq Require Import ZArith List Bool Lia.
From Verif Require Import M_Utf8 S_Utf8 L_Utf8 M_Tags M_Items M_Cutter M_Lattice P_Tags P_Cutter L_Lattice S_Lattice L_LatticeOps.
Import ListNotations.
Local Open Scope nat_scope.

Lemma boundary_wf T p : boundary T p -> well_formed T /\ p <= length T.
Proof. intros (a & b & -> & Ha & Hb & <-). split; [now apply wf_app|]. rewrite app_length. lia. Qed.
Lemma boundary_app T p t : boundary T p -> well_formed t -> boundary (T ++ t) p.
Proof.
  intros (a & b & -> & Ha & Hb & <-) Ht. exists a, (b ++ t). rewrite <- app_assoc. repeat split; try assumption. now apply wf_app.
Qed.
Lemma boundary_end T : well_formed T -> boundary T (length T).
Proof. intros H. exists T, []. rewrite app_nil_r. repeat split; try assumption. apply well_formed_nil. Qed.
Lemma wf_enc cp : scalar cp -> well_formed (enc cp).
Proof. intros H. exists [cp]. split; [now constructor|]. cbn. now rewrite app_nil_r. Qed.

Lemma char_at T p : boundary T p -> p < length T ->
  exists cp rest, scalar cp /\ skipn p T = enc cp ++ rest /\ symbol_length T p = length (enc cp) /\ boundary T (p + length (enc cp)) /\
                  p + length (enc cp) <= length T.
Proof.
  intros (a & b & -> & Ha & (cb & Hcb & ->) & <-) Hp. rewrite app_length in Hp. destruct cb as [|cp cb]; [cbn in Hp; lia|].
  inversion Hcb as [|x y Hcp Hcb']; subst. exists cp, (flat_map enc cb).
  destruct (seqlen_lead cp Hcp) as (lead & trails & Eenc & Hsl & _).
  split; [assumption|]. split; [|split; [|split]].
  - rewrite skipn_app, skipn_all, Nat.sub_diag. reflexivity.
  - unfold symbol_length. cbn [flat_map]. rewrite app_nth2, Nat.sub_diag by lia.
    replace (nth 0 (enc cp ++ flat_map enc cb) 0%Z) with lead by (rewrite Eenc; reflexivity).
    rewrite Hsl. pose proof (enc_length cp). destruct (Nat.ltb_spec 0 (length (enc cp))); lia.
  - exists (a ++ enc cp), (flat_map enc cb). cbn [flat_map]. rewrite <- app_assoc, app_length. repeat split.
    + apply wf_app; [assumption|now apply wf_enc].
    + now exists cb.
  - cbn [flat_map]. rewrite !app_length. lia.
Qed.
Lemma char_before T p : boundary T p -> 0 < p ->
  exists cp q, scalar cp /\ q + length (enc cp) = p /\ boundary T q /\ firstn p T = firstn q T ++ enc cp.
Proof.
  intros (a & b & -> & (ca & Hca & ->) & Hb & <-) Hp. destruct (exists_last (l := ca)) as [ca' [cp ->]].
  { intros ->. cbn in Hp. lia. }
  apply Forall_app in Hca as [Hca' Hcp]. inversion Hcp; subst. exists cp, (length (flat_map enc ca')).
  rewrite flat_map_app. cbn [flat_map]. rewrite app_nil_r, app_length. split; [assumption|]. split; [reflexivity|]. split.
  - exists (flat_map enc ca'), (enc cp ++ b). rewrite <- app_assoc. repeat split.
    + now exists ca'.
    + apply wf_app; [now apply wf_enc|assumption].
  - rewrite <- app_assoc, firstn_app_2. rewrite firstn_app, firstn_all, Nat.sub_diag. cbn [firstn]. rewrite app_nil_r.
    rewrite firstn_app, firstn_all, Nat.sub_diag. cbn [firstn]. now rewrite app_nil_r.
Qed.
Lemma skipn_twice {A} n : forall m (l : list A), skipn n (skipn m l) = skipn (n + m) l.
Proof.
  intros m. revert n. induction m as [|m IH]; intros n l; [now rewrite Nat.add_0_r|]. destruct l as [|x l]; [now rewrite !skipn_nil|].
  rewrite Nat.add_succ_r. cbn [skipn]. apply IH.
Qed.
(** The vertex before. *)
Lemma skipn_here (T : list Z) q x rest : skipn q T = x ++ rest -> q <= length T -> firstn (q + length x) T = firstn q T ++ x.
Proof.
  intros E H. rewrite <- (firstn_skipn q T) at 1. rewrite E, firstn_app, firstn_length, Nat.min_l by lia.
  rewrite firstn_firstn, Nat.min_r by lia. replace (q + length x - q) with (length x) by lia.
  rewrite firstn_app, firstn_all, Nat.sub_diag. cbn [firstn]. now rewrite app_nil_r.
Qed.
Lemma prior_vertex_at L q : boundary (text L) q -> q < length (text L) -> prior_vertex L (q + symbol_len L q) = Ok q.
Proof.
  intros H Hl. destruct (char_at _ _ H Hl) as [cp [rest [Hs [E [El _]]]]]. unfold symbol_len. rewrite El.
  pose proof (enc_length cp). unfold prior_vertex. destruct (Nat.eqb_spec (q + length (enc cp)) 0); [lia|].
  rewrite (skipn_here _ _ _ _ E) by lia. rewrite (prior_enc _ _ Hs), (append_scalar _ Hs). f_equal. lia.
Qed.
Lemma prior_vertex_ok L p : boundary (text L) p -> 0 < p ->
  exists q, prior_vertex L p = Ok q /\ boundary (text L) q /\ q + symbol_len L q = p.
Proof.
  intros H Hp. destruct (char_before _ _ H Hp) as [cp [q [Hs [E [Hq Ef]]]]]. exists q.
  pose proof (boundary_wf _ _ H) as [_ Hle]. pose proof (enc_length cp).
  assert (Hl : q < length (text L)) by lia.
  destruct (char_at _ _ Hq Hl) as [cp' [rest [Hs' [E' [El [Hb' _]]]]]].
  assert (Ecp : cp' = cp).
  { assert (N1 : next (skipn q (text L)) = Some (cp', rest)) by (rewrite E'; now apply next_enc).
    assert (N2 : skipn q (text L) = enc cp ++ skipn p (text L)).
    { rewrite <- (firstn_skipn p (text L)) at 1. rewrite Ef, <- app_assoc, skipn_app.
      rewrite skipn_all2 by (rewrite firstn_length; lia). rewrite firstn_length, Nat.min_l by lia. now rewrite Nat.sub_diag. }
    rewrite N2, (next_enc _ _ Hs) in N1. now injection N1. }
  subst cp'. assert (Es : q + symbol_len L q = p) by (unfold symbol_len; rewrite El; exact E).
  split; [|now split]. rewrite <- Es. now apply prior_vertex_at.
Qed.
Lemma implicit_in_ok L p : boundary (text L) p -> exists l, implicit_in L p = Ok l.
Proof.
  intros H. unfold implicit_in. destruct (Nat.eq_dec p 0) as [->|Hp]; [exists []; reflexivity|].
  destruct (prior_vertex_ok L p H) as [q [-> _]]; [lia|]. eauto.
Qed.
Lemma implicit_in_at L q : boundary (text L) q -> q < length (text L) ->
  implicit_in L (q + symbol_len L q) = Ok (when (bit (implicit L) q) q).
Proof. intros H Hl. unfold implicit_in. now rewrite (prior_vertex_at _ _ H Hl). Qed.
Lemma item_at L p : boundary (text L) p -> p < length (text L) ->
  exists cp, scalar cp /\ sub (text L) p (symbol_len L p) = enc cp /\
             annotation_item L (Implicit p) = Ok (M_Items.new_item (39%Z :: enc cp) (enc cp)).
Proof.
  intros H Hl. destruct (char_at _ _ H Hl) as [cp [rest [Hs [E [El _]]]]]. exists cp. split; [assumption|].
  assert (Es : sub (text L) p (symbol_len L p) = enc cp).
  { unfold sub, symbol_len. rewrite E, El, firstn_app, firstn_all, Nat.sub_diag. cbn [firstn]. apply app_nil_r. }
  split; [assumption|]. cbn [annotation_item]. now rewrite E, (next_enc _ _ Hs), (append_scalar _ Hs), Es.
Qed.

(** * Tidy lattices *)
Record tidy (L : lattice) : Prop := {
  t_text : well_formed (text L);
  t_bits : forall p, bit (implicit L) p = true -> boundary (text L) p;
  t_edges : forall e ed, nth_error (edges L) e = Some ed -> place L (e_from ed) /\ place L (e_to ed)
}.
(** No call complains of bytes. *)
Definition calm {A} (T : list Z) (m : act A) : Prop := forall L L' r, good L -> text L = T -> m L = (L', r) -> r <> Throw NotUtf8.
Lemma calm_bind {A B} T (m : act A) (f : A -> act B) : query m -> calm T m -> (forall a, calm T (f a)) -> calm T (bind m f).
Proof.
  intros Q Hm Hf L L' r G HT. unfold bind. destruct (m L) as [L1 [a|e|]] eqn:E.
  - destruct (Q _ _ _ G E) as [G1 C]; [discriminate|]. apply Hf; [assumption|]. now rewrite (c_text _ _ C).
  - intros [= <- <-] [= ->]. now apply (Hm _ _ _ G HT E).
  - intros [= <- <-]. discriminate.
Qed.
Lemma calm_out T v m : calm T (out_edges v m).
Proof.
  intros L L' r _ _. unfold out_edges. destruct (negb _); [intros [= <- <-]; discriminate|]. destruct (M_Tags.any m).
  - unfold ask, all_out_edges. destruct (valid L v); intros [= <- <-]; discriminate.
  - unfold bind, add_tag_mask_index. destruct (mask_index _ _); unfold ask; intros [= <- <-]; discriminate.
Qed.
Lemma index_text L m L1 a : add_tag_mask_index m L = (L1, Ok a) -> text L1 = text L.
Proof. unfold add_tag_mask_index. destruct (mask_index _ _); intros [= <- _]; reflexivity. Qed.
Lemma calm_in T v m : (forall p, v = Text p -> boundary T p) -> calm T (in_edges v m).
Proof.
  intros Hv L L' r _ HT. unfold in_edges. destruct (negb _); [intros [= <- <-]; discriminate|]. destruct (M_Tags.any m).
  - unfold ask, all_in_edges. destruct (valid L v); [|intros [= <- <-]; discriminate]. destruct v as [p|]; [|intros [= <- <-]; discriminate].
    destruct (implicit_in_ok L p) as [l ->]; [rewrite HT; auto|]. intros [= <- <-]. discriminate.
  - unfold bind. destruct (add_tag_mask_index m L) as [L1 [a|e|]] eqn:E.
    + apply index_text in E. unfold ask. destruct v as [p|]; [|intros [= <- <-]; discriminate].
      destruct (implicit_in_ok L1 p) as [l ->]; [rewrite E, HT; auto|]. intros [= <- <-]. discriminate.
    + unfold add_tag_mask_index in E. destruct (mask_index _ _); discriminate.
    + intros [= <- <-]. discriminate.
Qed.
Lemma calm_first {A} T (l : list A) : calm T (first l).
Proof. intros L L' r _ _. destruct l; intros [= <- <-]; discriminate. Qed.
Lemma calm_first_out T v m : P_Tags.made m -> calm T (first_out_edge v m).
Proof. intros Hm. apply calm_bind; [now apply out_edges_query|apply calm_out|intros; apply calm_first]. Qed.
Lemma calm_first_in T v m : P_Tags.made m -> (forall p, v = Text p -> boundary T p) -> calm T (first_in_edge v m).
Proof. intros Hm Hv. apply calm_bind; [now apply in_edges_query|now apply calm_in|intros; apply calm_first]. Qed.
Lemma calm_ret {A} T (a : A) : calm T (ret a).
Proof. intros L L' r _ _ [= <- <-]. discriminate. Qed.
Lemma calm_packed T n : calm T (packed_edge n).
Proof.
  intros L L' r G HT. unfold packed_edge. destruct (_ <? _); [intros [= <- <-]; discriminate|].
  apply (calm_first_out T (Text n) symbol_mask symbol_mask_made L L' r G HT).
Qed.
Lemma calm_search T n : forall si e d, calm T (packed_search n si e d).
Proof.
  induction n as [|n IH]; intros si e d; cbn [packed_search]; [apply calm_ret|]. destruct (si <? e); [|apply calm_ret].
  intros L L' r G HT. apply (calm_bind T); [apply packed_edge_query|apply calm_packed| |assumption|assumption].
  intros x. destruct (desc_eqb x d); [apply calm_ret|apply IH].
Qed.
Lemma calm_packed_edges T n : forall si e, calm T (packed_edges n si e).
Proof.
  induction n as [|n IH]; intros si e; cbn [packed_edges]; [apply calm_ret|]. destruct (si <? e); [|apply calm_ret].
  intros L L' r G HT. apply (calm_bind T); [apply packed_edge_query|apply calm_packed| |assumption|assumption].
  intros x. apply calm_bind; [apply packed_edges_query|apply IH|intros; apply calm_ret].
Qed.
Lemma calm_usages T s : calm T (usages s).
Proof. unfold usages. destruct (links s); [apply calm_packed_edges|apply calm_ret]. Qed.
Lemma calm_refers T s d : calm T (refers_to s d).
Proof. unfold refers_to. destruct (links s); [apply calm_search|apply calm_ret]. Qed.
Lemma calm_update T from to t : (forall p, to = Text p -> boundary T p) -> calm T (update_visible from to t).
Proof.
  intros Ht. unfold update_visible. destruct (M_Tags.coll_eqb t symbol_tag); [|apply calm_ret].
  assert (M : forall v, calm T (make_visible v)) by (intros [] L L' r _ _ [= <- <-]; discriminate).
  assert (H : calm T (do _ <- first_out_edge from symbol_mask; do _ <- make_visible from; do ed <- first_in_edge to symbol_mask;
                          do v <- ask (fun L => source L ed); make_visible v)).
  { apply calm_bind; [apply first_out_query, symbol_mask_made|apply calm_first_out, symbol_mask_made|]. intros _.
    apply calm_bind; [apply make_visible_query|apply M|]. intros _.
    apply calm_bind; [apply first_in_query, symbol_mask_made|apply calm_first_in; [apply symbol_mask_made|assumption]|]. intros d.
    apply calm_bind; [apply query_ask| |exact M]. intros L L' r _ _ [= <- <-]. unfold source. destruct d; [discriminate|].
    destruct (nth_error _ _); discriminate. }
  intros L L' r G HT. unfold catch_no_edge.
  match goal with |- context [match ?x with (_, _) => _ end] => destruct x as [L1 [u|e|]] eqn:E end; try (intros [= <- <-]; discriminate).
  pose proof (H _ _ _ G HT E) as K. destruct e; try (intros [= <- <-]; discriminate). now destruct K.
Qed.
Lemma calm_insert from to it t s sc rule choice L L' r : good L -> (forall p, to = Text p -> boundary (text L) p) ->
  insert_edge from to it t s sc rule choice L = (L', r) -> r <> Throw NotUtf8.
Proof.
  intros G Ht. unfold insert_edge, bind. cbn [change].
  destruct (count_edge_query (from, to) L _ _ G eq_refl) as [G1 C]; [discriminate|].
  destruct (update_visible from to t (count_edge (from, to) L)) as [L1 [u|e|]] eqn:E.
  - destruct (is_implicit_symbol _ _ _ _); intros [= <- <-]; discriminate.
  - pose proof (calm_update (text L) from to t Ht _ _ _ G1 (c_text _ _ C) E). intros [= <- <-]. congruence.
  - intros [= <- <-]. discriminate.
Qed.
Lemma calm_add_edge from to it t s sc rule choice L L' r : good L -> place L to ->
  add_edge from to it t s sc rule choice L = (L', r) -> r <> Throw NotUtf8.
Proof.
  intros G Ht. assert (Hb : forall p, to = Text p -> boundary (text L) p) by (intros p ->; exact Ht).
  unfold add_edge. destruct (vertex_eqb from to); [intros [= <- <-]; discriminate|].
  destruct (reversed from to); [intros [= <- <-]; discriminate|]. destruct (negb _); [intros [= <- <-]; discriminate|]. cbv zeta.
  set (L1 := set_vvc _ L). assert (G1 : good L1) by now apply insert_vvc_good.
  destruct (find _ _) as [d|].
  - unfold bind at 1. pose proof (refers_to_query s d) as Q. pose proof (calm_refers (text L) s d) as K.
    destruct (refers_to s d L1) as [L2 [self|x|]] eqn:E.
    + destruct (Q _ _ _ G1 E) as [G2 C]; [discriminate|]. destruct self; [intros [= <- <-]; discriminate|].
      destruct d as [p|e]; unfold bind; cbn [change ret]; [|intros [= <- <-]; discriminate].
      destruct from as [p'|k].
      * apply calm_insert; [now apply clear_bit_good|]. intros q Hq. cbn. rewrite (c_text _ _ C). now apply Hb.
      * apply calm_insert; [assumption|]. intros q Hq. cbn. rewrite (c_text _ _ C). now apply Hb.
    + intros [= <- <-] [= ->]. exact (K _ _ _ G1 eq_refl E eq_refl).
    + intros [= <- <-]. discriminate.
  - apply calm_insert; [assumption|]. exact Hb.
Qed.

Lemma place_text L L' v : text L' = text L -> place L v -> place L' v.
Proof. intros E. unfold place. now rewrite E. Qed.
Lemma add_edge_tidy from to it t s sc rule choice L L' r : good L -> tidy L -> proper (tags L) t -> place L from -> place L to ->
  add_edge from to it t s sc rule choice L = (L', r) -> r <> Undefined -> tidy L' /\ r <> Throw NotUtf8.
Proof.
  intros G T Hp P1 P2 E Hr. pose proof (calm_add_edge _ _ _ _ _ _ _ _ _ _ _ G P2 E) as Hu. split; [|assumption].
  destruct (add_edge_spec _ _ _ _ _ _ _ _ _ _ _ G Hp E Hr) as [G' [_ [Et [_ A]]]].
  assert (Tt : well_formed (text L')) by (rewrite Et; apply T).
  assert (Old : forall e ed, nth_error (edges L) e = Some ed -> place L' (e_from ed) /\ place L' (e_to ed)).
  { intros e ed He. destruct (t_edges _ T _ _ He). split; now apply (place_text L). }
  assert (New : forall ed, e_from ed = from -> e_to ed = to -> edges L' = edges L ++ [ed] ->
            forall e x, nth_error (edges L') e = Some x -> place L' (e_from x) /\ place L' (e_to x)).
  { intros ed F1 F2 F3 e x. rewrite F3. destruct (Nat.lt_ge_cases e (length (edges L))).
    - rewrite nth_error_app1 by assumption. apply Old.
    - rewrite nth_error_app2 by assumption. destruct (e - length (edges L)) as [|[]]; try discriminate. intros [= <-].
      rewrite F1, F2. split; now apply (place_text L). }
  assert (Bits : (forall p, bit (implicit L') p = true -> bit (implicit L) p = true \/ from = Text p) ->
            forall p, bit (implicit L') p = true -> boundary (text L') p).
  { intros H p Hb. rewrite Et. destruct (H p Hb) as [K|K]; [now apply (t_bits _ T)|]. rewrite K in P1. exact P1. }
  destruct A as [F EL|F1 F2 EL|x Hx EE EI|EE|e ed He Hk Hs EE EI|p F1 F2 F3 EE EI|EE EI _|p ds t' F1 F2 F3 F4 F5 F6 EE EI].
  - now subst.
  - now subst.
  - split; [assumption|apply Bits; rewrite EI; auto|rewrite EE; exact Old].
  - now destruct Hu.
  - split; [assumption|apply Bits; rewrite EI; auto|]. intros x y. rewrite EE, update_edge_nth.
    destruct (e =? x); [|apply Old]. destruct (nth_error (edges L) x) as [z|] eqn:Ez; [|discriminate]. intros [= <-]. apply (Old _ _ Ez).
  - split; [assumption|apply Bits|rewrite EE; exact Old]. intros q. rewrite EI. destruct (Nat.eqb_spec p q); [subst; auto|auto].
  - split; [assumption|apply Bits; rewrite EI; auto|]. eapply New; [| |exact EE]; reflexivity.
  - split; [assumption|apply Bits|eapply New; [| |exact EE]; reflexivity]. intros q. rewrite EI, bit_set.
    destruct ((p =? q) && _); [discriminate|auto].
Qed.

Lemma add_symbols_loop_tidy n : forall p cps tail L L' r, good L -> tidy L -> boundary (text L) p -> Forall scalar cps ->
  skipn p (text L) = flat_map enc cps ++ tail -> add_symbols_loop n p (flat_map enc cps) L = (L', r) -> r <> Undefined ->
  tidy L' /\ r <> Throw NotUtf8.
Proof.
  induction n as [|n IH]; intros p cps tail L L' r G T Hb Hc Hs E Hr.
  - destruct (flat_map enc cps); cbn in E; injection E as <- <-; [split; [assumption|discriminate]|now destruct Hr].
  - destruct cps as [|cp cps]; [cbn in E; injection E as <- <-; split; [assumption|discriminate]|].
    inversion Hc as [|? ? Hcp Hc']; subst. cbn [flat_map] in E, Hs.
    assert (Hl : p < length (text L)).
    { destruct (Nat.lt_ge_cases p (length (text L))) as [|H]; [assumption|]. rewrite skipn_all2 in Hs by assumption.
      pose proof (enc_length cp). destruct (enc cp); [cbn in *; lia|discriminate]. }
    destruct (char_at _ _ Hb Hl) as [cp' [rest [Hcp2 [E2 [El [Hb2 Hle]]]]]].
    assert (cp' = cp).
    { assert (N : next (enc cp ++ (flat_map enc cps ++ tail)) = Some (cp', rest)) by (rewrite app_assoc, <- Hs, E2; now apply next_enc).
      rewrite (next_enc _ _ Hcp) in N. now injection N. }
    subst cp'.
    assert (Hrest : skipn (p + length (enc cp)) (text L) = flat_map enc cps ++ tail).
    { rewrite <- app_assoc in Hs. replace (p + length (enc cp)) with (length (enc cp) + p) by lia.
      rewrite <- skipn_twice. rewrite Hs. rewrite skipn_app, skipn_all, Nat.sub_diag. reflexivity. }
    destruct (enc cp ++ flat_map enc cps) as [|y l] eqn:El0; [destruct (enc_nonempty cp); now apply app_eq_nil in El0|].
    cbn [add_symbols_loop] in E. rewrite <- El0, (next_enc _ _ Hcp), (append_scalar _ Hcp) in E.
    unfold bind in E.
    destruct (add_edge (Text p) (Text (p + length (enc cp))) (M_Items.new_item (39%Z :: enc cp) []) symbol_tag empty_sequence 0%Z (-1) (-1) L)
      as [L1 r1] eqn:E1.
    assert (Hr1 : r1 <> Undefined) by (intros ->; injection E as <- <-; now destruct Hr).
    destruct (add_edge_tidy (Text p) (Text (p + length (enc cp))) _ _ _ _ _ _ _ _ _ G T (symbol_proper _ G) Hb Hb2 E1 Hr1) as [T1 U1].
    destruct (add_edge_spec _ _ _ _ _ _ _ _ _ _ _ G (symbol_proper _ G) E1 Hr1) as [G1 [_ [Et _]]].
    destruct r1 as [d|x|]; [|injection E as <- <-; split; [assumption|congruence]|now destruct Hr1].
    eapply (IH (p + length (enc cp)) cps tail L1); eauto; now rewrite Et.
Qed.

Lemma query_tidy {A} (m : act A) L L' r : query m -> good L -> tidy L -> m L = (L', r) -> r <> Undefined -> tidy L'.
Proof.
  intros Q G T E Hr. destruct (Q _ _ _ G E Hr) as [_ C]. split.
  - rewrite (c_text _ _ C). apply T.
  - intros p. rewrite (c_text _ _ C), (c_implicit _ _ C). apply T.
  - intros e ed. rewrite (c_edges _ _ C). intros He. destruct (t_edges _ T _ _ He). split; apply (place_text L); try assumption; apply C.
Qed.
Lemma drop_calm {A} (m : act A) L L' r : drop m L = (L', r) -> r <> Undefined ->
  exists r', m L = (L', r') /\ r' <> Undefined /\ (r' <> Throw NotUtf8 -> r <> Throw NotUtf8).
Proof.
  unfold drop, bind. destruct (m L) as [L1 [a|e|]]; cbn; intros [= <- <-] H; [| |now destruct H]; (eexists; split; [reflexivity|]);
    split; try discriminate; congruence.
Qed.
Lemma edge_place L d from to : good L -> tidy L -> is_edge L d -> source L d = Ok from -> target L d = Ok to -> place L from /\ place L to.
Proof.
  intros G T He. destruct d as [p|e]; cbn.
  - intros [= <-] [= <-]. pose proof (t_bits _ T p He) as Hb. pose proof (g_bits _ G p He). pose proof (symbol_len_pos L p).
    split; [exact Hb|]. apply boundary_step; [apply T|assumption|lia].
  - destruct (nth_error (edges L) e) as [ed|] eqn:E; [|discriminate]. intros [= <-] [= <-]. apply (t_edges _ T _ _ E).
Qed.
Lemma add_partition_tidy d t s sc rule choice L L' r : good L -> tidy L -> proper (tags L) t -> is_edge L d ->
  add_partition_to_edge d t s sc rule choice L = (L', r) -> r <> Undefined -> tidy L' /\ r <> Throw NotUtf8.
Proof.
  intros G T Hp He. unfold add_partition_to_edge, bind, ask.
  destruct (source L d) as [from|x|] eqn:E1; [| |intros [= <- <-] K; now destruct K].
  2:{ destruct d; cbn in E1; [discriminate|]. destruct (nth_error _ _); discriminate. }
  destruct (target L d) as [to|x|] eqn:E2; [| |intros [= <- <-] K; now destruct K].
  2:{ destruct d; cbn in E2; [discriminate|]. destruct (nth_error _ _); discriminate. }
  destruct (edge_place _ _ _ _ G T He E1 E2) as [P1 P2].
  destruct (annotation_item L d) as [it|x|] eqn:E3; [| |intros [= <- <-] K; now destruct K].
  - apply add_edge_tidy; try assumption. apply proper_union; [assumption|]. now apply proper_planes, edge_tags_proper.
  - destruct d as [p|e]; [|cbn in E3; destruct (nth_error _ _); discriminate].
    pose proof (g_bits _ G p He). pose proof (symbol_len_pos L p).
    destruct (item_at L p (t_bits _ T p He)) as [cp [_ [_ E4]]]; [lia|]. congruence.
Qed.
Lemma exec_tidy o L L' r : good L -> tidy L -> allowed L o -> tidy_op L o -> exec o L = (L', r) -> r <> Undefined ->
  tidy L' /\ r <> Throw NotUtf8.
Proof.
  intros G T Ha Ho E Hr.
  assert (S : forall A (m : act A), query m -> calm (text L) m -> drop m L = (L', r) -> tidy L' /\ r <> Throw NotUtf8).
  { intros A m Q Hm Em. destruct (drop_calm m L L' r Em Hr) as [r' [E' [H1 H2]]].
    split; [eapply query_tidy; eassumption|]. apply H2. now apply (Hm _ _ _ G eq_refl E'). }
  assert (Hpl : forall v, place L v -> forall p, v = Text p -> boundary (text L) p) by (intros v Hv p ->; exact Hv).
  destruct o; cbn [exec allowed tidy_op] in *.
  - injection E as <- <-. split; [|discriminate]. split.
    + cbn. apply wf_app; [apply T|assumption].
    + intros p. cbn [implicit resize_structures set_implicit]. rewrite bit_resize. intros Hb. apply boundary_app; [now apply (t_bits _ T)|assumption].
    + intros e ed He. destruct (t_edges _ T _ _ He) as [P1 P2].
      assert (X : forall v, place L v -> boundary (text L) 0 -> place (resize_structures (set_text (text L ++ t) L)) v).
      { intros [p|] Hv _; [|exact I]. cbn. now apply boundary_app. }
      split; apply X; try assumption; apply boundary_0, T.
  - destruct a as [p|]; [|injection E as <- <-; split; [assumption|discriminate]].
    destruct b as [q|]; [|injection E as <- <-; split; [assumption|discriminate]].
    cbn in Ho. destruct Ho as [Hp Hq]. unfold add_symbols in E.
    destruct ((p <=? q) && (q <=? length (text L))) eqn:Eb; [|injection E as <- <-; now destruct Hr].
    apply andb_true_iff in Eb as [E1 E2]. apply Nat.leb_le in E1, E2.
    assert (Hw : well_formed (sub (text L) p (q - p))).
    { apply boundary_between; [assumption|]. now replace (p + (q - p)) with q by lia. }
    destruct Hw as [cps [Hc Ec]]. rewrite Ec in E.
    refine (add_symbols_loop_tidy _ p cps (skipn (q - p) (skipn p (text L))) _ _ _ G T Hp Hc _ E Hr).
    rewrite <- Ec. unfold sub. symmetry. apply firstn_skipn.
  - destruct (drop_calm _ L L' r E Hr) as [r' [E' [H1 H2]]]. destruct (add_loose_spec _ _ _ G E') as [_ [_ [-> [F1 [F2 [F3 _]]]]]].
    split; [|apply H2; discriminate]. split.
    + rewrite F1. apply T.
    + intros p. rewrite F1, F3. apply T.
    + intros e ed. rewrite F2. intros He. destruct (t_edges _ T _ _ He). split; now apply (place_text L).
  - destruct (drop_calm _ L L' r E Hr) as [r' [E' [H1 H2]]]. destruct Ho as [P1 P2].
    destruct (add_edge_tidy _ _ _ _ _ _ _ _ _ _ _ G T (known_proper _ _ Ha) P1 P2 E' H1). auto.
  - destruct (drop_calm _ L L' r E Hr) as [r' [E' [H1 H2]]].
    destruct (add_partition_tidy _ _ _ _ _ _ _ _ _ G T (known_proper _ _ Ha) Ho E' H1). auto.
  - destruct (drop_calm _ L L' r E Hr) as [r' [E' [H1 H2]]].
    destruct (add_partition_tidy _ _ _ _ _ _ _ _ _ G T (discarded_proper _ G) Ho E' H1). auto.
  - revert E. apply S; [now apply out_edges_query|apply calm_out].
  - revert E. apply S; [now apply in_edges_query|apply calm_in; now apply Hpl].
  - revert E. apply S; [now apply first_out_query|now apply calm_first_out].
  - revert E. apply S; [now apply first_in_query|apply calm_first_in; [assumption|now apply Hpl]].
  - revert E. apply S; [apply usages_query|apply calm_usages].
  - injection E as <- <-. split; [|discriminate]. destruct (M_Tags.step (tags L) c); [|assumption].
    split; apply T.
Qed.

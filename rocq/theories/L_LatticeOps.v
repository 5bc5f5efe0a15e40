(** The invariant is kept by every public operation. *)
From Coq Require Import ZArith List Bool Lia.
From Verif Require Import M_Utf8 M_Tags M_Items M_Cutter M_Lattice P_Tags L_Lattice S_Lattice P_Cutter.
Import ListNotations.
Local Open Scope nat_scope.

Lemma denotes_proper m c S : P_Tags.denotes m c S -> proper m c.
Proof. intros [_ H2 H3]. split; assumption. Qed.
Lemma known_proper L t : known_tags L t -> proper (tags L) t.
Proof. intros [S H]. eapply denotes_proper, H. Qed.

Lemma nth_nil {A} k (x : A) : nth_error [] k = Some x -> False.
Proof. destruct k; discriminate. Qed.
Lemma new_lattice_good : good new_lattice.
Proof.
  split; try reflexivity.
  - intros p. destruct p as [|[]]; discriminate.
  - constructor.
  - intros v [].
  - intros k H. inversion H.
  - intros e ed H. now apply nth_nil in H.
  - intros n [].
  - intros n i m [].
  - intros k ds d H. discriminate.
  - intros e ed H. now apply nth_nil in H.
  - intros k ds d e H. discriminate.
  - intros e ed H. now apply nth_nil in H.
  - intros e ed H. now apply nth_nil in H.
  - intros m [].
  - exists [M_Tags.Create [DISCARDED]; M_Tags.Create [TOKEN]]. vm_compute. reflexivity.
Qed.

Lemma symbol_len_pos L p : 0 < symbol_len L p.
Proof. apply symbol_length_pos. Qed.
Lemma append_string_safe t : safe (append_string t).
Proof.
  intros L L' r G [= <- <-] _. set (L' := resize_structures _).
  assert (Hl : forall p, p < length (text L) -> symbol_len L' p = symbol_len L p).
  { intros p Hp. apply grows_symbol_len; [exists t; reflexivity|assumption]. }
  assert (Hf : forall p, p + symbol_len L p <= length (text L) -> symbol_len L' p = symbol_len L p /\ p + symbol_len L p <= length (text L')).
  { intros p Hp. pose proof (symbol_len_pos L p). split; [apply Hl; lia|]. cbn. rewrite app_length. lia. }
  split.
  - split; try apply G.
    + change (implicit L') with (resize (implicit L) (length (text L ++ t) + 1)). change (text L') with (text L ++ t).
      rewrite resize_length; rewrite ?(g_implicit _ G), app_length; lia.
    + change (hidden L') with (resize (hidden L) (length (text L ++ t) + 1)). change (text L') with (text L ++ t).
      rewrite resize_length; rewrite ?(g_hidden _ G), app_length; lia.
    + change (visible L') with (resize (visible L) (length (text L ++ t) + 1)). change (text L') with (text L ++ t).
      rewrite resize_length; rewrite ?(g_visible _ G), app_length; lia.
    + intros p. change (implicit L') with (resize (implicit L) (length (text L ++ t) + 1)). rewrite bit_resize. intros Hb.
      pose proof (g_bits _ G p Hb) as H. destruct (Hf p H) as [-> ?]. assumption.
    + intros v Hv. pose proof (g_names _ G v Hv) as H. revert H. unfold valid. cbn. destruct v; [|auto].
      rewrite !Nat.leb_le, app_length. lia.
    + intros k ds d Hk Hd. pose proof (g_vvc _ G _ _ _ Hk Hd) as H. destruct d as [p|e]; [|exact H].
      destruct H as [H1 [H2 H3]]. destruct (Hf p H3) as [E ?]. split; [assumption|]. rewrite E. now split.
  - intros _. split; try apply (grows_refl L).
    + exists t. reflexivity.
    + intros p Hb _. left. change (implicit L') with (resize (implicit L) (length (text L ++ t) + 1)). now rewrite bit_resize.
Qed.

Lemma add_loose_spec L L' r : good L -> add_loose_vertex L = (L', r) ->
  good L' /\ grows L L' /\ r = Ok (Loose (n_loose L)) /\ text L' = text L /\ edges L' = edges L /\ implicit L' = implicit L /\
  n_loose L' = S (n_loose L) /\ tags L' = tags L.
Proof.
  intros G [= <- <-]. set (L' := set_loose _ _).
  assert (Hnew : ~ In (Loose (n_loose L)) (names_of L)).
  { intros H. apply (g_names _ G) in H. cbn in H. apply Nat.ltb_lt in H. lia. }
  assert (Hv : forall v, valid L v = true -> valid L' v = true).
  { intros [p|k]; unfold valid; [auto|]. change (n_loose L') with (S (n_loose L)). rewrite !Nat.ltb_lt. lia. }
  assert (En : names_of L' = names_of L ++ [Loose (n_loose L)]) by (unfold names_of; cbn; now rewrite map_app).
  split; [|split; [|now repeat split]].
  - split; try apply G.
    + rewrite En. apply (Permutation.Permutation_NoDup (Permutation.Permutation_cons_append _ _)). constructor; [assumption|apply G].
    + intros v. rewrite En, in_app_iff. intros [H|[<-|[]]]; [apply Hv, (g_names _ G), H|]. apply Nat.ltb_lt. apply Nat.lt_succ_diag_r.
    + intros k Hk. rewrite En, in_app_iff. cbn in Hk. destruct (Nat.eq_dec k (n_loose L)) as [->|]; [right; now left|].
      left. apply (g_loose _ G). lia.
    + intros e ed He. destruct (g_edges _ G e ed He) as [H1 [H2 H3]]. rewrite En, !in_app_iff. auto.
    + intros n. cbn. rewrite in_app_iff. intros [H|[<-|[]]]; [apply (g_sizes _ G _ H)|]. cbn. unfold no_index. rewrite repeat_length. auto.
    + intros n i m. cbn [nodes L' set_loose set_nodes]. rewrite in_app_iff. intros [H|[<-|[]]] Hm; [apply (g_index _ G _ _ _ H Hm)|].
      cbn [n_out n_in n_name]. rewrite !nth_no_index.
      change (graph_out L' (Loose (n_loose L))) with (graph_out L (Loose (n_loose L))).
      change (graph_in L' (Loose (n_loose L))) with (graph_in L (Loose (n_loose L))).
      rewrite graph_out_foreign, graph_in_foreign by assumption. split; apply picked_nil.
  - split; try apply (grows_refl L).
    + cbn. lia.
    + rewrite En. intros v Hv'. apply in_or_app. now left.
Qed.

Lemma run_snoc cs : forall m m' c, M_Tags.run m cs = Some m' -> M_Tags.run m (cs ++ [c]) = M_Tags.step m' c.
Proof.
  induction cs as [|x cs IH]; intros m m' c; cbn.
  - intros [= <-]. now destruct (M_Tags.step m c).
  - destruct (M_Tags.step m x) as [m1|]; [|discriminate]. apply IH.
Qed.
Lemma tag_call_safe c : safe (tag_call c).
Proof.
  intros L L' r G [= <- <-] _. destruct (M_Tags.step (tags L) c) as [m|] eqn:E; [|split; [assumption|intros; apply grows_refl]].
  set (L' := set_tags m L).
  destruct (g_tags _ G) as [cs Hcs].
  assert (Hr : P_Tags.reachable m) by (exists (cs ++ [c]); rewrite (run_snoc _ _ _ _ Hcs); exact E).
  destruct (P_Tags.step_ok _ _ _ (reachable_ok _ G) E) as [Hok Hl].
  split; [|intros _; split; try apply (grows_refl L); exact Hl].
  split; try apply G.
  - intros k ds a b Hk Ha Hb Hab. pose proof (g_planes _ G k ds a b Hk Ha Hb Hab) as H.
    change (tags L') with m. change (edge_tags L') with (edge_tags L).
    pose proof (edge_tags_proper _ (Explicit a) G). pose proof (edge_tags_proper _ (Explicit b) G).
    rewrite (same_plane_later _ _ _ _ Hok Hl) by assumption. rewrite !(planes_later (tags L) m) by assumption. exact H.
  - intros e ed He. apply (proper_later (tags L)); [exact Hl|]. apply (g_proper _ G _ _ He).
  - exact Hr.
  - apply (P_Tags.nth_error_later _ _ _ _ Hl). apply (g_discarded _ G).
Qed.

Lemma add_edge_known from to it t s sc rule choice L L' r : good L -> proper (tags L) t ->
  add_edge from to it t s sc rule choice L = (L', r) -> r <> Undefined -> good L' /\ (r <> Throw NotUtf8 -> grows L L').
Proof. intros G H E Hr. destruct (add_edge_spec _ _ _ _ _ _ _ _ _ _ _ G H E Hr) as [A [B _]]. auto. Qed.
Lemma add_symbols_loop_safe n : forall p rest, safe (add_symbols_loop n p rest).
Proof.
  induction n as [|n IH]; intros p [|x rest]; try (apply query_safe, query_ret).
  - intros L L' r _ [= <- <-] H. now destruct H.
  - change (safe (match next (x :: rest) with
      | None => throw NotUtf8
      | Some (cp, rest') =>
          match append cp with
          | None => throw NotUtf8
          | Some s =>
              do _ <- add_edge (Text p) (Text (p + length s)) (M_Items.new_item (39%Z :: s) []) symbol_tag
                               empty_sequence 0%Z (-1) (-1);
              add_symbols_loop n (p + length s) rest'
          end
      end)).
    destruct (next (x :: rest)) as [[cp rest']|]; [|apply query_safe, query_throw].
    destruct (append cp) as [s|]; [|apply query_safe, query_throw].
    apply safe_bind; [|intros; apply IH]. intros L L' r G E Hr. eapply add_edge_known; try eassumption. now apply symbol_proper.
Qed.
Lemma add_symbols_safe a b : safe (add_symbols a b).
Proof.
  destruct a as [p|], b as [q|]; try (apply query_safe, query_throw). unfold add_symbols. intros L L' r G.
  destruct ((p <=? q) && (q <=? length (text L))).
  - now apply add_symbols_loop_safe.
  - intros [= <- <-] H. now destruct H.
Qed.
Lemma add_partition_spec d t s sc rule choice L L' r : good L -> proper (tags L) t ->
  add_partition_to_edge d t s sc rule choice L = (L', r) -> r <> Undefined -> good L' /\ (r <> Throw NotUtf8 -> grows L L').
Proof.
  intros G H. unfold add_partition_to_edge, bind, ask.
  destruct (source L d) as [from|x|]; [|intros [= <- <-] _; split; [assumption|intros; apply grows_refl]|intros [= <- <-] K; now destruct K].
  destruct (target L d) as [to|x|]; [|intros [= <- <-] _; split; [assumption|intros; apply grows_refl]|intros [= <- <-] K; now destruct K].
  destruct (annotation_item L d) as [it|x|]; [|intros [= <- <-] _; split; [assumption|intros; apply grows_refl]|intros [= <- <-] K; now destruct K].
  apply add_edge_known; [assumption|]. apply proper_union; [assumption|]. now apply proper_planes, edge_tags_proper.
Qed.

Lemma drop_safe {A} (m : act A) L L' r : drop m L = (L', r) -> r <> Undefined ->
  exists r', m L = (L', r') /\ r' <> Undefined /\ (r <> Throw NotUtf8 -> r' <> Throw NotUtf8).
Proof.
  unfold drop, bind. destruct (m L) as [L1 [a|e|]]; cbn; intros [= <- <-] H; [| |now destruct H]; (eexists; split; [reflexivity|]);
    split; try discriminate; congruence.
Qed.
Lemma exec_good o L L' r : good L -> allowed L o -> exec o L = (L', r) -> r <> Undefined ->
  good L' /\ (r <> Throw NotUtf8 -> grows L L').
Proof.
  intros G Ha E Hr.
  assert (S : forall A (m : act A), safe m -> drop m L = (L', r) -> good L' /\ (r <> Throw NotUtf8 -> grows L L')).
  { intros A m Hm Em. destruct (drop_safe m L L' r Em Hr) as [r' [E' [H1 H2]]].
    destruct (Hm _ _ _ G E' H1) as [K1 K2]. auto. }
  destruct o; cbn [exec allowed] in *.
  - now apply (append_string_safe t _ _ _ G E).
  - now apply (add_symbols_safe a b _ _ _ G E).
  - revert E. apply S. intros L1 L2 r' G1 E' _. destruct (add_loose_spec _ _ _ G1 E') as [K1 [K2 _]]. auto.
  - destruct (drop_safe _ L L' r E Hr) as [r' [E' [H1 H2]]].
    destruct (add_edge_known _ _ _ _ _ _ _ _ _ _ _ G (known_proper _ _ Ha) E' H1) as [K1 K2]. auto.
  - destruct (drop_safe _ L L' r E Hr) as [r' [E' [H1 H2]]].
    destruct (add_partition_spec _ _ _ _ _ _ _ _ _ G (known_proper _ _ Ha) E' H1) as [K1 K2]. auto.
  - destruct (drop_safe _ L L' r E Hr) as [r' [E' [H1 H2]]].
    destruct (add_partition_spec _ _ _ _ _ _ _ _ _ G (discarded_proper _ G) E' H1) as [K1 K2]. auto.
  - revert E. apply S. now apply query_safe, out_edges_query.
  - revert E. apply S. now apply query_safe, in_edges_query.
  - revert E. apply S. now apply query_safe, first_out_query.
  - revert E. apply S. now apply query_safe, first_in_query.
  - revert E. apply S. apply query_safe, usages_query.
  - now apply (tag_call_safe c _ _ _ G E).
Qed.
Lemma reach_good L L' : good L -> reach defined L L' -> good L'.
Proof.
  intros G H. induction H as [|L1 L2 L3 o r H IH Ha E Hr]; [assumption|]. now destruct (exec_good _ _ _ _ (IH G) Ha E Hr).
Qed.
Lemma program_good L : lattice_of_program L -> good L.
Proof. apply reach_good, new_lattice_good. Qed.

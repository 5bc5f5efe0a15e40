(** C31: the multi-store. *)
From Coq Require Import List ZArith Bool Sorted Permutation Lia PeanoNat.
From Verif Require Import M_BinFsa L_BinFsa L_Daciuk L_HashFsa M_MultiStore.
From Verif Require Import M_OrdSet L_OrdSet M_Fsa S_Fsa L_Fsa L_FsaTraverse L_FsaLang L_FsaOps L_FsaMin L_FsaInter L_MultiStore P_BinFsa.
Import ListNotations.
Local Open Scope nat_scope.

(** Bytes 255 and 254 are the automaton's own signs for "no symbol" and "any symbol"; they do not
    occur in UTF-8. *)
Definition plain (w : list symbol) : Prop := forall a, In a w -> a <> EPS /\ a <> ANY.
(** What the store should answer: the values behind the key, in order and once each. *)
Definition answers (lines : list (list symbol)) (key : list symbol) (vals : list (list symbol)) : Prop :=
  StronglySorted (fun u v => str_ltb u v = true) vals /\
  forall v, In v vals <-> v <> [] /\ In (key ++ [TAB] ++ v) lines /\ length (key ++ [TAB] ++ v) <= max_depth.

Lemma word_eqb_refl u : word_eqb u u = true.
Proof. induction u as [|a u IH]; cbn; [reflexivity|]. now rewrite Z.eqb_refl. Qed.
Lemma truncate_key key v : truncate key (key ++ [TAB] ++ v) = v.
Proof.
  unfold truncate. rewrite app_assoc. set (u := key ++ [TAB]). rewrite firstn_app, Nat.sub_diag, firstn_O, app_nil_r, firstn_all, word_eqb_refl.
  rewrite skipn_app, Nat.sub_diag, skipn_all. reflexivity.
Qed.
Section Store.
Context (A : auto) (b : bin) (R : list nat) (Rp : rep A b) (V : L_Daciuk.inv A R [] []) (ws : list (list symbol)).
Context (Hacc : forall v, acc A 0 v = true <-> In v ws) (Hpl : forall w, In w ws -> plain w).
Lemma st_size : v_size (b_view b) = length A.
Proof. cbn. now apply rep_size. Qed.
Lemma st_zero : 0 < length A.
Proof. apply (in_states _ _ _ _ _ V). right. now left. Qed.
Lemma st_arcs p : v_arcs (b_view b) p = a_arcs A p.
Proof. cbn. now apply rep_arcs. Qed.
Lemma st_live p : p < length A -> forall x, In x (a_arcs A p) -> exists v, acc A (snd x) v = true.
Proof.
  intros Hp x Hx. pose proof (dests _ _ _ _ V p x Hx) as L. apply (in_states _ _ _ _ _ V) in L as [L|[E|[]]]; [now apply (v_live _ _ _ _ V)|].
  exfalso. apply (in_states _ _ _ _ _ V) in Hp as [Hp|[<-|[]]].
  - pose proof (proj1 (v_reg _ _ _ _ V p Hp x Hx)) as K. rewrite <- E in K. pose proof (v_all _ _ _ _ V) as Pm.
    assert (Nd : NoDup (R ++ [0])) by (apply (Permutation_NoDup (Permutation_sym Pm)), seq_NoDup). apply NoDup_remove_2 in Nd. apply Nd. now rewrite app_nil_r.
  - pose proof (v_last _ _ _ _ V x Hx) as K. rewrite <- E in K. pose proof (v_all _ _ _ _ V) as Pm.
    assert (Nd : NoDup (R ++ [0])) by (apply (Permutation_NoDup (Permutation_sym Pm)), seq_NoDup). apply NoDup_remove_2 in Nd. apply Nd. now rewrite app_nil_r.
Qed.
Lemma st_walk p : p < length A -> exists u, walk A 0 u = Some p.
Proof. intros Hp. apply (in_states _ _ _ _ _ V) in Hp as [Hp|[<-|[]]]; [now apply (v_reach _ _ _ _ V)|now exists []]. Qed.
Lemma st_plain p a q : v_step (b_view b) p a q -> a <> EPS /\ a <> ANY.
Proof.
  unfold v_step. rewrite st_arcs. intros Hx. assert (Hp : p < length A).
  { destruct (Nat.lt_ge_cases p (length A)) as [L|L]; [assumption|]. unfold a_arcs in Hx. rewrite nth_overflow in Hx by assumption. destruct Hx. }
  destruct (st_walk p Hp) as (u & Hu). destruct (st_live p Hp (a, q) Hx) as (v & Hv). cbn [snd] in Hv.
  apply (Hpl (u ++ a :: v)); [|apply in_app_iff; right; now left]. apply Hacc. rewrite acc_app, Hu, acc_cons.
  now rewrite (look_some _ _ _ (v_inc _ _ _ _ V p) Hx).
Qed.
Lemma st_wf : v_wf (b_view b).
Proof.
  constructor.
  - intros p x Hx. rewrite st_arcs in Hx. rewrite st_size. split; [|now apply (dests _ _ _ _ V p)].
    destruct (Nat.lt_ge_cases p (length A)) as [L|L]; [assumption|]. unfold a_arcs in Hx. rewrite nth_overflow in Hx by assumption. destruct Hx.
  - intros p [<-|[]]. rewrite st_size. exact st_zero.
  - intros p Hp. cbn in Hp. apply filter_In in Hp as [Hp _]. apply in_seq in Hp. exact (proj2 Hp).
  - repeat constructor.
  - cbn. apply increasing_filter. generalize 0 at 1. generalize (b_size b). intros n. induction n as [|n IH]; intros s; cbn [seq]; constructor; [apply IH|].
    apply Forall_forall. intros y Hy. apply in_seq in Hy. apply Nat.ltb_lt. lia.
  - intros p. cbn. rewrite Nat.eqb_eq. intuition.
  - intros p. cbn [b_view v_is_end v_ends]. rewrite filter_In, in_seq. split; [|tauto]. intros E. split; [|assumption].
    split; [lia|]. cbn. destruct (Nat.lt_ge_cases p (b_size b)) as [L|L]; [assumption|]. unfold b_is_end, b_state in E. rewrite nth_overflow in E by exact L. discriminate.
Qed.
Lemma st_path : forall u p, p < length A -> ((exists e, path EPS (v_step (b_view b)) p u e /\ v_is_end (b_view b) e = true) <-> acc A p u = true).
Proof.
  assert (F : free (b_view b)) by (intros p q K; now apply st_plain in K).
  induction u as [|a u IH]; intros p Hp.
  - unfold acc. cbn [walk]. rewrite <- (rep_end A b Rp p Hp). split; [intros (e & K & E); apply (path_free _ _ F) in K; subst; exact E|].
    intros E. exists p. split; [constructor|exact E].
  - rewrite acc_cons. split.
    + intros (e & K & E). apply (path_free _ _ F) in K as (q & K1 & K2). unfold v_step in K1. rewrite st_arcs in K1.
      rewrite (look_some _ _ _ (v_inc _ _ _ _ V p) K1). apply IH; [exact (dests _ _ _ _ V p _ K1)|]. now exists e.
    + destruct (look (a_arcs A p) a) as [q|] eqn:El; [|discriminate]. apply look_in in El. intros K. apply IH in K as (e & K1 & K2); [|exact (dests _ _ _ _ V p _ El)].
      exists e. split; [|assumption]. assert (Hs : v_step (b_view b) p a q) by (unfold v_step; rewrite st_arcs; exact El).
      apply (path_cons _ _ p a q); [now apply st_plain in Hs|exact Hs|exact K1].
Qed.
End Store.

Theorem C31_get_returns_the_values : forall lines key, (forall l, In l lines -> plain l) -> plain key ->
  (exists l, In l lines /\ l <> []) -> (Z.of_nat (length (List.concat lines)) < 2 ^ 31)%Z ->
  exists b vals, create lines = Some b /\ get b key = Some vals /\ answers lines key vals.
Proof.
  intros lines key Hl Hk Hn Sm. unfold create. pose proof (sort_words_perm lines) as Pm.
  assert (Ss : sorted_words (sort_words lines)) by exact (sort_words_sorted lines).
  destruct (minimise_spec (sort_words lines) (sorted_ascending _ Ss)) as (A & b & R & E & Rp & V & Hc).
  { apply sorted_last; [assumption|]. destruct Hn as (l & H1 & H2). exists l. split; [now apply (Permutation_in _ (Permutation_sym Pm))|assumption]. }
  { unfold small, TOP. replace (length (List.concat (sort_words lines))) with (length (List.concat lines)); [exact Sm|].
    clear -Pm. induction Pm as [|x l l' P IH|x y l|l l' l'' P1 IH1 P2 IH2]; cbn [List.concat]; rewrite ?app_length; lia. }
  assert (Hp : forall w, In w (sort_words lines) -> plain w) by (intros w Hw; apply Hl; now apply (Permutation_in _ Pm)).
  rewrite E. unfold get. rewrite suffix_eq. cbn [bind].
  destruct (query_spec key) as (Q & m0 & m1 & m2 & m3 & EQ & HQ). rewrite EQ. cbn [bind].
  destruct (found_spec key Q m0 m1 m2 m3 HQ Hk (b_view b)) as (g & Eg & Hs & Hg).
  - now apply (st_wf A b R).
  - intros p q K. now apply (st_plain A b R Rp V _ Hc Hp) in K.
  - intros p q K. now apply (st_plain A b R Rp V _ Hc Hp) in K.
  - rewrite (st_size A b Rp). now apply (st_zero A R).
  - intros p a q q'. unfold v_step. rewrite !(st_arcs A b Rp). apply inc_fun, (v_inc _ _ _ _ V).
  - exists b. eexists. split; [reflexivity|]. split; [cbn [v_size b_view] in Eg; rewrite Eg; reflexivity|].
    set (L := language (n_view g) max_depth) in *. clearbody L.
    assert (Fd : forall u, found key (b_view b) u <-> exists w, w <> [] /\ u = key ++ [TAB] ++ w /\ In u lines).
    { intros u. unfold found. split; intros (w & K1 & K2 & K3); exists w; (split; [assumption|]; split; [assumption|]).
      - apply (st_path A b R Rp V _ Hc Hp u 0 (st_zero A R V)) in K3. apply Hc in K3. now apply (Permutation_in _ Pm).
      - apply (st_path A b R Rp V _ Hc Hp u 0 (st_zero A R V)). apply Hc. now apply (Permutation_in _ (Permutation_sym Pm)). }
    assert (Pre : forall u, In u L -> exists w, u = key ++ [TAB] ++ w) by (intros u Hu; apply Hg in Hu as [Hu _]; apply Fd in Hu as (w & _ & K & _); now exists w).
    split.
    + clear -Hs Pre. unfold increasing in Hs. induction Hs as [|u L Hs IH Hu]; cbn [map]; constructor; [apply IH; intros v Hv; apply Pre; now right|].
      rewrite Forall_forall in *. intros y Hy. apply in_map_iff in Hy as (u' & <- & Hu'). destruct (Pre u (or_introl eq_refl)) as (w & ->).
      destruct (Pre u' (or_intror Hu')) as (w' & ->). rewrite !truncate_key. specialize (Hu _ Hu'). rewrite !app_assoc, str_prefix in Hu. exact Hu.
    + intros v. rewrite in_map_iff. split.
      * intros (u & <- & Hu). apply Hg in Hu as [Hu Lu]. apply Fd in Hu as (w & K1 & -> & K3). rewrite truncate_key. auto.
      * intros (K1 & K2 & K3). exists (key ++ [TAB] ++ v). split; [apply truncate_key|]. apply Hg. split; [|assumption]. apply Fd. now exists v.
Qed.
Print Assumptions C31_get_returns_the_values.

(** Example: three values for the key "a", one of them stored twice, and one for the key "ab". *)
Definition store_ex : list (list symbol) := [[97; 98; 9; 120]; [97; 9; 122; 9; 49]; [97; 9; 120; 121]; [97; 9; 120]; [97; 9; 120]]%Z.
Example C31_example : (forall l, In l store_ex -> plain l) /\ plain [97]%Z /\
  bind (create store_ex) (fun b => get b [97]%Z) = Some [[120]; [120; 121]; [122; 9; 49]]%Z /\
  bind (create store_ex) (fun b => get b [97; 98]%Z) = Some [[120]]%Z /\ bind (create store_ex) (fun b => get b [98]%Z) = Some [].
Proof.
  split; [|split; [|vm_compute; tauto]].
  - intros l Hl a Ha. cbn in Hl. decompose [or] Hl; subst; cbn in Ha; decompose [or] Ha; subst; easy.
  - intros a [<-|[]]. easy.
Qed.
(** An empty value is not found: the query asks for at least one symbol behind the separator. *)
Theorem C31_empty_value_refuted : exists lines key, In (key ++ [TAB]) lines /\ bind (create lines) (fun b => get b key) = Some [].
Proof. exists [[97; 9]]%Z, [97]%Z. split; [now left|]. vm_compute. reflexivity. Qed.
Print Assumptions C31_empty_value_refuted.
(** A byte 254 in a stored key stands for any byte of the key asked for, and the answer is then the
    value, stored under another key. *)
Theorem C31_any_byte_refuted : exists lines key v, (forall u, ~ In (key ++ [TAB] ++ u) lines) /\ bind (create lines) (fun b => get b key) = Some [v].
Proof.
  exists [[254; 9; 120]]%Z, [97]%Z, [120]%Z. split; [|vm_compute; reflexivity]. intros u [K|[]]. discriminate.
Qed.
Print Assumptions C31_any_byte_refuted.

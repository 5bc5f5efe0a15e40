(** C66: the automata that are built while translating: their reversal, determinization, minimization and union. *)
From Coq Require Import List ZArith NArith Bool Sorted Permutation Lia PeanoNat.
From Verif Require Import M_Fsa L_Fsa M_BinFsa M_HashFsa M_Minfsa P_BinFsa L_FsaMin M_Dag M_SimpleDag S_SimpleDag L_SimpleDag L_SimpleCopy L_SimpleDet L_SimpleFind.
Import ListNotations.
Local Open Scope nat_scope.

(** ** Reversal: the words are read backwards *)
Theorem C66_reverse asort d : sorts asort -> whole d ->
  whole (reverse asort d) /\ ordered (reverse asort d) /\ s_size (reverse asort d) = s_size d /\
  (forall p w q, leads (reverse asort d) p w q <-> leads d q (rev w) p) /\
  (forall w, words (reverse asort d) w <-> words d (rev w)).
Proof.
  intros H W. destruct (reverse_spec asort H d W) as (E1 & E2 & E3 & _). split; [assumption|]. split; [assumption|]. split; [assumption|].
  split; [now apply reverse_leads|now apply reverse_words].
Qed.
Print Assumptions C66_reverse.

(** ** Determinization *)
Theorem C66_determinize asort d : sorts asort -> whole d ->
  (forall fuel, 2 ^ s_size d < fuel -> exists g, determinize asort fuel d = Some g) /\
  forall fuel g, determinize asort fuel d = Some g ->
    whole g /\ deterministic g /\ s_size g <= 2 ^ s_size d /\
    (forall s, s < s_size g -> exists w, leads g 0 w s) /\ (forall w, words g w <-> words d w).
Proof.
  intros H W. split; [intros fuel; now apply determinize_ends|]. intros fuel g E. destruct (determinize_spec asort H d W fuel g E) as (m & D).
  destruct (det_whole d g m D) as [D1 D2]. split; [assumption|]. split; [assumption|]. split; [now apply (det_size d W g m)|].
  split; [apply (det_reach d g m D)|apply (det_words d g m D)].
Qed.
Print Assumptions C66_determinize.

(** ** Minimization: no deterministic automaton for these words has fewer states *)
Theorem C66_minimize asort d : sorts asort -> whole d ->
  (forall fuel, 2 ^ (2 ^ s_size d) < fuel -> exists g, minimize asort fuel d = Some g) /\
  forall fuel g, minimize asort fuel d = Some g ->
    whole g /\ deterministic g /\ (forall w, words g w <-> words d w) /\
    (forall T (m : machine T) (l : list T), In (m_start m) l -> (forall s a t, In s l -> m_next m s a = Some t -> In t l) ->
       (forall w, m_run m (m_start m) w = true <-> words d w) -> s_size g <= length l).
Proof.
  intros H W. split; [intros fuel; now apply minimize_ends|]. intros fuel g E.
  destruct (minimize_spec asort H d W fuel g E) as (M1 & M2 & M3 & M4 & M5 & M6). split; [assumption|]. split; [assumption|]. split; [assumption|].
  intros T m l I0 Cl R. set (run := fix run (s : T) (w : list Z) : option T := match w with [] => Some s | a :: w' => match m_next m s a with Some t => run t w' | None => None end end).
  assert (Run : forall w v s, m_run m s (w ++ v) = match run s w with Some t => m_run m t v | None => false end).
  { induction w as [|a w IH]; intros v s; [reflexivity|]. cbn [app m_run run]. destruct (m_next m s a) as [t|]; [apply IH|reflexivity]. }
  assert (Stay : forall w s t, In s l -> run s w = Some t -> In t l).
  { induction w as [|a w IH]; intros s t Hs; cbn [run]; [congruence|]. destruct (m_next m s a) as [t'|] eqn:En; [|discriminate].
    apply IH. now apply (Cl s a). }
  assert (Wacc : forall w v s, leads g 0 w s -> (words d (w ++ v) <-> accepts g s v)).
  { intros w v s L. rewrite <- M3. split.
    - intros (p & q & H1 & H2 & H3). apply M2 in H1 as ->. apply leads_split in H2 as (s' & L1 & L2).
      rewrite (leads_once g 0 w s s' (strict_distinct g (proj2 M2)) L L1). now exists q.
    - intros (q & L' & Hq). exists 0, q. split; [now apply M2|]. split; [now apply (leads_app _ _ _ s)|assumption]. }
  rewrite <- (seq_length (s_size g) 0).
  apply (inject (fun s t => s < s_size g /\ exists w, leads g 0 w s /\ run (m_start m) w = Some t)).
  - intros s s' t (Ls & w & L & Rw) (Ls' & w' & L' & Rw'). apply M6; [assumption..|]. intros v.
    rewrite <- (Wacc w v s L), <- (Wacc w' v s' L'), <- R, <- R, !Run, Rw, Rw'. reflexivity.
  - apply seq_NoDup.
  - intros s Hs. apply in_seq in Hs. assert (Ls : s < s_size g) by lia. destruct (M5 s Ls) as [->|(v & Hv)].
    + exists (m_start m). split; [assumption|]. split; [assumption|]. exists []. split; [constructor|reflexivity].
    + destruct (M4 s Ls) as (w & L). apply (Wacc w v s L), R in Hv. rewrite Run in Hv. destruct (run (m_start m) w) as [t|] eqn:Et; [|discriminate].
      exists t. split; [now apply (Stay w (m_start m))|]. split; [assumption|]. now exists w.
Qed.
Print Assumptions C66_minimize.

(** ** Union *)
Theorem C66_union asort d e : sorts asort -> whole d -> whole e ->
  whole (nd_union asort d e) /\ (ordered d -> ordered (nd_union asort d e)) /\
  (forall w, words (nd_union asort d e) w <-> words d w \/ words e w) /\
  forall fuel g, det_union asort fuel d e = Some g -> deterministic g /\ forall w, words g w <-> words d w \/ words e w.
Proof.
  intros H Wd We. destruct (union_whole asort H d e Wd We) as [U1 U2]. split; [assumption|]. split; [assumption|].
  split; [intros w; now apply union_words|]. intros fuel g E. destruct (minimize_spec asort H _ U1 fuel g E) as (_ & M2 & M3 & _).
  split; [assumption|]. intros w. rewrite M3. now apply union_words.
Qed.
Print Assumptions C66_union.

(** ** Membership *)
Theorem C66_in d w : deterministic d ->
  (s_in d w = true <-> words d (map u32 w)) /\ (s_prefix d w = true <-> exists q, leads d 0 (map u32 w) q).
Proof.
  intros [D1 D2]. split; [|now apply prefix_from_leads]. unfold s_in. rewrite in_from_leads by assumption. split.
  - intros (q & L & E). exists 0, q. split; [now apply D1|]. now split.
  - intros (p & q & Hp & L & E). apply D1 in Hp as ->. now exists q.
Qed.
Print Assumptions C66_in.

(** ** Building: a new state changes no words, a new arc goes where it is put *)
Theorem C66_build asort d : sorts asort -> whole d -> ordered d ->
  (forall b, whole (new_state b d) /\ ordered (new_state b d) /\
     (forall p w q, leads (new_state b d) p w q <-> leads d p w q) /\
     (forall p, start_of (new_state b d) p <-> start_of d p \/ (b = true /\ p = s_size d))) /\
  (forall p q a v, p < s_size d -> q < s_size d -> whole (new_arc asort p q a v d) /\ ordered (new_arc asort p q a v d) /\
     forall r x, In x (s_row (new_arc asort p q a v d) r) <-> In x (s_row d r) \/ (r = p /\ x = Warc a q v)).
Proof.
  intros H W O. split.
  - intros b. split; [|split; [now apply new_state_ordered|]].
    + destruct W as (W1 & W2 & W3). split; [|split].
      * intros p a q v Hx. rewrite new_state_row in Hx. rewrite new_state_size. apply W1 in Hx. lia.
      * intros p Hp. rewrite new_state_size. destruct b; [|apply W2 in Hp; lia].
        rewrite new_state_start in Hp. apply start_of_bit in Hp as [Hp|Hp]; [lia|]. apply W2 in Hp. lia.
      * intros p Hp. rewrite new_state_ends in Hp. rewrite new_state_size. apply W3 in Hp. lia.
    + split.
      * intros p w q. split; intros L; induction L as [|p a q v w r Hx _ IH]; try constructor; (econstructor; [|exact IH]); [rewrite new_state_row in Hx|rewrite new_state_row]; eassumption.
      * intros p. destruct b.
        -- rewrite new_state_start, start_of_bit. change (start_of (new_state false d) p) with (start_of d p). intuition congruence.
        -- change (start_of (new_state false d) p) with (start_of d p). intuition congruence.
  - intros p q a v Lp Lq. destruct W as (W1 & W2 & W3).
    assert (X : forall r x, In x (s_row (new_arc asort p q a v d) r) <-> In x (s_row d r) \/ (r = p /\ x = Warc a q v)).
    { intros r x. rewrite (Permutation_in' eq_refl (new_arc_row asort H p q a v d r Lp)), in_app_iff. apply or_iff_compat_l.
      destruct (Nat.eqb_spec r p); cbn; intuition congruence. }
    split; [|split; [now apply new_arc_ordered|exact X]]. split; [|split].
    + intros r b s u Hx. rewrite new_arc_size. apply X in Hx as [Hx|[_ Hx]]; [now apply W1 in Hx|]. inversion Hx; now subst.
    + intros r Hr. rewrite new_arc_size. now apply W2.
    + intros r Hr. rewrite new_arc_size. now apply W3.
Qed.
Print Assumptions C66_build.

(** ** Examples *)
(** Sorting by insertion, after arcs with the same symbol. *)
Fixpoint insert_arc (x : warc) (l : list warc) : list warc :=
  match l with
  | [] => [x]
  | y :: l' => if (x_sym x <? x_sym y)%Z then x :: l else y :: insert_arc x l'
  end.
Definition arc_sort (l : list warc) : list warc := fold_left (fun r x => insert_arc x r) l [].
Lemma insert_perm x l : Permutation (insert_arc x l) (x :: l).
Proof.
  induction l as [|y l IH]; cbn [insert_arc]; [reflexivity|]. destruct (x_sym x <? x_sym y)%Z; [reflexivity|].
  eapply Permutation_trans; [apply perm_skip, IH|apply perm_swap].
Qed.
Lemma arc_sort_sorts : sorts arc_sort.
Proof.
  intros l. unfold arc_sort. induction l as [|x l [IH1 IH2]] using rev_ind; [split; constructor|]. rewrite fold_left_app. cbn [fold_left].
  set (r := fold_left (fun r x => insert_arc x r) l []) in *. split.
  - eapply Permutation_trans; [apply insert_perm|]. eapply Permutation_trans; [apply perm_skip, IH1|]. apply Permutation_cons_append.
  - clear IH1. clearbody r. induction IH2 as [|y r H IH F]; cbn [insert_arc]; [repeat constructor|].
    destruct (Z.ltb_spec (x_sym x) (x_sym y)) as [L|L].
    + constructor; [now constructor|]. constructor; [lia|]. eapply Forall_impl; [|exact F]. cbn. lia.
    + constructor; [assumption|]. apply Forall_forall. intros z Hz. apply (Permutation_in _ (insert_perm x r)) in Hz as [<-|Hz]; [lia|].
      rewrite Forall_forall in F. now apply F.
Qed.
(** Two automata, for 7 8 and 7 9 and for 6 8, 6 9 and 7 8 8. *)
Definition chain (ws : list (list Z)) : sdag :=
  fold_left (fun d w =>
    let d := new_state true d in
    let '(d, _) := fold_left (fun x a => let '(d, p) := x in let q := s_size d in (new_arc arc_sort p q a 0 (new_state false d), q)) w (d, s_size d - 1) in
    s_set_end (s_size d - 1) d) ws s_empty.
Definition one : sdag := chain [[7; 8]; [7; 9]]%Z.
Definition two : sdag := chain [[6; 8]; [6; 9]; [7; 8; 8]]%Z.
(** Deciding that nothing points outside. *)
Definition whole_b (d : sdag) : bool :=
  forallb (forallb (fun x => x_dest x <? s_size d)) (s_rows d) && (s_starts d <? 2 ^ N.of_nat (s_size d))%N && forallb (fun p => p <? s_size d) (s_ends d).
Lemma whole_dec d : whole_b d = true -> whole d.
Proof.
  unfold whole_b. rewrite !andb_true_iff, !forallb_forall. intros [[H1 H2] H3]. split; [|split].
  - intros p a q v H. pose proof (row_inside _ _ _ H) as L. unfold s_row in H. specialize (H1 _ (nth_In _ [] L)). rewrite forallb_forall in H1.
    specialize (H1 _ H). now apply Nat.ltb_lt in H1.
  - intros p H. unfold start_of in H. apply N.ltb_lt in H2. destruct (Nat.lt_ge_cases p (s_size d)) as [L|L]; [assumption|]. exfalso.
    destruct (N.eq_dec (s_starts d) 0) as [E|E]; [rewrite E, N.bits_0 in H; discriminate|].
    assert (N.log2 (s_starts d) < N.of_nat p)%N by (apply N.log2_lt_pow2 in H2; [lia|now apply N.neq_0_lt_0]).
    rewrite N.bits_above_log2 in H by assumption. discriminate.
  - intros p H. specialize (H3 _ H). now apply Nat.ltb_lt in H3.
Qed.
Example C66_some : whole one /\ whole two /\ s_size (nd_union arc_sort one two) = 16 /\
  (exists g, det_union arc_sort 100 one two = Some g /\ deterministic g /\ s_size g = 5 /\
    map (s_in g) [[7; 8]; [7; 9]; [6; 8]; [6; 9]; [7; 8; 8]; [7]; [6; 8; 8]; []]%Z = [true; true; true; true; true; false; false; false]) /\
  words (reverse arc_sort one) [9; 7]%Z /\ ~ deterministic one.
Proof.
  assert (W1 : whole one) by (apply whole_dec; vm_compute; reflexivity).
  assert (W2 : whole two) by (apply whole_dec; vm_compute; reflexivity).
  split; [assumption|]. split; [assumption|]. split; [vm_compute; reflexivity|]. split.
  - destruct (det_union arc_sort 100 one two) as [g|] eqn:E; [|vm_compute in E; discriminate]. exists g. split; [reflexivity|].
    split; [now apply (C66_union arc_sort one two arc_sort_sorts W1 W2) in E|].
    vm_compute in E. injection E as <-. split; vm_compute; reflexivity.
  - split.
    + apply (C66_reverse arc_sort one arc_sort_sorts W1). exists 3, 5. split; [vm_compute; reflexivity|].
      split; [|vm_compute; now left]. apply (leads_arc _ _ 7%Z 4 0%Z); [vm_compute; now left|]. apply (leads_arc _ _ 9%Z 5 0%Z); [vm_compute; now left|constructor].
    + intros [D _]. specialize (D 3). vm_compute in D. destruct D as [D _]. now specialize (D eq_refl).
Qed.

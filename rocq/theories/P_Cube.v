(** C72: merging the translations of hyperedges. *)
From Coq Require Import List ZArith Bool PeanoNat Lia Permutation Sorted.
From Verif Require Import M_Cube S_Cube L_Cube.
Import ListNotations.
Local Open Scope nat_scope.

Section Loop.
Context {T R : Type} (build : T -> list R -> R) (cost : R -> Z).
Context (find : list R -> R -> option R) (add : list R -> R -> list R) (lt : R -> R -> Prop).
Context (SL : set_like lt find add).
Notation cand := (cand T R).
Notation hyper := (hyper T R).
Notation dcost c := (cost (d_trans c)).
Notation loop := (loop build cost find add).
Notation merge := (merge build cost find add).
Notation put := (put cost find add).
Notation valid := (valid build).
Notation next := (next build).

Definition open_of (cs : list cand) (last : option cand) : list cand :=
  match last with Some c => fold_left (fun cs d => insert_cand cost d cs) (next c) cs | None => cs end.
Lemma loop_step fuel k q cs last : loop (S fuel) k q cs last =
  if k <=? length q then Some q else
  match open_of cs last with [] => Some q | c :: cs => loop fuel k (put q (d_trans c)) cs (Some c) end.
Proof. reflexivity. Qed.
Lemma loop_zero k q cs last : loop 0 k q cs last = if k <=? length q then Some q else None.
Proof. reflexivity. Qed.
Lemma add_in q t x : In x (add q t) -> x = t \/ In x q.
Proof.
  destruct (proj2 SL q t) as [[-> _]|P]; [now right|]. intros H. apply (Permutation_in _ P) in H as [->|H]; [now left|now right].
Qed.
Lemma add_keeps q t x : In x q -> In x (add q t).
Proof. destruct (proj2 SL q t) as [[-> _]|P]; [easy|]. intros H. apply (Permutation_in _ (Permutation_sym P)). now right. Qed.
Lemma add_len q t : length (add q t) <= S (length q).
Proof. destruct (proj2 SL q t) as [[-> _]|P]; [lia|]. apply Permutation_length in P. cbn in P. lia. Qed.
Lemma put_in q t x : In x (put q t) -> x = t \/ In x q.
Proof. unfold M_Cube.put. destruct (find q t); [destruct (_ <? _)%Z|]; auto using add_in. Qed.
Lemma put_keeps q t x : In x q -> In x (put q t).
Proof. unfold M_Cube.put. destruct (find q t); [destruct (_ <? _)%Z|]; auto using add_keeps. Qed.
Lemma put_len q t : length (put q t) <= S (length q).
Proof. unfold M_Cube.put. destruct (find q t); [destruct (_ <? _)%Z|]; auto using add_len. Qed.

Definition good (hs : list hyper) (c : cand) : Prop := In (d_edge c) hs /\ valid c.
Lemma open_good hs cs last : Forall (good hs) cs -> (forall c, last = Some c -> good hs c) -> Forall (good hs) (open_of cs last).
Proof.
  intros F L. destruct last as [c|]; [|easy]. rewrite Forall_forall in *. intros x Hx. apply insert_all_in in Hx as [Hx|Hx]; [|now apply F].
  apply next_valid in Hx as [V E]. split; [|easy]. rewrite E. now apply (L c).
Qed.
Lemma loop_sound hs fuel : forall k q cs last r, loop fuel k q cs last = Some r ->
  Forall (good hs) cs -> (forall c, last = Some c -> good hs c) -> incl q (translations build hs) -> incl r (translations build hs).
Proof.
  induction fuel as [|fuel IH]; intros k q cs last r E F L Q.
  - rewrite loop_zero in E. destruct (_ <=? _); [|easy]. now inversion E; subst.
  - rewrite loop_step in E. destruct (_ <=? _); [now inversion E; subst|].
    pose proof (open_good hs cs last F L) as G. destruct (open_of cs last) as [|c cs']; [now inversion E; subst|].
    apply Forall_cons_iff in G as [[G1 G2] G]. apply IH in E; auto.
    + intros d Hd. inversion Hd; subst. easy.
    + intros x Hx. apply put_in in Hx as [->|Hx]; [now apply valid_trans|now apply Q].
Qed.
Lemma loop_size fuel : forall k q cs last r, loop fuel k q cs last = Some r -> length q <= k -> length r <= k.
Proof.
  induction fuel as [|fuel IH]; intros k q cs last r E Q.
  - rewrite loop_zero in E. destruct (_ <=? _); [|easy]. now inversion E; subst.
  - rewrite loop_step in E. destruct (Nat.leb_spec k (length q)) as [L|L]; [now inversion E; subst|].
    destruct (open_of cs last) as [|c cs']; [now inversion E; subst|]. apply IH in E; [easy|]. pose proof (put_len q (d_trans c)). lia.
Qed.
Lemma loop_keeps fuel : forall k q cs last r, loop fuel k q cs last = Some r -> incl q r.
Proof.
  induction fuel as [|fuel IH]; intros k q cs last r E.
  - rewrite loop_zero in E. destruct (_ <=? _); [|easy]. now inversion E; subst.
  - rewrite loop_step in E. destruct (_ <=? _); [now inversion E; subst|]. destruct (open_of cs last) as [|c cs']; [now inversion E; subst|].
    apply IH in E. intros x Hx. apply E. now apply put_keeps.
Qed.
Lemma merge_corners fuel k hs r : merge fuel k hs = Some r -> exists ds,
  Forall2 (fun h d => cand_at build h 0 (repeat 0 (length (e_kids h))) = Some d) hs ds /\ loop fuel k [] (insert_all cost ds []) None = Some r.
Proof.
  unfold M_Cube.merge. destruct (corners build cost hs []) as [cs|] eqn:E; [|easy]. intros H. apply corners_all in E as (ds & -> & F). now exists ds.
Qed.
Lemma corner_good hs ds : Forall2 (fun h d => cand_at build h 0 (repeat 0 (length (e_kids h))) = Some d) hs ds -> Forall (good hs) ds.
Proof.
  intros F. apply Forall_forall. intros d Hd. assert (K : exists h, In h hs /\ cand_at build h 0 (repeat 0 (length (e_kids h))) = Some d).
  { clear -F Hd. induction F as [|h e hs ds E F IH]; [easy|]. destruct Hd as [->|Hd]; [exists h; split; [now left|easy]|].
    destruct (IH Hd) as (h' & I & E'). exists h'. split; [now right|easy]. }
  destruct K as (h & I & E). apply cand_at_valid in E as (V & E1 & _). split; [|easy]. now rewrite E1.
Qed.
Lemma opened_good hs ds : Forall (good hs) ds -> Forall (good hs) (insert_all cost ds []).
Proof. rewrite !Forall_forall. intros F x Hx. apply insert_all_in in Hx as [Hx|[]]. now apply F. Qed.
Lemma merge_sound fuel k hs r : merge fuel k hs = Some r -> incl r (translations build hs).
Proof.
  intros E. apply merge_corners in E as (ds & F & E). apply corner_good in F. apply (loop_sound hs) in E; auto.
  - now apply opened_good.
  - easy.
  - easy.
Qed.

(** The first candidate. *)
Lemma sorted_head (c : cand) cs x : StronglySorted (by_cost cost) (c :: cs) -> In x (c :: cs) -> (dcost c <= dcost x)%Z.
Proof.
  intros S [->|H]; [lia|]. apply StronglySorted_inv in S as [_ S]. rewrite Forall_forall in S. specialize (S x H). unfold by_cost in S. lia.
Qed.
Lemma put_nil t : In t (put [] t).
Proof.
  unfold M_Cube.put. assert (A : In t (add [] t)).
  { destruct (proj2 SL [] t) as [[_ (u & [] & _)]|P]. apply (Permutation_in _ (Permutation_sym P)). now left. }
  destruct (find [] t) as [u|] eqn:E; [|easy]. now apply (proj1 SL) in E as [[] _].
Qed.
Lemma merge_first fuel k hs r : merge fuel k hs = Some r -> 0 < k -> hs <> [] ->
  exists h d, In h hs /\ cand_at build h 0 (repeat 0 (length (e_kids h))) = Some d /\ In (d_trans d) r /\
  forall h' d', In h' hs -> cand_at build h' 0 (repeat 0 (length (e_kids h'))) = Some d' -> (dcost d <= dcost d')%Z.
Proof.
  intros E K N. apply merge_corners in E as (ds & F & E).
  assert (S : StronglySorted (by_cost cost) (insert_all cost ds [])) by (apply insert_all_sorted; constructor).
  assert (I : forall h' d', In h' hs -> cand_at build h' 0 (repeat 0 (length (e_kids h'))) = Some d' -> In d' ds).
  { clear -F. intros h' d' I E. induction F as [|h d hs ds E' F IH]; [easy|]. destruct I as [->|I]; [left; congruence|right; auto]. }
  assert (J : forall d, In d ds -> exists h, In h hs /\ cand_at build h 0 (repeat 0 (length (e_kids h))) = Some d).
  { clear -F. intros d Hd. induction F as [|h e hs ds E F IH]; [easy|]. destruct Hd as [->|Hd]; [exists h; split; [now left|easy]|].
    destruct (IH Hd) as (h' & I & E'). exists h'. split; [now right|easy]. }
  destruct fuel as [|fuel]; [rewrite loop_zero in E; cbn in E; destruct k; [lia|discriminate]|].
  rewrite loop_step in E. cbn [length] in E. destruct (Nat.leb_spec k 0) as [L|_]; [lia|]. cbn [open_of] in E.
  destruct (insert_all cost ds []) as [|c cs] eqn:Ec.
  { exfalso. destruct F as [|h d hs ds E' F]; [easy|]. destruct (insert_all_cost cost (d :: ds) [] d (or_introl eq_refl)) as (x & Ix & _).
    rewrite Ec in Ix. easy. }
  assert (Ic : In c ds). { assert (H : In c (insert_all cost ds [])) by (rewrite Ec; now left). now apply insert_all_in in H as [H|[]]. }
  destruct (J c Ic) as (h & Ih & Eh). exists h, c. split; [easy|]. split; [easy|]. split.
  - apply loop_keeps in E. apply E. apply put_nil.
  - intros h' d' Ih' Ed'. specialize (I h' d' Ih' Ed'). destruct (insert_all_cost cost ds [] d' I) as (x & Ix & Ex). rewrite Ec in Ix.
    rewrite <- Ex. now apply (sorted_head c cs).
Qed.

(** The turns end. *)
Section Ends.
Context (B : nat).
Definition room (c : cand) : nat := (length (e_ts (d_edge c)) - d_r0 c)
  + list_sum (map (fun x => length (fst x) - snd x) (combine (e_kids (d_edge c)) (d_r c))).
Definition weight (c : cand) : nat := (B + 2) ^ room c.
Fixpoint weights (cs : list cand) : nat := match cs with [] => 0 | c :: cs => weight c + weights cs end.
Lemma insert_weights (c : cand) cs : weights (insert_cand cost c cs) <= weight c + weights cs.
Proof.
  induction cs as [|d cs IH]; cbn [insert_cand]; [easy|]. destruct (_ <? _)%Z; [easy|]. destruct (_ <? _)%Z; [|lia].
  cbn [weights] in *. lia.
Qed.
Lemma insert_all_weights ds : forall cs, weights (insert_all cost ds cs) <= weights ds + weights cs.
Proof.
  unfold insert_all. induction ds as [|d ds IH]; intros cs; cbn [fold_left]; [easy|]. specialize (IH (insert_cand cost d cs)).
  pose proof (insert_weights d cs). cbn [weights] in *. lia.
Qed.
Lemma bump_room (kids : list (list R)) : forall r i l, i < length r -> pick (bump i r) kids = Some l ->
  S (list_sum (map (fun x => length (fst x) - snd x) (combine kids (bump i r)))) = list_sum (map (fun x => length (fst x) - snd x) (combine kids r)).
Proof.
  induction kids as [|q kids IH]; intros [|x r] i l Hi E; cbn [length] in Hi; try lia; try easy.
  { destruct i; easy. }
  destruct i as [|i].
  - cbn in E. destruct q as [|y q]; [now rewrite ?nth_error_nil in E|]. destruct (nth_error q x) eqn:En; [|easy].
    assert (x < length q) by (apply nth_error_Some; congruence). cbn [bump combine map list_sum fold_right fst snd length]. lia.
  - cbn in E. destruct (nth_error q x) eqn:En; [|easy]. destruct (pick (bump i r) kids) eqn:Ep; [|easy].
    cbn [bump combine map list_sum fold_right fst snd]. specialize (IH r i l0 ltac:(lia) Ep). unfold list_sum in IH. lia.
Qed.
Lemma next_room c d : In d (next c) -> S (room d) = room c.
Proof.
  intros H. apply next_in in H as [(i & Hi & E)|E]; pose proof E as E'; apply cand_at_valid in E as (_ & E1 & E2 & E3); unfold room; rewrite E1, E2, E3;
    unfold cand_at in E'.
  - destruct (nth_error _ _); [|easy]. destruct (pick _ _) eqn:P; [|easy]. pose proof (bump_room _ _ _ _ Hi P) as Q. lia.
  - destruct (nth_error _ _) eqn:A; [|easy]. assert (S (d_r0 c) < length (e_ts (d_edge c))) by (apply nth_error_Some; congruence). lia.
Qed.
Lemma flat_len {A C} (f : A -> list C) l : (forall x, length (f x) <= 1) -> length (flat_map f l) <= length l.
Proof. intros H. induction l as [|x l IH]; cbn; [easy|]. rewrite app_length. specialize (H x). lia. Qed.
Lemma next_length c : length (next c) <= S (length (d_r c)).
Proof.
  unfold M_Cube.next. etransitivity; [apply flat_len|now rewrite seq_length]. intros i. cbn beta.
  match goal with |- length (match ?o with _ => _ end) <= 1 => destruct o; cbn; lia end.
Qed.
Lemma next_weights c : length (d_r c) <= B -> weights (next c) < weight c.
Proof.
  intros L. pose proof (next_length c) as N. unfold weight.
  assert (P : forall n, 1 <= (B + 2) ^ n) by (intros n; pose proof (Nat.pow_nonzero (B + 2) n); lia).
  assert (W : forall d, In d (next c) -> weight d * (B + 2) = (B + 2) ^ room c).
  { intros d Hd. apply next_room in Hd. unfold weight. rewrite <- Hd. cbn [Nat.pow]. lia. }
  assert (K : weights (next c) * (B + 2) = length (next c) * (B + 2) ^ room c).
  { clear N. revert W. induction (next c) as [|d l IH]; intros W; [easy|]. cbn [weights length].
    pose proof (W d (or_introl eq_refl)). specialize (IH (fun e He => W e (or_intror He))). nia. }
  specialize (P (room c)). nia.
Qed.
Lemma pick_len (kids : list (list R)) : forall r l, pick r kids = Some l -> length r = length kids.
Proof.
  induction kids as [|q kids IH]; intros [|x r] l E; cbn in *; try easy. destruct (nth_error q x); [|easy]. destruct (pick r kids) eqn:P; [|easy].
  now rewrite (IH r l0).
Qed.
Lemma valid_len c : valid c -> length (d_r c) = length (e_kids (d_edge c)).
Proof. unfold L_Cube.valid, cand_at. destruct (nth_error _ _); [|easy]. destruct (pick _ _) eqn:P; [|easy]. intros _. now apply pick_len in P. Qed.
Lemma loop_ends hs : (forall h, In h hs -> length (e_kids h) <= B) -> forall fuel k q cs last,
  Forall (good hs) cs -> (forall c, last = Some c -> good hs c) ->
  weights cs + match last with Some c => weights (next c) | None => 0 end < fuel -> exists r, loop fuel k q cs last = Some r.
Proof.
  intros Hb. induction fuel as [|fuel IH]; intros k q cs last F L W; [lia|]. rewrite loop_step.
  destruct (_ <=? _); [eauto|]. pose proof (open_good hs cs last F L) as G.
  assert (W' : weights (open_of cs last) <= fuel).
  { destruct last as [c|]; cbn [open_of]; [|lia]. pose proof (insert_all_weights (next c) cs) as A. unfold insert_all in A. lia. }
  destruct (open_of cs last) as [|c cs']; [eauto|]. apply Forall_cons_iff in G as [[G1 G2] G].
  apply IH; auto.
  - intros d Hd. inversion Hd; subst. easy.
  - cbn [weights] in W'.
    pose proof (next_weights c) as A. rewrite (valid_len c G2) in A. specialize (A (Hb _ G1)). lia.
Qed.
End Ends.
Lemma heads_cand (h : hyper) : filled h -> exists d, cand_at build h 0 (repeat 0 (length (e_kids h))) = Some d.
Proof.
  intros [A F]. unfold cand_at. destruct (e_ts h) as [|t ts]; [easy|]. cbn [nth_error].
  assert (P : exists l, pick (repeat 0 (length (e_kids h))) (e_kids h) = Some l).
  { clear A. induction F as [|q kids Q F [l IH]]; [now exists []|]. destruct q as [|x q]; [easy|]. cbn. rewrite IH. eauto. }
  destruct P as [l ->]. eauto.
Qed.
Lemma merge_ends k hs : Forall filled hs -> exists fuel r, merge fuel k hs = Some r.
Proof.
  intros F. assert (C : forall cs, exists cs', corners build cost hs cs = Some cs').
  { clear -F. induction F as [|h hs A F IH]; intros cs; cbn; [eauto|]. destruct (heads_cand h A) as [d ->]. apply IH. }
  destruct (C []) as [cs E]. unfold M_Cube.merge. rewrite E. pose proof E as E'. apply corners_all in E' as (ds & -> & Fd). apply corner_good in Fd.
  set (B := list_max (map (fun h => length (e_kids h)) hs)).
  exists (S (weights B (insert_all cost ds []))). apply (loop_ends B hs).
  - intros h Hh. pose proof (proj1 (list_max_le (map (fun h => length (e_kids h)) hs) B) (le_n _)) as M. rewrite Forall_forall in M. apply M. now apply (in_map (fun h : hyper => length (e_kids h))).
  - now apply opened_good.
  - easy.
  - lia.
Qed.

(** Exactness. *)
Section Exact.
Context (hs : list hyper).
Context (Mono : forall h, In h hs -> monotone build cost h).
Context (Apart : NoDup (map cost (translations build hs))).
Context (Tell : forall a b, In a (translations build hs) -> In b (translations build hs) -> ~ lt a b -> ~ lt b a -> a = b).
Notation U := (universe build hs).
Lemma same_cost c d : good hs c -> good hs d -> dcost c = dcost d -> c = d.
Proof.
  intros C D E. apply (nodup_map_eq (fun c => dcost c) U); [|now apply universe_in|now apply universe_in|easy].
  rewrite <- (map_map (@d_trans T R) cost), universe_trans. exact Apart.
Qed.
Definition inv (P : list cand) (q : list R) (F : list cand) : Prop :=
  Permutation q (map (@d_trans T R) P) /\ NoDup P /\ Forall (good hs) P /\
  (forall p x, In p P -> good hs x -> ~ In x P -> (dcost p < dcost x)%Z) /\
  (forall x, In x F -> ~ In x P) /\
  (forall x, good hs x -> ~ In x P -> exists y, In y F /\ before y x).
Lemma dec_in (P : list cand) x : Forall (good hs) P -> good hs x -> In x P \/ ~ In x P.
Proof.
  intros F G. induction F as [|c P C F IH]; [now right|]. destruct (Z.eq_dec (dcost c) (dcost x)) as [E|N].
  - left. left. now apply same_cost.
  - destruct IH as [IH|IH]; [left; now right|]. right. intros [->|H]; [now apply N|now apply IH].
Qed.
Lemma loop_exact fuel : forall k q cs last r, loop fuel k q cs last = Some r ->
  Forall (good hs) cs -> (forall c, last = Some c -> good hs c) -> StronglySorted (by_cost cost) cs ->
  forall P, inv P q (open_of cs last) -> length q <= k ->
  exists P', Permutation r (map (@d_trans T R) P') /\ NoDup P' /\ Forall (good hs) P' /\
    (forall p x, In p P' -> good hs x -> ~ In x P' -> (dcost p < dcost x)%Z) /\
    (length r = k \/ (length r <= k /\ forall x, good hs x -> In x P')).
Proof.
  induction fuel as [|fuel IH]; intros k q cs last r E F L S P I Q.
  - rewrite loop_zero in E. destruct (Nat.leb_spec k (length q)) as [Lk|_]; [|easy]. inversion E; subst.
    destruct I as (I1 & I2 & I3 & I4 & _). exists P. repeat split; auto. left. lia.
  - rewrite loop_step in E. destruct (Nat.leb_spec k (length q)) as [Lk|Lk].
    { inversion E; subst. destruct I as (I1 & I2 & I3 & I4 & _). exists P. repeat split; auto. left. lia. }
    pose proof (open_good hs cs last F L) as G.
    assert (S' : StronglySorted (by_cost cost) (open_of cs last)) by (destruct last; [now apply insert_all_sorted|easy]).
    destruct (open_of cs last) as [|c cs'].
    { inversion E; subst. destruct I as (I1 & I2 & I3 & I4 & _ & I6). exists P. repeat split; auto. right. split; [lia|].
      intros x Hx. destruct (dec_in P x I3 Hx) as [D|D]; [easy|]. destruct (I6 x Hx D) as (y & [] & _). }
    apply Forall_cons_iff in G as [Gc G]. destruct I as (I1 & I2 & I3 & I4 & I5 & I6).
    assert (Nc : ~ In c P) by (apply I5; now left).
    assert (Cheap : forall x, good hs x -> ~ In x P -> (dcost c <= dcost x)%Z).
    { intros x Gx Nx. destruct (I6 x Gx Nx) as (y & Iy & By). assert (Gy : good hs y) by (destruct Iy as [<-|Iy]; [easy|rewrite Forall_forall in G; now apply G]).
      pose proof (before_cost build cost y x (Mono _ (proj1 Gy)) (proj2 Gy) (proj2 Gx) By). pose proof (sorted_head c cs' y S' Iy). lia. }
    assert (Pq : Permutation (put q (d_trans c)) (d_trans c :: q)).
    { assert (No : forall u, In u q -> ~ lt u (d_trans c) -> ~ lt (d_trans c) u -> False).
      { intros u Hu A B. apply (Permutation_in _ I1) in Hu. apply in_map_iff in Hu as (p & <- & Ip). rewrite Forall_forall in I3.
        pose proof (I3 p Ip) as Gp.
        assert (Eq : d_trans p = d_trans c) by (apply Tell; auto; [now apply valid_trans; destruct Gp|now apply valid_trans; destruct Gc]).
        assert (p = c) by (apply same_cost; [easy|easy|now rewrite Eq]). now subst. }
      unfold M_Cube.put. destruct (find q (d_trans c)) as [u|] eqn:Ef; [exfalso; apply (proj1 SL) in Ef as (A & B & C); now apply (No u)|].
      destruct (proj2 SL q (d_trans c)) as [[_ (u & A & B & C)]|Pm]; [exfalso; now apply (No u)|easy]. }
    assert (Sc : StronglySorted (by_cost cost) cs') by (now apply StronglySorted_inv in S').
    specialize (IH k (put q (d_trans c)) cs' (Some c) r E G).
    assert (Lc : forall d, Some c = Some d -> good hs d) by (intros d Hd; inversion Hd; now subst).
    specialize (IH Lc Sc (c :: P)). apply IH; [|apply Permutation_length in Pq; cbn in Pq; lia].
    assert (Later : forall x, good hs x -> ~ In x (c :: P) -> (dcost c < dcost x)%Z).
    { intros x Gx Nx. assert (Nx' : ~ In x P) by (intros H; apply Nx; now right). specialize (Cheap x Gx Nx').
      destruct (Z.eq_dec (dcost c) (dcost x)) as [Eq|Ne]; [|lia]. exfalso. apply Nx. left. now apply same_cost. }
    unfold inv. repeat split.
    + rewrite Pq. cbn [map]. now constructor.
    + now constructor.
    + now constructor.
    + intros p x [<-|Ip] Gx Nx; [now apply Later|]. apply I4; auto. intros H. apply Nx. now right.
    + intros x Hx. cbn [open_of] in Hx. apply insert_all_in in Hx as [Hx|Hx].
      * intros [<-|Ip].
        -- apply next_room in Hx. lia.
        -- pose proof Hx as Hn. apply next_valid in Hn as [V Ed]. assert (Gx : good hs x) by (split; [rewrite Ed; apply Gc|easy]).
           pose proof (I4 x c Ip Gc Nc) as K.
           assert (Bc : before c x).
           { apply next_in in Hx as [(i & Hi & Ec)|Ec]; apply cand_at_valid in Ec as (_ & E1 & E2 & E3); unfold before; rewrite E1, E2, E3.
             - split; [easy|]. split; [easy|]. clear. revert i. induction (d_r c) as [|y r0 IH]; intros i; [destruct i; constructor|].
               destruct i; cbn; constructor; auto. apply le_refl_list.
             - split; [easy|]. split; [lia|]. apply le_refl_list. }
           pose proof (before_cost build cost c x (Mono _ (proj1 Gc)) (proj2 Gc) V Bc). lia.
      * intros [<-|Ip]; [|now apply (I5 x (or_intror Hx))]. apply StronglySorted_inv in S' as [_ S']. rewrite Forall_forall in S'.
        specialize (S' c Hx). unfold by_cost in S'. lia.
    + intros x Gx Nx. assert (Nx' : ~ In x P) by (intros H; apply Nx; now right).
      destruct (I6 x Gx Nx') as (y & [<-|Iy] & By).
      * destruct (before_step build c x (proj2 Gc) (proj2 Gx) By) as [->|(d & Id & Bd)]; [exfalso; apply Nx; now left|].
        cbn [open_of]. destruct (insert_all_cost cost (next c) cs' d Id) as (z & Iz & Ez). unfold insert_all in Iz. exists z. split; [easy|].
        assert (Gd : good hs d) by (apply next_valid in Id as [V Ed]; split; [rewrite Ed; apply Gc|easy]).
        assert (Gz : good hs z).
        { apply insert_all_in in Iz as [Iz|Iz]; [apply next_valid in Iz as [V Ed]; split; [rewrite Ed; apply Gc|easy]|rewrite Forall_forall in G; now apply G]. }
        now rewrite (same_cost z d Gz Gd Ez).
      * exists y. split; [|easy]. cbn [open_of]. now apply insert_all_keeps.
Qed.
Lemma merge_exact fuel k r : merge fuel k hs = Some r -> exists rest,
  Permutation (r ++ rest) (translations build hs) /\ length r = Nat.min k (length (translations build hs)) /\
  forall a b, In a r -> In b rest -> (cost a < cost b)%Z.
Proof.
  intros E. apply merge_corners in E as (ds & F & E). pose proof (corner_good hs ds F) as G.
  assert (NU : NoDup U). { apply (NoDup_map_inv (fun c => dcost c)). rewrite <- (map_map (@d_trans T R) cost), universe_trans. exact Apart. }
  destruct (loop_exact fuel k [] _ None r E) with (P := @nil cand) as (P & P1 & P2 & P3 & P4 & P5).
  - now apply opened_good.
  - easy.
  - apply insert_all_sorted. constructor.
  - unfold inv. repeat split; auto; try constructor; try easy. intros x Gx _. cbn [open_of].
    assert (K : exists d, In d ds /\ cand_at build (d_edge x) 0 (repeat 0 (length (e_kids (d_edge x)))) = Some d).
    { destruct Gx as [Ix _]. clear -F Ix. induction F as [|h d hs ds Ed F IH]; [easy|]. destruct Ix as [->|Ix]; [exists d; split; [now left|easy]|].
      destruct (IH Ix) as (d' & I & E). exists d'. split; [now right|easy]. }
    destruct K as (d & Id & Ed). destruct (insert_all_cost cost ds [] d Id) as (z & Iz & Ez). exists z. split; [easy|].
    assert (Gd : good hs d) by (rewrite Forall_forall in G; now apply G).
    assert (Gz : good hs z). { apply insert_all_in in Iz as [Iz|[]]. rewrite Forall_forall in G; now apply G. }
    rewrite (same_cost z d Gz Gd Ez). apply (valid_corner build); [apply Gx|exact Ed].
  - cbn. lia.
  - (* the rest *)
    assert (D : exists Q, Permutation (P ++ Q) U).
    { clear -P2 P3 NU. revert P2 P3. assert (K : forall (O V : list cand), NoDup O -> incl O V -> exists Q, Permutation (O ++ Q) V).
      { induction O as [|c O IH]; intros V N I; [exists V; apply Permutation_refl|]. apply NoDup_cons_iff in N as [N1 N2].
        destruct (in_split c V (I c (or_introl eq_refl))) as (a & b & ->).
        destruct (IH (a ++ b) N2) as [Q HQ].
        - intros x Hx. specialize (I x (or_intror Hx)). apply in_app_iff in I. apply in_app_iff. destruct I as [I|[->|I]]; [now left|easy|now right].
        - exists Q. cbn. rewrite HQ. apply Permutation_middle. }
      intros P2 P3. apply K; [easy|]. intros x Hx. rewrite Forall_forall in P3. apply universe_in. now apply P3. }
    destruct D as [Q HQ]. exists (map (@d_trans T R) Q).
    assert (PT : Permutation (r ++ map (@d_trans T R) Q) (translations build hs)).
    { rewrite <- universe_trans, <- HQ, map_app. now apply Permutation_app_tail. }
    split; [easy|]. assert (Lr : length r <= k) by lia. assert (NPQ : NoDup (P ++ Q)) by (apply (Permutation_NoDup (Permutation_sym HQ)); exact NU).
    assert (NQ : forall x, In x Q -> good hs x /\ ~ In x P).
    { intros x Hx. split.
      - apply (universe_in build). apply (Permutation_in _ HQ). apply in_app_iff. now right.
      - intros Hp. clear -NPQ Hx Hp. induction P as [|c P IH]; [easy|]. cbn in NPQ. apply NoDup_cons_iff in NPQ as [N1 N2].
        destruct Hp as [->|Hp]; [apply N1, in_app_iff; now right|now apply IH]. }
    split.
    + apply Permutation_length in PT. rewrite app_length in PT. destruct P5 as [P5|[P5 P6]]; [lia|].
      assert (Q = []) as ->. { destruct Q as [|x Q]; [easy|]. exfalso. destruct (NQ x (or_introl eq_refl)) as [A B]. apply B. now apply P6. }
      cbn in PT. lia.
    + intros a b Ha Hb. apply (Permutation_in _ P1) in Ha. apply in_map_iff in Ha as (p & <- & Ip). apply in_map_iff in Hb as (x & <- & Ix).
      destruct (NQ x Ix) as [A B]. now apply P4.
Qed.
End Exact.
End Loop.

(** ** Theorems *)
(** Everything merging gives is a translation of one of the hyperedges. *)
Theorem C72_sound {T R} (build : T -> list R -> R) cost find add lt fuel k hs r :
  set_like lt find add -> merge build cost find add fuel k hs = Some r -> forall t, In t r -> In t (translations build hs).
Proof. intros S E. exact (merge_sound build cost find add lt S fuel k hs r E). Qed.
Print Assumptions C72_sound.

(** There are at most k. *)
Theorem C72_size {T R} (build : T -> list R -> R) cost find add lt fuel k hs r :
  set_like lt find add -> merge build cost find add fuel k hs = Some r -> length r <= k.
Proof.
  intros S E. apply merge_corners in E as (ds & _ & E). apply (loop_size build cost find add lt S) in E; [easy|cbn; lia].
Qed.
Print Assumptions C72_size.

(** It ends. *)
Theorem C72_ends {T R} (build : T -> list R -> R) cost find add k hs :
  Forall filled hs -> exists fuel r, merge build cost find add fuel k hs = Some r.
Proof. apply merge_ends. Qed.
Print Assumptions C72_ends.

(** The cheapest of the first translations of hyperedges is always among them. *)
Theorem C72_first {T R} (build : T -> list R -> R) cost find add lt fuel k hs r :
  set_like lt find add -> merge build cost find add fuel k hs = Some r -> 0 < k -> hs <> [] ->
  exists h t ts l, In h hs /\ e_ts h = t :: ts /\ Forall2 (fun q x => hd_error q = Some x) (e_kids h) l /\ In (build t l) r /\
  forall h' t' ts' l', In h' hs -> e_ts h' = t' :: ts' -> Forall2 (fun q x => hd_error q = Some x) (e_kids h') l' ->
  (cost (build t l) <= cost (build t' l'))%Z.
Proof.
  intros S E K N. destruct (merge_first build cost find add lt S fuel k hs r E K N) as (h & d & Ih & Ed & Id & Least).
  assert (A : forall kids l, pick (repeat 0 (length kids)) kids = Some l -> Forall2 (fun (q : list R) x => hd_error q = Some x) kids l).
  { induction kids as [|q kids IH]; intros l H; cbn in H; [inversion H; constructor|]. destruct q as [|x q]; [easy|]. cbn in H.
    destruct (pick _ kids) eqn:P; [|easy]. inversion H; subst. constructor; [easy|now apply IH]. }
  assert (B : forall kids l, Forall2 (fun (q : list R) x => hd_error q = Some x) kids l -> pick (repeat 0 (length kids)) kids = Some l).
  { intros kids l H. induction H as [|q x kids l Hq H IH]; [easy|]. cbn. destruct q as [|y q]; [easy|]. inversion Hq; subst. cbn. now rewrite IH. }
  unfold cand_at in Ed. destruct (e_ts h) as [|t ts] eqn:Et; [easy|]. cbn [nth_error] in Ed. destruct (pick _ _) as [l|] eqn:Ep; [|easy].
  inversion Ed; subst d. cbn [d_trans] in *. exists h, t, ts, l. split; [easy|]. split; [easy|]. split; [now apply A|]. split; [easy|].
  intros h' t' ts' l' Ih' Et' Hl'. specialize (Least h' (Cand h' 0 (repeat 0 (length (e_kids h'))) (build t' l')) Ih').
  cbn [d_trans] in Least. apply Least. unfold cand_at. rewrite Et'. cbn [nth_error]. now rewrite (B _ _ Hl').
Qed.
Print Assumptions C72_first.

(** If later choices are never cheaper, costs differ and the order of the queue tells all translations apart, they are the k
    cheapest of all. *)
Theorem C72_cheapest {T R} (build : T -> list R -> R) cost find add lt fuel k hs r :
  set_like lt find add ->
  (forall h, In h hs -> monotone build cost h) ->
  NoDup (map cost (translations build hs)) ->
  (forall a b, In a (translations build hs) -> In b (translations build hs) -> ~ lt a b -> ~ lt b a -> a = b) ->
  merge build cost find add fuel k hs = Some r -> exists rest,
  Permutation (r ++ rest) (translations build hs) /\ length r = Nat.min k (length (translations build hs)) /\
  forall a b, In a r -> In b rest -> (cost a < cost b)%Z.
Proof. intros S M A D E. exact (merge_exact build cost find add lt S hs M A D fuel k r E). Qed.
Print Assumptions C72_cheapest.

(** ** A queue as a list *)
(** Translations: cost, cost with the heuristic, text. *)
Record tr := Tr { v_cost : Z; v_key : Z; v_text : list nat }.
Definition same_text (a b : tr) : bool := if list_eq_dec Nat.eq_dec (v_text a) (v_text b) then true else false.
(** TranslationSorter, Translation.hpp 90-94. *)
Definition less (a b : tr) : bool := (v_key a <? v_key b)%Z && negb (same_text a b).
Definition alike (a b : tr) : bool := negb (less a b) && negb (less b a).
Definition find_tr (q : list tr) (t : tr) : option tr := List.find (fun u => alike u t) q.
Fixpoint place_tr (q : list tr) (t : tr) : list tr :=
  match q with [] => [t] | u :: q' => if less t u then t :: q else u :: place_tr q' t end.
Definition add_tr (q : list tr) (t : tr) : list tr := match find_tr q t with Some _ => q | None => place_tr q t end.
Lemma set_tr : set_like (fun a b => less a b = true) find_tr add_tr.
Proof.
  assert (A : forall q t u, find_tr q t = Some u -> In u q /\ less u t <> true /\ less t u <> true).
  { intros q t u E. apply find_some in E as [I E]. unfold alike in E. apply andb_true_iff in E as [E1 E2].
    apply negb_true_iff in E1, E2. repeat split; congruence. }
  split; [exact A|]. intros q t. unfold add_tr. destruct (find_tr q t) as [u|] eqn:E.
  - left. split; [easy|]. exists u. now apply A.
  - right. clear. induction q as [|u q IH]; cbn; [easy|]. destruct (less t u); [easy|]. rewrite IH. apply perm_swap.
Qed.
(** Transformations as a cost and a word; texts are put together. *)
Definition build_tr (t : Z * nat) (l : list tr) : tr :=
  let c := fold_right (fun x s => v_cost x + s)%Z (fst t) l in Tr c c (snd t :: flat_map v_text l).
Definition merge_tr := merge build_tr v_cost find_tr add_tr.
Definition kid (c : Z) (w : nat) : tr := Tr c c [w].
Definition some_edges : list (hyper (Z * nat) tr) :=
  [Hyper [(1%Z, 1); (8%Z, 2)] [[kid 0 3; kid 3 4]; [kid 0 5; kid 1 6; kid 20 7]]; Hyper [(3%Z, 8); (7%Z, 9)] []].
Example C72_some : option_map (map v_cost) (merge_tr 50 5 some_edges) = Some [1; 2; 3; 4; 5]%Z
  /\ length (translations build_tr some_edges) = 14
  /\ Forall filled some_edges.
Proof.
  split; [now vm_compute|]. split; [now vm_compute|].
  constructor; [split; [easy|]; repeat constructor; easy|]. constructor; [split; [easy|constructor]|constructor].
Qed.
Lemma mono_nth {A} (f : A -> Z) l : StronglySorted (fun a b => (f a <= f b)%Z) l ->
  forall i j a b, i <= j -> nth_error l i = Some a -> nth_error l j = Some b -> (f a <= f b)%Z.
Proof.
  induction 1 as [|x l S IH H]; intros i j a b L Ea Eb; [now destruct i|].
  destruct i as [|i], j as [|j]; cbn in Ea, Eb; try lia.
  - inversion Ea; inversion Eb; subst. lia.
  - inversion Ea; subst. rewrite Forall_forall in H. apply H. now apply nth_error_In in Eb.
  - apply (IH i j); auto. lia.
Qed.
Lemma sorted_monotone (h : hyper (Z * nat) tr) : StronglySorted (fun a b : Z * nat => (fst a <= fst b)%Z) (e_ts h) ->
  Forall (StronglySorted (fun a b => (v_cost a <= v_cost b)%Z)) (e_kids h) -> monotone build_tr v_cost h.
Proof.
  intros K1 K2. intros i j t u L Et Eu r s l m F Er Es. pose proof (mono_nth fst _ K1 i j t u L Et Eu) as Ht.
  cbn [build_tr v_cost]. revert r s l m F Er Es. induction K2 as [|q kids Q K2 IH]; intros r s l m F Er Es.
  - destruct r, s; try easy. inversion Er; inversion Es; subst. exact Ht.
  - destruct F as [|x y r s Lxy F]; [easy|]. cbn in Er, Es.
    destruct (nth_error q x) as [a|] eqn:A; [|easy]. destruct (pick r kids) as [l'|] eqn:B; [|easy].
    destruct (nth_error q y) as [b|] eqn:C; [|easy]. destruct (pick s kids) as [m'|] eqn:D; [|easy].
    inversion Er; inversion Es; subst. specialize (IH r s l' m' F B D). pose proof (mono_nth v_cost q Q x y a b Lxy A C). cbn [fold_right]. lia.
Qed.
Example C72_some_monotone h : In h some_edges -> monotone build_tr v_cost h.
Proof. intros I. apply sorted_monotone; destruct I as [<-|[<-|[]]]; cbn [e_ts e_kids]; repeat constructor; cbn; lia. Qed.
Example C72_some_apart : NoDup (map v_cost (translations build_tr some_edges))
  /\ forall a b, In a (translations build_tr some_edges) -> In b (translations build_tr some_edges) -> ~ less a b = true -> ~ less b a = true -> a = b.
Proof.
  split; [vm_compute; repeat constructor; cbn; intuition discriminate|].
  intros a b Ha Hb. vm_compute in Ha, Hb.
  repeat (destruct Ha as [<-|Ha]; [repeat (destruct Hb as [<-|Hb]; [intros N1 N2; try reflexivity; exfalso; vm_compute in N1, N2; congruence|]); destruct Hb|]).
  destruct Ha.
Qed.

(** With equal costs translations are lost, although there is room. *)
Theorem C72_ties_refuted :
  ~ (forall fuel k (hs : list (hyper (Z * nat) tr)) r, Forall filled hs -> (forall h, In h hs -> monotone build_tr v_cost h) ->
     merge_tr fuel k hs = Some r -> length (translations build_tr hs) <= k ->
     forall t, In t (translations build_tr hs) -> exists u, In u r /\ v_text u = v_text t).
Proof.
  intros H. pose (hs := [Hyper [(1%Z, 1)] []; Hyper [(1%Z, 2)] []] : list (hyper (Z * nat) tr)).
  specialize (H 10 5 hs [Tr 1 1 [1]]).
  assert (F : Forall filled hs) by (constructor; [split; [easy|constructor]|constructor; [split; [easy|constructor]|constructor]]).
  assert (M : forall h, In h hs -> monotone build_tr v_cost h).
  { intros h I. apply sorted_monotone; destruct I as [<-|[<-|[]]]; cbn [e_ts e_kids]; repeat constructor. }
  specialize (H F M eq_refl ltac:(vm_compute; repeat constructor) (Tr 1 1 [2]) ltac:(vm_compute; auto)).
  destruct H as (u & [<-|[]] & E). discriminate.
Qed.
Print Assumptions C72_ties_refuted.

(** A cheaper way to the same text does not replace the first one. *)
Theorem C72_replace_refuted :
  ~ (forall fuel k (hs : list (hyper (Z * nat) tr)) r, Forall filled hs ->
     merge_tr fuel k hs = Some r -> length (translations build_tr hs) <= k -> NoDup (map v_cost (translations build_tr hs)) ->
     forall t, In t (translations build_tr hs) -> exists u, In u r /\ v_text u = v_text t /\ (v_cost u <= v_cost t)%Z).
Proof.
  intros H. pose (hs := [Hyper [(5%Z, 1); (3%Z, 1)] []] : list (hyper (Z * nat) tr)).
  specialize (H 10 5 hs [Tr 5 5 [1]]).
  assert (F : Forall filled hs) by (constructor; [split; [easy|constructor]|constructor]).
  specialize (H F eq_refl ltac:(vm_compute; repeat constructor)).
  assert (N : NoDup (map v_cost (translations build_tr hs))) by (vm_compute; repeat constructor; cbn; intuition discriminate).
  specialize (H N (Tr 3 3 [1]) ltac:(vm_compute; auto)).
  destruct H as (u & [<-|[]] & _ & L). cbn in L. lia.
Qed.
Print Assumptions C72_replace_refuted.

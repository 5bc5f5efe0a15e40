(** Every pair and every rule is extracted once. *)
From Coq Require Import List ZArith Bool PeanoNat Lia Sorted FinFun.
From Verif Require Import M_Extract S_Extract L_Extract L_Hiero.
Import ListNotations.
Local Open Scope nat_scope.

Lemma NoDup_app' {A} (l m : list A) : NoDup l -> NoDup m -> (forall x, In x l -> In x m -> False) -> NoDup (l ++ m).
Proof.
  induction l as [|a l IH]; intros N M D; [exact M|]. inversion N; subst. cbn. constructor.
  - rewrite in_app_iff. intros [I|I]; [easy|]. now apply (D a (or_introl eq_refl)).
  - apply IH; auto. intros x I J. apply (D x); [now right|easy].
Qed.
Lemma NoDup_flat {A B} (f : A -> list B) l : NoDup l -> (forall x, In x l -> NoDup (f x)) ->
  (forall x y z, In x l -> In y l -> In z (f x) -> In z (f y) -> x = y) -> NoDup (flat_map f l).
Proof.
  induction l as [|a l IH]; intros N F D; cbn [flat_map]; [constructor|]. inversion N; subst. apply NoDup_app'.
  - apply F. now left.
  - apply IH; [easy|intros x I; apply F; now right|]. intros x y z I J. apply D; now right.
  - intros z I J. apply in_flat_map in J as (y & Iy & J). assert (a = y) by (apply (D a y z); auto; [now left|now right]). now subst.
Qed.
Lemma NoDup_if {A} (c : bool) (l : list A) : NoDup l -> NoDup (if c then [] else l).
Proof. destruct c; [constructor|easy]. Qed.


Section Once.
Context (o : options) (n : sentence) (exist : list span) (ph : span).
Lemma hiero_form fuel : forall hs sc holes init wt ws r, In r (hiero o n fuel exist ph hs sc holes init wt ws) -> exists h ext, r = hs ++ h :: ext.
Proof.
  induction fuel as [|f IH]; intros hs sc holes init wt ws r H; [easy|]. cbn [hiero] in H.
  destruct (max_nonterm o <=? holes); [easy|]. apply in_flat_map in H as (st & _ & H). apply in_flat_map in H as (et & _ & H).
  destruct (_ && _) in H; [easy|]. cbv zeta in H. destruct (_ <? _)%Z in H; [easy|]. destruct (_ && _) in H; [easy|].
  apply in_flat_map in H as (g & _ & H).
  repeat match type of H with In _ (if ?c then [] else _) => destruct c; [easy|] end.
  apply in_app_iff in H as [H|H].
  - destruct (_ || _) in H; [easy|]. destruct H as [<-|[]]. eexists. now exists [].
  - apply IH in H as (h' & ext & ->). rewrite <- app_assoc. cbn [app]. eauto.
Qed.
Lemma hiero_once (N : NoDup exist) fuel : forall hs sc holes init wt ws, NoDup (hiero o n fuel exist ph hs sc holes init wt ws).
Proof.
  induction fuel as [|f IH]; intros hs sc holes init wt ws; [constructor|]. cbn [hiero]. apply NoDup_if.
  match goal with |- NoDup (flat_map (fun st => flat_map (@?F st) _) _) => set (FF := F) end.
  assert (Form : forall st et r, In r (FF st et) -> exists g ext, r = hs ++ Span st et (sS g) (eS g) :: ext).
  { intros st et r H. subst FF. cbv beta zeta in H. destruct (_ && _) in H; [easy|]. destruct (_ <? _)%Z in H; [easy|]. destruct (_ && _) in H; [easy|].
    apply in_flat_map in H as (g & _ & H). exists g.
    repeat match type of H with In _ (if ?c then [] else _) => destruct c; [easy|] end.
    apply in_app_iff in H as [H|H].
    - destruct (_ || _) in H; [easy|]. destruct H as [<-|[]]. now exists [].
    - apply hiero_form in H as (h' & ext & ->). rewrite <- app_assoc. cbn [app]. eauto. }
  apply NoDup_flat; [apply seq_NoDup| |].
  - intros st _. apply NoDup_flat; [apply seq_NoDup| |].
    + intros et _. subst FF. cbv beta zeta. do 3 apply NoDup_if. apply NoDup_flat.
      * now apply NoDup_filter.
      * intros g _. do 8 apply NoDup_if. apply NoDup_app'; [apply NoDup_if; repeat constructor; easy|apply IH|].
        intros r I J. apply hiero_form in J as (h' & ext & ->). destruct (_ || _) in I; [easy|]. destruct I as [I|[]].
        apply (f_equal (@length span)) in I. rewrite !app_length in I. cbn in I. lia.
      * intros g g' r I J H H'. apply filter_In in I as [_ I], J as [_ J]. apply andb_true_iff in I as [I1 I2], J as [J1 J2]. apply Nat.eqb_eq in I1, I2, J1, J2.
        assert (X : exists ext, r = hs ++ Span st et (sS g) (eS g) :: ext).
        { clear H'. repeat match type of H with In _ (if ?c then [] else _) => destruct c; [easy|] end.
          apply in_app_iff in H as [H|H].
          - destruct (_ || _) in H; [easy|]. destruct H as [<-|[]]. now exists [].
          - apply hiero_form in H as (h' & ext & ->). rewrite <- app_assoc. cbn [app]. eauto. }
        assert (X' : exists ext, r = hs ++ Span st et (sS g') (eS g') :: ext).
        { clear H X. repeat match type of H' with In _ (if ?c then [] else _) => destruct c; [easy|] end.
          apply in_app_iff in H' as [H|H].
          - destruct (_ || _) in H; [easy|]. destruct H as [<-|[]]. now exists [].
          - apply hiero_form in H as (h' & ext & ->). rewrite <- app_assoc. cbn [app]. eauto. }
        destruct X as (x & X), X' as (x' & X'). rewrite X in X'. apply app_inv_head in X'. inversion X'. destruct g, g'. cbn in *. congruence.
    + intros et et' r _ _ H H'. apply Form in H as (g & ext & ->). apply Form in H' as (g' & ext' & E). apply app_inv_head in E. now inversion E.
  - intros st st' r _ _ H H'. apply in_flat_map in H as (et & _ & H). apply in_flat_map in H' as (et' & _ & H').
    apply Form in H as (g & ext & ->). apply Form in H' as (g' & ext' & E). apply app_inv_head in E. now inversion E.
Qed.
End Once.

Lemma retreat_once o n mn mx : forall s, NoDup (retreat o n mn mx s) /\ forall x, In x (retreat o n mn mx s) -> x <= s.
Proof.
  induction s as [|s [IH1 IH2]]; cbn [retreat].
  - destruct (_ && _); [|split; [constructor|easy]]. split; [repeat constructor; easy|]. intros x [<-|[]]. lia.
  - destruct (_ && _); [|split; [constructor|easy]]. split; [constructor; [intros I; apply IH2 in I; lia|easy]|].
    intros x [<-|I]; [lia|]. apply IH2 in I. lia.
Qed.
Lemma advance_once o n mx ss f : forall e, NoDup (advance o n mx ss f e) /\ forall x, In x (advance o n mx ss f e) -> e <= x.
Proof.
  induction f as [|f IH]; intros e; cbn [advance]; [split; [constructor|easy]|].
  destruct (_ && _); [|split; [constructor|easy]]. destruct (IH (S e)) as [IH1 IH2]. split.
  - constructor; [intros I; apply IH2 in I; lia|easy].
  - intros x [<-|I]; [lia|]. apply IH2 in I. lia.
Qed.
Lemma spans_once big node_t node_s o n : NoDup (spans big node_t node_s o n).
Proof.
  unfold spans. apply NoDup_flat; [apply seq_NoDup| |].
  - intros len I. apply in_seq in I. apply NoDup_flat; [apply seq_NoDup| |].
    + intros st _. apply FinFun.Injective_map_NoDup; [intros [a b] [c d] E; now inversion E|]. unfold source_spans. destruct (negb _); [constructor|].
      destruct (max_s _) as [mx|]; [|constructor]. cbv zeta. do 2 apply NoDup_if. apply NoDup_flat.
      * apply retreat_once.
      * intros ss _. apply NoDup_flat; [apply advance_once| |].
        -- intros es _. destruct (node_s ss es); repeat constructor; easy.
        -- intros x y [a b] _ _ H H'. destruct (node_s ss x), (node_s ss y); try easy. destruct H as [H|[]], H' as [H'|[]]. congruence.
      * intros x y [a b] _ _ H H'. apply in_flat_map in H as (e & _ & H), H' as (e' & _ & H').
        destruct (node_s x e), (node_s y e'); try easy. destruct H as [H|[]], H' as [H'|[]]. congruence.
    + intros x y z _ _ H H'. apply in_map_iff in H as (a & <- & _), H' as (b & E & _). now inversion E.
  - intros x y z Ix Iy H H'. apply in_seq in Ix, Iy. apply in_flat_map in H as (a & _ & H), H' as (b & _ & H'). apply in_map_iff in H as (p & <- & _), H' as (q & E & _).
    inversion E. lia.
Qed.
(** Pairs come in the order of the lengths of their targets. *)
Lemma spans_order big node_t node_s o n a h b g : spans big node_t node_s o n = a ++ h :: b -> In g (h :: b) -> size_t h <= size_t g.
Proof.
  enough (K : forall k m, StronglySorted (fun x y => size_t x <= size_t y)
      (flat_map (fun len => flat_map (fun st => map (fun s => Span st (st + len - 1) (fst s) (snd s)) (source_spans big node_t node_s o n st (st + len - 1)))
         (seq 0 (length (to_t n) - (len - 1)))) (seq (S k) m)) /\
      forall x, In x (flat_map (fun len => flat_map (fun st => map (fun s => Span st (st + len - 1) (fst s) (snd s)) (source_spans big node_t node_s o n st (st + len - 1)))
         (seq 0 (length (to_t n) - (len - 1)))) (seq (S k) m)) -> S k <= size_t x).
  { intros E I. destruct (K 0 (min (max_span o) (length (to_t n)))) as [St _]. fold (spans big node_t node_s o n) in St. rewrite E in St.
    clear E K. induction a as [|x a IH]; cbn [app] in St; apply StronglySorted_inv in St as [St F]; [|now apply IH].
    destruct I as [<-|I]; [lia|]. rewrite Forall_forall in F. now apply F. }
  intros k m. revert k. induction m as [|m IH]; intros k; cbn [seq flat_map]; [split; [constructor|easy]|].
  destruct (IH (S k)) as [IH1 IH2].
  assert (Eq : forall x, In x (flat_map (fun st => map (fun s => Span st (st + S k - 1) (fst s) (snd s)) (source_spans big node_t node_s o n st (st + S k - 1)))
         (seq 0 (length (to_t n) - (S k - 1)))) -> size_t x = S k).
  { intros x I. apply in_flat_map in I as (st & _ & I). apply in_map_iff in I as (p & <- & _). unfold size_t. cbn [sT eT]. lia. }
  split.
  - revert Eq. generalize (flat_map (fun st => map (fun s => Span st (st + S k - 1) (fst s) (snd s)) (source_spans big node_t node_s o n st (st + S k - 1)))
         (seq 0 (length (to_t n) - (S k - 1)))) as l. induction l as [|x l IHl]; intros Eq; [exact IH1|]. cbn [app]. constructor.
    + apply IHl. intros y I. apply Eq. now right.
    + apply Forall_forall. intros y I. rewrite (Eq x (or_introl eq_refl)). apply in_app_iff in I as [I|I]; [rewrite Eq; [lia|now right]|]. apply IH2 in I. lia.
  - intros x I. apply in_app_iff in I as [I|I]; [rewrite Eq; [lia|easy]|]. apply IH2 in I. lia.
Qed.

(** C103: what is read from a lexicon in plain text, and what the mapper makes of a record. *)
From Coq Require Import String Ascii.
From Coq Require Import List Arith Bool Lia.
From Verif Require Import M_LexBase.
Import ListNotations.
Local Open Scope nat_scope.

(** Words of a line: not empty, without blanks and hashes; gaps: blanks, at least one. *)
Definition no (f : ascii -> bool) (s : str) : Prop := Forall (fun c => f c = false) s.
Definition word (s : str) : Prop := s <> [] /\ no blank s /\ no hash s.
Definition blanks (s : str) : Prop := Forall (fun c => blank c = true) s.
(** A line of an entry: its key, at least one field, blanks, perhaps a comment; or a line with nothing but these. *)
Definition comment := option str.
Definition comment_text (c : comment) : str := match c with Some x => "#"%char :: x | None => [] end.
Inductive line := Entry (k : str) (fs : list (str * str)) (tail : str) (c : comment) | Nothing (tail : str) (c : comment).
Definition body (fs : list (str * str)) : str := flat_map (fun gf => fst gf ++ snd gf) fs.
Definition line_text (l : line) : str :=
  match l with
  | Entry k fs tail c => ((k ++ body fs) ++ tail) ++ comment_text c
  | Nothing tail c => tail ++ comment_text c
  end.
Definition field_ok (gf : str * str) : Prop := fst gf <> [] /\ blanks (fst gf) /\ word (snd gf).
(** What a line says, with its escapes replaced. *)
Inductive says (unescape : str -> option str) : line -> list (str * list str) -> Prop :=
| says_entry k fs tail c k' fs' : word k -> fs <> [] -> Forall field_ok fs -> blanks tail ->
    unescape k = Some k' -> Forall2 (fun gf y => unescape (snd gf) = Some y) fs fs' -> says unescape (Entry k fs tail c) [(k', fs')]
| says_nothing tail c : blanks tail -> says unescape (Nothing tail c) [].

Lemma blank_hash s : blanks s -> no hash s.
Proof.
  intros H. eapply Forall_impl; [|exact H]. intros c B. unfold blank, hash, is in *.
  destruct (ascii_dec c "#"%char) as [->|]; [discriminate B|reflexivity].
Qed.
Lemma find_app_none f : forall a b, no f a -> find_first f (a ++ b) = option_map (fun n => length a + n) (find_first f b).
Proof.
  induction a as [|c a IH]; intros b H; cbn [app find_first length]; [now destruct (find_first f b)|]. inversion H as [|? ? E H']; subst.
  rewrite E, (IH _ H'). now destruct (find_first f b).
Qed.
Lemma comment_ok s c : no hash s -> remove_comment (s ++ comment_text c) = s.
Proof.
  intros H. unfold remove_comment. rewrite find_app_none by exact H. destruct c as [x|]; cbn [comment_text find_first option_map].
  - replace (hash "#"%char) with true by reflexivity. cbn [option_map]. rewrite Nat.add_0_r, firstn_app, Nat.sub_diag, firstn_all. cbn. apply app_nil_r.
  - apply app_nil_r.
Qed.
Lemma body_hash fs : Forall field_ok fs -> no hash (body fs).
Proof.
  induction 1 as [|[g f] fs (_ & B & (_ & _ & H)) _ IH]; [constructor|]. cbn [body flat_map fst snd] in *. apply Forall_app. split; [|exact IH].
  apply Forall_app. split; [now apply blank_hash|exact H].
Qed.
Lemma split_word sep : forall w c s, no sep w -> sep c = true -> split sep (w ++ c :: s) = w :: split sep s.
Proof.
  induction w as [|d w IH]; intros c s H E; cbn [app split]; [now rewrite E|]. inversion H as [|? ? D H']; subst. now rewrite D, IH.
Qed.
Lemma split_last sep : forall w, no sep w -> split sep w = [w].
Proof. induction w as [|d w IH]; intros H; cbn [split]; [reflexivity|]. inversion H as [|? ? D H']; subst. now rewrite D, IH. Qed.
Lemma fields_gap : forall g s, blanks g -> fields (g ++ s) = fields s.
Proof.
  induction g as [|c g IH]; intros s H; [reflexivity|]. inversion H as [|? ? E H']; subst. unfold fields in *. cbn [app split]. rewrite E. cbn [filter]. now apply IH.
Qed.
Lemma fields_blanks g : blanks g -> fields g = [].
Proof. intros H. rewrite <- (app_nil_r g), fields_gap by exact H. reflexivity. Qed.
Lemma fields_word w g s : word w -> g <> [] -> blanks g -> fields (w ++ g ++ s) = w :: fields s.
Proof.
  intros (N & B & _) G H. destruct g as [|c g]; [congruence|]. inversion H as [|? ? E H']; subst. cbn [app]. unfold fields. rewrite split_word by assumption.
  destruct w as [|d w]; [congruence|]. cbn [filter]. f_equal. exact (fields_gap g s H').
Qed.
Lemma fields_tail w tail : word w -> blanks tail -> fields (w ++ tail) = [w].
Proof.
  intros W B. destruct tail as [|c t].
  - rewrite app_nil_r. destruct W as (N & H & _). unfold fields. rewrite split_last by exact H. destruct w; [congruence|reflexivity].
  - rewrite <- (app_nil_r (c :: t)), fields_word; [reflexivity|exact W|discriminate|exact B].
Qed.
Lemma fields_ok : forall fs k tail, word k -> Forall field_ok fs -> blanks tail -> fields ((k ++ body fs) ++ tail) = k :: map snd fs.
Proof.
  induction fs as [|[g f] fs IH]; intros k tail K F B.
  - cbn [body flat_map map]. rewrite app_nil_r. now apply fields_tail.
  - inversion F as [|? ? (G & Bg & W) F']; subst. cbn [fst snd] in *. cbn [body flat_map fst snd map]. rewrite <- !app_assoc. rewrite fields_word by assumption.
    f_equal. rewrite (app_assoc f). exact (IH f tail W F' B).
Qed.
Lemma unescape_ok unescape : forall (fs : list (str * str)) fs', Forall2 (fun gf y => unescape (snd gf) = Some y) fs fs' -> unescape_all unescape (map snd fs) = Some fs'.
Proof. induction 1 as [|[g f] y fs fs' E _ IH]; [reflexivity|]. cbn [map snd unescape_all] in *. now rewrite E, IH. Qed.
Lemma blank_line s : blanks s -> is_empty_line s = true.
Proof.
  intros H. unfold is_empty_line. rewrite <- (app_nil_r s), find_app_none; [reflexivity|]. eapply Forall_impl; [|exact H]. cbn. intros c E. now rewrite E.
Qed.

(** The lines of one key together: the keys in order, each with its records. *)
Definition groups := list (str * list (list str)).
Definition ungrouped (gs : groups) : list (str * list str) := flat_map (fun g => map (fun r => (fst g, r)) (snd g)) gs.
Definition pair_of (g : str * list (list str)) : str * str := (fst g, join (lit ";") (map (join [tab]) (snd g))).

Section Read.
  Variable unescape : str -> option str.
  (** Reading of entries alone. *)
  Fixpoint take (es : list (str * list str)) (cur : option (str * str)) (added : list (str * str)) : list (str * str) :=
    match es with
    | [] => added ++ match cur with Some p => [p] | None => [] end
    | (k, fs) :: es' =>
      match cur with
      | None => take es' (Some (k, join [tab] fs)) added
      | Some (k', s) =>
        if str_dec k k' then take es' (Some (k', (s ++ lit ";") ++ join [tab] fs)) added else take es' (Some (k, join [tab] fs)) (added ++ [(k', s)])
      end
    end.
  Lemma read_take : forall ls ess, Forall2 (says unescape) ls ess -> forall cur added,
    read unescape (map line_text ls) cur added = Some (take (concat ess) cur added).
  Proof.
    induction 1 as [|l es ls ess H _ IH]; intros cur added; [reflexivity|]. cbn [map read concat].
    destruct H as [k fs tail c k' fs' W N F B E E'|tail c B]; cbn [line_text].
    - rewrite comment_ok.
      2:{ apply Forall_app. split; [apply Forall_app; split; [apply W|now apply body_hash]|now apply blank_hash]. }
      assert (L : is_empty_line ((k ++ body fs) ++ tail) = false).
      { destruct W as (Nk & Bk & _). destruct k as [|d k]; [congruence|]. inversion Bk as [|? ? D _]; subst. unfold is_empty_line. cbn [app find_first]. now rewrite D. }
      rewrite L, fields_ok by assumption. cbn [unescape_all]. rewrite E, (unescape_ok _ _ _ E').
      destruct E' as [|[g f] y fs fs' E1 E2]; [congruence|]. cbn [app take]. destruct cur as [[k0 s]|]; [|apply IH]. destruct (str_dec k' k0); apply IH.
    - rewrite comment_ok by (now apply blank_hash). rewrite blank_line by exact B. cbn [app]. apply IH.
  Qed.
  Lemma join_cons sep x y l : join sep (x :: y :: l) = x ++ sep ++ join sep (y :: l).
  Proof. reflexivity. Qed.
  Lemma join_snoc sep : forall l x, l <> [] -> join sep (l ++ [x]) = (join sep l ++ sep) ++ x.
  Proof.
    induction l as [|a l IH]; intros x N; [congruence|]. destruct l as [|b l]; [cbn; now rewrite <- app_assoc|].
    cbn [app]. rewrite !join_cons. cbn [app] in IH. rewrite IH by discriminate. now rewrite <- !app_assoc.
  Qed.
  Lemma take_group : forall rs k before es added, before <> [] ->
    take (map (fun r => (k, r)) rs ++ es) (Some (k, join (lit ";") (map (join [tab]) before))) added
    = take es (Some (k, join (lit ";") (map (join [tab]) (before ++ rs)))) added.
  Proof.
    induction rs as [|r rs IH]; intros k before es added N; [now rewrite app_nil_r|]. cbn [map app take]. destruct (str_dec k k); [|congruence].
    rewrite <- join_snoc by (destruct before; [congruence|discriminate]). change [join [tab] r] with (map (join [tab]) [r]). rewrite <- map_app, IH by (destruct before; discriminate).
    now rewrite <- app_assoc.
  Qed.
  Lemma take_groups : forall gs g added, snd g <> [] -> Forall (fun g => snd g <> []) gs -> NoDup (map fst (g :: gs)) ->
    take (ungrouped gs) (Some (pair_of g)) added = added ++ map pair_of (g :: gs).
  Proof.
    induction gs as [|[k rs] gs IH]; intros g added N F D; [reflexivity|]. inversion F as [|? ? R F']; subst. cbn [snd] in R. inversion D as [|? ? I D']; subst.
    destruct rs as [|r rs]; [congruence|]. unfold ungrouped. cbn [flat_map fst snd map app take]. unfold pair_of at 1.
    destruct (str_dec k (fst g)) as [->|]; [exfalso; apply I; now left|].
    change (join [tab] r) with (join (lit ";") (map (join [tab]) [r])). rewrite take_group by discriminate. cbn [app].
    fold (ungrouped gs). change (k, join (lit ";") (map (join [tab]) (r :: rs))) with (pair_of (k, r :: rs)). rewrite IH; [|exact R|exact F'|exact D'].
    rewrite <- app_assoc. reflexivity.
  Qed.
  Lemma take_all gs : Forall (fun g => snd g <> []) gs -> NoDup (map fst gs) -> take (ungrouped gs) None [] = map pair_of gs.
  Proof.
    intros F D. destruct gs as [|[k rs] gs]; [reflexivity|]. inversion F as [|? ? R F']; subst. cbn [snd] in R. destruct rs as [|r rs]; [congruence|].
    unfold ungrouped. cbn [flat_map fst snd map app take]. change (join [tab] r) with (join (lit ";") (map (join [tab]) [r])). rewrite take_group by discriminate. cbn [app].
    fold (ungrouped gs). change (k, join (lit ";") (map (join [tab]) (r :: rs))) with (pair_of (k, r :: rs)). now rewrite take_groups.
  Qed.
End Read.
Lemma split_join sep c : sep c = true -> forall l, l <> [] -> Forall (no sep) l -> split sep (join [c] l) = l.
Proof.
  intros C. induction l as [|x l IH]; intros N F; [congruence|]. inversion F as [|? ? X F']; subst. destruct l as [|y l]; [now apply split_last|].
  rewrite join_cons. cbn [app]. rewrite split_word by assumption. f_equal. apply IH; [discriminate|exact F'].
Qed.
Lemma get_pairs k : forall gs, NoDup (map fst gs) -> (forall rs, In (k, rs) gs -> get (map pair_of gs) k = Some (snd (pair_of (k, rs))))
  /\ (~ In k (map fst gs) -> get (map pair_of gs) k = None).
Proof.
  induction gs as [|[k' rs'] gs IH]; intros D; [split; [intros rs []|reflexivity]|]. inversion D as [|? ? I D']; subst. destruct (IH D') as [A B].
  assert (G : get (map pair_of ((k', rs') :: gs)) k = if str_dec k' k then Some (snd (pair_of (k', rs'))) else get (map pair_of gs) k) by reflexivity. rewrite G. split.
  - intros rs [E|J].
    + injection E as -> ->. destruct (str_dec k k); [reflexivity|congruence].
    + destruct (str_dec k' k) as [->|]; [exfalso; apply I; apply in_map_iff; now exists (k, rs)|]. now apply A.
  - intros N. cbn [map fst] in N. destruct (str_dec k' k) as [->|]; [exfalso; apply N; now left|]. apply B. intros J. apply N. now right.
Qed.

(** A lexicon with the lines of each key together is read; each key has the records of its lines, in order, the fields
    of each with tabs between them, unless a field has a semicolon; other keys have none.  Comments and blank lines do not count. *)
Theorem C103_lexicon : forall unescape ls ess gs, Forall2 (says unescape) ls ess -> concat ess = ungrouped gs ->
  Forall (fun g => snd g <> []) gs -> NoDup (map fst gs) ->
  exists added, read_plain_text unescape (map line_text ls) = Some added
    /\ (forall k rs, In (k, rs) gs -> Forall (no semicolon) (map (join [tab]) rs) -> get_records added k = map (join [tab]) rs)
    /\ (forall k, ~ In k (map fst gs) -> get_records added k = []).
Proof.
  intros unescape ls ess gs H E F D. exists (map pair_of gs). unfold read_plain_text. rewrite (read_take _ _ _ H), E, take_all by assumption. split; [reflexivity|].
  unfold get_records. split.
  - intros k rs I Hs. destruct (get_pairs k gs D) as [G _]. rewrite (G rs I). cbn [pair_of snd fst]. apply (split_join semicolon ";"%char); [reflexivity| |exact Hs].
    rewrite Forall_forall in F. pose proof (F _ I) as N. cbn in N. destruct rs; [congruence|discriminate].
  - intros k N. destruct (get_pairs k gs D) as [_ G]. now rewrite (G N).
Qed.
Print Assumptions C103_lexicon.
(** A line that begins with a blank is left out, whatever follows. *)
Theorem C103_indented : forall unescape c s ls cur added, blank c = true -> read unescape ((c :: s) :: ls) cur added = read unescape ls cur added.
Proof.
  intros unescape c s ls cur added B. cbn [read]. assert (E : is_empty_line (remove_comment (c :: s)) = true); [|now rewrite E].
  assert (H : hash c = false) by (pose proof (blank_hash [c] (Forall_cons _ B (Forall_nil _))) as K; now inversion K).
  unfold remove_comment. cbn [find_first]. rewrite H. destruct (find_first hash s) as [n|]; cbn [option_map firstn]; unfold is_empty_line; cbn [find_first]; rewrite B; cbn [negb];
    match goal with |- context [option_map S ?x] => now destruct x end.
Qed.
Print Assumptions C103_indented.
(** A key alone is an exception, unless the line begins with a blank. *)
Theorem C103_short : forall unescape k tail c ls cur added, word k -> blanks tail -> read unescape (((k ++ tail) ++ comment_text c) :: ls) cur added = None.
Proof.
  intros unescape k tail c ls cur added W B. cbn [read]. rewrite comment_ok by (apply Forall_app; split; [apply W|now apply blank_hash]).
  assert (L : is_empty_line (k ++ tail) = false).
  { destruct W as (Nk & Bk & _). destruct k as [|d k]; [congruence|]. inversion Bk as [|? ? D _]; subst. unfold is_empty_line. cbn [app find_first]. now rewrite D. }
  rewrite L, fields_tail by assumption. cbn [unescape_all]. now destruct (unescape k).
Qed.
Print Assumptions C103_short.
Definition ex_lines : list str := [lit "# words"; lit "dog pies N # animal"; []; lit "dog   reks"; lit "cat kot N a=b,c "].
Example C103_lexicon_case : read_plain_text Some ex_lines = Some [(lit "dog", lit "pies" ++ tab :: lit "N;reks"); (lit "cat", lit "kot" ++ tab :: lit "N" ++ tab :: lit "a=b,c")]
  /\ get_records [(lit "dog", lit "pies" ++ tab :: lit "N;reks")] (lit "dog") = [lit "pies" ++ tab :: lit "N"; lit "reks"]
  /\ says Some (Entry (lit "dog") [(lit " ", lit "pies"); (lit " ", lit "N")] (lit " ") (Some (lit " animal"))) [(lit "dog", [lit "pies"; lit "N"])]
  /\ line_text (Entry (lit "dog") [(lit " ", lit "pies"); (lit " ", lit "N")] (lit " ") (Some (lit " animal"))) = lit "dog pies N # animal".
Proof.
  split; [reflexivity|]. split; [reflexivity|]. split; [|reflexivity].
  apply says_entry; unfold word, field_ok, word, blanks, no; cbn; repeat split; repeat constructor; discriminate.
Qed.
(** Not true: that an entry that is indented is read, that a record with a semicolon comes back, that a key whose lines are
    apart is added once. *)
Theorem C103_lexicon_refuted :
  read_plain_text Some [lit " dog pies"; lit "cat kot"] = Some [(lit "cat", lit "kot")]
  /\ get_records [(lit "a", lit "b;c")] (lit "a") = [lit "b"; lit "c"] /\ read_plain_text Some [lit "a b;c"] = Some [(lit "a", lit "b;c")]
  /\ read_plain_text Some [lit "a b"; lit "c d"; lit "a e"] = Some [(lit "a", lit "b"); (lit "c", lit "d"); (lit "a", lit "e")].
Proof. repeat split. Qed.
Print Assumptions C103_lexicon_refuted.

(** * Records of the mapper *)
Inductive attribute := Flag (a : str) | Value (a v : str).
Definition attribute_text (x : attribute) : str := match x with Flag a => a | Value a v => a ++ "="%char :: v end.
Definition attribute_pair (x : attribute) : str * str := match x with Flag a => (a, lit "1") | Value a v => (a, v) end.
Definition equals (c : ascii) : bool := is c "="%char.
Definition tabbed (c : ascii) : bool := is c tab.
Definition attribute_ok (x : attribute) : Prop :=
  no comma (attribute_text x) /\ no tabbed (attribute_text x) /\ no equals (match x with Flag a => a | Value a _ => a end).
Lemma subfield_ok x : attribute_ok x -> subfield (attribute_text x) = attribute_pair x.
Proof.
  intros (_ & _ & H). unfold subfield. fold equals. destruct x as [a|a v]; cbn [attribute_text attribute_pair].
  - rewrite <- (app_nil_r a) at 1. now rewrite (find_app_none equals) by exact H.
  - rewrite (find_app_none equals) by exact H. cbn [find_first]. replace (equals "="%char) with true by reflexivity. cbn [option_map].
    rewrite Nat.add_0_r, firstn_app, Nat.sub_diag, firstn_all, firstn_O, app_nil_r. f_equal. rewrite skipn_app, skipn_all2 by lia.
    replace (S (length a) - length a) with 1 by lia. reflexivity.
Qed.
Lemma no_join sep c : forall l, sep c = false -> Forall (no sep) l -> no sep (join [c] l).
Proof.
  intros l E. induction 1 as [|x l X F IH]; [constructor|]. destruct l as [|y l]; [exact X|]. rewrite join_cons. apply Forall_app. split; [exact X|]. constructor; assumption.
Qed.
(** Text, category and attributes of a record are read, and whatever comes after them is not. *)
Theorem C103_records : forall t c xs more, no tabbed t -> no tabbed c -> xs <> [] -> Forall attribute_ok xs -> Forall (no tabbed) more ->
  parse_entry t = (Some t, None, [])
  /\ parse_entry (join [tab] [t; c]) = (Some t, Some c, [])
  /\ parse_entry (join [tab] (t :: c :: join (lit ",") (map attribute_text xs) :: more)) = (Some t, Some c, map attribute_pair xs).
Proof.
  intros t c xs more T C N F M. unfold parse_entry. fold tabbed. split; [now rewrite (split_last tabbed)|].
  split; [rewrite (split_join tabbed tab); [reflexivity|reflexivity|discriminate|now repeat constructor]|].
  assert (A : no tabbed (join (lit ",") (map attribute_text xs))).
  { apply (no_join tabbed ","%char); [reflexivity|]. rewrite Forall_map. eapply Forall_impl; [|exact F]. intros x X. apply X. }
  rewrite (split_join tabbed tab); [|reflexivity|discriminate|constructor; [exact T|constructor; [exact C|constructor; [exact A|exact M]]]].
  f_equal. change (lit ",") with [","%char]. rewrite (split_join comma ","%char); [|reflexivity|destruct xs; [congruence|discriminate]|].
  - rewrite map_map. apply map_ext_in. intros x I. apply subfield_ok. rewrite Forall_forall in F. now apply F.
  - rewrite Forall_map. eapply Forall_impl; [|exact F]. intros x X. apply X.
Qed.
Print Assumptions C103_records.
(** The text and the category of the new edge: as set, else as cloned, else as in the record; without a category in the record it is
    the whole record. *)
Theorem C103_item : forall ct cc st sc ot oc t c, no tabbed t -> no tabbed c ->
  entry_item ct cc st sc ot oc (join [tab] [t; c]) =
    (match st with Some x => x | None => if ct then ot else t end, match sc with Some x => x | None => if cc then oc else c end)
  /\ entry_item ct cc st sc ot oc t =
    (match st with Some x => x | None => if ct then ot else t end, match sc with Some x => x | None => if cc then oc else t end).
Proof.
  intros ct cc st sc ot oc t c T C. unfold entry_item, parse_entry. fold tabbed.
  rewrite (split_join tabbed tab); [|reflexivity|discriminate|now repeat constructor]. rewrite (split_last tabbed t T). unfold chosen.
  destruct ct, cc, st, sc; split; reflexivity.
Qed.
Print Assumptions C103_item.
Example C103_records_case : parse_entry (lit "kot" ++ tab :: lit "N" ++ tab :: lit "g=m,anim") = (Some (lit "kot"), Some (lit "N"), [(lit "g", lit "m"); (lit "anim", lit "1")])
  /\ attribute_ok (Value (lit "g") (lit "m=n")) /\ entry_item true false None (Some (lit "X")) (lit "cat") (lit "V") (lit "kot" ++ tab :: lit "N") = (lit "cat", lit "X").
Proof. split; [reflexivity|]. split; [repeat split; repeat constructor|reflexivity]. Qed.

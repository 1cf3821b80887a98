(** PropSetup.v - C154 and C155: how a grammar is set up, and looking at a Scanner. *)
From Verif Require Import PropGrammar ReaderFacts TokenFacts PegBytes ReaderTrans Json Mxt Lua ExKit ScannerFacts.
From Coq Require Import Lia ZifyBool.

(* ------------------------------------------------------------------- C154 *)

(** MustSetRuleNames returns exactly if every tagged Rule field is exported and has an acceptable tag; then the fields are
    those of C60.  Otherwise it panics. *)
Theorem C154_must_set_rule_names {L : GoLib} g : lengths_fit g ->
  let fine := forall f, In f g -> has_tag f -> accepted (f_tag f) /\ f_exported f = true in
  (fine -> exists g', must_set_rule_names g = Ok g' /\ Forall2 after_set g g') /\ (~ fine -> must_set_rule_names g = Panic).
Proof.
  intros F fine. split.
  - intros H. destruct (C60_set_rule_names g F H) as (g' & E & A). exists g'. unfold must_set_rule_names. rewrite E. auto.
  - intros N. destruct (C60_set_rule_names_cases g F) as [H|(g1 & f & g2 & -> & H & T & [B|[B X]])]; [elim (N H)| |]; unfold must_set_rule_names.
    + destruct (C60_set_rule_names_stops g1 f g2 F H T B) as (g1' & m & -> & _). reflexivity.
    + rewrite (C60_set_rule_names_panics g1 f g2 F H T B X). reflexivity.
Qed.
Print Assumptions C154_must_set_rule_names.

(** A struct like those of /repo/grammar: Rules only, all exported and tagged with a name that CheckRuleName accepts. *)
Definition tidy_struct {L : GoLib} (g : gstruct) : Prop := forall f, In f g -> f_isrule f = true /\ f_exported f = true /\ f_tag f <> [] /\ accepted (f_tag f).
(** Setting the Reader of every Rule, in the order of the fields *)
Definition with_readers (g g' : gstruct) (rds : list reader) : Prop :=
  Forall2 (fun f f' => f_isrule f' = f_isrule f /\ f_exported f' = f_exported f /\ r_name (f_rule f') = r_name (f_rule f)) g g' /\
  map (fun f => r_reader (f_rule f)) g' = map Some rds.
Theorem C154_set_up {L : GoLib} g g1 g2 rds : lengths_fit g -> tidy_struct g -> must_set_rule_names g = Ok g1 -> with_readers g1 g2 rds ->
  exists rules, collect_rules g2 = Ok rules /\ map r_name rules = map f_tag g /\ map r_reader rules = map Some rds /\ must_check_rules rules = Ok tt.
Proof.
  intros F T M [W R]. destruct (C154_must_set_rule_names g F) as [Y _]. destruct Y as (g' & M' & A).
  { intros f I _. destruct (T f I) as (_ & X & _ & Z). auto. }
  assert (g' = g1) by congruence. subst g'. clear M'.
  assert (P : Forall2 (fun f f' => f_isrule f' = true /\ f_exported f' = true /\ r_name (f_rule f') = f_tag f) g g2).
  { clear R M F. revert g2 W. induction A as [|f f1 g g1 A1 A IH]; intros g2 W.
    - inversion W. constructor.
    - inversion W as [|? f2 ? g2' (W1 & W2 & W3) W']. subst. destruct (T f (or_introl eq_refl)) as (T1 & T2 & T3 & _).
      destruct A1 as [A1 _]. destruct (A1 (conj T1 T3)) as (_ & B1 & B2 & _ & _ & B3). constructor; [|apply IH; auto; intros q I; apply T; right; auto].
      repeat split; congruence. }
  exists (map f_rule g2). assert (Q : forall f, In f g2 -> f_isrule f = true /\ f_exported f = true).
  { clear - P. induction P as [|f f' g g2 (A & B & _) _ IH]; intros q []; subst; auto. }
  assert (C : collect_rules g2 = Ok (map f_rule g2)).
  { rewrite C60_collect_rules by (intros f I; apply Q; auto). do 2 f_equal. clear - Q. induction g2 as [|f g2 IH]; [reflexivity|]. cbn.
    destruct (Q f (or_introl eq_refl)) as [-> _]. f_equal. apply IH. intros q I. apply Q. right. auto. }
  assert (N : map r_name (map f_rule g2) = map f_tag g).
  { clear - P. induction P as [|f f' g g2 (_ & _ & E) _ IH]; [reflexivity|]. cbn in *. congruence. }
  assert (R' : map r_reader (map f_rule g2) = map Some rds) by (rewrite map_map; auto).
  split; [exact C|]. split; [exact N|]. split; [exact R'|].
  assert (V : forall r, In r (map f_rule g2) -> In (r_name r) (map f_tag g) /\ r_reader r <> None).
  { intros r I. split; [rewrite <- N; apply in_map; auto|]. assert (J : In (r_reader r) (map Some rds)) by (rewrite <- R'; apply in_map; auto).
    apply in_map_iff in J as (x & <- & _). discriminate. }
  assert (V' : forall r, In r (map f_rule g2) -> slen (r_name r) < 2 ^ 63 /\ accepted (r_name r) /\ r_reader r <> None).
  { intros r I. destruct (V r I) as [I1 I2]. apply in_map_iff in I1 as (f & <- & If). destruct (T f If) as (_ & _ & _ & X).
    unfold lengths_fit in F. rewrite Forall_forall in F. auto. }
  apply C60_must_check_rules; apply Forall_forall; intros r I; apply V'; auto.
Qed.
Print Assumptions C154_set_up.

(** No part of the reader refers to a Rule outside of the grammar, is user code or a Fold. *)
Definition own_rules (e : env) (r : reader) : bool :=
  match r with RWrap _ _ | RFold _ => false | RRule i | RGrammar _ _ i => (i <? length e)%nat | _ => true end.
Theorem C154_checked_never_panics {L : GoLib} e r s : Forall (fun ru => slen (r_name ru) < 2 ^ 63) e -> must_check_rules e = Ok tt ->
  eall (own_rules e) e -> rall (own_rules e) r = true -> in_text s -> ~ panics e r s.
Proof.
  intros F M He Hr I. apply (proj1 (C60_must_check_rules e F)) in M. rewrite Forall_forall in M.
  assert (K : forall q, own_rules e q = true -> safe e q = true).
  { assert (K : forall i, (i <? length e)%nat = true -> match r_reader (get_rule e i) with Some _ => true | None => false end = true).
    { intros i H. apply Nat.ltb_lt in H. destruct (M (get_rule e i)) as [_ X]; [apply nth_In; auto|]. destruct (r_reader (get_rule e i)); congruence. }
    intros [] H; cbn in *; auto; try discriminate. all: apply K; auto. }
  intros [n H]. apply (read_no_panic e n r s); auto.
  - intros i q R. eapply rall_impl; [exact K|]. eapply He; eauto.
  - eapply rall_impl; [exact K|exact Hr].
Qed.
Print Assumptions C154_checked_never_panics.

(** GrammarLines: one line for every rule, in order; it panics exactly if some rule has no Reader. *)
Theorem C154_grammar_lines {L : GoLib} e rs :
  (Forall (fun r => r_reader r <> None) rs -> exists ls, grammar_lines e rs = Ok ls /\
    Forall2 (fun r l => exists x, r_reader r = Some x /\ l = r_name r ++ lit ": " ++ what e x) rs ls) /\
  (~ Forall (fun r => r_reader r <> None) rs -> grammar_lines e rs = Panic).
Proof.
  induction rs as [|r rs [IH1 IH2]]; (split; intros H).
  - exists []. auto.
  - elim H. constructor.
  - inversion H as [|? ? H1 H2]. subst. destruct (IH1 H2) as (ls & E & A). cbn. unfold rule_line. destruct (r_reader r) as [x|] eqn:R; [|congruence].
    rewrite E. eexists. split; [reflexivity|]. constructor; eauto.
  - cbn. unfold rule_line. destruct (r_reader r) as [x|] eqn:R; [|reflexivity]. rewrite IH2; [reflexivity|]. intros Q. apply H. constructor; congruence.
Qed.
Print Assumptions C154_grammar_lines.

(** The grammars of the package are set up this way: the names are the tags, no two of them are the same, every Rule has a
    Reader, the Readers refer to the Rules of the grammar only and no part of them is invalid. *)
Definition valid_part (r : reader) : bool := match r with RInvalid _ => false | _ => true end.
Definition set_up_like {L : GoLib} (fields : gstruct) (e : env) (r : reader) : Prop :=
  tidy_struct fields /\ map r_name e = map f_tag fields /\ NoDup (map r_name e) /\ must_check_rules e = Ok tt /\
  (eall (own_rules e) e /\ eall valid_part e) /\ rall (own_rules e) r = true.
Lemma tidy_check {L : GoLib} g : forallb (fun f => f_isrule f && f_exported f && negb (bytes_eqb (f_tag f) []) &&
    match check_rule_name (f_tag f) with Ok None => true | _ => false end) g = true -> tidy_struct g.
Proof.
  intros H f I. rewrite forallb_forall in H. specialize (H f I). rewrite !andb_true_iff in H. destruct H as (((A & B) & C) & D).
  split; [exact A|]. split; [exact B|]. split.
  - intros E. rewrite E in C. discriminate.
  - unfold accepted. destruct (check_rule_name (f_tag f)) as [[x|]| |]; congruence.
Qed.
Fixpoint distinct (l : list bytes) : bool := match l with [] => true | x :: t => negb (existsb (bytes_eqb x) t) && distinct t end.
Lemma distinct_nodup l : distinct l = true -> NoDup l.
Proof.
  induction l as [|x l IH]; [constructor|]. cbn. rewrite andb_true_iff, negb_true_iff. intros [A B]. constructor; auto.
  intros I. assert (existsb (bytes_eqb x) l = true); [|congruence]. apply existsb_exists. exists x. split; auto. apply bytes_eqb_eq. reflexivity.
Qed.
Ltac set_up := split; [apply tidy_check; vm_compute; reflexivity|]; split; [vm_compute; reflexivity|];
  split; [apply distinct_nodup; vm_compute; reflexivity|]; split; [vm_compute; reflexivity|];
  split; [split; apply eall_check; vm_compute; reflexivity|]; vm_compute; reflexivity.
Theorem C154_grammars_are_set_up {L : GoLib} : set_up_like json_fields json_env json /\ set_up_like mxt_fields mxt_env mxt /\ set_up_like lua_fields lua_env lua.
Proof. split; [set_up|]. split; set_up. Qed.
Print Assumptions C154_grammars_are_set_up.

(** A struct with two Rules and what the calls make of it; with a name that is not acceptable, and without Readers *)
Definition two_rules : gstruct := [rule_field "Pair" "pair"; rule_field "Item" "item"].
Example C154_case {L : GoLib} : tidy_struct two_rules /\ lengths_fit two_rules /\
  (exists g1, must_set_rule_names two_rules = Ok g1 /\
    with_readers g1 (map (fun fr => mkField (f_name (fst fr)) (f_isrule (fst fr)) (f_exported (fst fr)) (f_tag (fst fr)) (mkRule (r_name (f_rule (fst fr))) (Some (snd fr))))
      (combine g1 [mk_seq [AReader (RRule 1); AReader (RRule 1)]; digit])) [mk_seq [AReader (RRule 1); AReader (RRule 1)]; digit]) /\
  must_set_rule_names (rule_field "Bad" "1" :: two_rules) = Panic /\
  must_check_rules [mkRule (lit "pair") (Some digit); mkRule (lit "item") None] = Panic /\
  grammar_lines [] [mkRule (lit "pair") (Some digit); mkRule (lit "item") None] = Panic.
Proof.
  split; [apply tidy_check; vm_compute; reflexivity|]. split; [repeat constructor|]. split.
  - eexists. split; [vm_compute; reflexivity|]. split; [repeat constructor|vm_compute; reflexivity].
  - repeat split; vm_compute; reflexivity.
Qed.

(* ------------------------------------------------------------------- C155 *)

(** Between [a] and [b] of the text: Head is [a], Tail is [b], Mark the length of [a]; the Scanner stays as it is. *)
Theorem C155_looking s a b : at_split s a b ->
  s_head s = Ok (a, s) /\ s_tail s = Ok (b, s) /\ mark s = Ok (slen a, s) /\
  (exists x, at_start s = Ok (x, s) /\ (x = true <-> a = [])) /\ (exists x, at_end s = Ok (x, s) /\ (x = true <-> b = [])).
Proof.
  intros S. pose proof S as (E & P & _). split; [apply (s_head_split s a b S)|]. split; [apply (s_tail_split s a b S)|].
  unfold mark, at_start, at_end, gets. rewrite E, P, slen_app. split; [reflexivity|]. unfold slen.
  split; (eexists; split; [reflexivity|]); destruct a, b; cbn; split; intros H; try discriminate; auto; lia.
Qed.
Print Assumptions C155_looking.
(** NewScanner begins at the start, NewRevScanner at the end; neither has a Tracker. *)
Theorem C155_new t h : slen t < 2 ^ 63 ->
  at_split (mkSt (new_scanner t) h) [] t /\ at_split (mkSt (new_rev_scanner t) h) t [] /\
  trk (new_scanner t) = None /\ trk (new_rev_scanner t) = None.
Proof. intros H. unfold at_split. cbn. rewrite app_nil_r. repeat split; auto. Qed.
Print Assumptions C155_new.
(** ToStart and ToEnd always succeed, also from a position outside of the text, and undo nothing but the position. *)
Theorem C155_ends s : slen (full (sc s)) < 2 ^ 63 ->
  (exists s', to_start s = Ok (true, s') /\ at_split s' [] (full (sc s)) /\ trk (sc s') = trk (sc s)) /\
  (exists s', to_end s = Ok (true, s') /\ at_split s' (full (sc s)) [] /\ trk (sc s') = trk (sc s)).
Proof.
  intros F. unfold to_start, to_end, to_marker. pose proof (slen_nonneg (full (sc s))). cbn [Z.ltb Z.compare andb].
  split.
  - eexists. split; [reflexivity|]. unfold at_split, moveto. cbn. auto.
  - replace ((slen (full (sc s)) <? 0) && (slen (full (sc s)) <=? slen (full (sc s)))) with false by lia. eexists. split; [reflexivity|].
    unfold at_split, moveto. cbn. rewrite app_nil_r. auto.
Qed.
Print Assumptions C155_ends.
(** ToMarker with a Mark of before goes back there: Head, Tail and Mark are what they were. *)
Theorem C155_back s s' p : mark s = Ok (p, s) -> full (sc s') = full (sc s) -> in_text s ->
  exists s'', to_marker p s' = Ok (true, s'') /\ sc s'' = mkSc (full (sc s)) (pos (sc s)) (trk (sc s')).
Proof.
  intros M F [B _]. unfold mark, gets in M. injection M as <-. unfold to_marker. rewrite F.
  replace ((pos (sc s) <? 0) && (slen (full (sc s)) <=? pos (sc s))) with false by lia. eexists. split; [reflexivity|]. unfold moveto. cbn. rewrite F. reflexivity.
Qed.
Print Assumptions C155_back.
(** Get returns the part of the text that the token marks, Since the part between a Mark and the position, whichever of them
    comes first; Get panics exactly on tokens that reach out of the text. *)
Theorem C155_get s a w b : full (sc s) = a ++ w ++ b -> get_tok (make_token (slen a) (slen (a ++ w))) s = Ok (w, s).
Proof.
  intros E. unfold get_tok. rewrite make_token_spec, E. cbn [t_from t_to]. rewrite !slen_app. pose proof (slen_nonneg a). pose proof (slen_nonneg w). pose proof (slen_nonneg b).
  replace (Z.min (slen a) (slen a + slen w)) with (slen a) by lia. replace (Z.max (slen a) (slen a + slen w)) with (slen a + slen w) by lia.
  rewrite slice_app. replace (_ && _ && _) with true by lia. reflexivity.
Qed.
Print Assumptions C155_get.
Theorem C155_get_panics s p q : get_tok (make_token p q) s = Panic <-> Z.min p q < 0 \/ slen (full (sc s)) < Z.max p q.
Proof.
  unfold get_tok. rewrite make_token_spec. cbn [t_from t_to]. destruct ((0 <=? Z.min p q) && (Z.min p q <=? Z.max p q) && (Z.max p q <=? slen (full (sc s)))) eqn:B;
    split; intros H; try discriminate; try reflexivity; lia.
Qed.
Print Assumptions C155_get_panics.
Theorem C155_since s a w b : (at_split s (a ++ w) b -> since (slen a) s = Ok (w, s)) /\ (at_split s a (w ++ b) -> since (slen (a ++ w)) s = Ok (w, s)).
Proof.
  split; intros (E & P & _); unfold since, bind, mark, gets; rewrite P.
  - apply (C155_get s a w b). rewrite E, app_assoc. reflexivity.
  - replace (make_token (slen (a ++ w)) (slen a)) with (make_token (slen a) (slen (a ++ w))) by (rewrite !make_token_spec; f_equal; lia). apply (C155_get s a w b). exact E.
Qed.
Print Assumptions C155_since.
(** Behind a ToMarker that left the text (C02), Head and Tail panic and the Scanner is at no end. *)
Theorem C155_outside s : ~ 0 <= pos (sc s) <= slen (full (sc s)) -> s_head s = Panic /\ s_tail s = Panic /\ at_start s = Ok (false, s) /\ at_end s = Ok (false, s).
Proof.
  intros N. unfold s_head, s_tail, at_start, at_end, gets. pose proof (slen_nonneg (full (sc s))).
  replace ((0 <=? pos (sc s)) && (pos (sc s) <=? slen (full (sc s)))) with false by lia. repeat split; do 2 f_equal; lia.
Qed.
Print Assumptions C155_outside.
Example C155_case : at_split (mk (lit "ab12") 2) (lit "ab") (lit "12") /\ since 0 (mk (lit "ab12") 2) = Ok (lit "ab", mk (lit "ab12") 2) /\
  since 3 (mk (lit "ab12") 2) = Ok (lit "1", mk (lit "ab12") 2) /\ get_tok (make_token 1 9) (mk (lit "ab12") 2) = Panic /\
  to_end (mk (lit "ab") 7) = Ok (true, mk (lit "ab") 2) /\ s_tail (mk (lit "ab") 7) = Panic.
Proof. repeat split; vm_compute; reflexivity. Qed.

(** GrammarFacts.v - CheckRuleName, SetRuleNames, CollectRules and CheckRules. *)
From Verif Require Export PegBytes Grammar.
From Coq Require Import Lia ZifyBool.
From Verif Require Import ReaderSteps ReaderScan.

(** ASCII letters and the other characters of a name (grammar.go:148-152). *)
Definition letter (x : byte) : bool := within 0x61 0x7A x || within 0x41 0x5A x.
Definition name_byte (x : byte) : bool :=
  letter x || within 0x30 0x39 x || is 0x2B x || is 0x2D x || is 0x2E x || is 0x5F x.

Section Name.
Context {L : GoLib}.
Definition r_letter : reader := RBetweenAny [(97, 122); (65, 90)] [].
Definition r_alnum : reader := RBetweenAny [(97, 122); (65, 90); (48, 57)] [].
Definition r_marks : reader := RAnyRune (lit "+-._").
Lemma rule_name_is : rule_name_reader = RRuleName (RSeq [r_letter; RZom (RAny [r_alnum; r_marks])]).
Proof. reflexivity. Qed.
Lemma rb_letter : reads_byte r_letter letter.
Proof.
  destruct (rb_ranges [(97, 122); (65, 90)] eq_refl) as (f & E & A & G). exists f. split; [exact E|]. split; [exact A|].
  intros x. rewrite <- G. cbn [existsb fst snd]. unfold letter. rewrite orb_false_r. reflexivity.
Qed.
Lemma takes_name e : takes e (RAny [r_alnum; r_marks]) name_byte.
Proof.
  assert (A : takes e r_alnum (fun x => existsb (fun q => within (fst q) (snd q) x) [(97, 122); (65, 90); (48, 57)])) by (apply takes_byte, rb_ranges; reflexivity).
  assert (B : takes e r_marks (one_of (lit "+-._"))) by (apply takes_byte, rb_any; reflexivity).
  pose proof (takes_any e _ _ _ _ A B) as T. intros c b. specialize (T c b).
  replace (first _ b) with (first name_byte b) in T; [exact T|]. destruct b as [|x b]; [reflexivity|]. cbn [first].
  destruct x; vm_compute; reflexivity.
Qed.
Lemma name_eats e c b : eats e (IR rule_name_reader) c b (first letter b) c
  (if first letter b then (fix drop (b : bytes) := match b with [] => [] | x :: t => if name_byte x then drop t else b end) (tl b) else b).
Proof.
  rewrite rule_name_is. apply e_rule_name. destruct (first letter b) eqn:F.
  - destruct b as [|x b]; [discriminate|]. cbn [first tl] in *.
    match goal with |- eats _ _ _ _ _ _ ?y => change y with (if true then y else x :: b) end. apply e_seq. eapply i_seq_next; [eapply byte_yes; [apply rb_letter|exact F]|].
    eapply i_seq_next; [|apply i_seq_nil]. apply e_zom. pose proof (takes_name e) as T. clear F x.
    induction b as [|x b IH]; [apply i_rep_stop; eapply takes_no; eauto|]. destruct (name_byte x) eqn:N.
    + eapply i_rep_next; [eapply takes_yes; eauto|]. exact IH.
    + apply i_rep_stop. eapply takes_no; eauto.
  - change b with (if false then b else b) at 2. apply e_seq. apply i_seq_stop with (b' := b). eapply byte_no; [apply rb_letter|exact F].
Qed.

Lemma leaf_runs e r t c b s : (exists f, rune_test r = Some f) -> stands t c b s -> exists x s', forall n, read (S n) e r s = Ok (x, s').
Proof. intros [f E] H. destruct (test_run e r f t c b s E H) as (x & s' & F & _). eauto. Qed.
Lemma name_any_runs e t c b s : stands t c b s -> exists x s', forall n, read (S (S n)) e (RAny [r_alnum; r_marks]) s = Ok (x, s').
Proof.
  intros H. destruct (test_run e r_alnum _ t c b s eq_refl H) as (x1 & s1 & F1 & X1 & S1).
  destruct x1 as [x1|]; cbn [okx] in X1; rewrite <- X1 in S1.
  - destruct (test_run e r_marks _ t c b s1 eq_refl S1) as (x2 & s2 & F2 & X2 & S2). destruct x2 as [x2|].
    + eexists _, _. intros n. change (read (S (S n)) e (RAny [r_alnum; r_marks])) with (let* m := mark in any_loop (map (read (S n) e) [r_alnum; r_marks]) m []).
      rewrite (bind_ok _ _ _ _ _ (mark_ok s)). cbn [map any_loop]. rewrite (bind_ok _ _ _ _ _ (F1 n)), (bind_ok _ _ _ _ _ (F2 n)).
      rewrite bind_run, to_marker_nonneg by (eapply stands_nonneg; eauto). reflexivity.
    + eexists _, _. intros n. change (read (S (S n)) e (RAny [r_alnum; r_marks])) with (let* m := mark in any_loop (map (read (S n) e) [r_alnum; r_marks]) m []).
      rewrite (bind_ok _ _ _ _ _ (mark_ok s)). cbn [map any_loop]. rewrite (bind_ok _ _ _ _ _ (F1 n)), (bind_ok _ _ _ _ _ (F2 n)). reflexivity.
  - eexists _, _. intros n. change (read (S (S n)) e (RAny [r_alnum; r_marks])) with (let* m := mark in any_loop (map (read (S n) e) [r_alnum; r_marks]) m []).
    rewrite (bind_ok _ _ _ _ _ (mark_ok s)). cbn [map any_loop]. rewrite (bind_ok _ _ _ _ _ (F1 n)). reflexivity.
Qed.
Lemma name_rep_runs e t c b : forall s n m, stands t c b s -> (length b < n)%nat -> exists s', rep_loop n (read (S (S m)) e (RAny [r_alnum; r_marks])) s = Ok (tt, s').
Proof.
  revert c. remember (length b) as k. revert b Heqk. induction k as [k IH] using (well_founded_induction lt_wf). intros b -> c s n m H Hn.
  destruct n as [|n]; [lia|]. destruct (name_any_runs e t c b s H) as (x & s1 & F). cbn [rep_loop]. rewrite (bind_ok _ _ _ _ _ (F m)).
  destruct x as [x|]; [eexists; reflexivity|].
  destruct (eats_reads e _ _ _ _ _ _ _ _ (takes_name e c b) H) as (y & s2 & R & Y & S2).
  assert (R0 : reads e (RAny [r_alnum; r_marks]) s None s1) by (exists 2%nat; apply F). destruct (reads_fun _ _ _ _ _ _ _ R R0) as [-> ->]. rewrite <- Y in S2. cbn [okx] in *.
  destruct b as [|x b]; [discriminate|]. cbn [tl length] in *. eapply IH; [|reflexivity|exact S2|]; lia.
Qed.
(** CheckRuleName returns, and only looks at the first byte. *)
Lemma check_rule_name_runs name : slen name < 2 ^ 63 -> exists x, check_rule_name name = Ok x /\ okx x = first letter name.
Proof.
  intros H. unfold check_rule_name, check_rule_name_f.
  pose proof (stands_start [] name H) as S0. fold (start_of [] name).
  assert (R : exists x s', read (length name + 10) [] rule_name_reader (start_of [] name) = Ok (x, s')).
  { rewrite rule_name_is. replace (length name + 10)%nat with (S (S (S (S (S (length name + 5)))))) by lia.
    set (k := S (S (length name + 5))).
    destruct (test_run [] r_letter _ name [] name _ eq_refl S0) as (x & s1 & F1 & X1 & S1).
    assert (Q : exists x s', read (S (S k)) [] (RSeq [r_letter; RZom (RAny [r_alnum; r_marks])]) (start_of [] name) = Ok (x, s')).
    { change (read (S (S k)) [] (RSeq [r_letter; RZom (RAny [r_alnum; r_marks])])) with (let* m := mark in seq_loop (map (read (S k) []) [r_letter; RZom (RAny [r_alnum; r_marks])]) m).
      rewrite (bind_ok _ _ _ _ _ (mark_ok _)). cbn [map seq_loop]. rewrite (bind_ok _ _ _ _ _ (F1 k)). destruct x as [x|].
      - rewrite bind_run, to_marker_nonneg by (cbn; lia). eexists _, _. reflexivity.
      - cbn [okx] in X1. rewrite <- X1 in S1. destruct (name_rep_runs [] name [] (after_rune name) s1 k (length name + 5) S1) as [s2 R2].
        { unfold k, after_rune. rewrite skipn_length. lia. }
        assert (Z2 : read (S k) [] (RZom (RAny [r_alnum; r_marks])) s1 = Ok (None, s2)).
        { change (read (S k) [] (RZom (RAny [r_alnum; r_marks]))) with (rep_loop k (read k [] (RAny [r_alnum; r_marks])) ;; ret (@None err)).
          unfold k in *. rewrite bind_run, R2. reflexivity. }
        rewrite (bind_ok _ _ _ _ _ Z2). eexists _, _. reflexivity. }
    destruct Q as (y & s3 & Q). change (read (S (S (S k))) [] (RRuleName (RSeq [r_letter; RZom (RAny [r_alnum; r_marks])])))
      with (let* y := read (S (S k)) [] (RSeq [r_letter; RZom (RAny [r_alnum; r_marks])]) in error_if_false (match y with None => true | Some _ => false end) (lit "rulename")).
    rewrite (bind_ok _ _ _ _ _ Q). destruct y; eexists _, _; reflexivity. }
  destruct R as (x & s' & R). exists x. split.
  - change (init_st name) with (start_of [] name). unfold use. rewrite (bind_ok _ _ _ _ _ (mark_ok _)), (bind_ok _ _ _ _ _ R). destruct x; [|reflexivity].
    rewrite bind_run, to_marker_nonneg by (cbn; lia). reflexivity.
  - destruct (eats_reads [] _ _ _ _ _ _ _ _ (name_eats [] [] name) S0) as (y & s2 & R2 & Y & _).
    assert (R0 : reads [] rule_name_reader (start_of [] name) x s') by (eexists; exact R). destruct (reads_fun _ _ _ _ _ _ _ R2 R0) as [-> _]. exact Y.
Qed.
End Name.

Section Struct.
Context {L : GoLib}.
Definition fits (s : bytes) : Prop := slen s < 2 ^ 63.
Definition tagged (f : field) : bool := f_isrule f && negb (bytes_eqb (f_tag f) []).
Lemma check_ok t : fits t -> first letter t = true -> check_rule_name t = Ok None.
Proof. intros F H. destruct (check_rule_name_runs t F) as ([x|] & E & X); [cbn in X; congruence|auto]. Qed.
Lemma check_bad t : fits t -> first letter t = false -> exists x, check_rule_name t = Ok (Some x).
Proof. intros F H. destruct (check_rule_name_runs t F) as ([x|] & E & X); [eauto|cbn in X; congruence]. Qed.
Definition named_field (f : field) : field := if tagged f then set_name (f_tag f) f else f.
(** A field SetRuleNames passes without error. *)
Definition passes (f : field) : Prop := fits (f_tag f) /\ (tagged f = true -> first letter (f_tag f) = true /\ f_exported f = true).
Lemma set_pass f g : passes f -> set_rule_names (f :: g) = match set_rule_names g with Ok (t, x) => Ok (named_field f :: t, x) | Panic => Panic | Fuel => Fuel end.
Proof.
  intros [F P]. unfold named_field, tagged in *. cbn [set_rule_names]. destruct (f_isrule f); cbn [negb andb] in *; [|reflexivity].
  destruct (bytes_eqb (f_tag f) []); cbn [negb] in *; [reflexivity|]. destruct (P eq_refl) as [P1 P2]. rewrite (check_ok _ F P1), P2. reflexivity.
Qed.
Lemma set_passes g1 g2 : Forall passes g1 -> set_rule_names (g1 ++ g2) =
  match set_rule_names g2 with Ok (t, x) => Ok (map named_field g1 ++ t, x) | Panic => Panic | Fuel => Fuel end.
Proof.
  induction 1 as [|f g P _ IH]; cbn [app map]; [destruct (set_rule_names g2) as [[t x]| |]; reflexivity|].
  rewrite set_pass, IH by auto. destruct (set_rule_names g2) as [[t x]| |]; reflexivity.
Qed.
Lemma set_invalid f g : fits (f_tag f) -> tagged f = true -> first letter (f_tag f) = false ->
  exists m, set_rule_names (f :: g) = Ok (f :: g, Some (EOther (lit "invalid name for " ++ f_name f ++ m))).
Proof.
  intros F T N. unfold tagged in T. apply andb_prop in T as [T1 T2]. cbn [set_rule_names]. rewrite T1. cbn [negb].
  destruct (bytes_eqb (f_tag f) []); [discriminate|]. destruct (check_bad _ F N) as [x ->]. eexists. reflexivity.
Qed.
Lemma set_unexported f g : fits (f_tag f) -> tagged f = true -> first letter (f_tag f) = true -> f_exported f = false -> set_rule_names (f :: g) = Panic.
Proof.
  intros F T N X. unfold tagged in T. apply andb_prop in T as [T1 T2]. cbn [set_rule_names]. rewrite T1. cbn [negb].
  destruct (bytes_eqb (f_tag f) []); [discriminate|]. rewrite (check_ok _ F N), X. reflexivity.
Qed.
Lemma check_rules_spec rs : Forall (fun r => fits (r_name r)) rs -> exists x, check_rules rs = Ok x /\
  (x = None <-> Forall (fun r => first letter (r_name r) = true /\ r_reader r <> None) rs).
Proof.
  induction 1 as [|r rs F _ (x & E & IH)]; [exists None; split; [reflexivity|]; split; auto|]. cbn [check_rules].
  destruct (first letter (r_name r)) eqn:N.
  - rewrite (check_ok _ F N). destruct (r_reader r) eqn:R.
    + exists x. split; auto. rewrite IH. split; [intros H; constructor; auto; split; congruence|inversion 1; auto].
    + eexists. split; [reflexivity|]. split; [discriminate|]. inversion 1; subst. tauto.
  - destruct (check_bad _ F N) as [y ->]. eexists. split; [reflexivity|]. split; [discriminate|]. inversion 1; subst. destruct H2; congruence.
Qed.
Lemma collect_spec g : (forall f, In f g -> f_exported f = true) -> collect_rules g = Ok (map f_rule (filter f_isrule g)).
Proof.
  induction g as [|f g IH]; intros H; [reflexivity|]. cbn [collect_rules filter]. rewrite (H f (or_introl eq_refl)). cbn [negb].
  rewrite IH by (intros; apply H; right; auto). destruct (f_isrule f); reflexivity.
Qed.
Lemma collect_panic g : (exists f, In f g /\ f_exported f = false) -> collect_rules g = Panic.
Proof.
  induction g as [|f g IH]; intros (f0 & I & X); [elim I|]. cbn [collect_rules]. destruct (f_exported f) eqn:E; cbn [negb]; [|reflexivity].
  destruct I as [->|I]; [congruence|]. rewrite IH by eauto. reflexivity.
Qed.
End Struct.

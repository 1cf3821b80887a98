(** JsonDepth.v - how deeply JSON() nests Reads of values. *)
From Verif Require Import Grammar Trace HearFacts MarksFacts TrackFacts TraceFacts PegTotal LogFacts.
From Verif Require Export JsonFacts DepthBound CostFacts SpecNest.
From Coq Require Import Lia ZifyBool.

Local Open Scope nat_scope.
(** Readers that reach nothing of weight. *)
Section Light.
Context (e : env) (w : reader -> nat) (R : nat -> bool).
Definition light1 (r : reader) : bool := Nat.eqb (w r) 0 && match r with RRule i | RGrammar _ _ i => R i | _ => true end.
Context (Wb : forall d t, w (RBody d t) = 0) (HR : forall i r, R i = true -> r_reader (get_rule e i) = Some r -> rallP (fun r => light1 r = true) r).
Lemma light_dives i c b ok c' b' n : dives e w i c b ok c' b' n -> iallP (fun r => light1 r = true) i -> n = 0.
Proof.
  assert (W : forall r, light1 r = true -> w r = 0) by (intros r H; apply andb_true_iff in H as [H _]; apply Nat.eqb_eq in H; auto).
  induction 1; intros M; cbn [iallP rallP] in *;
    repeat match goal with X : _ /\ _ |- _ => destruct X end;
    repeat match goal with X : Forall _ (_ :: _) |- _ => inversion X; subst; clear X end;
    repeat match goal with X : fold_right _ True _ |- _ => apply all_Forall in X end;
    try (rewrite (W _ ltac:(eassumption)));
    try match goal with X : light1 (RRule _) = true |- _ => apply andb_true_iff in X as [_ X]; pose proof (HR _ _ X H) end;
    try match goal with X : light1 (RGrammar _ _ _) = true |- _ => apply andb_true_iff in X as [_ X]; pose proof (HR _ _ X H) end;
    repeat match goal with IH : _ -> ?n = 0 |- _ => first [rewrite IH by (first [apply all_interleave|idtac]; repeat split; auto; unfold light1; rewrite Wb; reflexivity)|clear IH] end; auto.
  all: try (apply W; destruct r; try discriminate; cbn [rallP] in M; tauto).
Qed.
End Light.

Section Qut.
Context (e : env) (w : reader -> nat).
(** Whatever the strings: outcome and depth. *)
Definition qut (i : item) (b : bytes) (ok : bool) (b' : bytes) (n : nat) : Prop := forall c, dives e w i c b ok c b' n.
Lemma q_n i b ok b' n m : qut i b ok b' n -> n = m -> qut i b ok b' m. Proof. intros H <-. exact H. Qed.
Lemma q_rule k r b ok b' n : r_reader (get_rule e k) = Some r -> qut (IR r) b ok b' n -> qut (IR (RRule k)) b ok b' (w (RRule k) + n). Proof. intros E H c. eapply de_rule; eauto. Qed.
Lemma q_any rs b b' n : qut (IAny rs) b true b' n -> qut (IR (RAny rs)) b true b' (w (RAny rs) + n). Proof. intros H c. exact (de_any e w rs c b true c b' n (H c)). Qed.
Lemma q_any_no rs b b' n : qut (IAny rs) b false b' n -> qut (IR (RAny rs)) b false b (w (RAny rs) + n). Proof. intros H c. exact (de_any e w rs c b false c b' n (H c)). Qed.
Lemma q_seq rs b b' n : qut (ISeq rs) b true b' n -> qut (IR (RSeq rs)) b true b' (w (RSeq rs) + n). Proof. intros H c. exact (de_seq e w rs c b true c b' n (H c)). Qed.
Lemma q_seq_no rs b b' n : qut (ISeq rs) b false b' n -> qut (IR (RSeq rs)) b false b (w (RSeq rs) + n). Proof. intros H c. exact (de_seq e w rs c b false c b' n (H c)). Qed.
Lemma qa_nil b : qut (IAny []) b false b 0. Proof. intros c. apply di_any_nil. Qed.
Lemma qa_hit r rs b b' n : qut (IR r) b true b' n -> qut (IAny (r :: rs)) b true b' n. Proof. intros H c. apply di_any_hit. auto. Qed.
Lemma qa_next r rs b b1 ok b' n1 n2 : qut (IR r) b false b1 n1 -> qut (IAny rs) b1 ok b' n2 -> qut (IAny (r :: rs)) b ok b' (Nat.max n1 n2). Proof. intros H1 H2 c. eapply di_any_next; [apply H1|apply H2]. Qed.
Lemma qs_nil b : qut (ISeq []) b true b 0. Proof. intros c. apply di_seq_nil. Qed.
Lemma qs_stop r rs b b' n : qut (IR r) b false b' n -> qut (ISeq (r :: rs)) b false b' n. Proof. intros H c. apply di_seq_stop. auto. Qed.
Lemma qs_next r rs b b1 ok b' n1 n2 : qut (IR r) b true b1 n1 -> qut (ISeq rs) b1 ok b' n2 -> qut (ISeq (r :: rs)) b ok b' (Nat.max n1 n2). Proof. intros H1 H2 c. eapply di_seq_next; [apply H1|apply H2]. Qed.
Lemma qr_stop r b b' n : qut (IR r) b false b' n -> qut (IRep r) b true b' n. Proof. intros H c. apply di_rep_stop. auto. Qed.
Lemma qr_next r b b1 b' n1 n2 : qut (IR r) b true b1 n1 -> qut (IRep r) b1 true b' n2 -> qut (IRep r) b true b' (Nat.max n1 n2). Proof. intros H1 H2 c. eapply di_rep_next; [apply H1|apply H2]. Qed.
Lemma q_zom r b b' n : qut (IRep r) b true b' n -> qut (IR (RZom r)) b true b' (w (RZom r) + n). Proof. intros H c. apply de_zom. auto. Qed.
End Qut.

Lemma skip_two e i x y rest c b ok c' b' : r_reader (get_rule e i) = Some (RAny (x :: y :: rest)) -> eats e (IR x) c b false c b -> eats e (IR y) c b false c b ->
  eats e (IR (RRule i)) c b ok c' b' -> exists b1, eats e (IAny rest) c b ok c' b1 /\ b' = if ok then b1 else b.
Proof.
  intros H X Y D. inversion D; subst; try discriminate. replace r with (RAny (x :: y :: rest)) in * by congruence. clear D H.
  match goal with Z : eats _ (IR (RAny _)) _ _ _ _ _ |- _ => inversion Z; subst; try discriminate; clear Z end.
  match goal with Z : eats _ (IAny _) _ _ _ _ _ |- _ => inversion Z; subst; clear Z end;
    match goal with Z : eats _ (IR x) _ _ _ _ _ |- _ => destruct (eats_det _ _ _ _ _ _ _ Z _ _ _ X) as (E1 & E2 & E3); try discriminate E1; subst end.
  match goal with Z : eats _ (IAny _) _ _ _ _ _ |- _ => inversion Z; subst; clear Z end;
    match goal with Z : eats _ (IR y) _ _ _ _ _ |- _ => destruct (eats_det _ _ _ _ _ _ _ Z _ _ _ Y) as (E4 & E5 & E6); try discriminate E4; subst end.
  eauto.
Qed.
Lemma rule_dives_inv e w i r c b ok c' b' k : r_reader (get_rule e i) = Some r -> dives e w (IR (RRule i)) c b ok c' b' k -> exists n, dives e w (IR r) c b ok c' b' n /\ k = w (RRule i) + n.
Proof. intros H. inversion 1; subst; try discriminate. replace r with r0 by congruence. eauto. Qed.

Section Json.
Context {L : GoLib}.
Notation E := json_env.
Notation out := (out json_env).
Definition vals (r : reader) : nat := rule_calls (chosen [jValue]) r.
Notation qut := (qut json_env vals).
Definition leafy (i : nat) : bool := existsb (Nat.eqb i) [jKey; jString; jCharacters; jCharacter; jEscape; jHex; jNumber; jInteger; jFraction; jExponent; jOneNine; jDigit; jDigits; jSign; jBool; jNull; jWS].
Lemma leafy_light i r : leafy i = true -> r_reader (get_rule E i) = Some r -> rallP (fun r => light1 vals leafy r = true) r.
Proof.
  intros H Q. apply rallP_rall. assert (A : rules_hold E (fun i r => negb (leafy i) || rall (light1 vals leafy) r) = true) by (vm_compute; reflexivity).
  pose proof (rules_hold_ok _ _ A i r Q) as X. cbv beta in X. rewrite H in X. exact X.
Qed.
Lemma q_light i b ok b' : out i b ok b' -> iallP (fun r => light1 vals leafy r = true) i -> qut i b ok b' 0.
Proof.
  intros O M c. destruct (eats_dives _ vals _ _ _ _ _ _ (O c)) as [n D]. pose proof (light_dives E vals leafy (fun _ _ => eq_refl) leafy_light _ _ _ _ _ _ _ D M) as ->. exact D.
Qed.
Lemma q_leaf i b ok b' : leafy i = true -> out (IR (RRule i)) b ok b' -> qut (IR (RRule i)) b ok b' 0.
Proof.
  intros H O. apply q_light; auto. cbn [iallP rallP]. split; auto. unfold light1. rewrite H, andb_true_r. apply Nat.eqb_eq. unfold vals, rule_calls, chosen. cbn [existsb].
  destruct (Nat.eqb i jValue) eqn:Q; [|reflexivity]. apply Nat.eqb_eq in Q. subst i. discriminate H.
Qed.
Lemma q_rune n b b' ok : out (IR (RRune n)) b ok b' -> qut (IR (RRune n)) b ok b' 0.
Proof. intros O. apply q_light; auto. cbn. auto. Qed.
Lemma q_guard o rs b : (0 <= o < 128)%Z -> first (is o) b = false -> qut (IR (RSeq (RRune o :: rs))) b false b 0.
Proof. intros R F. eapply q_n; [eapply q_seq_no, qs_stop, q_rune, o_takes_no; [apply t_rune; auto|exact F]|reflexivity]. Qed.
Lemma q_object_no b : first (is 0x7B) b = false -> qut (IR (RRule jObject)) b false b 0.
Proof. intros F. eapply q_n; [eapply q_rule; [apply env_object|apply q_guard; [lia|exact F]]|reflexivity]. Qed.
Lemma q_array_no b : first (is 0x5B) b = false -> qut (IR (RRule jArray)) b false b 0.
Proof. intros F. eapply q_n; [eapply q_rule; [apply env_array|apply q_guard; [lia|exact F]]|reflexivity]. Qed.
Lemma q_ws w b : j_ws w -> first b_ws b = false -> qut (IR (RRule jWS)) (w ++ b) true b 0.
Proof. intros W F. apply q_leaf; [reflexivity|]. apply o_ws; auto. Qed.
(** A value that is neither object nor array. *)
Lemma q_scalar b ok b' : first (is 0x7B) b = false -> first (is 0x5B) b = false -> out (IR (RRule jValue)) b ok b' -> qut (IR (RRule jValue)) b ok b' 1.
Proof.
  intros F1 F2 O c. pose proof (q_object_no b F1 c) as D1. pose proof (q_array_no b F2 c) as D2.
  destruct (skip_two _ _ _ _ _ _ _ _ _ _ env_value (dives_eats _ _ _ _ _ _ _ _ _ D1) (dives_eats _ _ _ _ _ _ _ _ _ D2) (O c)) as (b1 & D & ->).
  destruct (eats_dives _ vals _ _ _ _ _ _ D) as [n W]. pose proof (light_dives E vals leafy (fun _ _ => eq_refl) leafy_light _ _ _ _ _ _ _ W) as Z.
  rewrite Z in W by (cbn; repeat constructor). apply (dives_n _ _ _ _ _ _ _ _ (1 + (0 + Nat.max 0 (Nat.max 0 0)))); [|reflexivity].
  exact (de_rule _ vals jValue _ _ _ _ _ _ _ env_value (de_any _ vals _ _ _ _ _ _ _ (di_any_next _ vals _ _ _ _ _ _ _ _ _ _ _ D1 (di_any_next _ vals _ _ _ _ _ _ _ _ _ _ _ D2 W)))).
Qed.
Definition nests_as (s : jsort) (n : nat) (w : bytes) : Prop :=
  match s with
  | Value => forall b, no_frac b -> qut (IR (RRule jValue)) (w ++ b) true b n
  | Element => forall b, follow b -> qut (IR (RRule jElement)) (w ++ b) true b n
  | Member => forall b, follow b -> qut (IR (RRule jMember)) (w ++ b) true b n
  | Elements => forall b, ends b -> exists b1 n1 n2, qut (IR (RRule jElement)) (w ++ b) true b1 n1 /\ qut (IRep (rd_more jElement)) b1 true b n2 /\ n = Nat.max n1 n2
  | Members => forall b, ends b -> exists b1 n1 n2, qut (IR (RRule jMember)) (w ++ b) true b1 n1 /\ qut (IRep (rd_more jMember)) b1 true b n2 /\ n = Nat.max n1 n2
  end.
Lemma q_more_stop k b : first (is 0x2C) b = false -> qut (IRep (rd_more k)) b true b 0.
Proof. intros F. apply qr_stop. apply q_guard; [lia|exact F]. Qed.
Lemma q_bracket o c k (w b : bytes) x n : (0 <= o < 128)%Z -> (0 <= c < 128)%Z -> qut (IAny [RRule k; RRule jWS]) (w ++ zb c :: b) true (zb c :: b) n -> x = zb o ->
  qut (IR (RSeq [RRune o; RAny [RRule k; RRule jWS]; RRune c])) (x :: w ++ zb c :: b) true b n.
Proof.
  intros Ho Hc O ->. assert (To : is o (zb o) = true) by (unfold is; rewrite bz_zb by lia; lia). assert (Tc : is c (zb c) = true) by (unfold is; rewrite bz_zb by lia; lia).
  eapply q_n; [apply q_seq; eapply qs_next; [apply q_rune; eapply o_takes_yes; [apply t_rune; auto|auto]|]; eapply qs_next; [apply q_any; exact O|]; eapply qs_next; [apply q_rune; eapply o_takes_yes; [apply t_rune; auto|auto]|apply qs_nil]|].
  change (vals (RSeq _)) with 0. change (vals (RAny _)) with 0. lia.
Qed.
Lemma q_object w b n : qut (IAny [RRule jMembers; RRule jWS]) (w ++ x7d :: b) true (x7d :: b) n -> qut (IR (RRule jValue)) ((lit "{" ++ w ++ lit "}") ++ b) true b (S n).
Proof.
  intros Q. eapply q_n; [eapply q_rule; [apply env_value|]; apply q_any, qa_hit; eapply q_rule; [apply env_object|]; rewrite bracketed; apply (q_bracket 0x7B 0x7D); try lia; [exact Q|reflexivity]|].
  change (vals (RRule jValue)) with 1. change (vals (RAny _)) with 0. change (vals (RRule jObject)) with 0. lia.
Qed.
Lemma q_array w b n : qut (IAny [RRule jElements; RRule jWS]) (w ++ x5d :: b) true (x5d :: b) n -> qut (IR (RRule jValue)) ((lit "[" ++ w ++ lit "]") ++ b) true b (S n).
Proof.
  intros Q. eapply q_n; [eapply q_rule; [apply env_value|]; apply q_any; eapply qa_next; [apply q_object_no; reflexivity|]; apply qa_hit; eapply q_rule; [apply env_array|]; rewrite bracketed; apply (q_bracket 0x5B 0x5D); try lia; [exact Q|reflexivity]|].
  change (vals (RRule jValue)) with 1. change (vals (RAny _)) with 0. change (vals (RRule jArray)) with 0. lia.
Qed.
Lemma nests_dive s n w : nests s n w -> nests_as s n w.
Proof.
  induction 1 as [w W|n m H IH|w W|n l H IH|w Sw|w Nw| | | |w1 k w2 n x W1 Sk W2 H IH|n m H IH|n1 m n2 l H1 IH1 H2 IH2|w1 n v w2 W1 H IH W2|n x H IH|n1 x n2 l H1 IH1 H2 IH2]; cbn [nests_as] in *; intros b Fb.
  - apply q_object. eapply q_n; [eapply qa_next; [|apply qa_hit, q_ws; [exact W|reflexivity]]|].
    + eapply q_rule; [apply env_members|]. eapply q_seq_no, qs_stop. eapply q_rule; [apply env_member|].
      eapply q_seq_no, qs_next; [apply q_ws; [exact W|reflexivity]|]. apply qs_stop, q_leaf; [reflexivity|]. apply o_string_no; [apply env_key|reflexivity].
    + reflexivity.
  - apply q_object. destruct (IH (x7d :: b) (ends_close _ _ (or_intror eq_refl))) as (b1 & n1 & n2 & O1 & O2 & ->).
    eapply q_n; [apply qa_hit; eapply q_rule; [apply env_members|]; apply q_seq; eapply qs_next; [exact O1|]; eapply qs_next; [apply q_zom; exact O2|apply qs_nil]|].
    change (vals _) with 0. change (vals (RSeq _)) with 0. change (vals (RZom _)) with 0. lia.
  - apply q_array. eapply q_n; [eapply qa_next; [|apply qa_hit, q_ws; [exact W|reflexivity]]|].
    + eapply q_rule; [apply env_elements|]. eapply q_seq_no, qs_stop. eapply q_rule; [apply env_element|].
      eapply q_seq_no, qs_next; [apply q_ws; [exact W|reflexivity]|]. apply qs_stop, q_scalar; [reflexivity|reflexivity|]. apply o_value_close. auto.
    + reflexivity.
  - apply q_array. destruct (IH (x5d :: b) (ends_close _ _ (or_introl eq_refl))) as (b1 & n1 & n2 & O1 & O2 & ->).
    eapply q_n; [apply qa_hit; eapply q_rule; [apply env_elements|]; apply q_seq; eapply qs_next; [exact O1|]; eapply qs_next; [apply q_zom; exact O2|apply qs_nil]|].
    change (vals _) with 0. change (vals (RSeq _)) with 0. change (vals (RZom _)) with 0. lia.
  - pose proof (words_read Value w (jt_string w Sw) b Fb) as O. apply string_first in Sw as [t ->]. apply q_scalar; auto.
  - pose proof (words_read Value w (jt_number w Nw) b Fb) as O. apply number_first in Nw as (x & t & -> & X).
    assert (N : forall n, (n = 0x7B \/ n = 0x5B)%Z -> first (is n) ((x :: t) ++ b) = false).
    { intros n Hn. cbn [first app]. destruct X as [->|X]; [destruct Hn as [->| ->]; reflexivity|]. unfold is, dig in *. lia. }
    apply q_scalar; auto.
  - apply q_scalar; [reflexivity|reflexivity|]. apply (words_read Value _ jt_true b Fb).
  - apply q_scalar; [reflexivity|reflexivity|]. apply (words_read Value _ jt_false b Fb).
  - apply q_scalar; [reflexivity|reflexivity|]. apply (words_read Value _ jt_null b Fb).
  - rewrite <- !app_assoc. eapply q_n; [eapply q_rule; [apply env_member|]; apply q_seq; eapply qs_next; [apply q_ws; auto; apply string_first in Sk as [t ->]; reflexivity|];
      eapply qs_next; [apply q_leaf; [reflexivity|]; eapply o_rule; [apply env_key|apply o_string; auto]|]; eapply qs_next; [apply q_ws; auto|];
      eapply qs_next; [apply q_rune; eapply o_takes_yes; [apply t_rune; lia|reflexivity]|]; eapply qs_next; [apply IH; auto|apply qs_nil]|].
    change (vals (RRule _)) with 0. change (vals (RSeq _)) with 0. lia.
  - exists b, n, 0. split; [apply IH; apply Fb|]. split; [apply q_more_stop; apply Fb|lia].
  - destruct (IH2 b Fb) as (b1 & k1 & k2 & O1 & O2 & ->). exists (x2c :: l ++ b), n1, (Nat.max k1 k2). rewrite <- !app_assoc. split; [apply IH1; apply follow_comma|]. split; [|reflexivity].
    eapply q_n; [eapply qr_next; [apply q_seq; eapply qs_next; [apply q_rune; eapply o_takes_yes; [apply t_comma|reflexivity]|]; eapply qs_next; [exact O1|apply qs_nil]|exact O2]|].
    change (vals (RSeq _)) with 0. lia.
  - rewrite <- !app_assoc. eapply q_n; [eapply q_rule; [apply env_element|]; apply q_seq; eapply qs_next; [apply q_ws; [exact W1|apply value_first; eapply nests_text; eauto]|];
      eapply qs_next; [apply IH; apply follow_ws; auto|]; eapply qs_next; [apply q_ws; [exact W2|apply Fb]|apply qs_nil]|].
    change (vals (RRule _)) with 0. change (vals (RSeq _)) with 0. lia.
  - exists b, n, 0. split; [apply IH; apply Fb|]. split; [apply q_more_stop; apply Fb|lia].
  - destruct (IH2 b Fb) as (b1 & k1 & k2 & O1 & O2 & ->). exists (x2c :: l ++ b), n1, (Nat.max k1 k2). rewrite <- !app_assoc. split; [apply IH1; apply follow_comma|]. split; [|reflexivity].
    eapply q_n; [eapply qr_next; [apply q_seq; eapply qs_next; [apply q_rune; eapply o_takes_yes; [apply t_comma|reflexivity]|]; eapply qs_next; [exact O1|apply qs_nil]|exact O2]|].
    change (vals (RSeq _)) with 0. lia.
Qed.
Lemma json_nests n w b : nests Element n w -> follow b -> qut (IR json) (w ++ b) true b n.
Proof.
  intros H F c. pose proof (nests_dive _ _ _ H b F c) as D. unfold json. apply (rule_dives_inv _ _ _ _ _ _ _ _ _ _ env_element) in D as (k & D & ->).
  eapply dives_n; [eapply de_grammar; [apply env_element|exact D]|reflexivity].
Qed.
End Json.

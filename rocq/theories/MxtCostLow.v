(** MxtCostLow.v - a text for which MXT() needs quadratically many Reads. *)
From Verif Require Import PegTotal.
From Verif Require Export MxtCost.
From Coq Require Import Lia ZifyBool.

Local Open Scope nat_scope.
Definition word_calls (r : reader) : nat := match r with RRule 12 | RGrammar _ _ 12 => 1 | _ => 0 end.
Section Low.
Context {L : GoLib}.
Notation E := mxt_env.
Notation calls i c b ok c' b' k := (works mxt_env word_calls i c b ok c' b' k).
Notation letters n := (repeat x61 n).
Lemma n_ i c b ok c' b' n m : calls i c b ok c' b' n -> n = m -> calls i c b ok c' b' m.
Proof. intros H <-. exact H. Qed.
Lemma to_yes r c b c' b' n : calls (ITo r) c b true c' b' n -> calls (IR (RTo r)) c b true c' b' n. Proof. exact (we_to E word_calls r c b true c' b' n). Qed.
Lemma seq_yes rs c b c' b' n : calls (ISeq rs) c b true c' b' n -> calls (IR (RSeq rs)) c b true c' b' n. Proof. exact (we_seq E word_calls rs c b true c' b' n). Qed.
Lemma seq_no rs c b c' b' n : calls (ISeq rs) c b false c' b' n -> calls (IR (RSeq rs)) c b false c' b n. Proof. exact (we_seq E word_calls rs c b false c' b' n). Qed.
Lemma any_yes rs c b c' b' n : calls (IAny rs) c b true c' b' n -> calls (IR (RAny rs)) c b true c' b' n. Proof. exact (we_any E word_calls rs c b true c' b' n). Qed.
Lemma any_no rs c b c' b' n : calls (IAny rs) c b false c' b' n -> calls (IR (RAny rs)) c b false c' b n. Proof. exact (we_any E word_calls rs c b false c' b' n). Qed.
Lemma many_yes r c b c' b' n : length b' < length b -> calls (IRep r) c b true c' b' n -> calls (IR (RMany r)) c b true c' b' n.
Proof. intros Lt W. apply Nat.ltb_lt in Lt. rewrite <- Lt. exact (we_many E word_calls r c b c' b' n W). Qed.
Lemma r_wordchar : r_reader (get_rule E mWordChar) = Some (RBetween 0x21 MaxRune). Proof. reflexivity. Qed.
Lemma char_yes c x b : x = x61 \/ x = x78 -> calls (IR (RRule mWordChar)) c (x :: b) true c b 1.
Proof.
  intros X. eapply n_; [eapply we_rule; [exact r_wordchar|]|]. 
  - pose proof (we_test E word_calls (RBetween 0x21 MaxRune) _ c (x :: b) eq_refl) as W. destruct X as [-> | ->]; exact W.
  - reflexivity.
Qed.
Lemma char_no c b : b = [] \/ (exists t, b = x20 :: t) -> calls (IR (RRule mWordChar)) c b false c b 1.
Proof.
  intros X. eapply n_; [eapply we_rule; [exact r_wordchar|]|]. 
  - pose proof (we_test E word_calls (RBetween 0x21 MaxRune) _ c b eq_refl) as W. destruct X as [-> |[t ->]]; exact W.
  - reflexivity.
Qed.
Notation chars := (RZom (RRule mWordChar)).
Lemma rep_chars c n b : b = [] \/ (exists t, b = x20 :: t) -> calls (IRep (RRule mWordChar)) c (letters n ++ b) true c b (n + 1).
Proof.
  intros X. induction n as [|n IH]; [apply wi_rep_stop, char_no, X|]. eapply n_; [eapply wi_rep_next; [apply char_yes; auto|exact IH]|]. lia.
Qed.
Lemma zom_chars c n b : b = [] \/ (exists t, b = x20 :: t) -> calls (IR chars) c (letters n ++ b) true c b (n + 1).
Proof. intros X. eapply n_; [apply we_zom, rep_chars, X|]. reflexivity. Qed.
Notation arr := (lit "-->").
Definition plain (x : byte) : bool := Byte.eqb x x20 || Byte.eqb x x61.
Lemma plain_step x b : plain x = true -> step (x :: b) = (true, b).
Proof. intros P. assert (x = x20 \/ x = x61) as [-> | ->] by (destruct x; try discriminate P; auto); reflexivity. Qed.
Lemma plain_no x b : plain x = true -> forall t, x :: b <> arr ++ t.
Proof. intros P t Eq. cbn in Eq. assert (x = x2d) as -> by congruence. discriminate P. Qed.
Lemma body_plain d u : forall v c ok x n, forallb plain u = true -> calls (IR d) c (v ++ u) ok c x n ->
  calls (IBody (v ++ u ++ arr) false d (RLit arr)) c (u ++ arr) (ok && no_text x) c [] n.
Proof.
  induction u as [|y u IH]; intros v c ok x n P W.
  - rewrite app_nil_r in W. cbn [app]. eapply n_; [eapply (wi_body_hit E word_calls false d (RLit arr) c v arr c [] ok c x); [discriminate| |exact W]|].
    + pose proof (we_lit_yes E word_calls arr c []) as Y. rewrite app_nil_r in Y. exact Y.
    + reflexivity.
  - cbn [forallb] in P. apply andb_true_iff in P as [P1 P2]. specialize (IH (v ++ [y]) c ok x n P2). rewrite <- !app_assoc in IH. cbn [app] in IH |- *. eapply n_; [eapply wi_body_next; [discriminate|apply we_lit_no, plain_no, P1|]|].
    + rewrite (plain_step _ _ P1). cbn [snd]. apply IH. exact W.
    + reflexivity.
Qed.
Lemma arrow_plain u c ok x n : forallb plain u = true -> calls (IR chars) c u ok c x n ->
  calls (IR mxt_arrow) c (u ++ arr) (ok && no_text x) c (if ok && no_text x then [] else u ++ arr) n.
Proof. intros P W. eapply n_; [apply we_body_tail; exact (body_plain _ u [] c ok x n P W)|]. reflexivity. Qed.
Notation named := (RNamed (lit "arrow") mxt_arrow).
Lemma letters_plain n : forallb plain (letters n) = true. Proof. induction n; auto. Qed.
Lemma arrow_no n c : calls (IR named) c (letters n ++ [x20] ++ arr) false c (letters n ++ [x20] ++ arr) (n + 1).
Proof.
  rewrite app_assoc. eapply n_; [apply we_named; apply (arrow_plain (letters n ++ [x20]) c true [x20] (n + 1)); [rewrite forallb_app, letters_plain; reflexivity|]|reflexivity].
  apply zom_chars. right. eauto.
Qed.
Lemma arrow_first n c : calls (IR named) c (x20 :: letters n ++ [x20] ++ arr) false c (x20 :: letters n ++ [x20] ++ arr) 1.
Proof.
  change (x20 :: letters n ++ [x20] ++ arr) with ((x20 :: letters n) ++ [x20] ++ arr). rewrite app_assoc. eapply n_; [apply we_named; apply (arrow_plain ((x20 :: letters n) ++ [x20]) c true ((x20 :: letters n) ++ [x20]) 1)|reflexivity].
  - rewrite forallb_app. cbn. rewrite letters_plain. reflexivity.
  - apply (zom_chars c 0). right. cbn. eauto.
Qed.
Lemma arrow_yes c : calls (IR mxt_arrow) c arr true c [] 1.
Proof. apply (arrow_plain [] c true [] 1 eq_refl). apply (zom_chars c 0 []). auto. Qed.
Fixpoint sum_to (n : nat) : nat := match n with O => 0 | S n => S n + sum_to n end.
Lemma sum_to_half n : 2 * sum_to n = n * (n + 1). Proof. induction n; cbn [sum_to]; nia. Qed.
Lemma to_arrow n c : calls (ITo named) c (letters n ++ [x20] ++ arr) true c arr (sum_to (n + 1) + 1).
Proof.
  induction n as [|n IH].
  - eapply n_; [eapply wi_to_next; [exact (arrow_no 0 c)|reflexivity|eapply wi_to_hit, we_named, arrow_yes]|]. reflexivity.
  - eapply n_; [eapply wi_to_next; [exact (arrow_no (S n) c)|reflexivity|exact IH]|]. rewrite (Nat.add_comm (S n) 1). cbn [sum_to Nat.add]. rewrite (Nat.add_comm n 1). cbn [sum_to Nat.add]. lia.
Qed.
Lemma comment_cost n c : calls (IR (RRule mComment)) c (x20 :: letters n ++ [x20] ++ arr) true c arr (sum_to (n + 1) + 2).
Proof.
  eapply n_; [eapply we_rule; [exact r_comment|]; apply to_yes; eapply wi_to_next; [apply arrow_first|reflexivity|apply to_arrow]|]. change (word_calls (RRule mComment)) with 0. change (word_calls (RTo named)) with 0. lia.
Qed.
Definition far_arrow (n : nat) : bytes := lit "// x " ++ letters n ++ lit " -->".
Lemma marker_cost c b : calls (IR (RRule mMarker)) c (lit "// x" ++ x20 :: b) true c (lit " x" ++ x20 :: b) 1.
Proof.
  assert (G : r_reader (get_rule E mMarker) = Some (RSeq [RLit (lit "//"); chars])) by reflexivity.
  eapply n_; [eapply we_rule; [exact G|]; apply seq_yes; eapply wi_seq_next; [exact (we_lit_yes E word_calls (lit "//") c (lit " x" ++ x20 :: b))|eapply wi_seq_next; [apply (zom_chars c 0); right; cbn; eauto|apply wi_seq_nil]]|]. reflexivity.
Qed.
Lemma blank_yes c b : calls (IR (RRune 0x20)) c (x20 :: b) true c b 0. Proof. exact (we_test E word_calls (RRune 0x20) _ c (x20 :: b) eq_refl). Qed.
Lemma blank_no c b : (forall t, b <> x20 :: t) -> b = [] \/ (exists t, b = x78 :: t) -> calls (IR (RRune 0x20)) c b false c b 0.
Proof. intros _ X. pose proof (we_test E word_calls (RRune 0x20) _ c b eq_refl) as W. destruct X as [-> |[t ->]]; exact W. Qed.
Lemma blank_end c b : b = [] \/ (exists t, b = x78 :: t) -> calls (IR (RRune 0x20)) c b false c b 0.
Proof. intros X. apply blank_no; auto. intros t Eq. destruct X as [-> |[t' ->]]; [discriminate|]. assert (x78 = x20) as Y by congruence. discriminate Y. Qed.
Lemma blanks_cost c b : calls (IR (RMany (RRune 0x20))) c (lit " x" ++ x20 :: b) true c (lit "x" ++ x20 :: b) 0.
Proof.
  apply many_yes; [cbn; lia|].
  eapply n_; [eapply wi_rep_next; [apply blank_yes|apply wi_rep_stop, blank_end; right; cbn; eauto]|reflexivity].
Qed.
Lemma name_cost c b : calls (IR (RRule mName)) c (lit "x" ++ x20 :: b) true c (x20 :: b) 2.
Proof.
  assert (G : r_reader (get_rule E mName) = Some (RRule mWord)) by reflexivity. assert (G2 : r_reader (get_rule E mWord) = Some (RMany (RRule mWordChar))) by reflexivity.
  eapply n_; [eapply we_rule; [exact G|]; eapply we_rule; [exact G2|]|].
  - apply many_yes; [cbn; lia|].
    eapply wi_rep_next; [apply char_yes; auto|]. apply (rep_chars c 0). eauto.
  - reflexivity.
Qed.
Lemma salt_cost c : calls (IR (ROpt (RRule mSalt))) c [] true c [] 0.
Proof.
  assert (G : r_reader (get_rule E mSalt) = Some (RSeq [RMany (RRune 0x20); mxt_salt_head; RZom (RRune 0x20)])) by reflexivity.
  eapply n_; [eapply we_opt, we_rule; [exact G|]; eapply seq_no, wi_seq_stop, (we_many E word_calls (RRune 0x20) c [] c []), wi_rep_stop, blank_end; auto|reflexivity].
Qed.
Lemma chunk_low c n : calls (IR (RRule mChunk)) c (far_arrow n) true c [] (sum_to (n + 1) + 6).
Proof.
  eapply n_; [eapply we_rule; [exact r_chunk|]; apply seq_yes; eapply wi_seq_next; [eapply we_rule; [exact r_header|]; apply seq_yes|eapply wi_seq_next; [apply any_yes, wi_any_hit; eapply we_rule; [exact r_empty|]; apply any_yes, wi_any_hit, (we_end E word_calls _ [])|apply wi_seq_nil]]|].
  - eapply wi_seq_next; [apply marker_cost|]. eapply wi_seq_next; [apply blanks_cost|]. eapply wi_seq_next; [apply name_cost|]. eapply wi_seq_next; [apply comment_cost|].
    assert (G : r_reader (get_rule E mArrow) = Some mxt_arrow) by reflexivity. eapply wi_seq_next; [eapply we_rule; [exact G|apply arrow_yes]|]. eapply wi_seq_next; [apply salt_cost|apply wi_seq_nil].
  - generalize (sum_to (n + 1)). intros k. cbn. lia.
Qed.
Lemma far_cost c n : calls (IR mxt) c (far_arrow n) true c [] (sum_to (n + 1) + 6).
Proof.
  assert (G : r_reader (get_rule E mChunks) = Some (RSeq [RRule mChunk; RZom mxt_more])) by reflexivity.
  assert (N : calls (IR mxt_more) c [] false c [] 0).
  { apply (seq_no _ c [] c []), wi_seq_stop. assert (G2 : r_reader (get_rule E mNL) = Some (RAny [RLit [x0a]; RLit [x0d; x0a]])) by reflexivity.
    eapply n_; [eapply we_rule; [exact G2|]; apply (any_no _ c [] c []); eapply wi_any_next; [apply we_lit_no; discriminate|eapply wi_any_next; [apply we_lit_no; discriminate|apply wi_any_nil]]|reflexivity]. }
  eapply n_; [eapply we_grammar; [exact G|]; apply seq_yes; eapply wi_seq_next; [apply chunk_low|eapply wi_seq_next; [apply we_zom, wi_rep_stop, N|apply wi_seq_nil]]|].
  generalize (sum_to (n + 1)). intros k. cbn. lia.
Qed.
End Low.

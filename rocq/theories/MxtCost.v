(** MxtCost.v - how much work the readers of grammar/mxt.go do. *)
From Verif Require Import PegTotal.
From Verif Require Export Mxt CostBound.
From Coq Require Import Lia ZifyBool.

Local Open Scope nat_scope.
Section Quad.
Context (e : env).
Notation costs i c b ok c' b' k := (works e each i c b ok c' b' k).
(** At most [A] per byte of the rest; at most [A] per byte of the rest for every byte consumed and one, on success. *)
Definition lin (A : nat) (i : item) : Prop := forall c b ok c' b' k M, costs i c b ok c' b' k -> length b < M -> k <= A * M.
Definition quad (A : nat) (i : item) : Prop := forall c b ok c' b' k M, costs i c b ok c' b' k -> length b < M ->
  k <= A * M * (if ok then length b - length b' + 1 else M).
Lemma lin_quad A i : lin A i -> quad A i.
Proof.
  intros H c b ok c' b' k M W Lt. specialize (H _ _ _ _ _ _ M W Lt). destruct ok; [|nia]. rewrite Nat.mul_add_distr_l. nia.
Qed.
Lemma quad_up A B i : quad A i -> A <= B -> quad B i.
Proof. intros H Le c b ok c' b' k M W Lt. specialize (H _ _ _ _ _ _ M W Lt). assert (A * M <= B * M) by nia. etransitivity; [exact H|]. now apply Nat.mul_le_mono_r. Qed.
Lemma le_len i c b ok c' b' k : costs i c b ok c' b' k -> length b' <= length b.
Proof. intros W. eapply eats_le. eapply works_eats. eauto. Qed.
Lemma quad_seq rs : forall As, Forall2 (fun r A => quad A (IR r)) rs As -> quad (fold_right Nat.add 0 As) (ISeq rs).
Proof.
  induction rs as [|r rs IH]; intros As F; inversion F as [|? A ? As' F1 F2]; subst; intros c b ok c' b' k M W Lt.
  - inversion W; subst. lia.
  - cbn [fold_right]. set (B := fold_right Nat.add 0 As') in *. specialize (IH _ F2). fold B in IH. apply seq_calls in W as [[-> W]|(c1 & b1 & n1 & n2 & W1 & W2 & ->)].
    + specialize (F1 _ _ _ _ _ _ M W Lt). cbn in F1. nia.
    + pose proof (le_len _ _ _ _ _ _ _ W1) as L1. pose proof (le_len _ _ _ _ _ _ _ W2) as L2. specialize (F1 _ _ _ _ _ _ M W1 Lt). specialize (IH _ _ _ _ _ _ M W2 ltac:(lia)). cbn in F1.
      destruct ok.
      * replace (length b - length b' + 1) with ((length b - length b1) + (length b1 - length b') + 1) by lia. nia.
      * assert (A * M * (length b - length b1 + 1) <= A * M * M) by (apply Nat.mul_le_mono_l; lia). nia.
Qed.
Lemma quad_any r rs A B : lin A (IR r) -> quad B (IAny rs) -> quad (A + B) (IAny (r :: rs)).
Proof.
  intros H1 H2 c b ok c' b' k M W Lt. apply any_calls in W as [[-> W]|(c1 & b1 & n1 & n2 & W1 & W2 & ->)].
  - specialize (H1 _ _ _ _ _ _ M W Lt). nia.
  - pose proof (le_len _ _ _ _ _ _ _ W1) as L1. pose proof (le_len _ _ _ _ _ _ _ W2) as L2. specialize (H1 _ _ _ _ _ _ M W1 Lt). specialize (H2 _ _ _ _ _ _ M W2 ltac:(lia)). destruct ok.
    + assert (B * M * (length b1 - length b' + 1) <= B * M * (length b - length b' + 1)) by (apply Nat.mul_le_mono_l; lia). nia.
    + nia.
Qed.
Lemma quad_nil : quad 0 (IAny []).
Proof. intros c b ok c' b' k M W Lt. inversion W; subst. lia. Qed.
Lemma quad_last r A : quad A (IR r) -> quad A (IAny [r]).
Proof.
  intros H c b ok c' b' k M W Lt. apply any_calls in W as [[-> W]|(c1 & b1 & n1 & n2 & W1 & W2 & ->)]; [exact (H _ _ _ _ _ _ M W Lt)|].
  inversion W2; subst. rewrite Nat.add_0_r. exact (H _ _ _ _ _ _ M W1 Lt).
Qed.
Lemma lin_any r rs A B : lin A (IR r) -> lin B (IAny rs) -> lin (A + B) (IAny (r :: rs)).
Proof.
  intros H1 H2 c b ok c' b' k M W Lt. apply any_calls in W as [[-> W]|(c1 & b1 & n1 & n2 & W1 & W2 & ->)].
  - specialize (H1 _ _ _ _ _ _ M W Lt). nia.
  - pose proof (le_len _ _ _ _ _ _ _ W1) as L1. specialize (H1 _ _ _ _ _ _ M W1 Lt). specialize (H2 _ _ _ _ _ _ M W2 ltac:(lia)). nia.
Qed.
Lemma lin_nil : lin 0 (IAny []).
Proof. intros c b ok c' b' k M W Lt. inversion W; subst. lia. Qed.
(** One more call. *)
Definition wraps (r : reader) (i : item) : Prop := forall c b ok c' b' k, costs (IR r) c b ok c' b' k -> exists c1 b1 ok1 k1, costs i c b ok1 c1 b1 k1 /\ k = S k1 /\ (ok = true -> ok1 = true /\ b' = b1).
Lemma lin_wraps r i A : wraps r i -> lin A i -> lin (S A) (IR r).
Proof. intros Hw H c b ok c' b' k M W Lt. destruct (Hw _ _ _ _ _ _ W) as (c1 & b1 & ok1 & k1 & W1 & -> & _). specialize (H _ _ _ _ _ _ M W1 Lt). nia. Qed.
Lemma quad_wraps r i A : wraps r i -> quad A i -> quad (S A) (IR r).
Proof.
  intros Hw H c b ok c' b' k M W Lt. destruct (Hw _ _ _ _ _ _ W) as (c1 & b1 & ok1 & k1 & W1 & -> & Ok). specialize (H _ _ _ _ _ _ M W1 Lt). destruct ok.
  - destruct (Ok eq_refl) as [-> ->]. nia.
  - destruct ok1; [|nia]. assert (A * M * (length b - length b1 + 1) <= A * M * M) by (apply Nat.mul_le_mono_l; lia). nia.
Qed.
Lemma wraps_any rs : wraps (RAny rs) (IAny rs). Proof. intros c b ok c' b' k W. inversion W; subst; try discriminate. eexists _, _, _, _. split; [eassumption|]. split; auto. intros ->. auto. Qed.
Lemma wraps_seq rs : wraps (RSeq rs) (ISeq rs). Proof. intros c b ok c' b' k W. inversion W; subst; try discriminate. eexists _, _, _, _. split; [eassumption|]. split; auto. intros ->. auto. Qed.
Lemma wraps_named w r : wraps (RNamed w r) (IR r). Proof. intros c b ok c' b' k W. inversion W; subst; try discriminate. eexists _, _, _, _. split; [eassumption|]. split; auto. Qed.
Lemma wraps_rule i r : r_reader (get_rule e i) = Some r -> wraps (RRule i) (IR r).
Proof. intros G c b ok c' b' k W. apply (rule_calls_inv _ _ _ _ _ _ _ _ _ _ G) in W as (n & W & ->). eexists _, _, _, _. split; [exact W|]. split; auto. Qed.
Lemma lin_at r A : lin A (IR r) -> lin (S A) (IR (RAt r)).
Proof. intros H c b ok c' b' k M W Lt. inversion W; subst; try discriminate. unfold each. match goal with X : works _ _ (IR r) _ _ _ _ _ _ |- _ => specialize (H _ _ _ _ _ _ M X Lt) end. nia. Qed.
Lemma lin_opt r A : lin A (IR r) -> lin (S A) (IR (ROpt r)).
Proof. intros H c b ok c' b' k M W Lt. inversion W; subst; try discriminate. unfold each. match goal with X : works _ _ (IR r) _ _ _ _ _ _ |- _ => specialize (H _ _ _ _ _ _ M X Lt) end. nia. Qed.
Lemma to_quad r A : lin A (IR r) -> forall c b ok c' b' k M, costs (ITo r) c b ok c' b' k -> length b < M -> k <= A * M * (if ok then length b - length b' + 1 else length b + 1).
Proof.
  intros H c b ok c' b' k M W. remember (ITo r) as i eqn:Ei. induction W; try discriminate Ei; injection Ei as ->; intros Lt.
  - specialize (H _ _ _ _ _ _ M W Lt). nia.
  - specialize (H _ _ _ _ _ _ M W Lt). nia.
  - pose proof (H _ _ _ _ _ _ M W1 Lt) as H1. pose proof (le_len _ _ _ _ _ _ _ W1) as L1. pose proof (step_moves _ _ H0) as L2. pose proof (le_len _ _ _ _ _ _ _ W2) as L3. specialize (IHW2 eq_refl ltac:(lia)).
    destruct ok.
    + assert (A * M * (length b2 - length b' + 1) + A * M <= A * M * (length b - length b' + 1)) by (rewrite <- Nat.mul_succ_r; apply Nat.mul_le_mono_l; lia). lia.
    + assert (A * M * (length b2 + 1) + A * M <= A * M * (length b + 1)) by (rewrite <- Nat.mul_succ_r; apply Nat.mul_le_mono_l; lia). lia.
Qed.
Lemma quad_to r A : lin A (IR r) -> quad (S A) (IR (RTo r)).
Proof.
  intros H c b ok c' b' k M W Lt. inversion W; subst; try discriminate. match goal with X : works _ _ (ITo r) _ _ _ _ _ _ |- _ => pose proof (to_quad r A H _ _ _ _ _ _ M X Lt) as K end. unfold each. destruct ok; [nia|].
  assert (A * M * (length b + 1) <= A * M * M) by (apply Nat.mul_le_mono_l; lia). nia.
Qed.
(** Body and BodyTail, for tails that read one literal. *)
Lemma body_lin d x A : lin A (IR d) -> forall z kp c b ok c' b' k M, costs (IBody z kp d (RLit x)) c b ok c' b' k -> length b <= length z -> length z < M -> k <= length b + A * M.
Proof.
  intros H z kp c b ok c' b' k M W. remember (IBody z kp d (RLit x)) as i eqn:Ei. revert Ei. induction W; intros Ei; try discriminate Ei; injection Ei as ? ? ? ?; subst; intros Le Lt.
  - lia.
  - assert (n1 = 1) by (inversion W1; subst; try discriminate; reflexivity). pose proof (H _ _ _ _ _ _ M W2 ltac:(rewrite app_length in Lt; lia)). destruct b; [congruence|]. cbn [length]. lia.
  - assert (n1 = 1 /\ b1 = b /\ c1 = c) as (-> & -> & ->) by (inversion W1; subst; try discriminate; auto).
    assert (Lb : length (snd (step b)) < length b).
    { destruct (step b) as [[] b2] eqn:Es; cbn [snd] in *; [exact (step_moves _ _ Es)|]. exfalso. assert (b2 = b) as ->. { unfold step in Es. destruct b; [congruence|]. destruct (Nat.leb _ _); congruence. }
      pose proof (works_det _ _ _ _ _ _ _ _ _ (wi_body_next _ _ _ _ _ _ _ _ _ _ _ _ _ _ _ H0 W1 ltac:(rewrite Es; exact W2)) _ _ _ _ W2) as X. lia. }
    specialize (IHW2 eq_refl ltac:(lia) Lt). lia.
Qed.
Lemma lin_body_tail d x A : lin A (IR d) -> lin (A + 2) (IR (RBodyTail d (RLit x))).
Proof. intros H c b ok c' b' k M W Lt. inversion W; subst; try discriminate. match goal with X : works _ _ (IBody _ _ _ _) _ _ _ _ _ _ |- _ => pose proof (body_lin d x A H _ _ _ _ _ _ _ _ M X (le_n _) Lt) as K end. unfold each. nia. Qed.
Lemma zom_calls r c b ok c' b' k : costs (IR (RZom r)) c b ok c' b' k -> exists n, costs (IRep r) c b true c' b' n /\ k = S n /\ ok = true.
Proof. inversion 1; subst; try discriminate. eauto. Qed.
(** A repetition of something that moves. *)
Lemma rep_quad r A : quad A (IR r) -> (forall c b c' b' k, costs (IR r) c b true c' b' k -> length b' < length b) ->
  forall c b ok c' b' k M, costs (IRep r) c b ok c' b' k -> length b < M -> k <= 2 * A * M * length b + A * M * M.
Proof.
  intros H Mv c b ok c' b' k M W. remember (IRep r) as i eqn:Ei. induction W; try discriminate Ei; injection Ei as ->; intros Lt.
  - specialize (H _ _ _ _ _ _ M W Lt). cbn in H. lia.
  - pose proof (H _ _ _ _ _ _ M W1 Lt) as H1. pose proof (Mv _ _ _ _ _ W1) as L1. specialize (IHW2 eq_refl ltac:(lia)). cbn in H1.
    assert (A * M * (length b - length b1 + 1) <= A * M * (2 * (length b - length b1))) by (apply Nat.mul_le_mono_l; lia). nia.
Qed.
Lemma bound_lin N nj n r q A : (forall i r, r_reader (get_rule e i) = Some r -> eps N r = true -> N i = true) -> (nj = true -> eall no_janus e) -> bounded N nj e n r = Some q ->
  Nat.max (su q) (fu q) + Nat.max (sb q) (fb q) <= A -> lin A (IR r).
Proof.
  intros Ce Cj B Le c b ok c' b' k M W Lt. destruct (bounded_within N nj e Ce Cj n r q B _ _ _ _ _ _ W) as (A1 & A2 & _).
  assert (k <= Nat.max (su q) (fu q) * length b + Nat.max (sb q) (fb q)) by (destruct ok; [specialize (A1 eq_refl)|specialize (A2 eq_refl)]; nia). nia.
Qed.
End Quad.

Section MxtCost.
Context {L : GoLib}.
Notation E := mxt_env.
Notation costs i c b ok c' b' k := (works mxt_env each i c b ok c' b' k).
Definition mxt_null (i : nat) : bool := existsb (Nat.eqb i) [mComment; mEmptyContent; mContent].
Lemma mxt_eps i r : r_reader (get_rule E i) = Some r -> eps mxt_null r = true -> mxt_null i = true.
Proof.
  intros G. assert (forallb (fun i => match r_reader (get_rule E i) with Some r => negb (eps mxt_null r) || mxt_null i | None => true end) (seq 0 (length E)) = true) by (vm_compute; reflexivity).
  rewrite forallb_forall in H. destruct (Nat.lt_ge_cases i (length E)) as [I|I].
  - assert (In i (seq 0 (length E))) as In by (revert I; generalize (length E); intros m I; apply in_seq; lia). specialize (H i In). rewrite G in H. intros X. rewrite X in H. exact H.
  - exfalso. unfold get_rule in G. rewrite nth_overflow in G by exact I. discriminate.
Qed.
Lemma simple r q A : bounded mxt_null false E 20 r = Some q -> Nat.max (su q) (fu q) + Nat.max (sb q) (fb q) <= A -> lin E A (IR r).
Proof. intros B Le. assert (Cj : false = true -> eall no_janus E) by (intros X; exfalso; exact (diff_false_true X)). exact (bound_lin E mxt_null false 20 r q A mxt_eps Cj B Le). Qed.
Ltac simple_ := eapply simple; [vm_compute; reflexivity|vm_compute; repeat constructor].
Lemma lin_up A B i : lin E A i -> A <= B -> lin E B i.
Proof. intros H Le c b ok c' b' k M W Lt. specialize (H _ _ _ _ _ _ M W Lt). nia. Qed.
Lemma lin_marker : lin E 10 (IR (RRule mMarker)). Proof. simple_. Qed.
Lemma lin_blanks : lin E 5 (IR (RMany (RRune 0x20))). Proof. simple_. Qed.
Lemma lin_name : lin E 10 (IR (RRule mName)). Proof. simple_. Qed.
Lemma lin_wordchars : lin E 6 (IR (RZom (RRule mWordChar))). Proof. simple_. Qed.
Lemma lin_salt : lin E 20 (IR (RRule mSalt)). Proof. simple_. Qed.
Lemma lin_next : lin E 20 (IR (RRule mNextMarker)). Proof. simple_. Qed.
Lemma lin_nl : lin E 5 (IR (RRule mNL)). Proof. simple_. Qed.
Lemma lin_end : lin E 1 (IR RAtEnd). Proof. simple_. Qed.
Lemma lin_arrow0 : lin E 8 (IR mxt_arrow). Proof. exact (lin_body_tail E _ _ _ lin_wordchars). Qed.
Lemma lin_arrow : lin E 9 (IR (RRule mArrow)). Proof. eapply lin_wraps; [|exact lin_arrow0]. apply wraps_rule. reflexivity. Qed.
Lemma r_comment : r_reader (get_rule E mComment) = Some (RTo (RNamed (lit "arrow") mxt_arrow)). Proof. reflexivity. Qed.
Lemma r_header : r_reader (get_rule E mHeader) = Some (RSeq [RRule mMarker; RMany (RRune 0x20); RRule mName; RRule mComment; RRule mArrow; ROpt (RRule mSalt)]). Proof. reflexivity. Qed.
Lemma r_empty : r_reader (get_rule E mEmptyContent) = Some (RAny [RAtEnd; RAt (RRule mNextMarker)]). Proof. reflexivity. Qed.
Lemma r_content : r_reader (get_rule E mContent) = Some (RTo (RAny [RRule mNextMarker; RAtEnd])). Proof. reflexivity. Qed.
Lemma r_chunk : r_reader (get_rule E mChunk) = Some (RSeq [RRule mHeader; RAny [RRule mEmptyContent; RSeq [RRule mNL; RRule mContent]]]). Proof. reflexivity. Qed.
Lemma quad_comment : quad E 11 (IR (RRule mComment)).
Proof. apply (quad_wraps E _ _ _ (wraps_rule E _ _ r_comment)). apply quad_to. apply (lin_wraps E _ _ _ (wraps_named E _ _)). exact lin_arrow0. Qed.
Lemma quad_header : quad E 68 (IR (RRule mHeader)).
Proof.
  apply (quad_wraps E _ _ 67 (wraps_rule E _ _ r_header)). apply (quad_wraps E _ _ 66 (wraps_seq E _)). apply (quad_seq E _ [10; 5; 10; 11; 9; 21]).
  repeat apply Forall2_cons; [apply lin_quad, lin_marker|apply lin_quad, lin_blanks|apply lin_quad, lin_name|apply quad_comment|apply lin_quad, lin_arrow|apply lin_quad, lin_opt, lin_salt|apply Forall2_nil].
Qed.
Lemma lin_empty : lin E 24 (IR (RRule mEmptyContent)).
Proof.
  apply (lin_wraps E _ _ 23 (wraps_rule E _ _ r_empty)). apply (lin_wraps E _ _ 22 (wraps_any E _)). apply (lin_any E _ _ 1 21); [apply lin_end|]. apply (lin_any E _ _ 21 0); [apply lin_at, lin_next|apply lin_nil].
Qed.
Lemma quad_content : quad E 24 (IR (RRule mContent)).
Proof.
  apply (quad_wraps E _ _ 23 (wraps_rule E _ _ r_content)). apply quad_to. apply (lin_wraps E _ _ 21 (wraps_any E _)). apply (lin_any E _ _ 20 1); [apply lin_next|]. apply (lin_any E _ _ 1 0); [apply lin_end|apply lin_nil].
Qed.
Lemma quad_chunk : quad E 125 (IR (RRule mChunk)).
Proof.
  apply (quad_wraps E _ _ 124 (wraps_rule E _ _ r_chunk)). apply (quad_wraps E _ _ 123 (wraps_seq E _)). apply (quad_seq E _ [68; 55]). repeat apply Forall2_cons; [apply quad_header| |apply Forall2_nil].
  apply (quad_wraps E _ _ 54 (wraps_any E _)). apply (quad_any E _ _ 24 30); [apply lin_empty|]. apply quad_last. apply (quad_wraps E _ _ 29 (wraps_seq E _)). apply (quad_seq E _ [5; 24]).
  repeat apply Forall2_cons; [apply lin_quad, lin_nl|apply quad_content|apply Forall2_nil].
Qed.
Definition mxt_more : reader := RSeq [RRule mNL; RRule mChunk].
Lemma quad_more : quad E 131 (IR mxt_more).
Proof. apply (quad_wraps E _ _ 130 (wraps_seq E _)). apply (quad_seq E _ [5; 125]). repeat apply Forall2_cons; [apply lin_quad, lin_nl|apply quad_chunk|apply Forall2_nil]. Qed.
Lemma more_moves c b c' b' k : costs (IR mxt_more) c b true c' b' k -> length b' < length b.
Proof. intros W. eapply (eats_eps mxt_null E mxt_eps); [eapply works_eats; exact W|reflexivity|vm_compute; reflexivity]. Qed.
Lemma mxt_cost c b ok c' b' k : costs (IR mxt) c b ok c' b' k -> k <= 600 * (length b + 1) * (length b + 1).
Proof.
  intros W. apply grammar_calls_inv in W as (n & W & ->). assert (G : r_reader (get_rule E mChunks) = Some (RSeq [RRule mChunk; RZom mxt_more])) by reflexivity. apply (rule_calls_inv _ _ _ _ _ _ _ _ _ _ G) in W as (m & W & Em). unfold each in Em. assert (m = n) as -> by lia. clear Em.
  destruct (wraps_seq E _ _ _ _ _ _ _ W) as (c1 & b1 & ok1 & k1 & W1 & -> & _). set (M := length b + 1). unfold each. apply seq_calls in W1 as [[-> W1]|(c2 & b2 & n1 & n2 & W1 & W2 & ->)].
  - pose proof (quad_chunk _ _ _ _ _ _ M W1 ltac:(lia)) as K. cbv iota in K. nia.
  - pose proof (quad_chunk _ _ _ _ _ _ M W1 ltac:(lia)) as K. cbv iota in K. pose proof (le_len E _ _ _ _ _ _ _ W1) as L1.
    assert (125 * M * (length b - length b2 + 1) <= 125 * M * M) by (apply Nat.mul_le_mono_l; lia).
    apply seq_calls in W2 as [[-> W2]|(c3 & b3 & n3 & n4 & W2 & W3 & ->)].
    + apply zom_calls in W2 as (n & _ & _ & X). discriminate X.
    + apply zom_calls in W2 as (n & W2 & -> & _). pose proof (rep_quad E _ _ quad_more more_moves _ _ _ _ _ _ M W2 ltac:(lia)) as K2.
      assert (n4 = 0) as -> by (inversion W3; auto). assert (2 * 131 * M * length b2 <= 2 * 131 * M * M) by (apply Nat.mul_le_mono_l; lia).
      assert (1 <= M * M) by (assert (1 <= M) by lia; nia). clearbody M. clear - K K2 H H0 H1. nia.
Qed.
End MxtCost.

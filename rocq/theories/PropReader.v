(** PropReader.v - C37 to C50: what Readers do.

    [reads e r s x s']: Read of [r] in state [s] returns the error [x] (None = nil)
    and leaves state [s'].  [hangs e r s]: it does not return. [e] are the rules. *)
From Verif Require Import ReaderScan ExKit.
From Coq Require Import Lia ZifyBool.
From Verif Require Import ReaderSteps ReaderScan.

Definition la : reader := RRune 0x61.
Definition lb : reader := RRune 0x62.
(** Decides a concrete run; [n] is enough fuel. *)
Ltac run n := exists n; vm_compute; reflexivity.

(* ------------------------------------------------------------------- C37 *)

(** C37, first half.  [eall no_wrap e], [rall no_wrap r]: no Wrap anywhere. *)
Theorem C37_reads_forward_inside_text {L : GoLib} e r s x s' :
  eall no_wrap e -> rall no_wrap r = true -> in_text s -> reads e r s x s' ->
  full (sc s') = full (sc s) /\ pos (sc s) <= pos (sc s') <= slen (full (sc s)).
Proof.
  intros He Hr I [n H]. destruct (read_okfw e He n r Hr s x s' I H) as ([I1 _] & F & _ & P). rewrite F in I1. split; [auto|lia].
Qed.
Print Assumptions C37_reads_forward_inside_text.

(** C37, second half.  [safe e r]: [r] is no Wrap, no Fold, and no Rule whose Reader is nil. *)
Theorem C37_no_panic {L : GoLib} e r s : eall (safe e) e -> rall (safe e) r = true -> in_text s -> ~ panics e r s.
Proof. intros He Hr I [n H]. exact (read_no_panic e n r s He Hr I H). Qed.
Print Assumptions C37_no_panic.

(** Both excluded readers do panic, and a Wrap function can leave the text. *)
Theorem C37_fold_and_nil_rule_panic {L : GoLib} :
  panics [] (RFold (lit "ab")) (mk (lit "a") 0) /\
  panics [mkRule (lit "r") None] (RRule 0) (mk (lit "a") 0).
Proof. split; exists 1%nat; reflexivity. Qed.
Print Assumptions C37_fold_and_nil_rule_panic.

(** A recursive grammar r = a r b | a, started inside the text. *)
Definition nest : env := [mkRule (lit "r") (Some (RAny [RSeq [la; RRule 0; lb]; la]))].
Lemma nest_ok (p : reader -> bool) : rall p (RAny [RSeq [la; RRule 0; lb]; la]) = true -> eall p nest.
Proof. intros H [|[|i]] r E; cbn in E; try discriminate. injection E as <-. auto. Qed.
Example C37_case {L : GoLib} : eall no_wrap nest /\ eall (safe nest) nest /\ in_text (mk (lit "xaaabbz") 1) /\
  reads nest (RRule 0) (mk (lit "xaaabbz") 1) None (mk (lit "xaaabbz") 6).
Proof. split; [apply nest_ok; reflexivity|]. split; [apply nest_ok; reflexivity|]. split; [in_here|run 30%nat]. Qed.

(* ------------------------------------------------------------------- C38 *)

(** C38.  [restoring R r]: no Times(k, _) with k >= 2 in a position where its result
    is passed on (itself, or below Named/Monitor/RuleName/Rule; Times(1, r) counts as
    [r]); [R] are the rules for which this holds ([restoring_rules]). *)
Theorem C38_failing_readers_do_not_consume {L : GoLib} e R r s x s' :
  eall no_wrap e -> rall no_wrap r = true -> restoring_rules e R -> restoring R r = true ->
  in_text s -> reads e r s (Some x) s' -> pos (sc s') = pos (sc s).
Proof. intros He Hr HR Rr I [n H]. exact (read_restores e He R HR n r Hr Rr s x s' I H). Qed.
Print Assumptions C38_failing_readers_do_not_consume.

(** Times stands where a round failed, for every sub reader. *)
Theorem C38_times_consumes {L : GoLib} e k j r s s1 x s' :
  (j < Z.to_nat k)%nat -> iter e r j s s1 -> reads e r s1 (Some x) s' -> reads e (RTimes k r) s (Some x) s'.
Proof. intros J I H. apply times_reads. right. exists j, s1, x. auto. Qed.
Print Assumptions C38_times_consumes.

(** So Any(Times(2, 'a'), 'b') reads "ab", Many(Times(2, 'a')) reads "a". *)
Example C38_case {L : GoLib} :
  (exists x, reads [] (RTimes 2 la) (mk (lit "ab") 0) (Some x) (mk (lit "ab") 1)) /\
  reads [] (RAny [RTimes 2 la; lb]) (mk (lit "ab") 0) None (mk (lit "ab") 2) /\
  reads [] (RMany (RTimes 2 la)) (mk (lit "ab") 0) None (mk (lit "ab") 1) /\
  (restoring_rules nest (fun _ => true) /\ exists x, reads nest (RRule 0) (mk (lit "ba") 0) (Some x) (mk (lit "ba") 0)).
Proof.
  split; [eexists; run 12%nat|]. split; [run 12%nat|]. split; [run 12%nat|]. split.
  - intros [|[|i]] r _ E; cbn in E; try discriminate. injection E as <-. reflexivity.
  - eexists. run 20%nat.
Qed.

(* ------------------------------------------------------------------- C39 *)

(** C39.  [fails e rs s xs s']: the readers [rs] fail one after the other with the
    errors [xs]. *)
Theorem C39_any_is_ordered_choice {L : GoLib} e rs s x s' : in_text s -> (reads e (RAny rs) s x s' <->
  (x = None /\ exists rs1 r rs2 xs s1, rs = rs1 ++ r :: rs2 /\ fails e rs1 s xs s1 /\ reads e r s1 None s') \/
  (exists xs s1 y, fails e rs s xs s1 /\ s' = moveto (pos (sc s)) s1 /\ x = Some y /\ deepest_of xs y)).
Proof.
  intros [I _]. rewrite any_reads by lia. split; (intros [H|H]; [left; exact H|right]).
  - destruct H as (xs & s1 & H1 & H2 & H3). exists xs, s1, (get_deepest xs). auto using deepest_spec.
  - destruct H as (xs & s1 & y & H1 & H2 & -> & H3). exists xs, s1. split; auto. split; auto. f_equal. eapply deepest_unique; eauto. apply deepest_spec.
Qed.
Print Assumptions C39_any_is_ordered_choice.

(** Readers that do not consume on failure are all tried at the same position. *)
Theorem C39_tried_at_same_position {L : GoLib} e rs s xs s1 : in_text s -> Forall (nonconsuming e) rs ->
  fails e rs s xs s1 -> pos (sc s1) = pos (sc s) /\ full (sc s1) = full (sc s).
Proof.
  intros I F H. induction H as [s|r rs s x s1 xs s2 R H IH]; auto. inversion F; subst.
  destruct R as [n R]. pose proof (H2 n s x s1 I R) as P. destruct (read_keeps e n r s _ _ R) as [K _].
  destruct IH as [P2 K2]; auto. { destruct I. split; rewrite K, ?P; auto. } split; congruence.
Qed.
Print Assumptions C39_tried_at_same_position.

(** The first alternative that matches wins, not the longest; the deepest error is reported. *)
Example C39_case {L : GoLib} :
  reads [] (RAny [RLit (lit "x"); RLit (lit "a"); RLit (lit "ab")]) (mk (lit "ab") 0) None (mk (lit "ab") 1) /\
  (exists w, reads [] (RAny [RSeq [la; la]; RLit (lit "x")]) (mk (lit "ab") 0) (Some (EReadError 1 w)) (mk (lit "ab") 0)) /\
  nonconsuming [] (RLit (lit "x")).
Proof.
  split; [run 12%nat|]. split; [eexists; run 12%nat|]. intros n s x s' I H.
  refine (C38_failing_readers_do_not_consume [] (fun _ => true) _ s x s' _ _ _ _ I (ex_intro _ n H)); try reflexivity;
    [intros i r E|intros i r _ E]; destruct i; discriminate E.
Qed.

(* ------------------------------------------------------------------- C40 *)

(** C40.  [succeeds e rs s s']: the readers succeed one after the other. *)
Theorem C40_seq_is_all_or_nothing {L : GoLib} e rs s x s' : in_text s -> (reads e (RSeq rs) s x s' <->
  (x = None /\ succeeds e rs s s') \/
  (exists rs1 r rs2 s1 s2 y, rs = rs1 ++ r :: rs2 /\ succeeds e rs1 s s1 /\ reads e r s1 (Some y) s2 /\
     s' = moveto (pos (sc s)) s2 /\ x = Some y)).
Proof. intros [I _]. apply seq_reads; lia. Qed.
Print Assumptions C40_seq_is_all_or_nothing.

(** [interleave skip [r1; ..; rn] = [skip; r1; skip; ..; rn; skip]]. *)
Theorem C40_skip_seq_is_interleaved_seq {L : GoLib} e skip rs s x s' :
  reads e (RSkipSeq skip rs) s x s' <-> reads e (RSeq (interleave skip rs)) s x s'.
Proof. apply skip_seq_reads. Qed.
Print Assumptions C40_skip_seq_is_interleaved_seq.

Example C40_case {L : GoLib} :
  reads [] (RSeq [la; lb]) (mk (lit "ab") 0) None (mk (lit "ab") 2) /\
  (exists x, reads [] (RSeq [la; la]) (mk (lit "ab") 0) (Some x) (mk (lit "ab") 0)) /\
  reads [] (skip_ws_seq [AReader la; AReader lb]) (mk (lit " a  b c") 0) None (mk (lit " a  b c") 6) /\
  interleave ws [la; lb] = [ws; la; ws; lb; ws].
Proof. split; [run 12%nat|]. split; [eexists; run 12%nat|]. split; [run 20%nat|]. reflexivity. Qed.

(* ------------------------------------------------------------------- C41 *)

(** C41.  [iter e r k s s1]: [k] successful reads of [r] lead from [s] to [s1]. *)
Theorem C41_zom_is_greedy {L : GoLib} e r s x s' : reads e (RZom r) s x s' <->
  x = None /\ exists k s1 y, iter e r k s s1 /\ reads e r s1 (Some y) s'.
Proof. apply zom_reads. Qed.
Print Assumptions C41_zom_is_greedy.

Theorem C41_many_is_greedy {L : GoLib} e r s x s' : reads e (RMany r) s x s' <->
  exists k s1 y, iter e r k s s1 /\ reads e r s1 (Some y) s' /\
    ((pos (sc s) < pos (sc s') /\ x = None) \/ (pos (sc s') <= pos (sc s) /\ x = Some (EReadError (pos (sc s')) (what e (RMany r))))).
Proof.
  rewrite many_reads. split; intros (k & s1 & y & I & R & H); exists k, s1, y; (split; [auto|split; [auto|]]).
  - destruct (pos (sc s) <? pos (sc s')) eqn:C; [left|right]; split; auto; lia.
  - destruct H as [[H ->]|[H ->]]; [replace (pos (sc s) <? pos (sc s')) with true by lia|replace (pos (sc s) <? pos (sc s')) with false by lia]; auto.
Qed.
Print Assumptions C41_many_is_greedy.

(** For readers that do not consume on failure: the scanner ends where the k-th read
    ended, and Many fails iff nothing was consumed, standing where it stood. *)
Theorem C41_position {L : GoLib} e r s x s' : eall no_wrap e -> rall no_wrap r = true -> nonconsuming e r -> in_text s ->
  (reads e (RZom r) s x s' -> exists k s1, iter e r k s s1 /\ pos (sc s') = pos (sc s1)) /\
  (reads e (RMany r) s x s' -> exists k s1, iter e r k s s1 /\ pos (sc s') = pos (sc s1) /\
     (x <> None <-> pos (sc s') = pos (sc s))).
Proof.
  intros He Hr N I.
  assert (G : forall k s s1, in_text s -> iter e r k s s1 -> in_text s1 /\ pos (sc s) <= pos (sc s1)).
  { intros k s0 s1 I0 H. induction H as [s0|k s0 s1 s2 [n R] H IH]; [split; [auto|lia]|].
    destruct (read_okfw e He n r Hr s0 None s1 I0 R) as (I1 & _ & _ & P). destruct (IH I1). split; [auto|lia]. }
  split.
  - intros H. apply zom_reads in H as (-> & k & s1 & y & It & [n R]). exists k, s1. split; auto. destruct (G _ _ _ I It). eapply N; eauto.
  - intros H. apply many_reads in H as (k & s1 & y & It & [n R] & ->). exists k, s1. split; auto. destruct (G _ _ _ I It) as [I1 P].
    pose proof (N n s1 y s' I1 R) as E. split; auto. rewrite E. destruct (pos (sc s) <? pos (sc s1)) eqn:C; (split; [intros X; try congruence; lia|intros X; try discriminate; lia]).
Qed.
Print Assumptions C41_position.

Example C41_case {L : GoLib} :
  reads [] (RZom la) (mk (lit "aab") 0) None (mk (lit "aab") 2) /\
  reads [] (RMany la) (mk (lit "aab") 0) None (mk (lit "aab") 2) /\
  (exists x, reads [] (RMany lb) (mk (lit "aab") 0) (Some x) (mk (lit "aab") 0)).
Proof. split; [run 20%nat|]. split; [run 20%nat|]. eexists. run 20%nat. Qed.

(* ------------------------------------------------------------------- C42 *)

(** C42.  [X] is a set of states in which [r] succeeds and which it does not leave. *)
Theorem C42_repetition_hangs {L : GoLib} e r (X : st -> Prop) s :
  (forall s, X s -> exists s', reads e r s None s' /\ X s') -> X s ->
  hangs e (RZom r) s /\ hangs e (RMany r) s.
Proof. intros H. apply zom_hangs; auto. Qed.
Print Assumptions C42_repetition_hangs.

(** At the end of the text: Not of anything that always fails there, Holey over a
    range with U+FFFD, Rune(U+FFFD). *)
Definition at_text_end (s : st) : Prop := in_text s /\ pos (sc s) = slen (full (sc s)).
Theorem C42_hangs_at_end {L : GoLib} e s : at_text_end s ->
  (forall r, (forall s, at_text_end s -> exists x s', reads e r s (Some x) s') -> hangs e (RZom (RNot r)) s /\ hangs e (RMany (RNot r)) s) /\
  (forall mn mx holes ls, chunked holes ls -> mn <= 0xFFFD <= mx -> ~ In 0xFFFD (map fst ls) ->
     hangs e (RZom (RHoley mn mx holes)) s /\ hangs e (RMany (RHoley mn mx holes)) s) /\
  (hangs e (RZom (RRune 0xFFFD)) s /\ hangs e (RMany (RRune 0xFFFD)) s).
Proof.
  intros E. split; [|split].
  - intros r H. apply (zom_hangs e at_text_end); auto. intros s0 E0. destruct (H s0 E0) as (x & s1 & R).
    destruct (reads_keeps e _ _ _ _ R) as [K _]. destruct E0 as [I0 P0].
    assert (X : in_text (moveto (pos (sc s0)) s1)) by (destruct I0; split; cbn; rewrite K; auto).
    assert (Y : pos (sc (moveto (pos (sc s0)) s1)) = slen (full (sc (moveto (pos (sc s0)) s1)))) by (cbn; congruence).
    exists (moveto (pos (sc s0)) s1). split; [|split; auto].
    apply not_reads; [destruct I0; lia|]. right. exists x, s1, false. split; auto. split; auto.
    destruct (move_runes1_strict _ X) as [Z|(p & Z & _)]; auto. rewrite Y in Z. lia.
  - intros mn mx holes ls C R N. apply (zom_hangs e at_text_end); auto. intros s0 E0.
    pose proof E0 as [I0 P0]. apply at_split_in_text in I0 as (a & b & H0).
    assert (b = []). { destruct H0 as (A & B & _). rewrite A, slen_app in P0. rewrite B in P0. destruct b; auto. rewrite slen_cons in P0. pose proof (slen_nonneg b0). lia. }
    subst b. exists (moveto (pos (sc s0)) s0). split.
    + exists 1%nat. cbn [read]. rewrite (bind_ok _ _ _ _ _ (s_tail_split _ _ _ H0)). change (decode_rune []) with (RuneError, 0%nat). cbv iota beta.
      assert (Cn : contains_rune holes RuneError = false).
      { destruct (contains_rune holes RuneError) eqn:X; auto. exfalso. apply N. apply (contains_rune_iff holes ls C RuneError rune_error_scalar) in X. auto. }
      rewrite Cn. unfold in_range, RuneError. replace ((mn <=? 65533) && (65533 <=? mx) && negb false) with true by lia.
      pose proof (move_fwd s0 a [] [] H0) as Mv. unfold yes_by in Mv. change (slen []) with 0 in Mv. change (Z.of_nat 0) with 0.
      rewrite Z.add_0_r in Mv. rewrite (bind_ok _ _ _ _ _ Mv). reflexivity.
    + destruct E0 as [[A B] D]. split; [split|]; cbn; auto.
  - apply (zom_hangs e at_text_end); auto. intros s0 E0.
    pose proof E0 as [I0 P0]. apply at_split_in_text in I0 as (a & b & H0).
    assert (b = []). { destruct H0 as (A & B & _). rewrite A, slen_app in P0. rewrite B in P0. destruct b; auto. rewrite slen_cons in P0. pose proof (slen_nonneg b0). lia. }
    subst b. exists (moveto (pos (sc s0)) s0). split.
    + exists 1%nat. cbn [read]. pose proof (if_rune_end s0 a 0xFFFD H0) as Y. change (65533 =? RuneError) with true in Y. rewrite (bind_ok _ _ _ _ _ Y). reflexivity.
    + destruct E0 as [[A B] D]. split; [split|]; cbn; auto.
Qed.
Print Assumptions C42_hangs_at_end.

Example C42_case {L : GoLib} : hangs [] (RZom (RNot la)) (mk (lit "b") 1) /\ hangs [] (RMany (RHoley 0x20 0x10FFFF (lit "x"))) (mk (lit "b") 1).
Proof.
  assert (E : at_text_end (mk (lit "b") 1)) by (split; [in_here|reflexivity]). destruct (C42_hangs_at_end [] _ E) as (A & B & _). split.
  - apply A. intros s [I P]. apply at_split_in_text in I as (a & b & H0).
    assert (b = []). { destruct H0 as (X & Y & _). rewrite X, slen_app in P. rewrite Y in P. destruct b; auto. rewrite slen_cons in P. pose proof (slen_nonneg b0). lia. }
    subst b. eexists. exists s. exists 1%nat. cbn [read la]. rewrite (bind_ok _ _ _ _ _ (if_rune_end s a 0x61 H0)). reflexivity.
  - refine (proj2 (B 0x20 0x10FFFF (lit "x") [(0x78, lit "x")] _ _ _)); [chunks_here|lia|intros [X|[]]; discriminate].
Qed.

(* ------------------------------------------------------------------- C43 *)

(** C43 is false as stated: a sub reader that stops inside a rune when it fails. *)
Definition utf8_returns {L : GoLib} (e : env) (r : reader) (t : bytes) : Prop :=
  forall s, in_text s -> full (sc s) = t -> exists x s', reads e r s x s'.
Theorem C43_past_terminates_refuted {L : GoLib} :
  ~ (forall e r t, wf_text t -> utf8_returns e r t -> utf8_returns e (RPast r) t).
Proof.
  intros H. set (r := RTimes 2 (RLit [xc3])). set (t := [xc3; xa9]).
  assert (P : forall s, full (sc s) = t -> pos (sc s) = 0 \/ pos (sc s) = 1 \/ pos (sc s) = 2 ->
     exists x, reads [] r s (Some x) (if pos (sc s) =? 0 then moveto 1 s else s)).
  { intros [[f p k] h] F [E|[E|E]]; cbn in F, E; subst f p; eexists; exists 2%nat; reflexivity. }
  assert (B : forall s, in_text s -> full (sc s) = t -> pos (sc s) = 0 \/ pos (sc s) = 1 \/ pos (sc s) = 2).
  { intros s [I _] F. rewrite F in I. change (slen t) with 2 in I. lia. }
  assert (R : utf8_returns [] r t).
  { intros s I F. destruct (P s F (B s I F)) as [x X]. eauto. }
  assert (W : wf_text t) by (exists [0xE9]; split; [repeat constructor; unfold is_scalar; lia|reflexivity]).
  destruct (H [] r t W R (mk t 1)) as (x & s' & Y); [in_here|reflexivity|].
  destruct (past_hangs [] (fun s => full (sc s) = t /\ pos (sc s) = 1) r) with (s := mk t 1) as [Z _]; [|split; reflexivity|].
  - intros [[f p k] h] [F E]; cbn in F, E; subst f p. split; [vm_compute; discriminate|].
    destruct (P (mkSt (mkSc t 1 k) h) eq_refl ltac:(cbn; auto)) as [y X]. cbn in X.
    exists y, (mkSt (mkSc t 1 k) h), false, (mkSt (mkSc t 1 k) h). split; [exact X|]. split; [reflexivity|split; reflexivity].
  - destruct Y as [n Y]. rewrite (Z n) in Y. discriminate.
Qed.
Print Assumptions C43_past_terminates_refuted.

(** True: on valid UTF-8, when the tail reader returns in front of every rune and, when
    it fails, again stands in front of a rune ([settles]). *)
Theorem C43_terminate_partial {L : GoLib} e r b s rs :
  before_runes s rs -> settles e r (full (sc s)) ->
  (exists x s', reads e (RPast r) s x s') /\
  (returns_everywhere e b -> eall no_wrap e -> rall no_wrap r = true ->
     (exists x s', reads e (RBody b r) s x s') /\ (exists x s', reads e (RBodyTail b r) s x s')).
Proof.
  intros B St. split; [eapply past_returns; eauto|]. intros Rb He Hr.
  assert (Fw : forall s0 x s', in_text s0 -> full (sc s0) = full (sc s) -> reads e r s0 x s' -> pos (sc s0) <= pos (sc s')).
  { intros s0 x s' I _ [n H]. destruct (read_okfw e He n r Hr s0 x s' I H) as (_ & _ & _ & P). auto. }
  split; [apply (body_returns e b r _ true s rs St Rb Fw eq_refl B)|apply (body_returns e b r _ false s rs St Rb Fw eq_refl B)].
Qed.
Print Assumptions C43_terminate_partial.

(** To(r) returns on every text, valid or not, if [r] does. *)
Theorem C43_to_terminates {L : GoLib} e r t : eall no_wrap e -> rall no_wrap r = true -> utf8_returns e r t -> utf8_returns e (RTo r) t.
Proof.
  intros He Hr U s I F. apply (to_returns e r t); auto. intros s0 I0 F0. destruct (U s0 I0 F0) as (x & s' & [n H]).
  exists x, s'. split; [exists n; auto|]. destruct (read_okfw e He n r Hr s0 x s' I0 H) as ([I1 _] & F1 & _ & P). rewrite F1, F0 in I1. lia.
Qed.
Print Assumptions C43_to_terminates.

(** On ill-formed text they hang: an ill-formed byte among the last two bytes. *)
Theorem C43_hang_on_ill_formed {L : GoLib} e r b s : in_text s -> pos (sc s) <> slen (full (sc s)) ->
  (exists c a, at_split s a c /\ ill_formed_at c /\ slen c < 3) ->
  (forall s', full (sc s') = full (sc s) -> pos (sc s') = pos (sc s) -> exists x s1, reads e r s' (Some x) s1 /\ pos (sc s1) = pos (sc s')) ->
  hangs e (RPast r) s /\ hangs e (RBody b r) s /\ hangs e (RBodyTail b r) s.
Proof.
  intros I Ne (c & a & H & Ill & Sh) Fl.
  set (X := fun s' => full (sc s') = full (sc s) /\ pos (sc s') = pos (sc s)).
  destruct (past_hangs e X r) with (s := s) as [A B]; [|split; reflexivity|split; auto].
  intros s' [F P]. split; [congruence|]. destruct (Fl s' F P) as (x & s1 & R & P1). destruct (reads_keeps e _ _ _ _ R) as [K _].
  exists x, s1, false, s1. split; auto. split; [|split; congruence].
  assert (H1 : at_split s1 a c) by (eapply split_same; eauto; congruence).
  destruct c as [|c0 c]. { exfalso. apply Ne. eapply split_end; eauto. }
  destruct (chunked_exists c) as [l C]. pose proof (ck_bad c0 c l Ill C) as C'.
  pose proof (move_runes_fwd_spec s1 a _ [] 0xFFFD [c0] l H1 C') as E. change (slen [] + 1) with 1 in E. rewrite E.
  cbn [chunk_bytes flat_map]. change (slen [] + slen (utf8 65533)) with 3. apply move_no; [eapply in_text_split; eauto|lia|].
  destruct H1 as (H1 & H2 & H3). rewrite H1, H2, slen_app in *. lia.
Qed.
Print Assumptions C43_hang_on_ill_formed.

Lemma lit_reads {L : GoLib} e str s a b : at_split s a b ->
  reads e (RLit str) s (if has_prefix b str then None else Some (EReadError (pos (sc s)) (quote_str str)))
    (if has_prefix b str then moveto (pos (sc s) + slen str) s else s).
Proof.
  intros H. exists 1%nat. cbn [read]. destruct (has_prefix b str) eqn:E.
  - apply has_prefix_iff in E as [t ->]. rewrite (bind_ok _ _ _ _ _ (if_str_yes _ _ _ _ H)). reflexivity.
  - rewrite (bind_ok _ _ _ _ _ (if_str_no _ _ _ _ H (proj1 (has_prefix_false _ _) E))). reflexivity.
Qed.
Example C43_case {L : GoLib} :
  (forall t, settles [] (RLit (lit "b")) t) /\ before_runes (mk (lit "xa" ++ utf8 0xE9 ++ lit "b") 1) [0x61; 0xE9; 0x62] /\
  returns_everywhere [] (RZom la) /\ hangs [] (RPast (RLit (lit "b"))) (mk (lit "a" ++ [xff]) 1).
Proof.
  split; [|split; [|split]].
  - intros t s rs F (S0 & a & H). eexists. eexists. split; [eapply lit_reads; eauto|]. destruct (has_prefix (utf8s rs) (lit "b")); [congruence|].
    intros _. exists rs. split; [split; eauto|lia].
  - split; [repeat constructor; unfold is_scalar; lia|]. exists (lit "x"). split_here.
  - intros str h Hs.
    assert (G : forall k s, in_text s -> (Z.to_nat (slen (full (sc s)) - pos (sc s)) <= k)%nat -> exists s', reads [] (RZom la) s None s').
    { induction k as [|k IH]; intros s I Le; pose proof I as I'; apply at_split_in_text in I' as (a & b & H);
        destruct (bprim_if_rune 0x61 s I) as [E|[(p & P & E)|[E _]]]; try discriminate.
      - exists s. apply zom_reads. split; auto. eexists 0%nat, s, _. split; [constructor|]. exists 1%nat. cbn [read la]. rewrite (bind_ok _ _ _ _ _ E). reflexivity.
      - exfalso. assert (b = []). { destruct H as (A & B & _). rewrite A, B, slen_app in Le. destruct b; auto. rewrite slen_cons in Le. pose proof (slen_nonneg b0). lia. }
        subst b. rewrite (if_rune_end s a 0x61 H) in E. discriminate.
      - exists s. apply zom_reads. split; auto. eexists 0%nat, s, _. split; [constructor|]. exists 1%nat. cbn [read la]. rewrite (bind_ok _ _ _ _ _ E). reflexivity.
      - assert (P1 : pos (sc s) < p).
        { destruct (chunked_exists b) as [l C]. destruct l as [|[v c] l].
          - apply chunked_nil_r in C. subst b. rewrite (if_rune_end s a 0x61 H) in E. discriminate.
          - destruct (if_rune_spec s a b _ 0x61 H C ltac:(left; discriminate)) as [Y N]. destruct (Z.eq_dec v 0x61) as [D|D].
            + specialize (Y D). unfold yes_by in Y. rewrite Y in E. injection E as E. pose proof (chunked_slen_pos _ _ _ _ C) as [Q _]. lia.
            + specialize (N D). unfold no in N. rewrite N in E. discriminate. }
        destruct (IH (moveto p s)) as (s' & R); [apply in_text_move; auto; destruct I; lia|cbn; lia|].
        exists s'. apply zom_reads in R as (_ & j & s1 & y & It & R). apply zom_reads. split; auto. exists (S j), s1, y. split; auto.
        econstructor; eauto. exists 1%nat. cbn [read la]. rewrite (bind_ok _ _ _ _ _ E). reflexivity. }
    destruct (G _ (mkSt (new_scanner str) h) ltac:(split; [cbn; pose proof (slen_nonneg str); lia|auto]) (Nat.le_refl _)) as [s' R]. eauto.
  - apply (C43_hang_on_ill_formed [] (RLit (lit "b")) la); [in_here|vm_compute; discriminate| |].
    + exists [xff], (lit "a"). split; [split_here|]. split; [|reflexivity]. intros r t Hr E.
      pose proof (decode_utf8 r t Hr) as D. rewrite <- E in D. pose proof (utf8_length_pos r) as LP.
      change (decode_rune [xff]) with (RuneError, 1%nat) in D. injection D as <- D. vm_compute in D. discriminate.
    + intros s' F P. eexists. eexists. split; [apply (lit_reads [] (lit "b") s' (lit "a") [xff]); split; [exact F|split; [exact P|vm_compute; reflexivity]]|reflexivity].
Qed.

(* ------------------------------------------------------------------- C44 *)

(** C44. At. *)
Theorem C44_at_is_lookahead {L : GoLib} e r s x s' : in_text s ->
  (reads e (RAt r) s x s' <-> exists s1, reads e r s x s1 /\ s' = moveto (pos (sc s)) s1).
Proof. intros [I _]. apply at_reads; lia. Qed.
Print Assumptions C44_at_is_lookahead.

(** Not: fails iff [r] succeeds and then stays. If [r] fails it succeeds; then, in front of
    an encoded rune, it stands behind that rune; at the end of the text it stays. *)
Theorem C44_not_exact {L : GoLib} e r s a b : at_split s a b ->
  (forall s1, reads e r s None s1 -> exists x, reads e (RNot r) s (Some x) (moveto (pos (sc s)) s1)) /\
  (forall y s1, reads e r s (Some y) s1 -> exists s', reads e (RNot r) s None s' /\
     (b = [] -> pos (sc s') = pos (sc s)) /\
     (forall v t, is_scalar v -> b = utf8 v ++ t -> pos (sc s') = pos (sc s) + slen (utf8 v)) /\
     (ill_formed_at b -> b <> [] -> pos (sc s') = if slen b <? 3 then pos (sc s) else pos (sc s) + 3)).
Proof.
  intros H. pose proof (in_text_split _ _ _ H) as [I _]. split.
  - intros s1 R. eexists. apply not_reads; [lia|]. left. exists s1. auto.
  - intros y s1 R. destruct (reads_keeps e _ _ _ _ R) as [K _]. set (s2 := moveto (pos (sc s)) s1).
    assert (H2 : at_split s2 a b) by (eapply split_same; eauto). pose proof (in_text_split _ _ _ H2) as I2.
    assert (W : forall ok s', move_runes 1 s2 = Ok (ok, s') -> reads e (RNot r) s None s').
    { intros ok s' Mv. apply not_reads; [lia|]. right. exists y, s1, ok. auto. }
    destruct b as [|c b].
    + pose proof (move_runes_text_no s2 a [] 1 H2 (Forall_nil _) ltac:(cbn; lia)) as Mn. unfold no in Mn.
      exists s2. split; [eapply W; eauto|]. split; [reflexivity|]. split; [|congruence].
      intros v t Hv E. destruct (utf8 v) eqn:U; [exfalso; eapply utf8_nonnil; eauto|discriminate].
    + destruct (chunked_exists (c :: b)) as [l C]. destruct l as [|[v w] l]; [apply chunked_nil_r in C; discriminate|].
      pose proof (move_runes_fwd_spec s2 a _ [] v w l H2 C) as E. change (slen [] + 1) with 1 in E. cbn [chunk_bytes flat_map] in E. change (slen [] + ?z) with z in E.
      apply chunked_cons_inv in C as (t & Et & Ct & _ & _ & C). destruct C as [[Hv ->]|(-> & _ & Ill)].
      * pose proof H2 as H3. rewrite Et in H3. pose proof (move_fwd s2 a (utf8 v) t H3) as Mv. unfold yes_by in Mv. rewrite <- E in Mv.
        exists (moveto (pos (sc s2) + slen (utf8 v)) s2). split; [eapply W; eauto|]. split; [discriminate|]. split.
        -- intros v' t' Hv' E'. rewrite Et in E'. destruct (utf8_prefix_free v v' t t' Hv Hv' E') as [<- _]. reflexivity.
        -- intros N. exfalso. eapply N; eauto.
      * change (slen (utf8 RuneError)) with 3 in E. destruct (slen (c :: b) <? 3) eqn:S3.
        -- pose proof (move_no s2 3 I2 ltac:(lia)) as Mn. unfold no in Mn. rewrite <- E in Mn. exists s2. split.
           { eapply W. apply Mn. destruct H2 as (F1 & F2 & _). rewrite F1, F2, slen_app. lia. }
           split; [discriminate|]. split; [intros v t' Hv E'; exfalso; eapply Ill; eauto|intros; reflexivity].
        -- pose proof (move_ok s2 3 I2 ltac:(lia)) as Mo. unfold yes_by in Mo. rewrite <- E in Mo. eexists. split.
           { eapply W. apply Mo. destruct H2 as (F1 & F2 & _). rewrite F1, F2, slen_app. pose proof (slen_nonneg a). lia. }
           split; [discriminate|]. split; [|intros; reflexivity]. intros v t' Hv E'. exfalso. eapply Ill; eauto.
Qed.
Print Assumptions C44_not_exact.

(** C44 as stated is false at the end of the text. *)
Theorem C44_not_moves_one_rune_refuted {L : GoLib} :
  ~ (forall e r s y s1 s', in_text s -> reads e r s (Some y) s1 -> reads e (RNot r) s None s' -> pos (sc s) < pos (sc s')).
Proof.
  intros H. assert (A : exists y, reads [] la (mk (lit "b") 1) (Some y) (mk (lit "b") 1)) by (eexists; run 2%nat). destruct A as [y A].
  assert (B : reads [] (RNot la) (mk (lit "b") 1) None (mk (lit "b") 1)) by run 3%nat.
  specialize (H [] la (mk (lit "b") 1) y _ _ ltac:(in_here) A B). cbn in H. lia.
Qed.
Print Assumptions C44_not_moves_one_rune_refuted.

Example C44_case {L : GoLib} :
  reads [] (RAt la) (mk (lit "ab") 0) None (mk (lit "ab") 0) /\
  (exists x, reads [] (RNot la) (mk (lit "ab") 0) (Some x) (mk (lit "ab") 0)) /\
  reads [] (RNot la) (mk (lit "bb") 0) None (mk (lit "bb") 1).
Proof. split; [run 3%nat|]. split; [eexists; run 3%nat|run 3%nat]. Qed.

(* ------------------------------------------------------------------- C45 *)

(** C45.  [acts e r t f]: on [t], [r] is a function [f] of the position. The text from the
    scanner on is [utf8s (r1 ++ r2)] and [r] fails in front of every rune of [r1]. *)
Theorem C45_to_finds_leftmost {L : GoLib} e r f s a r1 r2 q :
  acts e r (full (sc s)) f -> at_split s a (utf8s (r1 ++ r2)) -> Forall is_scalar (r1 ++ r2) -> none_before f (pos (sc s)) r1 ->
  f (pos (sc s) + slen (utf8s r1)) = Some q ->
  exists s', reads e (RTo r) s None s' /\ pos (sc s') = pos (sc s) + slen (utf8s r1).
Proof. intros A H F N Q. exact (to_found e r _ f A s a eq_refl r1 r2 H F N q Q). Qed.
Print Assumptions C45_to_finds_leftmost.
Theorem C45_past_finds_leftmost {L : GoLib} e r f s a r1 r2 q :
  acts e r (full (sc s)) f -> at_split s a (utf8s (r1 ++ r2)) -> Forall is_scalar (r1 ++ r2) -> none_before f (pos (sc s)) r1 ->
  r2 <> [] -> f (pos (sc s) + slen (utf8s r1)) = Some q ->
  exists s', reads e (RPast r) s None s' /\ pos (sc s') = q.
Proof. intros A H F N Ne Q. exact (past_found e r _ f A s a eq_refl r1 r2 H F N q Ne Q). Qed.
Print Assumptions C45_past_finds_leftmost.
(** Nothing found: failure, nothing consumed. To also looks at the end of the text, Past does not. *)
Theorem C45_not_found {L : GoLib} e r f s a rs :
  acts e r (full (sc s)) f -> at_split s a (utf8s rs) -> Forall is_scalar rs -> none_before f (pos (sc s)) rs ->
  (exists x s', reads e (RPast r) s (Some x) s' /\ pos (sc s') = pos (sc s)) /\
  (f (pos (sc s) + slen (utf8s rs)) = None -> exists x s', reads e (RTo r) s (Some x) s' /\ pos (sc s') = pos (sc s)).
Proof.
  intros A H F N. rewrite <- (app_nil_r rs) in H, F. split; [exact (past_missing e r _ f A s a eq_refl rs [] H F N eq_refl)|].
  intros Q. exact (to_missing e r _ f A s a eq_refl rs [] H F N eq_refl Q).
Qed.
Print Assumptions C45_not_found.

(** A literal is such a reader. *)
Definition lit_fun (str t : bytes) (p : Z) : option Z := if has_prefix (skipn (Z.to_nat p) t) str then Some (p + slen str) else None.
Lemma lit_acts {L : GoLib} e str t : acts e (RLit str) t (lit_fun str t).
Proof.
  intros s I F. apply at_split_in_text in I as (a & b & H). pose proof H as (H1 & H2 & H3).
  assert (E : skipn (Z.to_nat (pos (sc s))) t = b).
  { rewrite <- F, H1, H2. unfold slen. rewrite Nat2Z.id, skipn_app, skipn_all, Nat.sub_diag. reflexivity. }
  eexists. eexists. split; [eapply lit_reads; eauto|]. unfold lit_fun. rewrite E. destruct (has_prefix b str); cbn; split; auto. discriminate.
Qed.
Definition ce : bytes := utf8 0xE9 ++ lit "xyxyz".
Example C45_case {L : GoLib} : acts [] (RLit (lit "yx")) ce (lit_fun (lit "yx") ce) /\
  at_split (mk ce 0) [] (utf8s ([0xE9; 0x78] ++ [0x79; 0x78; 0x79; 0x7A])) /\
  none_before (lit_fun (lit "yx") ce) 0 [0xE9; 0x78] /\ lit_fun (lit "yx") ce 3 = Some 5.
Proof.
  split; [apply lit_acts|]. split; [split_here|]. split; [|reflexivity].
  intros [|x [|y [|z q]]] c q2 E; try discriminate; injection E as <-; try discriminate; subst; vm_compute; reflexivity.
Qed.

(* ------------------------------------------------------------------- C46 *)

(** C46.  [body_or_tail true] is Body, [body_or_tail false] BodyTail; [covers e b str ok]:
    [b] reads the text [str] completely iff [ok]. *)
Theorem C46_body_delimits {L : GoLib} e r b back f s a r1 r2 q ok :
  acts e r (full (sc s)) f -> at_split s a (utf8s (r1 ++ r2)) -> Forall is_scalar (r1 ++ r2) -> none_before f (pos (sc s)) r1 ->
  r2 <> [] -> f (pos (sc s) + slen (utf8s r1)) = Some q -> covers e b (utf8s r1) ok ->
  (ok = true -> exists s', reads e (body_or_tail back b r) s None s' /\
     pos (sc s') = if back then pos (sc s) + slen (utf8s r1) else q) /\
  (ok = false -> exists x s', reads e (body_or_tail back b r) s (Some x) s' /\ pos (sc s') = pos (sc s)).
Proof. intros A H F N Ne Q C. exact (body_found e r _ f A s a eq_refl r1 r2 H F N back b q ok Ne Q C). Qed.
Print Assumptions C46_body_delimits.
Theorem C46_no_tail {L : GoLib} e r b back f s a rs :
  acts e r (full (sc s)) f -> at_split s a (utf8s rs) -> Forall is_scalar rs -> none_before f (pos (sc s)) rs ->
  exists x s', reads e (body_or_tail back b r) s (Some x) s' /\ pos (sc s') = pos (sc s).
Proof.
  intros A H F N. rewrite <- (app_nil_r rs) in H, F. exact (body_missing e r _ f A s a eq_refl rs [] H F N back b eq_refl).
Qed.
Print Assumptions C46_no_tail.
Example C46_case {L : GoLib} : covers [] (RLit (utf8 0xE9 ++ lit "x")) (utf8s [0xE9; 0x78]) true /\ covers [] (RLit (utf8 0xE9)) (utf8s [0xE9; 0x78]) false /\
  reads [] (RBody (RLit (utf8 0xE9 ++ lit "x")) (RLit (lit "yx"))) (mk ce 0) None (mk ce 3) /\
  reads [] (RBodyTail (RLit (utf8 0xE9 ++ lit "x")) (RLit (lit "yx"))) (mk ce 0) None (mk ce 5).
Proof.
  split; [|split].
  - intros h. eexists. eexists. split; [run 1%nat|]. cbn. tauto.
  - intros h. eexists. eexists. split; [run 1%nat|]. cbn. split; [discriminate|intros [_ X]; discriminate].
  - split; run 20%nat.
Qed.

(* ------------------------------------------------------------------- C47 *)

(** C47, what the two readers do.  [get_cell c] is the expected string. *)
Theorem C47_janus_begin_exact {L : GoLib} e c w r s x s' : eall no_wrap e -> rall no_wrap r = true -> in_text s ->
  (reads e (RJanusBeg c w r) s x s' <->
   (exists s1, reads e r s None s1 /\ x = None /\
      s' = with_heap (put_cell c (slice (full (sc s)) (pos (sc s)) (pos (sc s1))) (hp s1)) s1) \/
   (exists y s1, reads e r s (Some y) s1 /\ x = Some y /\ s' = moveto (pos (sc s)) s1)).
Proof. intros He Hr I. apply janus_beg_reads; auto. Qed.
Print Assumptions C47_janus_begin_exact.
Theorem C47_janus_end_exact {L : GoLib} e c w s a b x s' : at_split s a b ->
  (reads e (RJanusEnd c w) s x s' <->
   (exists t, b = get_cell c (hp s) ++ t /\ x = None /\
      exists s1, s1 = moveto (pos (sc s) + slen (get_cell c (hp s))) s /\ s' = with_heap (put_cell c [] (hp s1)) s1) \/
   ((forall t, b <> get_cell c (hp s) ++ t) /\ s' = s /\ x = Some (EReadError (pos (sc s)) (quote_str (get_cell c (hp s)))))).
Proof.
  intros H. rewrite (janus_end_reads e c w s a b x s' H). rewrite has_prefix_false, has_prefix_iff. split.
  - intros [([t E] & X & Y)|X]; [left; exists t; auto|right; auto].
  - intros [(t & E & X & Y)|X]; [left; split; [eauto|auto]|right; auto].
Qed.
Print Assumptions C47_janus_end_exact.

(** C47 as stated is false: the expected string is forgotten as soon as the end reader
    itself succeeded, even if the construct around it then fails. *)
Theorem C47_keeps_expecting_refuted {L : GoLib} :
  ~ (forall e c w r s x s', in_text s -> reads e (RSeq [RJanusEnd c w; r]) s (Some x) s' -> get_cell c (hp s') = get_cell c (hp s)).
Proof.
  intros H. set (s := mkSt (mkSc (lit "==]") 0 None) (mkHeap [] [lit "="] [] [] [])).
  assert (A : exists x s', reads [] (RSeq [RJanusEnd 0 (lit "l"); RLit (lit "]")]) s (Some x) s' /\ get_cell 0 (hp s') = []).
  { eexists. eexists. split; [run 4%nat|reflexivity]. }
  destruct A as (x & s' & A & E). specialize (H [] 0%nat (lit "l") _ s x s' ltac:(in_here) A). rewrite E in H. discriminate.
Qed.
Print Assumptions C47_keeps_expecting_refuted.

Example C47_case {L : GoLib} :
  (exists s', reads [] (RSeq [RJanusBeg 0 (lit "l") (RMany la); RLit (lit "x"); RJanusEnd 0 (lit "l")]) (mk (lit "aaxaab") 0) None s' /\ pos (sc s') = 5) /\
  (exists x s', reads [] (RSeq [RJanusBeg 0 (lit "l") (RMany la); RLit (lit "x"); RJanusEnd 0 (lit "l")]) (mk (lit "aaxab") 0) (Some x) s' /\ pos (sc s') = 0).
Proof. split; [eexists; split; [run 20%nat|reflexivity]|eexists; eexists; split; [run 20%nat|reflexivity]]. Qed.

(* ------------------------------------------------------------------- C48 *)

(** C48. *)
Theorem C48_opt_never_fails {L : GoLib} e r s x s' : reads e (ROpt r) s x s' <-> x = None /\ exists y, reads e r s y s'.
Proof. apply opt_reads. Qed.
Print Assumptions C48_opt_never_fails.
Theorem C48_named_and_rule_are_transparent {L : GoLib} e r s x s' :
  (forall w, reads e (RNamed w r) s x s' <-> reads e r s x s') /\
  (forall i, r_reader (get_rule e i) = Some r -> (reads e (RRule i) s x s' <-> reads e r s x s')).
Proof. split; [intros w; apply named_reads|intros i H; apply rule_reads; auto]. Qed.
Print Assumptions C48_named_and_rule_are_transparent.
(** RuleName only replaces the error. *)
Theorem C48_rule_name_replaces_error {L : GoLib} e r s x s' : reads e (RRuleName r) s x s' <->
  exists y, reads e r s y s' /\ ((y = None /\ x = None) \/ (y <> None /\ x = Some (EReadError (pos (sc s')) (lit "rulename")))).
Proof.
  rewrite rule_name_reads. split; intros (y & R & H); exists y; (split; [auto|]).
  - destruct y; [right|left]; split; auto; discriminate.
  - destruct H as [[-> ->]|[H ->]]; auto. destruct y; congruence.
Qed.
Print Assumptions C48_rule_name_replaces_error.
(** They also hang, respectively panic, exactly when their sub reader does. *)
Theorem C48_same_divergence {L : GoLib} e r s :
  (forall w, (hangs e (RNamed w r) s <-> hangs e r s)) /\
  (forall i, r_reader (get_rule e i) = Some r -> (hangs e (RRule i) s <-> hangs e r s)) /\
  (hangs e (ROpt r) s <-> hangs e r s).
Proof.
  split; [intros w; apply named_hangs|]. split; [intros i H; apply rule_hangs; auto|]. split.
  - intros H n. specialize (H (S n)). cbn [read] in H. unfold bind in H. destruct (read n e r s) as [[]| |]; auto; discriminate.
  - intros H [|n]; [reflexivity|]. cbn [read]. unfold bind. rewrite (H n). reflexivity.
Qed.
Print Assumptions C48_same_divergence.
Example C48_case {L : GoLib} : reads [] (ROpt la) (mk (lit "b") 0) None (mk (lit "b") 0) /\
  reads [] (RNamed (lit "x") la) (mk (lit "ab") 0) None (mk (lit "ab") 1) /\
  (exists w, reads [] (RRuleName la) (mk (lit "b") 0) (Some (EReadError 0 w)) (mk (lit "b") 0)).
Proof. split; [run 3%nat|]. split; [run 3%nat|]. eexists. run 3%nat. Qed.

(* ------------------------------------------------------------------- C49 *)

(** C49.  [strip true false] takes all Monitors out of a reader, [strip_env] out of all
    rules; Wrap functions may only move inside the text ([wraps_inside]). Everything
    but the Logs is the same. *)
Theorem C49_monitor_is_transparent {L : GoLib} e r s : in_text s -> rallP wraps_inside r -> eallP wraps_inside e ->
  (forall x s1, reads e r s x s1 -> exists s2, reads (strip_env true false e) (strip true false r) s x s2 /\ same_but_logs s1 s2) /\
  (forall x s2, reads (strip_env true false e) (strip true false r) s x s2 -> exists s1, reads e r s x s1 /\ same_but_logs s1 s2) /\
  (panics e r s <-> panics (strip_env true false e) (strip true false r) s) /\
  (hangs e r s <-> hangs (strip_env true false e) (strip true false r) s).
Proof. apply monitor_transparent. Qed.
Print Assumptions C49_monitor_is_transparent.
Example C49_case {L : GoLib} :
  strip true false (RSeq [RMonitor (lit "m") 0 (RPick (lit "p") 0 la); RMonitor (lit "n") 0 lb]) = RSeq [RPick (lit "p") 0 la; lb] /\
  exists s1 s2, reads [] (RSeq [RMonitor (lit "m") 0 (RPick (lit "p") 0 la); RMonitor (lit "n") 0 lb]) (mk (lit "ab") 0) None s1 /\
    reads [] (RSeq [RPick (lit "p") 0 la; lb]) (mk (lit "ab") 0) None s2 /\
    length (h_logs (hp s1)) = 1%nat /\ h_logs (hp s2) = [] /\ get_basket 0 (hp s1) = [mkSeg (lit "p") (mkTok 0 1)] /\ get_basket 0 (hp s2) = [mkSeg (lit "p") (mkTok 0 1)].
Proof.
  split; [reflexivity|]. eexists. eexists. split; [run 12%nat|]. split; [run 12%nat|]. split; [reflexivity|]. split; [reflexivity|]. split; reflexivity.
Qed.

(* ------------------------------------------------------------------- C50 *)

(** C50.  [strip false true] takes all Picks and Maps out. [picks_fit]: what is picked
    or mapped does not consume on failure. [same_place]: same text, position and
    Janus strings; trackers may differ. *)
Theorem C50_pick_map_tracker_transparent {L : GoLib} e r s t : in_text s -> same_place s t ->
  rallP (picks_fit e) r -> eallP (picks_fit e) e ->
  (forall x s1, reads e r s x s1 -> exists s2, reads (strip_env false true e) (strip false true r) t x s2 /\ same_place s1 s2) /\
  (forall x s2, reads (strip_env false true e) (strip false true r) t x s2 -> exists s1, reads e r s x s1 /\ same_place s1 s2) /\
  (panics e r s <-> panics (strip_env false true e) (strip false true r) t) /\
  (hangs e r s <-> hangs (strip_env false true e) (strip false true r) t).
Proof. apply pick_transparent. Qed.
Print Assumptions C50_pick_map_tracker_transparent.
(** [picks_fit] follows from a check of the readers: everything picked is [restoring]. *)
Theorem C50_static_condition {L : GoLib} e R r : restoring_rules e R -> eallP (picks_restore R) e -> rallP (picks_restore R) r ->
  rallP (picks_fit e) r /\ eallP (picks_fit e) e.
Proof.
  intros HR He Hr. split; [eapply picks_static; eauto|]. intros i r' E. eapply picks_static; eauto.
Qed.
Print Assumptions C50_static_condition.
Example C50_case {L : GoLib} :
  rallP (picks_restore (fun _ => true)) (RSeq [RPick (lit "p") 0 la; RMap 0 (RMany lb)]) /\
  (exists s1, reads [] (RSeq [RPick (lit "p") 0 la; RMap 0 (RMany lb)]) (mkSt (mkSc (lit "abb") 0 (Some 0%nat)) heap0) None s1 /\ pos (sc s1) = 3) /\
  reads [] (RSeq [la; RMany lb]) (mk (lit "abb") 0) None (mk (lit "abb") 3) /\
  (exists x s1 s2, reads [] (RSeq [ROpt (RPick (lit "p") 0 (RTimes 2 la)); lb]) (mk (lit "ab") 0) (Some x) s1 /\
     reads [] (RSeq [ROpt (RTimes 2 la); lb]) (mk (lit "ab") 0) None s2).
Proof.
  split; [cbn; tauto|]. split; [eexists; split; [run 20%nat|reflexivity]|]. split; [run 20%nat|].
  eexists. eexists. eexists. split; run 20%nat.
Qed.

(** PropWhat.v - What() can be read back (C126), and where it cannot (C127).  Go: the What methods of reader.go,
    error.go:17-19, grammar.go (GrammarLines). *)
From Verif Require Import WhatFacts SpecWhat Grammar ReaderTrans UseFacts PropLog.
From Coq Require Import Lia.

(** C126.  From its What() alone the reader is known: kinds, order, strings, runes, ranges and counts. *)
Theorem C126_what {L : GoLib} e r : rallP plain_node r -> described (what e r) = Some (shape r).
Proof.
  intros P. assert (F : Forall (rallP plain_node) [r]) by (constructor; auto). pose proof (what_long e _ F) as N. unfold described.
  change (what e r) with (what e (RSeq [r])). rewrite sequence_back; [reflexivity|discriminate|auto|lia].
Qed.
Theorem C126_seq {L : GoLib} e r1 r2 rs : Forall (rallP plain_node) (r1 :: r2 :: rs) ->
  described (what e (RSeq (r1 :: r2 :: rs))) = Some (RSeq (map shape (r1 :: r2 :: rs))).
Proof.
  intros P. pose proof (what_long e _ P) as N. unfold described. rewrite sequence_back; [reflexivity|discriminate|auto|lia].
Qed.
(** The readers of a description, inside any text. *)
Theorem C126_inside {L : GoLib} e r t : rallP plain_node r -> reader_of (S (length (what e r))) (what e r ++ t) = Some (shape r, t).
Proof. intros P. apply what_back; auto. Qed.
Theorem C126_same {L : GoLib} e1 e2 r1 r2 : rallP plain_node r1 -> rallP plain_node r2 -> what e1 r1 = what e2 r2 -> shape r1 = shape r2.
Proof. intros A B E. pose proof (C126_what e1 r1 A) as X. rewrite E, (C126_what e2 r2 B) in X. congruence. Qed.
(** Readers without Seq, values and names, with the same description, read the same and report the same errors. *)
Definition silent {L : GoLib} (r : reader) : Prop :=
  match r with
  | RBool _ _ | RInt _ _ _ | RUint _ _ _ => False
  | RBetween a b => a <> b
  | RPick _ _ a | RMap _ a => nonconsuming [] (shape a)
  | _ => True
  end.

Definition quiet {L : GoLib} (r : reader) : Prop := rallP plain_node r /\ rallP silent r.
Lemma quiet_strip {L : GoLib} : forall r, quiet r -> strip true true r = shape r.
Proof.
  unfold quiet. refine (reader_ind' _ _ _ _ _ _ _ _ _ _ _ _ _ _ _ _ _ _ _ _ _ _ _ _ _ _ _ _ _ _ _ _ _ _ _ _ _); intros; cbn [strip shape];
    match goal with H : _ /\ _ |- _ => cbn [rallP plain_node silent] in H; destruct H end; try tauto.
  all: repeat match goal with H : _ /\ _ |- _ => destruct H end.
  all: try (f_equal; auto; fail); auto.
  all: try (f_equal; auto; match goal with X : Forall _ ?l, Y : fold_right _ _ ?l, Z : fold_right _ _ ?l |- _ => revert Y Z; clear -X; induction X; cbn; intros; [reflexivity|f_equal; intuition auto] end).
  match goal with H : ?x <> ?y |- context [?x =? ?y] => destruct (Z.eqb_spec x y); congruence end.
Qed.
Lemma quiet_fit {L : GoLib} : forall r, quiet r -> rallP (fit true false true true []) r.
Proof.
  unfold quiet. refine (reader_ind' _ _ _ _ _ _ _ _ _ _ _ _ _ _ _ _ _ _ _ _ _ _ _ _ _ _ _ _ _ _ _ _ _ _ _ _ _); intros; cbn [rallP fit];
    match goal with H : _ /\ _ |- _ => cbn [rallP plain_node silent] in H; destruct H end; try tauto.
  all: repeat match goal with H : _ /\ _ |- _ => destruct H end.
  all: repeat match goal with |- _ /\ _ => split end; auto.
  all: try (match goal with X : Forall _ ?l, Y : fold_right _ _ ?l, Z : fold_right _ _ ?l |- _ => revert Y Z; clear -X; induction X; cbn; intros; intuition auto end).
  all: intros _; split; [reflexivity|]; change (strip_env true true []) with (@nil rule); rewrite quiet_strip by (split; auto); auto.
Qed.
Theorem C126_reads {L : GoLib} r1 r2 s x s1 : quiet r1 -> quiet r2 -> what [] r1 = what [] r2 -> in_text s -> reads [] r1 s x s1 ->
  exists s2, reads [] r2 s x s2 /\ same_place s1 s2.
Proof.
  intros Q1 Q2 W I R. pose proof (C126_same [] [] r1 r2 (proj1 Q1) (proj1 Q2) W) as E.
  destruct (rel_strip true false true true [] r1 (quiet_fit r1 Q1)) as [_ A]. destruct (rel_strip true false true true [] r2 (quiet_fit r2 Q2)) as [B _].
  rewrite quiet_strip in A, B by auto. rewrite E in A. change (strip_env true true []) with (@nil rule) in A, B.
  assert (Er : erel true false [] []). { intros i. split; [reflexivity|]. replace (r_reader (get_rule [] i)) with (@None reader) by (destruct i; reflexivity). exact Logic.I. }
  assert (R0 : srel true false (full (sc s)) s s). { split; auto. split; auto. split; auto. split; auto. split; [discriminate|]. split; [auto|discriminate]. }
  destruct (rel_reads _ _ _ _ Er _ _ _ _ _ _ A R0 R) as (s' & R' & S').
  destruct (rel_reads _ _ _ _ Er _ _ _ _ _ _ B R0 R') as (s2 & R2 & S2). exists s2. split; auto.
  destruct S' as (Y1 & Y2 & Y3 & Y4 & Y5 & Y6 & Y7), S2 as (Z1 & Z2 & Z3 & Z4 & Z5 & Z6 & Z7). split; [congruence|]. split; [congruence|].
  rewrite Y6, Z6 by reflexivity. reflexivity.
Qed.

(** The text of an error tells description and position. *)
Lemma nums_end n : forall x, In x (rev (itoa n)) -> num_byte x = true.
Proof. intros x I. apply in_rev in I. pose proof (itoa_nums n) as F. rewrite Forall_forall in F. auto. Qed.
Lemma tail_num a b m n : a ++ x20 :: itoa m = b ++ x20 :: itoa n -> a = b /\ m = n.
Proof.
  intros E. apply (f_equal (@rev byte)) in E. rewrite !rev_app_distr in E. cbn [rev] in E. rewrite <- !app_assoc in E. cbn [app] in E.
  assert (X : run_of num_byte (rev (itoa m) ++ x20 :: rev a) = (rev (itoa m), x20 :: rev a)) by (apply span_nums; [apply Forall_forall; apply nums_end|reflexivity]).
  rewrite E, span_nums in X; [|apply Forall_forall; apply nums_end|reflexivity]. injection X as X1 X2.
  apply (f_equal (@rev byte)) in X1, X2. rewrite !rev_involutive in X1, X2. split; [auto|].
  pose proof (number_back m x20 [] eq_refl) as Y1. pose proof (number_back n x20 [] eq_refl) as Y2. rewrite X1 in Y2. congruence.
Qed.
Theorem C126_error w1 m1 w2 m2 : err_text (EReadError m1 w1) = err_text (EReadError m2 w2) -> w1 = w2 /\ m1 = m2.
Proof.
  unfold err_text. intros E. apply app_inv_head in E.
  change (lit " at ") with (lit " at" ++ [x20]) in E. rewrite <- !app_assoc in E. cbn [app] in E. rewrite !(app_assoc _ (lit " at")) in E.
  destruct (tail_num _ _ _ _ E) as [A B]. split; [|auto]. apply app_inv_tail in A. auto.
Qed.
(** A line of GrammarLines tells the name of the rule and its reader. *)
Theorem C126_line {L : GoLib} e ru l : rule_line e ru = Ok l -> ~ In x3a (r_name ru) ->
  exists w r, run_of (fun x => negb (Byte.eqb x x3a)) l = (r_name ru, lit ": " ++ w) /\ r_reader ru = Some r /\ (rallP plain_node r -> described w = Some (shape r)).
Proof.
  unfold rule_line. destruct (r_reader ru) as [r|] eqn:R; [|discriminate]. injection 1 as <-. intros N. exists (what e r), r. split; [|split; auto; apply C126_what].
  change (lit ": " ++ ?y) with (x3a :: x20 :: y). apply span_nums; [|reflexivity]. apply Forall_forall. intros x I. destruct (Byte.eqb x x3a) eqn:E; [|reflexivity].
  apply byte_eqb_eq in E. subst x. contradiction.
Qed.

(** A reader of everything, and its description. *)
Definition everything : reader :=
  RAny [RLit [x0a; xff]; RPick (lit "p") 0 (RMany (RRune 0x27)); RSkipSeq (RZom (RAnyRune (lit " "))) [RBetween 0x61 0x7a; RHoley 0 0x10FFFF (lit "x"); RAt (RNot RAtEnd)];
        RBody (RTo (RFold (lit "q"))) (RPast (RTimes (-12) (RInt 3 10 8))); RBodyTail (ROpt (RUint 1 16 64)) (RBool 2 (lit "01")); RMap 4 (RAny [])].
Example C126_here {L : GoLib} : rallP plain_node everything.
Proof. cbn. unfold is_scalar. repeat match goal with |- _ /\ _ => split | |- True => exact Logic.I end; try lia. discriminate. Qed.
Example C126_here_text {L : GoLib} : what [] (RAny [RLit [x0a]; RPick (lit "p") 0 (RMany (RRune 0x27)); RTimes 12 (RBetween 0x61 0x7a); RBody RAtEnd (RInt 3 10 8)]) = lit "[ ""\n"" +'\'' 12*<az> -(@END-int{10,8})- ]".
Proof. reflexivity. Qed.
Example C126_reads_here {L : GoLib} : exists r1 r2, r1 <> r2 /\ quiet r1 /\ quiet r2 /\ what [] r1 = what [] r2.
Proof.
  exists (RMany (RRune 0x61)), (RMany (RMonitor (lit "m") 0 (RRune 0x61))). split; [discriminate|]. unfold quiet, is_scalar. cbn. unfold is_scalar. repeat split; lia.
Qed.

(** C127 (refuted).  Readers with the same What() do not read the same.  [told_apart]: on some text one of them fails
    or stops somewhere else. *)
Definition told_apart {L : GoLib} (r1 r2 : reader) : Prop :=
  exists t x1 s1 x2 s2, uses [] r1 (init_st t) x1 s1 /\ uses [] r2 (init_st t) x2 s2 /\ (pos (sc s1) <> pos (sc s2) \/ (x1 = None /\ x2 <> None)).
Ltac apart t := exists t; do 4 eexists; split; [run 50%nat|split; [run 50%nat|] ]; first [left; cbn; discriminate|right; split; [reflexivity|discriminate] ].
Theorem C127_seq_refuted {L : GoLib} : exists r1 r2, what [] r1 = what [] r2 /\ told_apart r1 r2.
Proof. exists (RMany (RSeq [RRune 0x61; RRune 0x62])), (RSeq [RMany (RRune 0x61); RRune 0x62]). split; [reflexivity|]. apart (lit "abab"). Qed.
Theorem C127_any_refuted {L : GoLib} : exists r1 r2, what [] (RAny [RSeq [r1; r2]]) = what [] (RAny [r1; r2]) /\ told_apart (RAny [r1; r2]) (RAny [RSeq [r1; r2]]).
Proof. exists (RRune 0x61), (RRune 0x62). split; [reflexivity|]. apart (lit "b"). Qed.
Theorem C127_body_refuted {L : GoLib} : exists b t, what [] (RBody b (RMany t)) = what [] (RBodyTail b t) /\ told_apart (RBody b (RMany t)) (RBodyTail b t).
Proof. exists (RRune 0x61), (RRune 0x62). split; [reflexivity|]. apart (lit "ab"). Qed.
Theorem C127_range_refuted {L : GoLib} : exists a b, is_scalar a /\ is_scalar b /\ what [] (RBetween a b) = what [] (RBetween b a) /\ told_apart (RBetween a b) (RBetween b a).
Proof. exists 0x27, 0x5c. split; [unfold is_scalar; lia|]. split; [unfold is_scalar; lia|]. split; [reflexivity|]. apart (lit "("). Qed.
Theorem C127_surrogate_refuted {L : GoLib} : exists a b, what [] (RRune a) = what [] (RRune b) /\ told_apart (RRune a) (RRune b).
Proof. exists 0xFFFD, 0xD800. split; [reflexivity|]. apart (utf8 0xFFFD). Qed.
Theorem C127_named_refuted {L : GoLib} : exists r n, what [] (RNamed n r) = what [] (RLit (lit "a")) /\ told_apart (RNamed n r) (RLit (lit "a")).
Proof. exists (RRune 0x62), (lit """a"""). split; [reflexivity|]. apart (lit "b"). Qed.
(** A range of one character reads like the character, but for U+FFFD at the end of the text. *)
Theorem C127_one_refuted {L : GoLib} : exists a, what [] (RBetween a a) = what [] (RRune a) /\ told_apart (RRune a) (RBetween a a).
Proof. exists 0xFFFD. split; [reflexivity|]. apart (lit ""). Qed.
(** Pick and Map put the scanner back when the reader fails. *)
Theorem C127_pick_refuted {L : GoLib} : exists r, rallP plain_node r /\ what [] r = what [] (RPick (lit "p") 0 r) /\ told_apart (ROpt r) (ROpt (RPick (lit "p") 0 r)).
Proof. exists (RTimes 2 (RRune 0x61)). split; [cbn; unfold is_scalar; intuition lia|]. split; [reflexivity|]. apart (lit "a"). Qed.

Print Assumptions C126_what.
Print Assumptions C126_seq.
Print Assumptions C126_inside.
Print Assumptions C126_same.
Print Assumptions C126_reads.
Print Assumptions C126_error.
Print Assumptions C126_line.
Print Assumptions C127_seq_refuted.
Print Assumptions C127_any_refuted.
Print Assumptions C127_body_refuted.
Print Assumptions C127_range_refuted.
Print Assumptions C127_surrogate_refuted.
Print Assumptions C127_named_refuted.
Print Assumptions C127_one_refuted.
Print Assumptions C127_pick_refuted.

(** PropExchange.v - C140 to C142: readers that may be exchanged for each other. *)
From Verif Require Import ReaderFacts PropLog UseFacts ExKit TrackFacts Mxt Json PegBytes ReaderTrans PropCost.
From Verif Require Import ReaderLaws.
From Coq Require Import Lia ZifyBool.

(** Reading with [r1] in the grammar [e1] and with [r2] in [e2], from every place of every text: they return in the same cases, succeed in
    the same cases, and then stand at the same place with the same strings in the Janus pairs. *)
Definition same_reads {L : GoLib} (e1 : env) (r1 : reader) (e2 : env) (r2 : reader) : Prop := forall s a b ok p c, at_split s a b ->
  ((exists x s', reads e1 r1 s x s' /\ okx x = ok /\ pos (sc s') = p /\ h_cells (hp s') = c) <->
   (exists x s', reads e2 r2 s x s' /\ okx x = ok /\ pos (sc s') = p /\ h_cells (hp s') = c)).
Definition plain (e : env) (r : reader) : Prop := eall covered e /\ rall covered r = true.
Lemma eats_same {L : GoLib} e1 r1 e2 r2 : plain e1 r1 -> (forall c b ok c' b', eats e1 (IR r1) c b ok c' b' -> eats e2 (IR r2) c b ok c' b') ->
  forall s a b ok p c, at_split s a b -> (exists x s', reads e1 r1 s x s' /\ okx x = ok /\ pos (sc s') = p /\ h_cells (hp s') = c) ->
   (exists x s', reads e2 r2 s x s' /\ okx x = ok /\ pos (sc s') = p /\ h_cells (hp s') = c).
Proof.
  intros [C1 C2] H s a b ok p c Sp (x & s' & R & <- & <- & <-). destruct (reads_eats _ _ _ _ _ _ _ _ C1 C2 (stands_split _ _ _ Sp) R) as (c' & b' & St & Ea).
  apply H in Ea. destruct (eats_reads _ _ _ _ _ _ _ _ _ Ea (stands_split _ _ _ Sp)) as (y & t & R2 & Ok & St2). exists y, t. split; auto. split; auto.
  split; [rewrite (stands_pos _ _ _ _ St), (stands_pos _ _ _ _ St2); reflexivity|]. destruct St as (_ & <- & _), St2 as (_ & <- & _). reflexivity.
Qed.
Lemma alike_same {L : GoLib} e r1 r2 : eall covered e -> rall covered r1 = true -> rall covered r2 = true -> alike e r1 r2 -> same_reads e r1 e r2.
Proof. intros C C1 C2 [A B] s a b ok p c Sp. split; apply (eats_same e _ e _) with (a := a) (b := b); auto; split; auto. Qed.

(* ------------------------------------------------------------------ C140 *)

(** C140.  [turns e' r r'] (Exchange.v): parts of [r] were exchanged, from inside out, for readers that do the same in the grammar [e'];
    [turned e' e]: the rules of [e'] are those of [e] with parts exchanged.  All that reading in [e] does, reading in [e'] does. *)
Theorem C140_exchange {L : GoLib} e e' r r' s a b x s1 : plain e r -> turned e' e -> turns e' r r' -> at_split s a b -> reads e r s x s1 ->
  exists x' s2, reads e' r' s x' s2 /\ okx x' = okx x /\ pos (sc s2) = pos (sc s1) /\ h_cells (hp s2) = h_cells (hp s1).
Proof.
  intros P Tu T Sp R. apply (eats_same e r e' r' P) with (a := a) (b := b); auto; [|eauto 6]. intros c b1 ok c' b' H. apply (eats_turned e' e Tu _ _ _ _ _ _ H). now constructor.
Qed.
Print Assumptions C140_exchange.
(** Both ways: the grammars cannot be told apart. *)
Theorem C140_exchange_both_ways {L : GoLib} e e' r r' : plain e r -> plain e' r' -> turned e' e -> turned e e' -> turns e' r r' -> turns e r' r -> same_reads e r e' r'.
Proof.
  intros P P' Tu Tu' T T' s a b ok p c Sp. split; [apply (eats_same e r e' r' P) with (a := a) (b := b)|apply (eats_same e' r' e r P') with (a := a) (b := b)]; auto; intros c1 b1 ok1 c' b' H.
  - apply (eats_turned e' e Tu _ _ _ _ _ _ H). now constructor.
  - apply (eats_turned e e' Tu' _ _ _ _ _ _ H). now constructor.
Qed.
Print Assumptions C140_exchange_both_ways.
(** One rule is written in another way. *)
Definition rewritten (e : env) (i : nat) (r2 : reader) : env := put rule0 e i (mkRule (r_name (get_rule e i)) (Some r2)).
Lemma rewritten_turns e i r1 r2 : r_reader (get_rule e i) = Some r1 -> does (rewritten e i r2) r1 r2 -> turned (rewritten e i r2) e.
Proof.
  intros G D j r H. unfold rewritten at 1. rewrite get_rule_put. destruct (Nat.eqb_spec i j) as [<-|]; [|exists r; split; auto; apply t_same].
  exists r2. split; auto. replace r with r1 by congruence. eapply t_does; [apply t_same|exact D].
Qed.
Theorem C140_one_rule {L : GoLib} e i r1 r2 r : plain e r -> rall covered r2 = true -> r_reader (get_rule e i) = Some r1 -> alike e r1 r2 -> alike (rewritten e i r2) r1 r2 ->
  same_reads e r (rewritten e i r2) r.
Proof.
  intros [C1 C2] C3 G [_ A] [B _]. assert (P' : plain (rewritten e i r2) r).
  { split; auto. intros j q H. unfold rewritten in H. rewrite get_rule_put in H. destruct (Nat.eqb i j); [injection H as <-; auto|exact (C1 j q H)]. }
  apply C140_exchange_both_ways; auto; try (split; auto; fail); try apply t_same.
  - eapply rewritten_turns; eauto.
  - intros j q H. unfold rewritten in H. rewrite get_rule_put in H. destruct (Nat.eqb_spec i j) as [<-|]; [|exists q; split; auto; apply t_same].
    exists r1. split; auto. injection H as <-. eapply t_does; [apply t_same|exact A].
Qed.
Print Assumptions C140_one_rule.

(* ------------------------------------------------------------------ C141 *)

(** C141.  Laws for the readers of a grammar [e] (no Fold, Bool, Int, Uint or WrapWS: [plain]).  Where a law needs that a failing reader does not
    move, or that nothing but the text decides, this is asked for: [calm] - a Times(k, ..) with k > 1 only inside a reader that moves back - and [janusless] - no Janus. *)
Definition everywhere (i : nat) : bool := true.
Definition calm (e : env) (r : reader) : Prop := restoring_rules e everywhere /\ restoring everywhere r = true.
Definition janusless (e : env) (r : reader) : Prop := eall no_janus e /\ rall no_janus r = true.
Lemma calm_tidy {L : GoLib} e r : calm e r -> tidy e r. Proof. intros [A B]. exact (tidy_check e everywhere r A B). Qed.
Lemma janusless_keeps {L : GoLib} e r : janusless e r -> keeps e r. Proof. intros [A B]. exact (keeps_check e r A B). Qed.
Lemma calm_all {L : GoLib} e rs : Forall (calm e) rs -> Forall (tidy e) rs. Proof. intros H. induction H; constructor; auto using calm_tidy. Qed.
Lemma janusless_all {L : GoLib} e rs : Forall (janusless e) rs -> Forall (keeps e) rs. Proof. intros H. induction H; constructor; auto using janusless_keeps. Qed.
#[local] Hint Resolve calm_tidy janusless_keeps calm_all janusless_all : laws.
Lemma law_same {L : GoLib} e r1 r2 : plain e r1 -> plain e r2 -> alike e r1 r2 -> same_reads e r1 e r2.
Proof. intros [A B] [_ C]. now apply alike_same. Qed.
Ltac by_law X := intros; apply law_same; auto; apply X; auto with laws.

Section Laws.
Context {L : GoLib} (e : env).
Theorem C141_any_flat xs rs ys : plain e (RAny (xs ++ RAny rs :: ys)) -> plain e (RAny (xs ++ rs ++ ys)) -> Forall (calm e) rs ->
  same_reads e (RAny (xs ++ RAny rs :: ys)) e (RAny (xs ++ rs ++ ys)).
Proof. by_law (law_any_flat e). Qed.
Theorem C141_seq_flat xs rs ys : plain e (RSeq (xs ++ RSeq rs :: ys)) -> plain e (RSeq (xs ++ rs ++ ys)) -> same_reads e (RSeq (xs ++ RSeq rs :: ys)) e (RSeq (xs ++ rs ++ ys)).
Proof. by_law (law_seq_flat e). Qed.
Theorem C141_any_one r : plain e r -> calm e r -> same_reads e (RAny [r]) e r.
Proof. intros P C. apply law_same; auto; [destruct P as [A B]; split; auto; cbn; now rewrite B|]. apply law_any_one. auto with laws. Qed.
Theorem C141_seq_one r : plain e r -> calm e r -> same_reads e (RSeq [r]) e r.
Proof. intros P C. apply law_same; auto; [destruct P as [A B]; split; auto; cbn; now rewrite B|]. apply law_seq_one. auto with laws. Qed.
Lemma plain_in r q : plain e r -> (rall covered r = true -> rall covered q = true) -> plain e q. Proof. intros [A B] C. split; auto. Qed.
Ltac prep P := apply law_same; [apply (plain_in _ _ P); cbn; intros ->; reflexivity|apply (plain_in _ _ P); cbn; intros ->; reflexivity|].
Theorem C141_opt r : plain e r -> same_reads e (ROpt r) e (RAny [r; RLit []]).
Proof. intros P. prep P. apply law_opt. Qed.
Theorem C141_zom r : plain e r -> calm e r -> same_reads e (RZom r) e (ROpt (RSeq [r; RZom r])).
Proof. intros P C. prep P. apply law_zom. auto with laws. Qed.
Theorem C141_many r : plain e r -> calm e r -> janusless e r -> same_reads e (RMany r) e (RSeq [r; RZom r]).
Proof. intros P C Q. prep P. apply law_many; auto with laws. Qed.
Theorem C141_times k r : plain e r -> same_reads e (RAny [RTimes k r]) e (RSeq (repeat r (Z.to_nat k))).
Proof.
  intros P. apply law_same; [apply (plain_in _ _ P); cbn; now intros ->|apply (plain_in _ _ P)|apply law_times]. cbn. intros H. induction (Z.to_nat k) as [|n IH]; cbn; auto. now rewrite H.
Qed.
Theorem C141_factor a xs ys : plain e (RAny [RSeq (a :: xs); RSeq (a :: ys)]) -> plain e (RSeq [a; RAny [RSeq xs; RSeq ys]]) -> janusless e a -> Forall (janusless e) xs ->
  same_reads e (RAny [RSeq (a :: xs); RSeq (a :: ys)]) e (RSeq [a; RAny [RSeq xs; RSeq ys]]).
Proof. by_law (law_factor e). Qed.
Theorem C141_at r : plain e r -> same_reads e (RAt (RAt r)) e (RAt r).
Proof. intros P. prep P. apply law_at. Qed.
Theorem C141_body_tail d t : plain e d -> plain e t -> janusless e d -> janusless e t -> same_reads e (RBodyTail d t) e (RSeq [RBody d t; t]).
Proof. intros [A B] [_ C] Q1 Q2. apply law_same; [split; auto; cbn; now rewrite B, C|split; auto; cbn; now rewrite B, C|apply law_body_tail; auto with laws]. Qed.
Theorem C141_names w l id k p r : plain e r ->
  same_reads e (RNamed w r) e r /\ same_reads e (RRuleName r) e r /\ same_reads e (RMonitor w l r) e r /\
  (calm e r -> same_reads e (RPick w k r) e r /\ same_reads e (RMap id r) e r) /\
  (forall i, r_reader (get_rule e i) = Some r -> same_reads e (RRule i) e r /\ same_reads e (RGrammar w p i) e r).
Proof.
  intros P. split; [prep P; apply law_named|]. split; [prep P; apply law_rule_name|]. split; [prep P; apply law_monitor|]. split.
  - intros C. split; prep P; [apply law_pick|apply law_map]; auto with laws.
  - intros i G. split; (apply law_same; [split; [apply P|reflexivity]|exact P|]); [now apply law_rule|eapply alike_trans; [apply law_grammar|now apply law_rule]].
Qed.
Theorem C141_skip sk rs : plain e (RSkipSeq sk rs) -> plain e (RSeq (interleave sk rs)) -> same_reads e (RSkipSeq sk rs) e (RSeq (interleave sk rs)).
Proof. by_law (law_skip e). Qed.

(** A literal alternative behind one that always succeeds is never reached; alternatives that begin with different runes commute. *)
Theorem C141_dead xs r ys : plain e (RAny (xs ++ ROpt r :: ys)) -> plain e (RAny (xs ++ [ROpt r])) -> same_reads e (RAny (xs ++ ROpt r :: ys)) e (RAny (xs ++ [ROpt r])).
Proof. intros P Q. apply law_same; auto. apply law_dead. intros c b c' b' H. apply opt_in in H as [H _]. discriminate. Qed.
End Laws.
Print Assumptions C141_any_flat. Print Assumptions C141_seq_flat. Print Assumptions C141_any_one. Print Assumptions C141_seq_one. Print Assumptions C141_opt. Print Assumptions C141_zom.
Print Assumptions C141_many. Print Assumptions C141_times. Print Assumptions C141_factor. Print Assumptions C141_at. Print Assumptions C141_body_tail. Print Assumptions C141_names. Print Assumptions C141_skip. Print Assumptions C141_dead.

(** JSON() with Digits written as Seq(Digit, Zom(Digit)) instead of Many(Digit) cannot be told apart from JSON(). *)
Definition other_digits : reader := RSeq [digit; RZom digit].
Lemma digit_calm e : tidy e digit /\ keeps e digit.
Proof. split; intros c b; [intros c' b' H|intros ok c' b' H]; inversion H; subst; auto; match goal with X : test _ _ = false |- _ => rewrite X; reflexivity end. Qed.
Lemma other_digits_alike e : alike e (RMany digit) other_digits.
Proof. destruct (digit_calm e). now apply law_many. Qed.
Theorem C140_json_digits {L : GoLib} r : rall covered r = true -> same_reads json_env r (rewritten json_env jDigits other_digits) r.
Proof.
  intros C. apply C140_one_rule with (r1 := RMany digit); auto; try apply other_digits_alike. split; auto. apply json_still.
Qed.
Print Assumptions C140_json_digits.
Example C140_case : r_reader (get_rule (rewritten (json_env (L := roomy)) jDigits other_digits) jDigits) = Some other_digits /\
  reads (L := roomy) (rewritten (json_env (L := roomy)) jDigits other_digits) json (mk (lit "[12, 345]x") 0) None (mk (lit "[12, 345]x") 9) /\
  reads (L := roomy) (json_env (L := roomy)) json (mk (lit "[12, 345]x") 0) None (mk (lit "[12, 345]x") 9).
Proof. split; [reflexivity|]. split; run 300%nat. Qed.
Example C141_case : plain [] (RSeq [RTimes 2 (RRune 0x61); RRune 0x62]) /\ calm [] (RSeq [RTimes 2 (RRune 0x61); RRune 0x62]) /\ janusless [] (RSeq [RTimes 2 (RRune 0x61); RRune 0x62]) /\
  reads (L := roomy) [] (RMany (RSeq [RTimes 2 (RRune 0x61); RRune 0x62])) (mk (lit "aabaabac") 0) None (mk (lit "aabaabac") 6).
Proof. repeat split; try (intros i r H; destruct i; discriminate H); try reflexivity; try (intros [|i] r _ H; discriminate H). run 50%nat. Qed.

(* ------------------------------------------------------------------ C142 *)

(** C142, refuted.  The laws of regular expressions that do not hold, or not without the conditions of C141. *)
Lemma not_same {L : GoLib} e r1 r2 s a b x1 s1 x2 s2 : at_split s a b -> reads e r1 s x1 s1 -> reads e r2 s x2 s2 -> (okx x1, pos (sc s1)) <> (okx x2, pos (sc s2)) -> ~ same_reads e r1 e r2.
Proof.
  intros Sp R1 R2 N S. apply N. destruct (proj1 (S s a b (okx x1) (pos (sc s1)) (h_cells (hp s1)) Sp)) as (x & s' & R & <- & <- & _); [eauto 6|].
  destruct (reads_fun _ _ _ _ _ _ _ R2 R) as [-> ->]. reflexivity.
Qed.
Ltac tell t k := eapply (not_same [] _ _ (mk t 0) [] t); [split_here|run k|run k|vm_compute; discriminate].
(** The order of the alternatives matters. *)
Theorem C142_any_commutes_refuted : exists r q, calm [] r /\ calm [] q /\ ~ same_reads (L := roomy) [] (RAny [r; q]) [] (RAny [q; r]).
Proof. exists (RLit (lit "a")), (RLit (lit "ab")). split; [split; [intros [|i] r _ H; discriminate H|reflexivity]|]. split; [split; [intros [|i] r _ H; discriminate H|reflexivity]|]. tell (lit "ab") 20%nat. Qed.
Print Assumptions C142_any_commutes_refuted.
(** A common end cannot be taken out of the alternatives. *)
Theorem C142_common_end_refuted : exists r q t, ~ same_reads (L := roomy) [] (RAny [RSeq [r; t]; RSeq [q; t]]) [] (RSeq [RAny [r; q]; t]).
Proof. exists (RLit (lit "a")), (RLit (lit "ab")), (RLit (lit "c")). tell (lit "abc") 20%nat. Qed.
Print Assumptions C142_common_end_refuted.
(** Without [calm]: one alternative, a sequence of one reader. *)
Theorem C142_one_reader_refuted : exists r, ~ same_reads (L := roomy) [] (RAny [r]) [] r /\ ~ same_reads (L := roomy) [] (RSeq [r]) [] r.
Proof. exists (RTimes 2 (RLit (lit "a"))). split; tell (lit "ab") 20%nat. Qed.
Print Assumptions C142_one_reader_refuted.
Theorem C142_any_flat_refuted : exists r q, ~ same_reads (L := roomy) [] (RAny [RAny [r]; q]) [] (RAny [r; q]).
Proof. exists (RTimes 2 (RLit (lit "a"))), (RLit (lit "b")). tell (lit "ab") 20%nat. Qed.
Print Assumptions C142_any_flat_refuted.
(** Without [janusless]: Many and a common beginning. *)
Theorem C142_many_refuted : exists r, ~ same_reads (L := roomy) [] (RMany r) [] (RSeq [r; RZom r]).
Proof. exists (RAt (RSeq [RJanusEnd 0 []; RJanusBeg 0 [] (RLit (lit "a"))])). tell (lit "ab") 30%nat. Qed.
Print Assumptions C142_many_refuted.
Theorem C142_common_beginning_refuted : exists a xs ys, ~ same_reads (L := roomy) [] (RAny [RSeq (a :: xs); RSeq (a :: ys)]) [] (RSeq [a; RAny [RSeq xs; RSeq ys]]).
Proof. exists (RJanusEnd 0 []), [RJanusBeg 0 [] (RLit (lit "p")); RLit (lit "q")], [RLit (lit "r")]. tell (lit "pr") 30%nat. Qed.
Print Assumptions C142_common_beginning_refuted.
(** Past looks at every place but the end of the text, To also at the end. *)
Theorem C142_past_refuted : exists r, ~ same_reads (L := roomy) [] (RPast r) [] (RSeq [RTo r; r]).
Proof. exists RAtEnd. tell (lit "a") 30%nat. Qed.
Print Assumptions C142_past_refuted.

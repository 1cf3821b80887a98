(** Gather.v - the segments of a parse: Marks.v for grammars whose picked readers never match the empty text. *)
From Verif Require Export MarksFacts PegTotal.
From Coq Require Import Lia ZifyBool.

Section Gather.
Context (e : env) (k : nat) (R : nat -> bool) (N : Z).
(** What failed picks nothing. *)
Definition won (ok : bool) (l : list segment) : list segment := if ok then l else [].
Definition own (w : bytes) (k' : nat) (b b' : bytes) : list segment :=
  if Nat.eqb k' k then [mkSeg w (mkTok (N - slen b) (N - slen b'))] else [].

(** [gathers i c b ok c' b' l]: as [eats e i c b ok c' b'], and [l] are the segments of the Picks in the parse: those
    of a sequence one after the other, that of a Pick after those inside it, none for what failed or was only looked at. *)
Inductive gathers : item -> cells -> bytes -> bool -> cells -> bytes -> list segment -> Prop :=
| g_test r f c b : rune_test r = Some f -> gathers (IR r) c b (test f b) c (if test f b then after_rune b else b) []
| g_lit_yes x c b : gathers (IR (RLit x)) c (x ++ b) true c b []
| g_lit_no x c b : (forall t, b <> x ++ t) -> gathers (IR (RLit x)) c b false c b []
| g_end c b : gathers (IR RAtEnd) c b (no_text b) c b []
| g_invalid m c b : gathers (IR (RInvalid m)) c b false c b []
| g_rule i r c b ok c' b' l : r_reader (get_rule e i) = Some r -> gathers (IR r) c b ok c' b' l -> gathers (IR (RRule i)) c b ok c' b' l
| g_grammar w p i r c b ok c' b' l : r_reader (get_rule e i) = Some r -> gathers (IR r) c b ok c' b' l -> gathers (IR (RGrammar w p i)) c b ok c' b' l
| g_named w r c b ok c' b' l : gathers (IR r) c b ok c' b' l -> gathers (IR (RNamed w r)) c b ok c' b' l
| g_rule_name r c b ok c' b' l : gathers (IR r) c b ok c' b' l -> gathers (IR (RRuleName r)) c b ok c' b' l
| g_monitor w lg r c b ok c' b' l : gathers (IR r) c b ok c' b' l -> gathers (IR (RMonitor w lg r)) c b ok c' b' l
| g_map id r c b ok c' b' l : gathers (IR r) c b ok c' b' l -> gathers (IR (RMap id r)) c b ok c' (if ok then b' else b) (won ok l)
| g_pick w k' r c b ok c' b' l : gathers (IR r) c b ok c' b' l ->
    gathers (IR (RPick w k' r)) c b ok c' (if ok then b' else b) (if ok then l ++ own w k' b b' else [])
| g_opt r c b ok c' b' l : gathers (IR r) c b ok c' b' l -> gathers (IR (ROpt r)) c b true c' b' l
| g_at r c b ok c' b' l : gathers (IR r) c b ok c' b' l -> gathers (IR (RAt r)) c b ok c' b []
| g_not r c b ok c' b' l : gathers (IR r) c b ok c' b' l -> gathers (IR (RNot r)) c b (negb ok) c' (if ok then b else snd (step b)) []
| g_any rs c b ok c' b' l : gathers (IAny rs) c b ok c' b' l -> gathers (IR (RAny rs)) c b ok c' (if ok then b' else b) (won ok l)
| g_seq rs c b ok c' b' l : gathers (ISeq rs) c b ok c' b' l -> gathers (IR (RSeq rs)) c b ok c' (if ok then b' else b) (won ok l)
| g_skip sk rs c b ok c' b' l : gathers (ISeq (interleave sk rs)) c b ok c' b' l -> gathers (IR (RSkipSeq sk rs)) c b ok c' (if ok then b' else b) (won ok l)
| g_zom r c b c' b' l : gathers (IRep r) c b true c' b' l -> gathers (IR (RZom r)) c b true c' b' l
| g_many r c b c' b' l : gathers (IRep r) c b true c' b' l -> gathers (IR (RMany r)) c b (Nat.ltb (length b') (length b)) c' b' l
| g_times n r c b ok c' b' l : gathers (ITimes (Z.to_nat n) r) c b ok c' b' l -> gathers (IR (RTimes n r)) c b ok c' b' l
| g_past r c b ok c' b' l : gathers (IPast r) c b ok c' b' l -> gathers (IR (RPast r)) c b ok c' (if ok then b' else b) (won ok l)
| g_to r c b ok c' b' l : gathers (ITo r) c b ok c' b' l -> gathers (IR (RTo r)) c b ok c' (if ok then b' else b) (won ok l)
| g_body d t c b ok c' b' l : gathers (IBody b true d t) c b ok c' b' l -> gathers (IR (RBody d t)) c b ok c' (if ok then b' else b) (won ok l)
| g_body_tail d t c b ok c' b' l : gathers (IBody b false d t) c b ok c' b' l -> gathers (IR (RBodyTail d t)) c b ok c' (if ok then b' else b) (won ok l)
| g_janus_yes i w r c x c' b l : gathers (IR r) c (x ++ b) true c' b l -> gathers (IR (RJanusBeg i w r)) c (x ++ b) true (put [] c' i x) b l
| g_janus_no i w r c b c' b' l : gathers (IR r) c b false c' b' l -> gathers (IR (RJanusBeg i w r)) c b false c' b []
| g_end_yes i w c b : gathers (IR (RJanusEnd i w)) c (get [] c i ++ b) true (put [] c i []) b []
| g_end_no i w c b : (forall t, b <> get [] c i ++ t) -> gathers (IR (RJanusEnd i w)) c b false c b []
| gi_any_nil c b : gathers (IAny []) c b false c b []
| gi_any_hit r rs c b c' b' l : gathers (IR r) c b true c' b' l -> gathers (IAny (r :: rs)) c b true c' b' l
| gi_any_next r rs c b c1 b1 l1 ok c' b' l : gathers (IR r) c b false c1 b1 l1 -> gathers (IAny rs) c1 b1 ok c' b' l -> gathers (IAny (r :: rs)) c b ok c' b' (l1 ++ l)
| gi_seq_nil c b : gathers (ISeq []) c b true c b []
| gi_seq_stop r rs c b c' b' l : gathers (IR r) c b false c' b' l -> gathers (ISeq (r :: rs)) c b false c' b' l
| gi_seq_next r rs c b c1 b1 l1 ok c' b' l : gathers (IR r) c b true c1 b1 l1 -> gathers (ISeq rs) c1 b1 ok c' b' l -> gathers (ISeq (r :: rs)) c b ok c' b' (l1 ++ l)
| gi_rep_stop r c b c' b' l : gathers (IR r) c b false c' b' l -> gathers (IRep r) c b true c' b' l
| gi_rep_next r c b c1 b1 l1 c' b' l : gathers (IR r) c b true c1 b1 l1 -> gathers (IRep r) c1 b1 true c' b' l -> gathers (IRep r) c b true c' b' (l1 ++ l)
| gi_times_0 r c b : gathers (ITimes 0 r) c b true c b []
| gi_times_stop n r c b c' b' l : gathers (IR r) c b false c' b' l -> gathers (ITimes (S n) r) c b false c' b' l
| gi_times_next n r c b c1 b1 l1 ok c' b' l : gathers (IR r) c b true c1 b1 l1 -> gathers (ITimes n r) c1 b1 ok c' b' l -> gathers (ITimes (S n) r) c b ok c' b' (l1 ++ l)
| gi_past_end r c : gathers (IPast r) c [] false c [] []
| gi_past_hit r c b c' b' l : b <> [] -> gathers (IR r) c b true c' b' l -> gathers (IPast r) c b true c' b' l
| gi_past_next r c b c1 b1 l1 ok c' b' l : b <> [] -> gathers (IR r) c b false c1 b1 l1 -> gathers (IPast r) c1 (snd (step b1)) ok c' b' l -> gathers (IPast r) c b ok c' b' (l1 ++ l)
| gi_to_hit r c b c' b' l : gathers (IR r) c b true c' b' l -> gathers (ITo r) c b true c' b []
| gi_to_stop r c b c' b1 b' l : gathers (IR r) c b false c' b1 l -> step b1 = (false, b') -> gathers (ITo r) c b false c' b' l
| gi_to_next r c b c1 b1 b2 l1 ok c' b' l : gathers (IR r) c b false c1 b1 l1 -> step b1 = (true, b2) -> gathers (ITo r) c1 b2 ok c' b' l -> gathers (ITo r) c b ok c' b' (l1 ++ l)
| gi_body_end z q d t c : gathers (IBody z q d t) c [] false c [] []
| gi_body_hit q d t c str b c1 b1 l ok c' x : b <> [] -> gathers (IR t) c b true c1 b1 l -> unpicked k R d = true -> eats e (IR d) c1 str ok c' x ->
    gathers (IBody (str ++ b) q d t) c b (ok && no_text x) c' (if q && (ok && no_text x) then b else b1) (won (negb (q && (ok && no_text x))) l)
| gi_body_next z q d t c b c1 b1 l1 ok c' b' l : b <> [] -> gathers (IR t) c b false c1 b1 l1 -> gathers (IBody z q d t) c1 (snd (step b1)) ok c' b' l ->
    gathers (IBody z q d t) c b ok c' b' (l1 ++ l).
End Gather.

(** Picks into [k] consume something; [nl] tells which rules may match the empty text. *)
Definition fed (k : nat) (nl : nat -> bool) (r : reader) : Prop :=
  match r with RPick _ k' a => k' = k -> eps nl a = false | _ => True end.
Lemma gathers_eats e k R N i c b ok c' b' l : gathers e k R N i c b ok c' b' l -> eats e i c b ok c' b'.
Proof. induction 1; solve [eauto 3 using eats|econstructor; eauto]. Qed.

(** Segments that are not empty and start behind [p]. *)
Definition fat (p : Z) (l : list segment) : Prop := Forall (fun g => p <= t_from (s_tok g) /\ t_from (s_tok g) < t_to (s_tok g)) l.
Lemma fat_nil p : fat p []. Proof. constructor. Qed.
Lemma fat_low p q l : q <= p -> fat p l -> fat q l.
Proof. intros H. apply Forall_impl. lia. Qed.
Lemma fat_app p q l1 l2 : p <= q -> fat p l1 -> fat q l2 -> fat p (l1 ++ l2).
Proof. intros H A B. apply Forall_app. split; auto. eapply fat_low; eauto. Qed.
Lemma fat_cut N b l : fat (N - slen b) l -> cut N b l = [].
Proof.
  unfold cut. induction 1 as [|g l H F IH]; [reflexivity|]. cbn [filter]. replace (t_to (s_tok g) <=? N - slen b) with false by lia. auto.
Qed.
Lemma fat_back N ok b l : fat (N - slen b) l -> back N ok b l = won ok l.
Proof. intros H. destruct ok; [reflexivity|]. apply fat_cut. auto. Qed.
Lemma fat_won p ok l : fat p l -> fat p (won ok l).
Proof. destruct ok; auto. intros _. apply fat_nil. Qed.

Lemma marks_gathers e k R N nl i c b ok c' b' l :
  (forall j r, r_reader (get_rule e j) = Some r -> eps nl r = true -> nl j = true) -> eallP (fed k nl) e -> iallP (fed k nl) i ->
  marks e k R N i c b ok c' b' l -> gathers e k R N i c b ok c' b' l /\ fat (N - slen b) l.
Proof.
  intros Ce He Hi D. revert Hi. induction D; intros Hi; cbn [iallP rallP fed] in Hi;
  repeat match goal with D : marks _ _ _ _ _ _ _ _ _ _ _ |- _ => pose proof (marks_le _ _ _ _ _ _ _ _ _ _ _ D); apply marks_eats in D end;
  repeat match goal with
  | X : _ /\ _ |- _ => destruct X
  | X : True |- _ => clear X
  | X : Forall _ (_ :: _) |- _ => inversion_clear X
  | X : fold_right _ True ?l0 |- _ => apply all_Forall in X
  end;
  repeat match goal with
  | IH : rallP ?P ?r -> _ /\ _, X : r_reader _ = Some ?r |- _ => destruct (IH (He _ _ X)); clear IH
  | IH : ?P -> _ /\ _ |- _ => let Z := fresh in assert (Z : P) by (cbn [iallP rallP fed]; eauto using all_interleave); destruct (IH Z); clear IH Z
  end;
  rewrite ?fat_back, ?fat_cut by assumption;
  try (split; [solve [eauto 3 using gathers|econstructor; eauto]|solve [auto using fat_nil, fat_won|eapply fat_app; [|eassumption|eassumption]; lia]]).
  - destruct ok.
    + split; [apply (g_pick e k R N w k' r c b true c' b' l); auto|]. apply fat_app with (q := N - slen b); [lia|auto|].
      unfold picked_by. destruct (Nat.eqb k' k) eqn:Q; [|apply fat_nil]. apply Nat.eqb_eq in Q. constructor; [|constructor]. cbn.
      match goal with X : k' = k -> eps _ _ = false |- _ => specialize (X Q) end.
      match goal with D : eats e (IR r) _ _ _ _ _ |- _ => pose proof (eats_eps nl e Ce _ _ _ _ _ _ D eq_refl ltac:(assumption)) end.
      unfold slen. lia.
    + split; [apply (g_pick e k R N w k' r c b false c' b' l); auto|apply fat_nil].
  - split; [econstructor; eauto|]. eapply fat_app; [|eassumption|eassumption]. pose proof (MarksFacts.step_le b1). lia.
  - split; [econstructor; eauto|]. eapply fat_app; [|eassumption|eassumption]. pose proof (MarksFacts.step_le b1) as Q. match goal with X : step b1 = _ |- _ => rewrite X in Q end. cbn in Q. lia.
  - split; [econstructor; eauto|]. eapply fat_app; [|eassumption|eassumption]. pose proof (MarksFacts.step_le b1). lia.
Qed.
(** The list is unique. *)
Lemma gathers_det e k R N i c b ok c' b' l : gathers e k R N i c b ok c' b' l -> forall ok2 c2 b2 l2, gathers e k R N i c b ok2 c2 b2 l2 -> l = l2.
Proof.
  induction 1; intros ok9 c9 b9 l9 D; inversion D; subst; try discriminate;
  repeat match goal with
  | H1 : r_reader ?r = Some ?a, H2 : r_reader ?r = Some ?b |- _ => rewrite H1 in H2; injection H2 as H2; subst
  | H1 : rune_test ?r = Some ?a, H2 : rune_test ?r = Some ?b |- _ => rewrite H1 in H2; injection H2 as H2; subst
  | H1 : gathers e k R N ?i ?c ?b ?ok ?c1 ?b1 _, H2 : gathers e k R N ?i ?c ?b ?ok2 ?c2 ?b2 _ |- _ =>
      first [constr_eq c1 c2; constr_eq b1 b2; fail 1|
      destruct (eats_det _ _ _ _ _ _ _ (gathers_eats _ _ _ _ _ _ _ _ _ _ _ H1) _ _ _ (gathers_eats _ _ _ _ _ _ _ _ _ _ _ H2)) as (? & ? & ?); subst; try discriminate]
  | H1 : eats e ?i ?c ?b ?ok ?c1 ?b1, H2 : eats e ?i ?c ?b ?ok2 ?c2 ?b2 |- _ =>
      first [constr_eq c1 c2; constr_eq b1 b2; fail 1|
      destruct (eats_det _ _ _ _ _ _ _ H1 _ _ _ H2) as (? & ? & ?); subst; try discriminate]
  | IH : forall _ _ _ _, gathers e k R N ?i ?c ?b _ _ _ _ -> _, H : gathers e k R N ?i ?c ?b _ _ _ _ |- _ => apply IH in H; subst
  | H1 : step ?b = _, H2 : step ?b = _ |- _ => rewrite H1 in H2; injection H2; intros; subst
  end; auto; try congruence.
  - match goal with X : _ ++ b9 = _ ++ b |- _ => rewrite X in * end. eapply IHgathers; eauto.
  - match goal with X : ?y ++ ?z = ?y2 ++ ?z |- _ => apply app_inv_tail in X; subst end.
    match goal with H1 : eats e ?i ?c ?b _ _ _, H2 : eats e ?i ?c ?b _ _ _ |- _ => destruct (eats_det _ _ _ _ _ _ _ H1 _ _ _ H2) as (? & ? & ?); subst end. reflexivity.
Qed.

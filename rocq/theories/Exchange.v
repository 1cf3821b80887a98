(** Exchange.v - readers that behave alike may be exchanged anywhere in a grammar. *)
From Verif Require Export PegFacts.
From Coq Require Import Lia ZifyBool.

(** Whatever [r1] does with a text, [r2] does too. *)
Definition does (e : env) (r1 r2 : reader) : Prop := forall c b ok c' b', eats e (IR r1) c b ok c' b' -> eats e (IR r2) c b ok c' b'.
Definition alike (e : env) (r1 r2 : reader) : Prop := does e r1 r2 /\ does e r2 r1.

Section Turns.
Context (e' : env).
(** [turns r r']: [r'] is [r] with parts exchanged for readers that do the same in [e'], one after the other, from inside out. *)
Inductive turns : reader -> reader -> Prop :=
| t_does r r1 r2 : turns r r1 -> does e' r1 r2 -> turns r r2
| t_same r : turns r r
| t_any rs rs' : Forall2 turns rs rs' -> turns (RAny rs) (RAny rs')
| t_at r r' : turns r r' -> turns (RAt r) (RAt r')
| t_body d t d' t' : turns d d' -> turns t t' -> turns (RBody d t) (RBody d' t')
| t_body_tail d t d' t' : turns d d' -> turns t t' -> turns (RBodyTail d t) (RBodyTail d' t')
| t_janus i w w' r r' : turns r r' -> turns (RJanusBeg i w r) (RJanusBeg i w' r')
| t_many r r' : turns r r' -> turns (RMany r) (RMany r')
| t_map id id' r r' : turns r r' -> turns (RMap id r) (RMap id' r')
| t_named w w' r r' : turns r r' -> turns (RNamed w r) (RNamed w' r')
| t_not r r' : turns r r' -> turns (RNot r) (RNot r')
| t_opt r r' : turns r r' -> turns (ROpt r) (ROpt r')
| t_past r r' : turns r r' -> turns (RPast r) (RPast r')
| t_seq rs rs' : Forall2 turns rs rs' -> turns (RSeq rs) (RSeq rs')
| t_skip sk sk' rs rs' : turns sk sk' -> Forall2 turns rs rs' -> turns (RSkipSeq sk rs) (RSkipSeq sk' rs')
| t_times k r r' : turns r r' -> turns (RTimes k r) (RTimes k r')
| t_to r r' : turns r r' -> turns (RTo r) (RTo r')
| t_zom r r' : turns r r' -> turns (RZom r) (RZom r')
| t_pick w k w' k' r r' : turns r r' -> turns (RPick w k r) (RPick w' k' r')
| t_monitor w l w' l' r r' : turns r r' -> turns (RMonitor w l r) (RMonitor w' l' r')
| t_rule_name r r' : turns r r' -> turns (RRuleName r) (RRuleName r')
| t_grammar w p w' p' i : turns (RGrammar w p i) (RGrammar w' p' i).
Inductive turns_item : item -> item -> Prop :=
| ti_r r r' : turns r r' -> turns_item (IR r) (IR r')
| ti_any rs rs' : Forall2 turns rs rs' -> turns_item (IAny rs) (IAny rs')
| ti_seq rs rs' : Forall2 turns rs rs' -> turns_item (ISeq rs) (ISeq rs')
| ti_rep r r' : turns r r' -> turns_item (IRep r) (IRep r')
| ti_times k r r' : turns r r' -> turns_item (ITimes k r) (ITimes k r')
| ti_past r r' : turns r r' -> turns_item (IPast r) (IPast r')
| ti_to r r' : turns r r' -> turns_item (ITo r) (ITo r')
| ti_body z k d t d' t' : turns d d' -> turns t t' -> turns_item (IBody z k d t) (IBody z k d' t').
Lemma turns_interleave sk sk' rs rs' : turns sk sk' -> Forall2 turns rs rs' -> Forall2 turns (interleave sk rs) (interleave sk' rs').
Proof. intros H F. induction F; cbn; repeat constructor; auto. Qed.
Context (e : env).
(** The rules of the grammar turn, too. *)
Definition turned : Prop := forall i r, r_reader (get_rule e i) = Some r -> exists r', r_reader (get_rule e' i) = Some r' /\ turns r r'.
Context (Tu : turned).
Lemma turns_all rs : Forall2 turns rs rs.
Proof. induction rs; constructor; auto. apply t_same. Qed.
Lemma eats_turned i c b ok c' b' : eats e i c b ok c' b' -> forall i', turns_item i i' -> eats e' i' c b ok c' b'.
Proof.
  induction 1; intros i' Ti; inversion Ti; subst; clear Ti;
    repeat match goal with F : Forall2 turns (_ :: _) _ |- _ => inversion F; subst; clear F | F : Forall2 turns [] _ |- _ => inversion F; subst; clear F end;
    try (match goal with T : turns ?r ?r' |- eats _ (IR ?r') _ _ _ _ _ => remember r as r0 eqn:E0; revert E0; induction T; intros E0; try discriminate E0; [match goal with D : does _ _ _ |- _ => apply D; auto end|..]; try (injection E0; clear E0; intros); subst end).
  all: try (econstructor; eauto using t_same; fail).
  all: try (econstructor; eauto using t_same; match goal with IH : forall _, turns_item _ _ -> _ |- _ => apply IH; constructor; auto using t_same, turns_all, turns_interleave end; fail).
  all: try (econstructor; eauto using t_same, ti_r, ti_any, ti_seq, ti_rep, ti_times, ti_past, ti_to, ti_body; fail).
  - destruct (Tu _ _ H) as (r' & G & T). eapply e_rule; eauto. apply IHeats. now constructor.
  - destruct (Tu _ _ H) as (r' & G & T). eapply e_grammar; eauto. apply IHeats. now constructor.
  - destruct (Tu _ _ H) as (r' & G & T). eapply e_grammar; eauto. apply IHeats. now constructor.
Qed.
End Turns.

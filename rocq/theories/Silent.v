(** Silent.v - readers that call no Map function and write into no Log; mapping functions does not influence reading. *)
From Verif Require Export Grammar Trace HearFacts TrackFacts CfgFacts.
From Coq Require Import Lia ZifyBool.

(* ------------------------------------------------- readers without calls *)

Section Plain.
Context (e e' : env) (R : nat -> bool).
Definition silent (r : reader) : Prop := match r with RRule i | RGrammar _ _ i => R i = true | RMap _ _ | RMonitor _ _ _ => False | _ => True end.
Context (Re : forall i r, R i = true -> r_reader (get_rule e i) = Some r -> r_reader (get_rule e' i) = Some r /\ rallP silent r).
Lemma silent_traces i c b ok c' b' : eats e i c b ok c' b' -> iallP silent i -> forall N, traces e' N i c b ok c' b' [].
Proof.
  induction 1; intros Hi N; cbn [iallP rallP silent] in Hi;
  repeat match goal with
  | X : _ /\ _ |- _ => destruct X
  | X : True |- _ => clear X
  | X : False |- _ => destruct X
  | X : Forall _ (_ :: _) |- _ => inversion_clear X
  | X : fold_right _ True ?l0 |- _ => apply all_Forall in X
  end;
  repeat match goal with
  | X : R ?i = true, Y : r_reader (get_rule e ?i) = Some ?r |- _ => let A := fresh in let B := fresh in destruct (Re _ _ X Y) as [A B]; clear Y
  end;
  repeat match goal with
  | IH : ?P -> forall N, traces _ N _ _ _ _ _ _ _ |- _ => let Z := fresh in assert (Z : P) by (cbn [iallP rallP silent]; eauto using all_interleave); specialize (IH Z); clear Z
  end.
  all: try solve [econstructor; eauto].
  all: try solve [change (@nil act) with (@nil act ++ []); econstructor; eauto].
Qed.
End Plain.

(* ------------------------------------------------- mapped rules *)

(** grammar.go:103-105 (Rule.Map) on the rules with the field positions [ids], one after the other; [who] gives the
    function for the rule with a name. *)
Definition map_rules (who : bytes -> nat) (ids : list nat) (e : env) : env :=
  fold_left (fun e i => put rule0 e i (rule_map e (who (r_name (get_rule e i))) (get_rule e i))) ids e.
Lemma map_altered who ids e : NoDup ids -> (forall i, In i ids -> (i < length e)%nat) ->
  altered (fun r => rule_map e (who (r_name r)) r) (chosen ids) e (map_rules who ids e).
Proof.
  intros. apply (alter_each (fun e r => rule_map e (who (r_name r)) r)); auto. intros e' r El. unfold rule_map, rule_sub, nil_reader. rewrite El. reflexivity.
Qed.
Section Mapped.
Context (e e' : env) (who : bytes -> nat) (sel : nat -> bool) (Al : altered (fun r => rule_map e (who (r_name r)) r) sel e e').
Lemma map_no i r : sel i = false -> r_reader (get_rule e i) = Some r -> r_reader (get_rule e' i) = Some r.
Proof.
  intros H Q. destruct Al as [Ln Gt]. destruct (Nat.lt_ge_cases i (length e)) as [K|K]; [|rewrite rule_beyond in Q by lia; discriminate].
  rewrite Gt, H by auto. auto.
Qed.
Lemma map_yes i r : sel i = true -> r_reader (get_rule e i) = Some r -> r_reader (get_rule e' i) = Some (RMap (who (r_name (get_rule e i))) r).
Proof.
  intros H Q. destruct Al as [Ln Gt]. destruct (Nat.lt_ge_cases i (length e)) as [K|K]; [|rewrite rule_beyond in Q by lia; discriminate].
  rewrite Gt, H by auto. unfold rule_map, rule_sub. cbn [r_reader]. rewrite Q. auto.
Qed.
Context (Co : complete e) (Re : restores e).
Lemma map_back i q : r_reader (get_rule e' i) = Some q -> exists r, r_reader (get_rule e i) = Some r /\ (q = r \/ q = RMap (who (r_name (get_rule e i))) r).
Proof.
  intros Q. destruct (r_reader (get_rule e i)) as [r|] eqn:Er.
  - exists r. split; auto. destruct (sel i) eqn:S; [rewrite (map_yes i r S Er) in Q|rewrite (map_no i r S Er) in Q]; injection Q as <-; auto.
  - destruct Al as [Ln Gt]. destruct (Nat.lt_ge_cases i (length e)) as [K|K]; [exfalso; exact (Co i K Er)|]. rewrite rule_beyond in Q by lia. discriminate.
Qed.
Lemma map_eats_rule i r c b ok c' b' : r_reader (get_rule e i) = Some r -> eats e (IR r) c b ok c' b' -> eats e' (IR r) c b ok c' b' ->
  exists q, r_reader (get_rule e' i) = Some q /\ eats e' (IR q) c b ok c' b'.
Proof.
  intros Q D D'. destruct (sel i) eqn:S; [|exists r; auto using map_no]. exists (RMap (who (r_name (get_rule e i))) r). split; [auto using map_yes|].
  pose proof (e_map e' (who (r_name (get_rule e i))) r c b ok c' b' D') as X. destruct ok; auto.
  rewrite (eats_restore e Re _ _ _ _ _ _ D (Re _ _ Q) eq_refl) in *. exact X.
Qed.
(** The rules read the same. *)
Lemma map_eats i c b ok c' b' : eats e i c b ok c' b' -> eats e' i c b ok c' b'.
Proof.
  induction 1; try solve [econstructor; eauto].
  - destruct (map_eats_rule _ _ _ _ _ _ _ H H0 IHeats) as (q & Q & D). exact (e_rule _ _ _ _ _ _ _ _ Q D).
  - destruct (map_eats_rule _ _ _ _ _ _ _ H H0 IHeats) as (q & Q & D). exact (e_grammar _ _ _ _ _ _ _ _ _ _ Q D).
Qed.
Lemma eats_map_rule i q c b ok c' b' : r_reader (get_rule e' i) = Some q -> eats e (IR q) c b ok c' b' -> exists r, r_reader (get_rule e i) = Some r /\ eats e (IR r) c b ok c' b'.
Proof.
  intros Q D. destruct (map_back i q Q) as (r & Er & [->| ->]); exists r; split; auto. inversion D; subst; [discriminate|].
  match goal with D1 : eats e (IR r) _ _ _ _ _ |- _ => destruct ok; auto; pose proof (eats_restore e Re _ _ _ _ _ _ D1 (Re _ _ Er) eq_refl) as X; rewrite X in D1; exact D1 end.
Qed.
Lemma eats_map i c b ok c' b' : eats e' i c b ok c' b' -> eats e i c b ok c' b'.
Proof.
  induction 1; try solve [econstructor; eauto].
  - destruct (eats_map_rule _ _ _ _ _ _ _ H IHeats) as (q & Q & D). exact (e_rule _ _ _ _ _ _ _ _ Q D).
  - destruct (eats_map_rule _ _ _ _ _ _ _ H IHeats) as (q & Q & D). exact (e_grammar _ _ _ _ _ _ _ _ _ _ Q D).
Qed.
Lemma map_covered : eall covered e -> eall covered e'.
Proof. intros H i q Q. destruct (map_back i q Q) as (r & Er & [->| ->]); [|cbn [rall covered andb]]; exact (H i r Er). Qed.
(** Nothing is mapped or picked yet and there is no user function. *)
Definition plainly (r : reader) : bool := match r with RWrap _ _ | RPick _ _ _ | RMap _ _ => false | _ => true end.
Context (Pl : eall plainly e).
Lemma plainly_strip r : rall plainly r = true -> strip false true r = r.
Proof. intros H. apply strip_id. revert H. apply rall_impl. intros y. destruct y; auto. Qed.
Lemma map_bare : strip_env false true e' = e.
Proof.
  destruct Al as [Ln Gt]. apply nth_ext with (d := rule0) (d' := rule0); [unfold strip_env; rewrite map_length; auto|].
  intros i Hi. unfold strip_env in Hi. rewrite map_length, Ln in Hi.
  change (get_rule (strip_env false true e') i = get_rule e i). rewrite strip_get, Gt by auto.
  pose proof (Co i Hi) as C. pose proof (Pl i) as P. destruct (get_rule e i) as [nm [r|]]; [|contradiction].
  destruct (sel i); cbn in *; rewrite (plainly_strip r (P r eq_refl)); reflexivity.
Qed.
Lemma plainly_picks {L : GoLib} r : rall plainly r = true -> rallP (picks_restore (fun _ => true)) r.
Proof. intros H. apply rallP_rall in H. revert H. apply rallP_impl. intros y H. destruct y; cbn in *; auto; discriminate. Qed.
Lemma map_restoring {L : GoLib} : restoring_rules e' (fun _ => true).
Proof. intros j q _ Q. destruct (map_back j q Q) as (r & Er & [->| ->]); [exact (Re _ _ Er)|reflexivity]. Qed.
Lemma map_picks {L : GoLib} : eallP (picks_restore (fun _ => true)) e'.
Proof.
  intros j q Q. destruct (map_back j q Q) as (r & Er & [->| ->]); [apply plainly_picks; exact (Pl _ _ Er)|].
  split; [exact (Re _ _ Er)|apply plainly_picks; exact (Pl _ _ Er)].
Qed.
Lemma map_transparent {L : GoLib} r s : rall plainly r = true -> in_text s ->
  (forall x s', reads e' r s x s' -> exists t, reads e r s x t /\ same_place s' t) /\
  (forall x t, reads e r s x t -> exists s', reads e' r s x s' /\ same_place s' t) /\
  (panics e' r s <-> panics e r s) /\ (hangs e' r s <-> hangs e r s).
Proof.
  intros Hr I. assert (Sp : same_place s s) by (repeat split).
  assert (F : forall q, rallP (picks_restore (fun _ => true)) q -> rallP (picks_fit e') q) by (intros q Q; eapply (picks_static e' (fun _ => true)); eauto using map_restoring, map_picks).
  pose proof (pick_transparent e' r s s I Sp (F r (plainly_picks r Hr)) (fun j q Q => F q (map_picks j q Q))) as T.
  rewrite map_bare, (plainly_strip r Hr) in T. exact T.
Qed.
End Mapped.

(** CostFacts.v - counting calls of Read: facts, and bounds that can be computed. *)
From Verif Require Export Cost.
From Coq Require Import Lia ZifyBool.
From Verif Require Import Grammar Trace HearFacts MarksFacts TrackFacts TraceFacts PegTotal LogFacts.

Lemma works_eats e w i c b ok c' b' n : works e w i c b ok c' b' n -> eats e i c b ok c' b'.
Proof. induction 1; try (econstructor; eauto; fail). Qed.
Lemma eats_works e w i c b ok c' b' : eats e i c b ok c' b' -> exists n, works e w i c b ok c' b' n.
Proof.
  induction 1; repeat match goal with X : exists n, works _ _ _ _ _ _ _ _ n |- _ => destruct X as [? X] end; eexists; try (econstructor; eauto; fail).
Qed.
Lemma works_det e w i c b ok c' b' n : works e w i c b ok c' b' n -> forall ok2 c2 b2 n2, works e w i c b ok2 c2 b2 n2 -> n = n2.
Proof.
  induction 1; intros ok9 c9 b9 n9 D; inversion D; subst; try discriminate;
  repeat match goal with
  | H1 : r_reader ?r = Some ?a, H2 : r_reader ?r = Some ?b |- _ => rewrite H1 in H2; injection H2 as H2; subst
  | H1 : rune_test ?r = Some ?a, H2 : rune_test ?r = Some ?b |- _ => rewrite H1 in H2; injection H2 as H2; subst
  | H1 : works e w ?i ?c ?b ?ok ?c1 ?b1 _, H2 : works e w ?i ?c ?b ?ok2 ?c2 ?b2 _ |- _ =>
      first [constr_eq c1 c2; constr_eq b1 b2; fail 1|
      destruct (eats_det _ _ _ _ _ _ _ (works_eats _ _ _ _ _ _ _ _ _ H1) _ _ _ (works_eats _ _ _ _ _ _ _ _ _ H2)) as (? & ? & ?); subst; try discriminate]
  | IH : forall _ _ _ _, works e w ?i ?c ?b _ _ _ _ -> _, H : works e w ?i ?c ?b _ _ _ _ |- _ => apply IH in H; subst
  | H1 : step ?b = _, H2 : step ?b = _ |- _ => rewrite H1 in H2; injection H2; intros; subst
  end; auto; try congruence.
  - f_equal. match goal with X : _ ++ _ = _ ++ _, Y : works _ _ (IR r) _ (_ ++ _) _ _ _ n0 |- _ => first [rewrite X in Y|rewrite <- X in Y] end. eapply IHworks; eauto.
  - f_equal. match goal with X : ?y ++ ?z = ?y2 ++ ?z |- _ => apply app_inv_tail in X; subst end. eapply IHworks2; eauto.
Qed.
(** More weight. *)
Lemma works_more e w1 w2 i c b ok c' b' n1 : (forall r, (w1 r <= w2 r)%nat) -> works e w1 i c b ok c' b' n1 -> exists n2, works e w2 i c b ok c' b' n2 /\ (n1 <= n2)%nat.
Proof.
  intros W. induction 1; repeat match goal with X : exists n, works _ _ _ _ _ _ _ _ n /\ _ |- _ => destruct X as (? & X & ?) end;
    try (eexists; split; [eapply wi_rep_next; eassumption|lia]); eexists; (split; [econstructor; eauto|]); auto using Nat.add_le_mono.
Qed.
Lemma works_n e w i c b ok c' b' n m : works e w i c b ok c' b' n -> n = m -> works e w i c b ok c' b' m.
Proof. intros H <-. exact H. Qed.

Lemma any_calls e w r rs c b ok c' b' k : works e w (IAny (r :: rs)) c b ok c' b' k -> (ok = true /\ works e w (IR r) c b true c' b' k) \/
  exists c1 b1 n1 n2, works e w (IR r) c b false c1 b1 n1 /\ works e w (IAny rs) c1 b1 ok c' b' n2 /\ k = (n1 + n2)%nat.
Proof. inversion 1; subst; [left; auto|right; eauto 9]. Qed.
Lemma seq_calls e w r rs c b ok c' b' k : works e w (ISeq (r :: rs)) c b ok c' b' k -> (ok = false /\ works e w (IR r) c b false c' b' k) \/
  exists c1 b1 n1 n2, works e w (IR r) c b true c1 b1 n1 /\ works e w (ISeq rs) c1 b1 ok c' b' n2 /\ k = (n1 + n2)%nat.
Proof. inversion 1; subst; [left; auto|right; eauto 9]. Qed.
Lemma rule_calls_inv e w i r c b ok c' b' k : r_reader (get_rule e i) = Some r -> works e w (IR (RRule i)) c b ok c' b' k -> exists n, works e w (IR r) c b ok c' b' n /\ k = (w (RRule i) + n)%nat.
Proof. intros H. inversion 1; subst; try discriminate. replace r with r0 by congruence. eauto. Qed.

Lemma grammar_calls_inv e w v p i c b ok c' b' k : works e w (IR (RGrammar v p i)) c b ok c' b' k ->
  exists n, works e w (IR (RRule i)) c b ok c' b' (w (RRule i) + n) /\ k = (w (RGrammar v p i) + n)%nat.
Proof. inversion 1; subst; try discriminate. eexists. split; [eapply we_rule; eauto|auto]. Qed.

(* ---------------------------------------------- Logs count calls of Read *)

Section Log.
Context (e e' : env) (lg : nat) (sel : nat -> bool).
Definition rule_calls (r : reader) : nat := match r with RRule i | RGrammar _ _ i => if sel i then 1%nat else 0%nat | _ => 0%nat end.
Context (Al : altered (rule_monitor e lg) sel e e') (Co : complete e) (Me : eall monitorless e).
Notation mless := (rallP (fun r => monitorless r = true)).
Lemma tries_app l1 l2 : tries lg (l1 ++ l2) = tries lg l1 ++ tries lg l2.
Proof. apply filter_app. Qed.
Lemma tries_deeper l : length (tries lg (map (deeper lg) l)) = length (tries lg l).
Proof.
  induction l as [|a l IH]; [reflexivity|]. unfold tries in *. cbn [map filter]. destruct a as [id t|g w v p ok q]; cbn [deeper]; [exact IH|]. destruct (Nat.eqb g lg) eqn:E; cbn; rewrite E; cbn; auto.
Qed.
Lemma alt_rule i r' : r_reader (get_rule e' i) = Some r' -> exists r, r_reader (get_rule e i) = Some r /\ mless r /\ r' = if sel i then RMonitor (r_name (get_rule e i)) lg r else r.
Proof.
  destruct Al as [Ln Gt]. intros H. assert (B : (i < length e)%nat).
  { destruct (Nat.lt_ge_cases i (length e)); auto. rewrite <- Ln in *. unfold get_rule, get in H. rewrite nth_overflow in H by auto. discriminate. }
  rewrite Gt in H by auto. destruct (r_reader (get_rule e i)) as [r|] eqn:E; [|elim (Co i B E)].
  exists r. split; auto. split; [apply rallP_rall; eapply Me; eauto|]. destruct (sel i); [|congruence]. unfold rule_monitor, rule_sub in H. cbn in H. rewrite E in H. congruence.
Qed.
Lemma traces_count N i c b ok c' b' l : traces e' N i c b ok c' b' l ->
  (iallP (fun r => monitorless r = true) i -> works e rule_calls i c b ok c' b' (length (tries lg l))) /\
  (forall w r, i = IR (RMonitor w lg r) -> mless r -> exists n, works e rule_calls (IR r) c b ok c' b' n /\ length (tries lg l) = S n).
Proof.
  induction 1; (split; [intros M|intros w1 r1 E1 M; try discriminate]); cbn [iallP rallP] in *;
    repeat match goal with X : _ /\ _ |- _ => destruct X end;
    repeat match goal with X : Forall _ (_ :: _) |- _ => inversion X; subst; clear X end;
    repeat match goal with X : fold_right _ True _ |- _ => apply all_Forall in X end;
    rewrite ?tries_app, ?app_length.
  all: try (injection E1 as -> -> ->; eexists; split; [apply IHtraces; exact M|cbn [tries filter]; rewrite Nat.eqb_refl; cbn [length]; rewrite <- (tries_deeper l); reflexivity]).
  all: try (destruct (rune_test r) eqn:Q; [|discriminate]; subst; discriminate).
  all: try (apply alt_rule in H as (q & Hq & Mq & ->)).
  all: repeat match goal with IH : (_ -> works _ _ _ _ _ _ _ _ _) /\ _ |- _ => destruct IH as [IH ?] end.
  all: try (eapply works_n; [econstructor; try eassumption; eauto; fail|reflexivity]).
  - eapply works_n; [eapply we_test; eauto|]. destruct r; try discriminate H; reflexivity.
  - injection E1 as ->. discriminate H.
  - destruct (sel i) eqn:Si.
    + match goal with X : forall _ _, IR _ = IR _ -> _ |- _ => destruct (X _ _ eq_refl Mq) as (n & W & ->) end. eapply works_n; [eapply we_rule; eauto|]. cbn. rewrite Si. reflexivity.
    + eapply works_n; [eapply we_rule; eauto|]. cbn. rewrite Si. reflexivity.
  - destruct (sel i) eqn:Si.
    + match goal with X : forall _ _, IR _ = IR _ -> _ |- _ => destruct (X _ _ eq_refl Mq) as (n & W & ->) end. eapply works_n; [eapply we_grammar; eauto|]. cbn. rewrite Si. reflexivity.
    + eapply works_n; [eapply we_grammar; eauto|]. cbn. rewrite Si. reflexivity.
  - injection E1 as -> -> ->. exists (length (tries lg l)). split; [auto|]. unfold tries at 1. cbn [filter]. rewrite Nat.eqb_refl. cbn [length]. f_equal. apply tries_deeper.
  - eapply works_n; [eapply we_map; eauto|]. destruct ok; [|reflexivity]. rewrite tries_app, app_length. cbn. lia.
  - eapply works_n; [eapply we_skip; match goal with X : _ -> works _ _ (ISeq _) _ _ _ _ _ _ |- _ => apply X end; apply all_interleave; auto|reflexivity].
Qed.
End Log.

(** A Log that watches the rules [ids] has as many new entries as there were calls of Read on these rules. *)
Lemma log_counts {L : GoLib} e lg ids r s a b x s' : complete e -> eall monitorless e -> eall covered e -> NoDup ids -> (forall i, In i ids -> (i < length e)%nat) ->
  rall monitorless r = true -> rall covered r = true -> at_split s a b -> log_ok (get_log lg (hp s)) -> reads (monitor_rules lg ids e) r s x s' ->
  exists new c' b', log_entries (get_log lg (hp s')) = log_entries (get_log lg (hp s)) ++ new /\ pos (sc s') = slen (a ++ b) - slen b' /\
    works e (rule_calls (chosen ids)) (IR r) (h_cells (hp s)) b (okx x) c' b' (length new).
Proof.
  intros Co Me Ce Nd B Mr Cr Sp Ok Rd. pose proof (monitor_altered lg ids e Nd B) as Al. pose proof (stands_split _ _ _ Sp) as St.
  assert (C' : eall covered (monitor_rules lg ids e)).
  { apply eallP_eall. apply (monitor_all_readers (fun r => covered r = true) lg (chosen ids) e); auto. apply eallP_eall. exact Ce. }
  destruct (reads_traces _ r (a ++ b) (h_cells (hp s)) b s x s' C' Cr St Rd) as (c' & b' & l & Tr & S1 & A1 & A2).
  destruct (A1 lg Ok) as [_ (new & E & F)]. exists new, c', b'. split; [exact E|]. split; [apply (stands_pos _ _ _ _ S1)|].
  assert (F' : length (tries lg l) = length new) by (clear -F; induction F; cbn; auto). rewrite <- F'. eapply traces_count; eauto. apply rallP_rall. exact Mr.
Qed.

(** DepthFacts.v - nested Reads: facts, levels of Log entries, and bounds that can be computed. *)
From Verif Require Export Depth.
From Coq Require Import Lia ZifyBool.
From Verif Require Import Grammar Trace HearFacts MarksFacts TrackFacts TraceFacts PegTotal LogFacts Cost CostFacts.

Lemma dives_eats e w i c b ok c' b' n : dives e w i c b ok c' b' n -> eats e i c b ok c' b'.
Proof. induction 1; try (econstructor; eauto; fail). Qed.
Lemma eats_dives e w i c b ok c' b' : eats e i c b ok c' b' -> exists n, dives e w i c b ok c' b' n.
Proof.
  induction 1; repeat match goal with X : exists n, dives _ _ _ _ _ _ _ _ n |- _ => destruct X as [? X] end; eexists; try (econstructor; eauto; fail).
Qed.
Lemma dives_det e w i c b ok c' b' n : dives e w i c b ok c' b' n -> forall ok2 c2 b2 n2, dives e w i c b ok2 c2 b2 n2 -> n = n2.
Proof.
  induction 1; intros ok9 c9 b9 n9 D; inversion D; subst; try discriminate;
  repeat match goal with
  | H1 : r_reader ?r = Some ?a, H2 : r_reader ?r = Some ?b |- _ => rewrite H1 in H2; injection H2 as H2; subst
  | H1 : rune_test ?r = Some ?a, H2 : rune_test ?r = Some ?b |- _ => rewrite H1 in H2; injection H2 as H2; subst
  | H1 : dives e w ?i ?c ?b ?ok ?c1 ?b1 _, H2 : dives e w ?i ?c ?b ?ok2 ?c2 ?b2 _ |- _ =>
      first [constr_eq c1 c2; constr_eq b1 b2; fail 1|
      destruct (eats_det _ _ _ _ _ _ _ (dives_eats _ _ _ _ _ _ _ _ _ H1) _ _ _ (dives_eats _ _ _ _ _ _ _ _ _ H2)) as (? & ? & ?); subst; try discriminate]
  | IH : forall _ _ _ _, dives e w ?i ?c ?b _ _ _ _ -> _, H : dives e w ?i ?c ?b _ _ _ _ |- _ => apply IH in H; subst
  | H1 : step ?b = _, H2 : step ?b = _ |- _ => rewrite H1 in H2; injection H2; intros; subst
  end; auto; try congruence.
  - f_equal. match goal with X : _ ++ _ = _ ++ _, Y : dives _ _ (IR r) _ (_ ++ _) _ _ _ n0 |- _ => first [rewrite X in Y|rewrite <- X in Y] end. eapply IHdives; eauto.
  - f_equal. match goal with X : ?y ++ ?z = ?y2 ++ ?z |- _ => apply app_inv_tail in X; subst end. eapply IHdives2; eauto.
Qed.
(** More weight. *)
Lemma dives_more e w1 w2 i c b ok c' b' n1 : (forall r, (w1 r <= w2 r)%nat) -> dives e w1 i c b ok c' b' n1 -> exists n2, dives e w2 i c b ok c' b' n2 /\ (n1 <= n2)%nat.
Proof.
  intros W. induction 1; repeat match goal with X : exists n, dives _ _ _ _ _ _ _ _ n /\ _ |- _ => destruct X as (? & X & ?) end;
    try (eexists; split; [eapply di_rep_next; eassumption|lia]); eexists; (split; [econstructor; eauto|]); auto using Nat.add_le_mono, Nat.max_le_compat.
Qed.
Lemma dives_n e w i c b ok c' b' n m : dives e w i c b ok c' b' n -> n = m -> dives e w i c b ok c' b' m.
Proof. intros H <-. exact H. Qed.

(* ------------------------------------------------ the levels of a Log *)

(** The greatest level among the Reads that log [lg] sees. *)
Definition peak (lg : nat) (l : list act) : Z :=
  fold_right (fun a m => match a with ATry g _ v _ _ _ => if Nat.eqb g lg then Z.max v m else m | _ => m end) 0 l.
Lemma peak_app lg l1 l2 : peak lg (l1 ++ l2) = Z.max (peak lg l1) (peak lg l2).
Proof.
  induction l1 as [|a l IH]; cbn [app peak fold_right].
  - assert (0 <= peak lg l2); [|unfold peak in *; lia]. unfold peak. induction l2 as [|a l IH]; cbn; [lia|]. destruct a; auto. destruct (Nat.eqb _ _); lia.
  - fold (peak lg (l ++ l2)) (peak lg l). destruct a; auto. destruct (Nat.eqb _ _); auto. rewrite IH. lia.
Qed.
Lemma peak_nonneg lg l : 0 <= peak lg l.
Proof. unfold peak. induction l as [|a l IH]; cbn; [lia|]. destruct a; auto. destruct (Nat.eqb _ _); lia. Qed.
Lemma peak_deeper lg l : Z.max 1 (peak lg (map (deeper lg) l)) = 1 + peak lg l.
Proof.
  induction l as [|a l IH]; [reflexivity|]. cbn [map]. destruct a as [id t|g w v p ok q]; cbn [deeper].
  - exact IH.
  - destruct (Nat.eqb g lg) eqn:E; cbn [peak fold_right]; rewrite E; fold (peak lg (map (deeper lg) l)) (peak lg l); lia.
Qed.
Lemma peak_monitor lg w p ok q l : peak lg (ATry lg w 1 p ok q :: map (deeper lg) l) = 1 + peak lg l.
Proof. rewrite <- peak_deeper. cbn [peak fold_right]. rewrite Nat.eqb_refl. reflexivity. Qed.

Section Log.
Context (e e' : env) (lg : nat) (sel : nat -> bool).
Context (Al : altered (rule_monitor e lg) sel e e') (Co : complete e) (Me : eall monitorless e).
Notation mless := (rallP (fun r => monitorless r = true)).
Notation zp l := (Z.to_nat (peak lg l)).
Lemma traces_peak N i c b ok c' b' l : traces e' N i c b ok c' b' l ->
  (iallP (fun r => monitorless r = true) i -> dives e (rule_calls sel) i c b ok c' b' (zp l)) /\
  (forall w r, i = IR (RMonitor w lg r) -> mless r -> exists n, dives e (rule_calls sel) (IR r) c b ok c' b' n /\ zp l = S n).
Proof.
  assert (Pa : forall l1 l2, zp (l1 ++ l2) = Nat.max (zp l1) (zp l2)) by (intros; rewrite peak_app; lia).
  induction 1; (split; [intros M|intros w1 r1 E1 M; try discriminate]); cbn [iallP rallP] in *;
    repeat match goal with X : _ /\ _ |- _ => destruct X end;
    repeat match goal with X : Forall _ (_ :: _) |- _ => inversion X; subst; clear X end;
    repeat match goal with X : fold_right _ True _ |- _ => apply all_Forall in X end;
    rewrite ?Pa.
  all: try (injection E1 as -> -> ->; eexists; split; [match goal with X : _ -> dives _ _ _ _ _ _ _ _ _ |- _ => apply X; exact M end|rewrite peak_monitor; pose proof (peak_nonneg lg l); lia]).
  all: try (destruct (rune_test r) eqn:Q; [|discriminate]; subst; discriminate).
  all: try (apply (alt_rule e e' lg sel Al Co Me) in H as (q & Hq & Mq & ->)).
  all: repeat match goal with IH : (_ -> dives _ _ _ _ _ _ _ _ _) /\ _ |- _ => destruct IH as [IH ?] end.
  all: try (eapply dives_n; [econstructor; try eassumption; eauto; fail|reflexivity]).
  - eapply dives_n; [eapply de_test; eauto|]. destruct r; try discriminate H; reflexivity.
  - injection E1 as ->. discriminate H.
  - destruct (sel i) eqn:Si.
    + match goal with X : forall _ _, IR _ = IR _ -> _ |- _ => destruct (X _ _ eq_refl Mq) as (n & W & ->) end. eapply dives_n; [eapply de_rule; eauto|]. cbn. rewrite Si. reflexivity.
    + eapply dives_n; [eapply de_rule; eauto|]. cbn. rewrite Si. reflexivity.
  - destruct (sel i) eqn:Si.
    + match goal with X : forall _ _, IR _ = IR _ -> _ |- _ => destruct (X _ _ eq_refl Mq) as (n & W & ->) end. eapply dives_n; [eapply de_grammar; eauto|]. cbn. rewrite Si. reflexivity.
    + eapply dives_n; [eapply de_grammar; eauto|]. cbn. rewrite Si. reflexivity.
  - eapply dives_n; [eapply de_map; eauto|]. destruct ok; [|reflexivity]. rewrite Pa. cbn. lia.
  - eapply dives_n; [eapply de_skip; match goal with X : _ -> dives _ _ (ISeq _) _ _ _ _ _ _ |- _ => apply X end; apply all_interleave; auto|reflexivity].
Qed.
End Log.

(** The new entries of a Log that watches the rules [ids] have levels up to the length of the longest chain of Reads of these
    rules inside each other, above the level at which the Log was, and that level occurs. *)
Lemma log_levels {L : GoLib} e lg ids r s a b x s' : complete e -> eall monitorless e -> eall covered e -> NoDup ids -> (forall i, In i ids -> (i < length e)%nat) ->
  rall monitorless r = true -> rall covered r = true -> at_split s a b -> log_ok (get_log lg (hp s)) -> reads (monitor_rules lg ids e) r s x s' ->
  exists new c' b' n, log_entries (get_log lg (hp s')) = log_entries (get_log lg (hp s)) ++ new /\ pos (sc s') = slen (a ++ b) - slen b' /\
    dives e (rule_calls (chosen ids)) (IR r) (h_cells (hp s)) b (okx x) c' b' n /\
    (forall en, In en new -> e_level en <= l_level (get_log lg (hp s)) + Z.of_nat n) /\
    ((0 < n)%nat -> exists en, In en new /\ e_level en = l_level (get_log lg (hp s)) + Z.of_nat n).
Proof.
  intros Co Me Ce Nd B Mr Cr Sp Ok Rd. pose proof (monitor_altered lg ids e Nd B) as Al. pose proof (stands_split _ _ _ Sp) as St.
  assert (C' : eall covered (monitor_rules lg ids e)).
  { apply eallP_eall. apply (monitor_all_readers (fun r => covered r = true) lg (chosen ids) e); auto. apply eallP_eall. exact Ce. }
  destruct (reads_traces _ r (a ++ b) (h_cells (hp s)) b s x s' C' Cr St Rd) as (c' & b' & l & Tr & S1 & A1 & A2).
  destruct (A1 lg Ok) as [_ (new & E & F)]. exists new, c', b', (Z.to_nat (peak lg l)). split; [exact E|]. split; [apply (stands_pos _ _ _ _ S1)|].
  split; [eapply traces_peak; eauto; apply rallP_rall; exact Mr|]. rewrite Z2Nat.id by apply peak_nonneg. pose proof (peak_nonneg lg l) as Pn.
  clear -F. remember (tries lg l) as ts eqn:Et. revert ts Et new F. induction l as [|a l IH]; intros ts -> new F.
  - inversion F; subst. split; [intros en []|cbn; lia].
  - cbn [peak fold_right]. fold (peak lg l). unfold tries in F, IH. cbn [filter] in F. destruct a as [id t|g w v p ok q]; [apply (IH _ eq_refl _ F)|].
    destruct (Nat.eqb g lg) eqn:Eg; [|apply (IH _ eq_refl _ F)]. inversion F as [|? en ? new2 H1 H2]; subst. destruct (IH _ eq_refl _ H2) as [I1 I2].
    cbn [entry_of] in H1. destruct H1 as (_ & Lv & _). split.
    + intros en2 [<-|I]; [lia|]. specialize (I1 _ I). lia.
    + intros P. destruct (Z.le_gt_cases (peak lg l) v).
      * exists en. split; [left; auto|]. lia.
      * destruct I2 as (en2 & J1 & J2); [lia|]. exists en2. split; [right; auto|]. lia.
Qed.

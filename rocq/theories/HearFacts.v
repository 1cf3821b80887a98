(** HearFacts.v - where the entries of a Log and the calls of Map functions come from. *)
From Verif Require Export TraceFacts TrackFacts.
From Coq Require Import Lia ZifyBool.
From Verif Require Import ReaderSteps ReaderTrans Json.

Lemma traces_det e N i c b ok c' b' l : traces e N i c b ok c' b' l -> forall ok2 c2 b2 l2, traces e N i c b ok2 c2 b2 l2 -> l = l2.
Proof.
  induction 1; intros ok9 c9 b9 l9 D; inversion D; subst; try discriminate;
  repeat match goal with
  | H1 : r_reader ?r = Some ?a, H2 : r_reader ?r = Some ?b |- _ => rewrite H1 in H2; injection H2 as H2; subst
  | H1 : rune_test ?r = Some ?a, H2 : rune_test ?r = Some ?b |- _ => rewrite H1 in H2; injection H2 as H2; subst
  | H1 : traces e ?N ?i ?c ?b ?ok ?c1 ?b1 _, H2 : traces e ?N ?i ?c ?b ?ok2 ?c2 ?b2 _ |- _ =>
      first [constr_eq c1 c2; constr_eq b1 b2; fail 1|
      destruct (eats_det _ _ _ _ _ _ _ (traces_eats _ _ _ _ _ _ _ _ _ H1) _ _ _ (traces_eats _ _ _ _ _ _ _ _ _ H2)) as (? & ? & ?); subst; try discriminate]
  | IH : forall _ _ _ _, traces e ?N ?i ?c ?b _ _ _ _ -> _, H : traces e ?N ?i ?c ?b _ _ _ _ |- _ => apply IH in H; subst
  | H1 : step ?b = _, H2 : step ?b = _ |- _ => rewrite H1 in H2; injection H2; intros; subst
  end; auto; try congruence.
  - rewrite H6 in H10. eapply IHtraces; eauto.
  - f_equal. match goal with X : ?y ++ ?z = ?y2 ++ ?z |- _ => apply app_inv_tail in X; subst end. eapply IHtraces2; eauto.
Qed.

Section Hear.
Context (e : env) (ofm : reader -> Prop) (flat : Prop).
(** [ofm] holds for every Monitor and Map; with [flat] there is no Body and no BodyTail. *)
Definition hears (r : reader) : Prop :=
  match r with RMonitor _ _ _ | RMap _ _ => ofm r | RBody _ _ | RBodyTail _ _ => ~ flat | _ => True end.
(** [u] is a piece of text [t]. *)
Definition piece (u t : bytes) : Prop := exists a z, t = a ++ u ++ z.
Definition within (t : bytes) (i : item) (b : bytes) : Prop :=
  (exists a, t = a ++ b) /\ match i with IBody z _ _ _ => exists a, t = a ++ z | _ => True end.
(** [a] is a Read by [sub] of a reader that satisfies [ofm], in a piece of the text. *)
Definition heard (t : bytes) (a : act) : Prop := exists u b1 c1 c2 b2 sub,
  piece u t /\ (flat -> u = t) /\ (exists a1, u = a1 ++ b1) /\
  match a with
  | ATry lg w v p ok q => ofm (RMonitor w lg sub) /\ eats e (IR sub) c1 b1 ok c2 b2 /\ p = slen u - slen b1 /\ q = slen u - slen b2
  | ACall id k => ofm (RMap id sub) /\ eats e (IR sub) c1 b1 true c2 b2 /\ k = mkTok (slen u - slen b1) (slen u - slen b2)
  end.
Lemma heard_deeper t lg a : heard t a -> heard t (deeper lg a).
Proof.
  intros (u & b1 & c1 & c2 & b2 & sub & H). exists u, b1, c1, c2, b2, sub. destruct a; cbn [deeper]; auto. destruct (Nat.eqb _ _); auto.
Qed.
Lemma piece_refl t : piece t t.
Proof. exists [], []. rewrite app_nil_r. auto. Qed.
Lemma heard_piece u t a : ~ flat -> piece u t -> heard u a -> heard t a.
Proof.
  intros Nf (a1 & z1 & ->) (v & b1 & c1 & c2 & b2 & sub & (a2 & z2 & ->) & _ & H). exists v, b1, c1, c2, b2, sub. split; [|split; [tauto|exact H]].
  exists (a1 ++ a2), (z2 ++ z1). rewrite <- !app_assoc. reflexivity.
Qed.
Lemma within_on t i b j b' : within t i b -> (exists d, b = d ++ b') -> (match j with IBody z _ _ _ => match i with IBody z' _ _ _ => z = z' | _ => z = b' end | _ => True end) -> within t j b'.
Proof.
  intros [[a ->] B] [d ->] J. split; [exists (a ++ d); rewrite app_assoc; auto|]. destruct j; auto. destruct i; subst; auto; exists (a ++ d); rewrite app_assoc; auto.
Qed.
Lemma traces_suffix N i c b ok c' b' l : traces e N i c b ok c' b' l -> exists d, b = d ++ b'.
Proof. intros H. eapply eats_suffix. eapply traces_eats; eauto. Qed.
Lemma suffix_step (b b1 : bytes) : (exists d, b = d ++ b1) -> exists d, b = d ++ snd (step b1).
Proof. intros [d ->]. destruct (step_suffix b1) as [d2 E]. exists (d ++ d2). rewrite E at 1. rewrite app_assoc. auto. Qed.
Lemma suffix_refl (b : bytes) : exists d, b = d ++ b.
Proof. exists []. auto. Qed.

Theorem trace_heard N i c b ok c' b' l : traces e N i c b ok c' b' l -> eallP hears e -> iallP hears i ->
  forall t, slen t = N -> within t i b -> Forall (heard t) l.
Proof.
  intros D He. induction D; intros Hi t0 HN W; cbn [iallP rallP hears] in Hi;
  repeat match goal with
  | X : _ /\ _ |- _ => match X with W => fail 1 | _ => destruct X end
  | X : True |- _ => clear X
  | X : Forall _ (_ :: _) |- _ => inversion_clear X
  | X : fold_right _ True _ |- _ => apply all_Forall in X
  end;
  try (constructor; fail);
  repeat match goal with
  | IH : iallP hears (IR ?r) -> _, X : r_reader _ = Some ?r |- _ => specialize (IH (He _ _ X) t0 HN)
  | IH : iallP hears ?j -> _ |- _ => let Z := fresh in assert (Z : iallP hears j) by (cbn [iallP rallP hears]; eauto using all_interleave); specialize (IH Z); clear Z; try specialize (IH t0 HN)
  end.
  all: repeat match goal with
  | IH : within _ ?j ?b1 -> _ |- _ => let Z := fresh in assert (Z : within t0 j b1) by (eapply within_on; [exact W|eauto using traces_suffix, suffix_step, suffix_refl|cbn; auto]); specialize (IH Z)
  end.
  all: try assumption; try (apply Forall_app; split; assumption).
  - constructor; [|apply Forall_map; eapply Forall_impl; [apply heard_deeper|exact IHD]].
    exists t0, b, c, c', b', r. split; [apply piece_refl|]. split; [auto|]. split; [apply W|]. split; [auto|]. split; [eapply traces_eats; eauto|]. subst N. auto.
  - destruct ok; [|exact IHD]. apply Forall_app. split; [exact IHD|]. constructor; [|constructor].
    exists t0, b, c, c', b', r. split; [apply piece_refl|]. split; [auto|]. split; [apply W|]. split; [auto|]. split; [eapply traces_eats; eauto|]. subst N. auto.
  - apply Forall_app. split; [assumption|]. apply IHD2. eapply within_on; [exact W| |cbn; auto].
    replace b2 with (snd (step b1)) by (rewrite H; reflexivity). apply suffix_step. eapply traces_suffix; eauto.
  - apply Forall_app. split; [assumption|]. assert (Pc : piece str t0). { destruct W as [_ [a ->]]. exists a, b. auto. }
    specialize (IHD2 str eq_refl ltac:(split; [exists []; auto|auto])). eapply Forall_impl; [|exact IHD2]. intros a. apply heard_piece; auto.
Qed.
End Hear.

Lemma text_split s : in_text s -> exists a b, at_split s a b.
Proof.
  intros [I Lt]. exists (firstn (Z.to_nat (pos (sc s))) (full (sc s))), (skipn (Z.to_nat (pos (sc s))) (full (sc s))).
  split; [rewrite firstn_skipn; auto|]. rewrite firstn_skipn. split; [|auto]. unfold slen in *. rewrite firstn_length. lia.
Qed.

(* ----------------------------------------------- a monitored grammar *)

Section Monitor.
Context {L : GoLib} (e e' : env) (lg : nat) (sel : nat -> bool) (C : complete e) (Cv : eall covered e)
  (Al : altered (rule_monitor e lg) sel e e').
(** The Monitors are those of the chosen rules. *)
Definition mon_of_rule (r : reader) : Prop :=
  match r with RMonitor w l sub => exists i, sel i = true /\ r_reader (get_rule e i) = Some sub /\ w = r_name (get_rule e i) | _ => True end.
Definition bodyless (r : reader) : bool := match r with RBody _ _ | RBodyTail _ _ => false | _ => true end.
(** Without Monitor and Wrap, with [fl] without Body and BodyTail. *)
Definition quiet (fl : bool) (r : reader) : bool := monitorless r && (negb fl || bodyless r).
(** The Read of a rule of the original grammar that [en] is about. *)
Definition entry_read (fl : bool) (t : bytes) (en : entry) : Prop := exists j u s1 y s2,
  sel j = true /\ e_info en = r_name (get_rule e j) /\ reads e (RRule j) s1 y s2 /\ piece u t /\ (fl = true -> u = t) /\
  in_text s1 /\ full (sc s1) = u /\ e_enter en = pos (sc s1) /\
  (e_exit en = pos (sc s2) /\ okx (e_err en) = okx y \/ e_exit en = 0 /\ e_err en = None).

Lemma quiet_hears fl r : rall (quiet fl) r = true -> rallP (hears mon_of_rule (fl = true)) r.
Proof.
  intros H. apply rallP_rall in H. revert H. apply rallP_impl. intros y H. destruct y; cbn in *; auto; try discriminate; destruct fl; discriminate.
Qed.
Lemma quiet_wraps fl r : rall (quiet fl) r = true -> rallP wraps_inside r.
Proof.
  intros H. apply rallP_rall in H. revert H. apply rallP_impl. intros y H. destruct y; cbn in *; auto; discriminate.
Qed.
Lemma quiet_bare fl r : rall (quiet fl) r = true -> strip true false r = r.
Proof. intros H. apply strip_id. revert H. apply rall_impl. intros y. destruct y; auto. Qed.
Lemma quiet_monitorless fl : eall (quiet fl) e -> eall monitorless e.
Proof. intros H i r E. specialize (H i r E). revert H. apply rall_impl. intros y H. apply andb_true_iff in H. tauto. Qed.
Lemma mon_covered : eall covered e'.
Proof.
  intros i r E. apply rallP_rall. revert i r E. eapply monitor_all_readers; eauto.
  intros i r E. apply rallP_rall. eapply Cv; eauto.
Qed.

Theorem mon_entries fl r s x s' : eall (quiet fl) e -> rall (quiet fl) r = true -> rall covered r = true -> in_text s ->
  log_ok (get_log lg (hp s)) -> reads e' r s x s' ->
  exists new, log_entries (get_log lg (hp s')) = log_entries (get_log lg (hp s)) ++ new /\ Forall (entry_read fl (full (sc s))) new.
Proof.
  intros Qe Qr Cr I Ok Rd. pose proof (proj2 I) as Lt. pose proof (quiet_monitorless _ Qe) as P.
  destruct (text_split s I) as (a & b & Sp). pose proof (stands_split _ _ _ Sp) as St. assert (Ft : full (sc s) = a ++ b) by apply Sp.
  destruct (reads_traces e' r _ _ _ s x s' mon_covered Cr St Rd) as (c' & b' & l & T & _ & [A _]). destruct (A lg Ok) as (_ & new & E & F).
  exists new. split; auto. rewrite Ft. clear E A Rd.
  assert (He : eallP (hears mon_of_rule (fl = true)) e').
  { eapply monitor_all_readers; eauto.
    - intros i q X. eapply quiet_hears. eapply Qe; eauto.
    - intros i q Si X. exists i. auto. }
  assert (We : eallP wraps_inside e').
  { eapply monitor_all_readers; eauto.
    - intros i q X. eapply quiet_wraps. eapply Qe; eauto.
    - intros i q Si X. exact Logic.I. }
  pose proof (trace_heard _ _ _ _ _ _ _ _ _ _ _ T He (quiet_hears _ _ Qr) (a ++ b) eq_refl ltac:(split; [exists a; auto|auto])) as Hd.
  assert (Hd' : Forall (heard e' mon_of_rule (fl = true) (a ++ b)) (tries lg l)).
  { apply Forall_forall. intros y Y. apply filter_In in Y as [Y _]. rewrite Forall_forall in Hd. auto. }
  clear Hd. revert Hd'. induction F as [|act en k new En _ IH]; intros Hd; [constructor|]. inversion_clear Hd as [|? ? H1 H2]. constructor; auto. clear IH H2.
  destruct H1 as (u & b1 & c1 & c2 & b2 & sub & Pc & Fl & [a1 U] & H1). destruct act as [id t|g w v p ok q]; [elim En|]. destruct H1 as ((j & Sj & Rj & ->) & D & -> & ->).
  destruct En as (E1 & E2 & E3 & E4).
  assert (Lu : slen u < 2 ^ 63). { destruct Pc as (z1 & z2 & Z). rewrite Ft, Z, !slen_app in Lt. pose proof (slen_nonneg z1). pose proof (slen_nonneg z2). lia. }
  set (s1 := mkSt (mkSc u (slen u - slen b1) None) (mkHeap [] c1 [] [] [])).
  assert (S1 : stands u c1 b1 s1) by (split; [reflexivity|]; split; [reflexivity|]; split; [exists a1; auto|]; split; [reflexivity|auto]).
  destruct (eats_reads e' sub c1 b1 ok c2 b2 u s1 D S1) as (y & s2 & R2 & Y & S2). pose proof (stands_in _ _ _ _ S1) as I1.
  assert (Qs : rall (quiet fl) sub = true) by (eapply Qe; eauto).
  destruct (monitor_transparent e' sub s1 I1 (quiet_wraps _ _ Qs) We) as (M & _). destruct (M y s2 R2) as (s3 & R3 & Sm & _).
  rewrite (monitor_bare e e' lg sel C P Al), (quiet_bare _ _ Qs) in R3.
  exists j, u, s1, y, s3. split; [auto|]. split; [auto|]. split; [eapply rule_reads'; eauto|]. split; [auto|]. split; [auto|]. split; [auto|]. split; [auto|].
  split; [exact E3|]. rewrite <- Sm, (stands_pos _ _ _ _ S2), Y. exact E4.
Qed.
End Monitor.

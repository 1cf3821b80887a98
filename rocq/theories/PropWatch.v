(** PropWatch.v - C151 to C153: Trackers of the user. *)
From Verif Require Import ReaderFwd WatchFacts WatchBase WatchFwd BasketFacts BasketMemFacts UseFacts ExKit Tests.
From Verif Require Watch.
From Coq Require Import Lia ZifyBool.
Import Watch (wst, mkW, w_st, w_x).

(* ------------------------------------------------------------------- C151 *)

(** [rel] holds for every call of a Scanner that moves it (scanner.go, scanner_rev.go, read.go), for every Read and for
    the calls that use a Reader: with the Tracker [up] on the left, in the other files on the right. *)
Definition calls_agree {L : GoLib} {X} (up : Z -> heap * X -> heap * X) (rel : forall A, Watch.M (X := X) A -> M A -> Prop) : Prop :=
  forall (x : bytes) (xs : list bytes) (n m : Z) (f : Z -> bool) (k : nat) (e : env) (r : reader),
  rel _ (Watch.if_str up x) (if_str x) /\ rel _ (Watch.if_any up xs) (if_any xs) /\
  rel _ (Watch.to_str up x) (to_str x) /\ rel _ (Watch.scan_string up n) (scan_string n) /\
  rel _ (Watch.if_fold up x) (if_fold x) /\ rel _ (Watch.to_fold up x) (to_fold x) /\
  rel _ (Watch.if_rune up n) (if_rune n) /\ rel _ (Watch.to_rune up n) (to_rune n) /\
  rel _ (Watch.while_rune up n) (while_rune n) /\ rel _ (Watch.if_any_rune up x) (if_any_rune x) /\
  rel _ (Watch.to_any_rune up x) (to_any_rune x) /\ rel _ (Watch.while_any_rune up x) (while_any_rune x) /\
  rel _ (Watch.if_between up n m) (if_between n m) /\ rel _ (Watch.to_between up n m) (to_between n m) /\
  rel _ (Watch.while_between up n m) (while_between n m) /\ rel _ (Watch.if_match up f) (if_match f) /\
  rel _ (Watch.to_match up f) (to_match f) /\ rel _ (Watch.while_match up f) (while_match f) /\
  rel _ (Watch.move up n) (move n) /\ rel _ (Watch.move_runes up n) (move_runes n) /\
  rel _ (Watch.to_marker up n) (to_marker n) /\ rel _ (Watch.to_end up) (to_end) /\
  rel _ (Watch.to_start up) (to_start) /\ rel _ (Watch.rev_if up x) (rev_if x) /\
  rel _ (Watch.rev_if_any up xs) (rev_if_any xs) /\ rel _ (Watch.rev_to up x) (rev_to x) /\
  rel _ (Watch.rev_if_fold up x) (rev_if_fold x) /\ rel _ (Watch.rev_to_fold up x) (rev_to_fold x) /\
  rel _ (Watch.rev_if_rune up n) (rev_if_rune n) /\ rel _ (Watch.rev_to_rune up n) (rev_to_rune n) /\
  rel _ (Watch.rev_while_rune up n) (rev_while_rune n) /\
  rel _ (Watch.rev_if_any_rune up x) (rev_if_any_rune x) /\
  rel _ (Watch.rev_to_any_rune up x) (rev_to_any_rune x) /\
  rel _ (Watch.rev_while_any_rune up x) (rev_while_any_rune x) /\
  rel _ (Watch.rev_if_between up n m) (rev_if_between n m) /\
  rel _ (Watch.rev_to_between up n m) (rev_to_between n m) /\
  rel _ (Watch.rev_while_between up n m) (rev_while_between n m) /\
  rel _ (Watch.rev_if_match up f) (rev_if_match f) /\ rel _ (Watch.rev_to_match up f) (rev_to_match f) /\
  rel _ (Watch.rev_while_match up f) (rev_while_match f) /\ rel _ (Watch.read_rune up) (read_rune) /\
  rel _ (Watch.rev_read_rune up) (rev_read_rune) /\ rel _ (Watch.read_bool up x) (read_bool x) /\
  rel _ (Watch.read_int up n m) (read_int n m) /\ rel _ (Watch.read_uint up n m) (read_uint n m) /\
  rel _ (Watch.read up k e r) (read k e r) /\ rel _ (Watch.use up (Watch.read up k e r)) (use (read k e r)) /\
  rel _ (Watch.trace_use up (Watch.read up k e r)) (trace_use (read k e r)) /\
  rel _ (Watch.tokenize_use up (Watch.read up k e r)) (tokenize_use (read k e r)) /\
  rel _ (Watch.capture_use up (Watch.read up k e r)) (capture_use (read k e r)).

(** What is the same on both sides when the Tracker is Basket [b]: everything. *)
Definition acts_alike {X} (b : nat) (A : Type) (m1 : Watch.M (X := X) A) (m2 : M A) : Prop := forall s x,
  trk (sc s) = None \/ trk (sc s) = Some b ->
  m1 (mkW s x) = match m2 s with Ok (a, s') => Ok (a, mkW s' x) | Panic => Panic | Fuel => Fuel end.
Lemma alike_sim {L : GoLib} {X} b A (m1 : Watch.M (X := X) A) m2 : (forall i, WatchBase.sim b i m1 m2) -> acts_alike b A m1 m2.
Proof.
  intros H s x T. specialize (H x (mkW s x) s (conj eq_refl (conj eq_refl T))). destruct (m1 (mkW s x)) as [[a [s1 x1]]| |], (m2 s) as [[a' s2]| |]; try tauto.
  destruct H as (-> & (E1 & E2 & _)). cbn in E1, E2. subst. reflexivity.
Qed.
Theorem C151_basket_is_a_tracker {L : GoLib} {X} b : calls_agree (basket_up (X := X) b) (acts_alike b).
Proof.
  intros x xs n m f k e r. repeat match goal with |- _ /\ _ => split end; apply alike_sim; intros i.
  - apply WatchBase.sim_if_str.
  - apply WatchBase.sim_if_any.
  - apply WatchBase.sim_to_str.
  - apply WatchBase.sim_scan_string.
  - apply WatchBase.sim_if_fold.
  - apply WatchBase.sim_to_fold.
  - apply WatchBase.sim_if_rune.
  - apply WatchBase.sim_to_rune.
  - apply WatchBase.sim_while_rune.
  - apply WatchBase.sim_if_any_rune.
  - apply WatchBase.sim_to_any_rune.
  - apply WatchBase.sim_while_any_rune.
  - apply WatchBase.sim_if_between.
  - apply WatchBase.sim_to_between.
  - apply WatchBase.sim_while_between.
  - apply WatchBase.sim_if_match.
  - apply WatchBase.sim_to_match.
  - apply WatchBase.sim_while_match.
  - apply WatchBase.sim_move.
  - apply WatchBase.sim_move_runes.
  - apply WatchBase.sim_marker.
  - apply WatchBase.sim_to_end.
  - apply WatchBase.sim_marker.
  - apply WatchBase.sim_rev_if.
  - apply WatchBase.sim_rev_if_any.
  - apply WatchBase.sim_rev_to.
  - apply WatchBase.sim_rev_if_fold.
  - apply WatchBase.sim_rev_to_fold.
  - apply WatchBase.sim_rev_if_rune.
  - apply WatchBase.sim_rev_to_rune.
  - apply WatchBase.sim_rev_while.
  - apply WatchBase.sim_rev_if_any_rune.
  - apply WatchBase.sim_rev_to_any_rune.
  - apply WatchBase.sim_rev_while.
  - apply WatchBase.sim_rev_if_between.
  - apply WatchBase.sim_rev_to_between.
  - apply WatchBase.sim_rev_while.
  - apply WatchBase.sim_rev_if_match.
  - apply WatchBase.sim_rev_to_match.
  - apply WatchBase.sim_rev_while.
  - apply WatchBase.sim_read_rune.
  - apply WatchBase.sim_rev_read_rune.
  - apply WatchBase.sim_read_bool.
  - apply WatchBase.sim_read_int.
  - apply WatchBase.sim_read_uint.
  - apply WatchBase.sim_read.
  - apply WatchBase.sim_use, WatchBase.sim_read.
  - apply WatchBase.sim_trace_use, WatchBase.sim_read.
  - apply WatchBase.sim_tokenize_use, WatchBase.sim_read.
  - apply WatchBase.sim_capture_use, WatchBase.sim_read.
Qed.
Print Assumptions C151_basket_is_a_tracker.

(** A Tracker that leaves alone what it does not own: Update changes Baskets and its own state. *)
Definition keeps_off {X} (up : Z -> heap * X -> heap * X) : Prop := forall p h x, exists bs, fst (up p (h, x)) = set_baskets bs h.
(** Same text, same position, same objects but for the Baskets *)
Definition same_but_baskets {X} (w : wst X) (t : st) : Prop :=
  full (Watch.sc w) = full (sc t) /\ pos (Watch.sc w) = pos (sc t) /\ set_baskets [] (Watch.hp w) = set_baskets [] (hp t).
Definition unimpressed {X} (A : Type) (m1 : Watch.M (X := X) A) (m2 : M A) : Prop := forall w t, same_but_baskets w t ->
  match m1 w, m2 t with
  | Ok (a, w'), Ok (a', t') => a = a' /\ same_but_baskets w' t'
  | Panic, Panic => True
  | Fuel, Fuel => True
  | _, _ => False
  end.
Definition h_same (h1 h2 : heap) : Prop := set_baskets [] h1 = set_baskets [] h2.
Definition Rn {X1 X2} (i : unit) (s : wst X1) (t : wst X2) : Prop :=
  full (Watch.sc s) = full (Watch.sc t) /\ pos (Watch.sc s) = pos (Watch.sc t) /\ h_same (Watch.hp s) (Watch.hp t).
Lemma h_same_parts h1 h2 : h_same h1 h2 <-> h_cells h1 = h_cells h2 /\ h_events h1 = h_events h2 /\ h_vals h1 = h_vals h2 /\ h_logs h1 = h_logs h2.
Proof.
  unfold h_same, set_baskets. split; [intros E; injection E as E1 E2 E3 E4; auto|]. intros (-> & -> & -> & ->). reflexivity.
Qed.
Lemma h_same_deed P f h1 h2 : deed P f -> h_same h1 h2 -> h_same (f h1) (f h2).
Proof.
  rewrite !h_same_parts. intros D (A & B & C & E). destruct h1, h2. cbn in *. subst. destruct D; cbn; repeat split; auto.
  all: unfold put_log, get_log; cbn; reflexivity.
Qed.
Lemma h_same_up {X} (up : Z -> heap * X -> heap * X) p h x : keeps_off up -> h_same (fst (up p (h, x))) h.
Proof. intros K. destruct (K p h x) as [bs ->]. reflexivity. Qed.
Lemma moveto_same {X} (up : Z -> heap * X -> heap * X) p s : keeps_off up -> h_same (Watch.hp (Watch.moveto up p s)) (Watch.hp s).
Proof. intros K. unfold Watch.moveto. destruct (trk (Watch.sc s)); [|reflexivity]. apply (h_same_up up p _ _ K). Qed.
Lemma moveto_sc {X} (up : Z -> heap * X -> heap * X) p s : Watch.sc (Watch.moveto up p s) = mkSc (full (Watch.sc s)) p (trk (Watch.sc s)).
Proof. unfold Watch.moveto. destruct (trk (Watch.sc s)) eqn:E; cbn; rewrite ?E; reflexivity. Qed.
Lemma basket_keeps_off {X} b : keeps_off (basket_up (X := X) b).
Proof. intros p h x. eexists. reflexivity. Qed.
Definition anyr (r : reader) : Prop := True.
Lemma anyr_r r : rallP anyr r.
Proof. apply (rallP_impl (fun r => (fun _ => true) r = true)); [intros; exact I|]. apply rallP_rall. revert r. fix IH 1. intros r.
  assert (Q : forall rs, forallb (rall (fun _ => true)) rs = true) by (induction rs; cbn; [auto|]; rewrite IH; auto).
  destruct r; cbn; rewrite ?IH, ?Q; auto.
Qed.
Lemma anyr_e e : eallP anyr e.
Proof. intros i r _. apply anyr_r. Qed.
Section Off.
Context {L : GoLib} {X1 X2 : Type} (up1 : Z -> heap * X1 -> heap * X1) (up2 : Z -> heap * X2 -> heap * X2) (K1 : keeps_off up1) (K2 : keeps_off up2).
Lemma Rn_full i (s : wst X1) (t : wst X2) : Rn i s t -> full (Watch.sc s) = full (Watch.sc t).
Proof. intros H. apply H. Qed.
Lemma Rn_pos i (s : wst X1) (t : wst X2) : Rn i s t -> pos (Watch.sc s) = pos (Watch.sc t).
Proof. intros H. apply H. Qed.
Lemma Rn_cells i (s : wst X1) (t : wst X2) : Rn i s t -> h_cells (Watch.hp s) = h_cells (Watch.hp t).
Proof. intros (_ & _ & H). apply h_same_parts in H. apply H. Qed.
Lemma Rn_logs i (s : wst X1) (t : wst X2) : Rn i s t -> h_logs (Watch.hp s) = h_logs (Watch.hp t).
Proof. intros (_ & _ & H). apply h_same_parts in H. apply H. Qed.
Lemma Rn_move i s t p : Rn i s t -> Rn i (Watch.moveto up1 p s) (Watch.moveto up2 p t).
Proof.
  intros (A & B & C). unfold Rn. rewrite !moveto_sc. cbn. split; auto. split; auto.
  pose proof (moveto_same up1 p s K1). pose proof (moveto_same up2 p t K2). unfold h_same in *. congruence.
Qed.
Lemma Rn_deed i (s : wst X1) (t : wst X2) f : deed anyr f -> Rn i s t -> Rn i (with_hp (f (Watch.hp s)) s) (with_hp (f (Watch.hp t)) t).
Proof. intros D (A & B & C). split; auto. split; auto. apply (h_same_deed _ _ _ _ D C). Qed.
Lemma Rn_sub i (s : wst X1) (t : wst X2) str : Rn i s t -> exists j, Rn j (sub_of str s) (sub_of str t) /\ forall s' t', Rn j s' t' -> Rn i (back_to s s') (back_to t t').
Proof. intros (A & B & C). exists tt. split; [split; auto|]. intros s' t' (_ & _ & C'). split; auto. Qed.
End Off.
Lemma compose {L : GoLib} {X} (up : Z -> heap * X -> heap * X) A (m1 : Watch.M (X := X) A) (m2 : nat -> Watch.M (X := unit) A) (m3 : M A) :
  (forall b i, WatchFacts.sim Rn i m1 (m2 b)) -> (forall b i, WatchBase.sim b i (m2 b) m3) -> unimpressed A m1 m3.
Proof.
  intros H1 H2 w t (E1 & E2 & E3). set (b := match trk (sc t) with Some b => b | None => 0%nat end).
  specialize (H1 b tt w (mkW t tt) (conj E1 (conj E2 E3))). specialize (H2 b tt (mkW t tt) t).
  assert (T : WatchBase.R b tt (mkW t tt) t). { split; auto. split; auto. unfold b. destruct (trk (sc t)); auto. }
  specialize (H2 T). destruct (m1 w) as [[a w']| |], (m2 b (mkW t tt)) as [[a' w2]| |], (m3 t) as [[a3 t']| |]; try tauto.
  destruct H1 as [-> H1]. destruct H2 as [-> (H2 & _)]. split; auto. destruct w2 as [s2 x2]. cbn in H2. subst s2. exact H1.
Qed.
Theorem C151_trackers_do_not_matter {L : GoLib} {X} (up : Z -> heap * X -> heap * X) : keeps_off up -> calls_agree up (@unimpressed X).
Proof.
  intros K x xs n m f k e r.
  pose proof (fun b => WatchFacts.sim_read (X2 := unit) up (basket_up b) Rn anyr Rn_full Rn_pos Rn_cells Rn_logs (Rn_move up (basket_up b) K (basket_keeps_off b)) (Rn_deed) Rn_sub e k (anyr_e e) r (anyr_r r)) as SR.
  repeat match goal with |- _ /\ _ => split end.
  - apply (compose up _ _ (fun b => Watch.if_str (basket_up b) x)); intros b i; [|apply WatchBase.sim_if_str]. eapply WatchFacts.sim_if_str; eauto using Rn_full, Rn_pos, Rn_cells, Rn_logs, Rn_move, basket_keeps_off.
  - apply (compose up _ _ (fun b => Watch.if_any (basket_up b) xs)); intros b i; [|apply WatchBase.sim_if_any]. eapply WatchFacts.sim_if_any; eauto using Rn_full, Rn_pos, Rn_cells, Rn_logs, Rn_move, basket_keeps_off.
  - apply (compose up _ _ (fun b => Watch.to_str (basket_up b) x)); intros b i; [|apply WatchBase.sim_to_str]. eapply WatchFacts.sim_to_str; eauto using Rn_full, Rn_pos, Rn_cells, Rn_logs, Rn_move, basket_keeps_off.
  - apply (compose up _ _ (fun b => Watch.scan_string (basket_up b) n)); intros b i; [|apply WatchBase.sim_scan_string]. eapply WatchFacts.sim_scan_string; eauto using Rn_full, Rn_pos, Rn_cells, Rn_logs, Rn_move, basket_keeps_off.
  - apply (compose up _ _ (fun b => Watch.if_fold (basket_up b) x)); intros b i; [|apply WatchBase.sim_if_fold]. eapply WatchFacts.sim_if_fold; eauto using Rn_full, Rn_pos, Rn_cells, Rn_logs, Rn_move, basket_keeps_off.
  - apply (compose up _ _ (fun b => Watch.to_fold (basket_up b) x)); intros b i; [|apply WatchBase.sim_to_fold]. eapply WatchFacts.sim_to_fold; eauto using Rn_full, Rn_pos, Rn_cells, Rn_logs, Rn_move, basket_keeps_off.
  - apply (compose up _ _ (fun b => Watch.if_rune (basket_up b) n)); intros b i; [|apply WatchBase.sim_if_rune]. eapply WatchFacts.sim_if_rune; eauto using Rn_full, Rn_pos, Rn_cells, Rn_logs, Rn_move, basket_keeps_off.
  - apply (compose up _ _ (fun b => Watch.to_rune (basket_up b) n)); intros b i; [|apply WatchBase.sim_to_rune]. eapply WatchFacts.sim_to_rune; eauto using Rn_full, Rn_pos, Rn_cells, Rn_logs, Rn_move, basket_keeps_off.
  - apply (compose up _ _ (fun b => Watch.while_rune (basket_up b) n)); intros b i; [|apply WatchBase.sim_while_rune]. eapply WatchFacts.sim_while_rune; eauto using Rn_full, Rn_pos, Rn_cells, Rn_logs, Rn_move, basket_keeps_off.
  - apply (compose up _ _ (fun b => Watch.if_any_rune (basket_up b) x)); intros b i; [|apply WatchBase.sim_if_any_rune]. eapply WatchFacts.sim_if_any_rune; eauto using Rn_full, Rn_pos, Rn_cells, Rn_logs, Rn_move, basket_keeps_off.
  - apply (compose up _ _ (fun b => Watch.to_any_rune (basket_up b) x)); intros b i; [|apply WatchBase.sim_to_any_rune]. eapply WatchFacts.sim_to_any_rune; eauto using Rn_full, Rn_pos, Rn_cells, Rn_logs, Rn_move, basket_keeps_off.
  - apply (compose up _ _ (fun b => Watch.while_any_rune (basket_up b) x)); intros b i; [|apply WatchBase.sim_while_any_rune]. eapply WatchFacts.sim_while_any_rune; eauto using Rn_full, Rn_pos, Rn_cells, Rn_logs, Rn_move, basket_keeps_off.
  - apply (compose up _ _ (fun b => Watch.if_between (basket_up b) n m)); intros b i; [|apply WatchBase.sim_if_between]. eapply WatchFacts.sim_if_between; eauto using Rn_full, Rn_pos, Rn_cells, Rn_logs, Rn_move, basket_keeps_off.
  - apply (compose up _ _ (fun b => Watch.to_between (basket_up b) n m)); intros b i; [|apply WatchBase.sim_to_between]. eapply WatchFacts.sim_to_between; eauto using Rn_full, Rn_pos, Rn_cells, Rn_logs, Rn_move, basket_keeps_off.
  - apply (compose up _ _ (fun b => Watch.while_between (basket_up b) n m)); intros b i; [|apply WatchBase.sim_while_between]. eapply WatchFacts.sim_while_between; eauto using Rn_full, Rn_pos, Rn_cells, Rn_logs, Rn_move, basket_keeps_off.
  - apply (compose up _ _ (fun b => Watch.if_match (basket_up b) f)); intros b i; [|apply WatchBase.sim_if_match]. eapply WatchFacts.sim_if_match; eauto using Rn_full, Rn_pos, Rn_cells, Rn_logs, Rn_move, basket_keeps_off.
  - apply (compose up _ _ (fun b => Watch.to_match (basket_up b) f)); intros b i; [|apply WatchBase.sim_to_match]. eapply WatchFacts.sim_to_match; eauto using Rn_full, Rn_pos, Rn_cells, Rn_logs, Rn_move, basket_keeps_off.
  - apply (compose up _ _ (fun b => Watch.while_match (basket_up b) f)); intros b i; [|apply WatchBase.sim_while_match]. eapply WatchFacts.sim_while_match; eauto using Rn_full, Rn_pos, Rn_cells, Rn_logs, Rn_move, basket_keeps_off.
  - apply (compose up _ _ (fun b => Watch.move (basket_up b) n)); intros b i; [|apply WatchBase.sim_move]. eapply WatchFacts.sim_move; eauto using Rn_full, Rn_pos, Rn_cells, Rn_logs, Rn_move, basket_keeps_off.
  - apply (compose up _ _ (fun b => Watch.move_runes (basket_up b) n)); intros b i; [|apply WatchBase.sim_move_runes]. eapply WatchFacts.sim_move_runes; eauto using Rn_full, Rn_pos, Rn_cells, Rn_logs, Rn_move, basket_keeps_off.
  - apply (compose up _ _ (fun b => Watch.to_marker (basket_up b) n)); intros b i; [|apply WatchBase.sim_marker]. eapply WatchFacts.sim_marker; eauto using Rn_full, Rn_pos, Rn_cells, Rn_logs, Rn_move, basket_keeps_off.
  - apply (compose up _ _ (fun b => Watch.to_end (basket_up b))); intros b i; [|apply WatchBase.sim_to_end]. eapply WatchFacts.sim_to_end; eauto using Rn_full, Rn_pos, Rn_cells, Rn_logs, Rn_move, basket_keeps_off.
  - apply (compose up _ _ (fun b => Watch.to_start (basket_up b))); intros b i; [|apply WatchBase.sim_marker]. eapply WatchFacts.sim_marker; eauto using Rn_full, Rn_pos, Rn_cells, Rn_logs, Rn_move, basket_keeps_off.
  - apply (compose up _ _ (fun b => Watch.rev_if (basket_up b) x)); intros b i; [|apply WatchBase.sim_rev_if]. eapply WatchFacts.sim_rev_if; eauto using Rn_full, Rn_pos, Rn_cells, Rn_logs, Rn_move, basket_keeps_off.
  - apply (compose up _ _ (fun b => Watch.rev_if_any (basket_up b) xs)); intros b i; [|apply WatchBase.sim_rev_if_any]. eapply WatchFacts.sim_rev_if_any; eauto using Rn_full, Rn_pos, Rn_cells, Rn_logs, Rn_move, basket_keeps_off.
  - apply (compose up _ _ (fun b => Watch.rev_to (basket_up b) x)); intros b i; [|apply WatchBase.sim_rev_to]. eapply WatchFacts.sim_rev_to; eauto using Rn_full, Rn_pos, Rn_cells, Rn_logs, Rn_move, basket_keeps_off.
  - apply (compose up _ _ (fun b => Watch.rev_if_fold (basket_up b) x)); intros b i; [|apply WatchBase.sim_rev_if_fold]. eapply WatchFacts.sim_rev_if_fold; eauto using Rn_full, Rn_pos, Rn_cells, Rn_logs, Rn_move, basket_keeps_off.
  - apply (compose up _ _ (fun b => Watch.rev_to_fold (basket_up b) x)); intros b i; [|apply WatchBase.sim_rev_to_fold]. eapply WatchFacts.sim_rev_to_fold; eauto using Rn_full, Rn_pos, Rn_cells, Rn_logs, Rn_move, basket_keeps_off.
  - apply (compose up _ _ (fun b => Watch.rev_if_rune (basket_up b) n)); intros b i; [|apply WatchBase.sim_rev_if_rune]. eapply WatchFacts.sim_rev_if_rune; eauto using Rn_full, Rn_pos, Rn_cells, Rn_logs, Rn_move, basket_keeps_off.
  - apply (compose up _ _ (fun b => Watch.rev_to_rune (basket_up b) n)); intros b i; [|apply WatchBase.sim_rev_to_rune]. eapply WatchFacts.sim_rev_to_rune; eauto using Rn_full, Rn_pos, Rn_cells, Rn_logs, Rn_move, basket_keeps_off.
  - apply (compose up _ _ (fun b => Watch.rev_while_rune (basket_up b) n)); intros b i; [|apply WatchBase.sim_rev_while]. eapply WatchFacts.sim_rev_while; eauto using Rn_full, Rn_pos, Rn_cells, Rn_logs, Rn_move, basket_keeps_off.
  - apply (compose up _ _ (fun b => Watch.rev_if_any_rune (basket_up b) x)); intros b i; [|apply WatchBase.sim_rev_if_any_rune]. eapply WatchFacts.sim_rev_if_any_rune; eauto using Rn_full, Rn_pos, Rn_cells, Rn_logs, Rn_move, basket_keeps_off.
  - apply (compose up _ _ (fun b => Watch.rev_to_any_rune (basket_up b) x)); intros b i; [|apply WatchBase.sim_rev_to_any_rune]. eapply WatchFacts.sim_rev_to_any_rune; eauto using Rn_full, Rn_pos, Rn_cells, Rn_logs, Rn_move, basket_keeps_off.
  - apply (compose up _ _ (fun b => Watch.rev_while_any_rune (basket_up b) x)); intros b i; [|apply WatchBase.sim_rev_while]. eapply WatchFacts.sim_rev_while; eauto using Rn_full, Rn_pos, Rn_cells, Rn_logs, Rn_move, basket_keeps_off.
  - apply (compose up _ _ (fun b => Watch.rev_if_between (basket_up b) n m)); intros b i; [|apply WatchBase.sim_rev_if_between]. eapply WatchFacts.sim_rev_if_between; eauto using Rn_full, Rn_pos, Rn_cells, Rn_logs, Rn_move, basket_keeps_off.
  - apply (compose up _ _ (fun b => Watch.rev_to_between (basket_up b) n m)); intros b i; [|apply WatchBase.sim_rev_to_between]. eapply WatchFacts.sim_rev_to_between; eauto using Rn_full, Rn_pos, Rn_cells, Rn_logs, Rn_move, basket_keeps_off.
  - apply (compose up _ _ (fun b => Watch.rev_while_between (basket_up b) n m)); intros b i; [|apply WatchBase.sim_rev_while]. eapply WatchFacts.sim_rev_while; eauto using Rn_full, Rn_pos, Rn_cells, Rn_logs, Rn_move, basket_keeps_off.
  - apply (compose up _ _ (fun b => Watch.rev_if_match (basket_up b) f)); intros b i; [|apply WatchBase.sim_rev_if_match]. eapply WatchFacts.sim_rev_if_match; eauto using Rn_full, Rn_pos, Rn_cells, Rn_logs, Rn_move, basket_keeps_off.
  - apply (compose up _ _ (fun b => Watch.rev_to_match (basket_up b) f)); intros b i; [|apply WatchBase.sim_rev_to_match]. eapply WatchFacts.sim_rev_to_match; eauto using Rn_full, Rn_pos, Rn_cells, Rn_logs, Rn_move, basket_keeps_off.
  - apply (compose up _ _ (fun b => Watch.rev_while_match (basket_up b) f)); intros b i; [|apply WatchBase.sim_rev_while]. eapply WatchFacts.sim_rev_while; eauto using Rn_full, Rn_pos, Rn_cells, Rn_logs, Rn_move, basket_keeps_off.
  - apply (compose up _ _ (fun b => Watch.read_rune (basket_up b))); intros b i; [|apply WatchBase.sim_read_rune]. eapply WatchFacts.sim_read_rune; eauto using Rn_full, Rn_pos, Rn_cells, Rn_logs, Rn_move, basket_keeps_off.
  - apply (compose up _ _ (fun b => Watch.rev_read_rune (basket_up b))); intros b i; [|apply WatchBase.sim_rev_read_rune]. eapply WatchFacts.sim_rev_read_rune; eauto using Rn_full, Rn_pos, Rn_cells, Rn_logs, Rn_move, basket_keeps_off.
  - apply (compose up _ _ (fun b => Watch.read_bool (basket_up b) x)); intros b i; [|apply WatchBase.sim_read_bool]. eapply WatchFacts.sim_read_bool; eauto using Rn_full, Rn_pos, Rn_cells, Rn_logs, Rn_move, basket_keeps_off.
  - apply (compose up _ _ (fun b => Watch.read_int (basket_up b) n m)); intros b i; [|apply WatchBase.sim_read_int]. eapply WatchFacts.sim_read_int; eauto using Rn_full, Rn_pos, Rn_cells, Rn_logs, Rn_move, basket_keeps_off.
  - apply (compose up _ _ (fun b => Watch.read_uint (basket_up b) n m)); intros b i; [|apply WatchBase.sim_read_uint]. eapply WatchFacts.sim_read_uint; eauto using Rn_full, Rn_pos, Rn_cells, Rn_logs, Rn_move, basket_keeps_off.
  - apply (compose up _ _ (fun b => Watch.read (basket_up b) k e r)); intros b i; [|apply WatchBase.sim_read]. apply SR.
  - apply (compose up _ _ (fun b => Watch.use (basket_up b) (Watch.read (basket_up b) k e r))); intros b i; [|apply WatchBase.sim_use, WatchBase.sim_read]. eapply WatchFacts.sim_use; eauto using Rn_full, Rn_pos, Rn_cells, Rn_logs, Rn_move, basket_keeps_off.
  - apply (compose up _ _ (fun b => Watch.trace_use (basket_up b) (Watch.read (basket_up b) k e r))); intros b i; [|apply WatchBase.sim_trace_use, WatchBase.sim_read]. eapply WatchFacts.sim_trace_use; eauto using Rn_full, Rn_pos, Rn_cells, Rn_logs, Rn_move, basket_keeps_off.
  - apply (compose up _ _ (fun b => Watch.tokenize_use (basket_up b) (Watch.read (basket_up b) k e r))); intros b i; [|apply WatchBase.sim_tokenize_use, WatchBase.sim_read]. eapply WatchFacts.sim_tokenize_use; eauto using Rn_full, Rn_pos, Rn_cells, Rn_logs, Rn_move, basket_keeps_off.
  - apply (compose up _ _ (fun b => Watch.capture_use (basket_up b) (Watch.read (basket_up b) k e r))); intros b i; [|apply WatchBase.sim_capture_use, WatchBase.sim_read]. eapply WatchFacts.sim_capture_use; eauto using Rn_full, Rn_pos, Rn_cells, Rn_logs, Rn_move, basket_keeps_off.
Qed.
Print Assumptions C151_trackers_do_not_matter.
(** The calls that take functions: if a function f1 of a program with the Tracker does what f2 does without, then so do Scope,
    Trace, While, Tokenize and Capture with them. *)
Section Callbacks.
Context {L : GoLib} {X : Type} (up : Z -> heap * X -> heap * X) (K : keeps_off up).
Notation un := (@unimpressed X _).
Lemma un_bind {A B} (m1 : Watch.M A) m2 (f : A -> Watch.M B) g : un m1 m2 -> (forall a, un (f a) (g a)) -> un (Watch.bind m1 f) (bind m2 g).
Proof.
  intros H1 H2 w t S. specialize (H1 w t S). unfold Watch.bind, bind. destruct (m1 w) as [[a w']| |], (m2 t) as [[a' t']| |]; try tauto.
  destruct H1 as [-> H1]. exact (H2 a' w' t' H1).
Qed.
Lemma un_ret {A} (a : A) : un (Watch.ret a) (ret a).
Proof. intros w t S. cbn. auto. Qed.
Lemma un_mark : un Watch.mark mark.
Proof. intros w t S. cbn. split; [apply S|exact S]. Qed.
Lemma un_marker p : un (Watch.to_marker up p) (to_marker p).
Proof. apply (C151_trackers_do_not_matter up K [] [] p 0 (fun _ => true) 0%nat [] (RRule 0)). Qed.
Lemma un_get q : un (Watch.get_tok q) (get_tok q).
Proof. intros w t (S1 & S2 & S3). unfold Watch.get_tok, get_tok. rewrite S1. destruct (_ && _ && _); auto. split; auto. split; auto. Qed.
Lemma un_since p : un (Watch.since p) (since p).
Proof. apply un_bind; [apply un_mark|]. intros a. apply un_get. Qed.
Lemma un_while n f1 f2 : un f1 f2 -> un (Watch.while_loop n f1) (while_loop n f2).
Proof.
  intros H. induction n as [|n IH]; [intros w t S; exact I|]. cbn. apply un_bind; auto. intros []; auto. apply un_ret.
Qed.
Theorem C151_callbacks f1 f2 n : un f1 f2 ->
  un (Watch.scope up f1) (scope f2) /\ un (Watch.trace up f1) (trace f2) /\ un (Watch.while_f n f1) (while_f n f2) /\
  un (Watch.tokenize up f1) (tokenize f2) /\ un (Watch.capture up f1) (capture f2).
Proof.
  intros H. assert (T : un (Watch.tokenize up f1) (tokenize f2)).
  { apply un_bind; [apply un_mark|]. intros a. apply un_bind; [exact H|]. intros r. apply un_bind; [apply un_mark|]. intros b.
    destruct r; [apply un_ret|]. apply un_bind; [apply un_marker|]. intros _. apply un_ret. }
  split; [|split; [|split; [|split; [exact T|] ] ] ].
  - apply un_bind; [apply un_mark|]. intros a. apply un_bind; [exact H|]. intros []; [apply un_ret|]. apply un_bind; [apply un_marker|]. intros _. apply un_ret.
  - apply un_bind; [apply un_mark|]. intros a. apply un_bind; [exact H|]. intros r. apply un_bind; [apply un_since|]. intros str.
    destruct r; [apply un_ret|]. apply un_bind; [apply un_marker|]. intros _. apply un_ret.
  - apply un_bind; [apply un_mark|]. intros a. apply un_bind; [apply un_while, H|]. intros _. apply un_bind; [apply un_mark|]. intros b. apply un_ret.
  - apply un_bind; [exact T|]. intros [q []]; cbn; [|apply un_ret]. apply un_bind; [apply un_get|]. intros str. apply un_ret.
Qed.
End Callbacks.
Print Assumptions C151_callbacks.


(* ------------------------------------------------------------------- C152 *)

(** [ms] is what a Tracker is told (the markers of its Updates, in order) while [m] runs from [s], with result [y] in [w]. *)
Definition told {A} (m : Watch.M (X := list Z) A) (s : st) (y : A) (ms : list Z) (w : wst (list Z)) : Prop :=
  m (mkW s []) = Ok (y, w) /\ w_x w = ms.
(** A Tracker whose state depends on what it was told only *)
Definition own_state {X} (g : X -> Z -> X) (up : Z -> heap * X -> heap * X) : Prop := forall p h x, snd (up p (h, x)) = g x p.

Section Told.
Context {L : GoLib} {X : Type} (up : Z -> heap * X -> heap * X) (g : X -> Z -> X) (K : keeps_off up) (O : own_state g up) (x0 : X).
Definition Rt (i : unit) (s : wst X) (t : wst (list Z)) : Prop :=
  Watch.sc s = Watch.sc t /\ h_same (Watch.hp s) (Watch.hp t) /\ w_x s = fold_left g (w_x t) x0.
Lemma Rt_full i s t : Rt i s t -> full (Watch.sc s) = full (Watch.sc t).
Proof. intros (-> & _). reflexivity. Qed.
Lemma Rt_pos i s t : Rt i s t -> pos (Watch.sc s) = pos (Watch.sc t).
Proof. intros (-> & _). reflexivity. Qed.
Lemma Rt_cells i s t : Rt i s t -> h_cells (Watch.hp s) = h_cells (Watch.hp t).
Proof. intros (_ & H & _). apply h_same_parts in H. apply H. Qed.
Lemma Rt_logs i s t : Rt i s t -> h_logs (Watch.hp s) = h_logs (Watch.hp t).
Proof. intros (_ & H & _). apply h_same_parts in H. apply H. Qed.
Lemma Rt_move i s t p : Rt i s t -> Rt i (Watch.moveto up p s) (Watch.moveto record p t).
Proof.
  intros (A & B & C). unfold Rt. rewrite !moveto_sc, A. split; auto. split.
  - pose proof (moveto_same up p s K). assert (E : h_same (Watch.hp (Watch.moveto record p t)) (Watch.hp t)).
    { unfold Watch.moveto. destruct (trk (Watch.sc t)); reflexivity. } unfold h_same in *. congruence.
  - unfold Watch.moveto. rewrite A. destruct (trk (Watch.sc t)); [|exact C]. cbn. rewrite O, fold_left_app, C. reflexivity.
Qed.
Lemma Rt_deed i s t f : deed anyr f -> Rt i s t -> Rt i (with_hp (f (Watch.hp s)) s) (with_hp (f (Watch.hp t)) t).
Proof. intros D (A & B & C). split; auto. split; auto. apply (h_same_deed _ _ _ _ D B). Qed.
Lemma Rt_sub i s t str : Rt i s t -> exists j, Rt j (sub_of str s) (sub_of str t) /\ forall s' t', Rt j s' t' -> Rt i (back_to s s') (back_to t t').
Proof. intros (A & B & C). exists tt. split; [split; auto|]. intros s' t' (_ & B' & C'). split; auto. Qed.
Lemma Rt_read e k r i : WatchFacts.sim Rt i (Watch.read up k e r) (Watch.read record k e r).
Proof. apply (WatchFacts.sim_read up record Rt anyr Rt_full Rt_pos Rt_cells Rt_logs Rt_move Rt_deed Rt_sub e k (anyr_e e) r (anyr_r r)). Qed.
End Told.

(** All Trackers are told the same: whatever [up] does, its state in the end comes of [ms]. *)
Theorem C152_all_are_told_the_same {L : GoLib} {X} (up : Z -> heap * X -> heap * X) g x0 k e r s y ms w : keeps_off up -> own_state g up ->
  told (Watch.read record k e r) s y ms w ->
  exists w', Watch.read up k e r (mkW s x0) = Ok (y, w') /\ w_x w' = fold_left g ms x0 /\ Watch.sc w' = Watch.sc w.
Proof.
  intros K O [H <-]. assert (R0 : Rt g x0 tt (mkW s x0) (mkW s [])) by (split; auto; split; reflexivity).
  pose proof (Rt_read up g K O x0 e k r tt _ _ R0) as S. rewrite H in S. destruct (Watch.read up k e r (mkW s x0)) as [[a w']| |]; try tauto.
  destruct S as (-> & A & _ & C). eauto.
Qed.
Print Assumptions C152_all_are_told_the_same.

(** The last Update names the position; a Tracker of another scanner is told nothing. *)
Definition Rl (p0 : Z) (i : option (list Z)) (s t : wst (list Z)) : Prop := s = t /\
  match i with
  | None => trk (Watch.sc s) <> None /\ last (w_x s) p0 = pos (Watch.sc s)
  | Some x => trk (Watch.sc s) = None /\ w_x s = x
  end.
Lemma last_snoc (l : list Z) a d : last (l ++ [a]) d = a.
Proof. induction l as [|b l IH]; [reflexivity|]. cbn. destruct (l ++ [a]) eqn:E; [destruct l; discriminate|exact IH]. Qed.
Lemma Rl_move p0 i s t p : Rl p0 i s t -> Rl p0 i (Watch.moveto record p s) (Watch.moveto record p t).
Proof.
  intros (<- & H). split; auto. rewrite moveto_sc. cbn [trk pos]. destruct i as [x|].
  - destruct H as [T E]. split; auto. unfold Watch.moveto. rewrite T. exact E.
  - destruct H as [T E]. split; auto. unfold Watch.moveto. destruct (trk (Watch.sc s)); [|congruence]. cbn. apply last_snoc.
Qed.
Lemma Rl_read {L : GoLib} p0 e k r i : WatchFacts.sim (Rl p0) i (Watch.read record k e r) (Watch.read record k e r).
Proof.
  apply (WatchFacts.sim_read record record (Rl p0) anyr); try exact (anyr_e e); try exact (anyr_r r).
  - intros j s t (-> & _). reflexivity.
  - intros j s t (-> & _). reflexivity.
  - intros j s t (-> & _). reflexivity.
  - intros j s t (-> & _). reflexivity.
  - intros. apply Rl_move; auto.
  - intros j s t f D (-> & H). split; auto.
  - intros j s t str (<- & H). exists (Some (w_x s)). split; [split; auto; split; auto|]. intros s' t' (<- & T & E). split; auto.
    destruct j; cbn; destruct H; split; auto; congruence.
Qed.
Theorem C152_last_is_the_position {L : GoLib} k e r s y ms w : trk (sc s) <> None -> told (Watch.read record k e r) s y ms w ->
  last ms (pos (sc s)) = pos (Watch.sc w).
Proof.
  intros T [H <-]. assert (R0 : Rl (pos (sc s)) None (mkW s []) (mkW s [])) by (split; auto; split; auto).
  pose proof (Rl_read (pos (sc s)) e k r None _ _ R0) as S. rewrite H in S. apply S.
Qed.
Print Assumptions C152_last_is_the_position.
Theorem C152_uncoupled {L : GoLib} k e r s y ms w : trk (sc s) = None -> told (Watch.read record k e r) s y ms w -> ms = [].
Proof.
  intros T [H <-]. assert (R0 : Rl 0 (Some []) (mkW s []) (mkW s [])) by (split; auto; split; auto).
  pose proof (Rl_read 0 e k r (Some []) _ _ R0) as S. rewrite H in S. apply S.
Qed.
Print Assumptions C152_uncoupled.

(** Every marker lies between the beginning of the Read and the end of the text. *)
Theorem C152_markers_in_text {L : GoLib} k e r s y ms w : eall no_wrap e -> rall no_wrap r = true -> in_text s ->
  told (Watch.read record k e r) s y ms w -> Forall (fun m => pos (sc s) <= m <= slen (full (sc s))) ms.
Proof.
  intros He Hr I [H <-]. destruct (trk (sc s)) as [b|] eqn:T.
  2:{ rewrite (C152_uncoupled k e r s y (w_x w) w T (conj H eq_refl)). constructor. }
  assert (F0 : forall n t k a0 a r, rallP (fun r => no_wrap r = true) r -> WatchFwd.fw true t k a0 a (Watch.read record n e r)).
  { intros n. apply (WatchFwd.fw_readP e (fun r => no_wrap r = true) true); auto; try (apply eallP_eall; exact He). intros w0 f0 Q. discriminate Q. }
  assert (F := F0 k (full (sc s)) (Some b, []) (pos (sc s)) (pos (sc s)) r (proj1 (rallP_rall _ _) Hr) (mkW s [])).
  rewrite H in F. destruct F as (_ & _ & _ & _ & new & E & A & _).
  - split; [exact I|]. split; auto. split; [exact T|]. split; [unfold Watch.sc; cbn [w_st]; lia|]. exists []. split; auto.
  - cbn in E. rewrite E. exact A.
Qed.
Print Assumptions C152_markers_in_text.

(** A Use that fails ends with an Update for the position where it began. *)
Theorem C152_failed_use {L : GoLib} k e r s x ms w : trk (sc s) <> None -> 0 <= pos (sc s) ->
  told (Watch.use record (Watch.read record k e r)) s (Some x) ms w -> exists ms', ms = ms' ++ [pos (sc s)] /\ pos (Watch.sc w) = pos (sc s).
Proof.
  intros T P [H <-]. unfold Watch.use, Watch.bind at 1 2, Watch.mark, Watch.gets in H.
  assert (R0 : Rl (pos (sc s)) None (mkW s []) (mkW s [])) by (split; auto; split; auto).
  pose proof (Rl_read (pos (sc s)) e k r None _ _ R0) as S.
  destruct (Watch.read record k e r (mkW s [])) as [[[y|] w1]| |]; try discriminate. destruct S as (_ & _ & T1 & _).
  unfold Watch.bind in H. change (pos (Watch.sc (mkW s []))) with (pos (sc s)) in H. unfold Watch.to_marker in H. replace (pos (sc s) <? 0) with false in H by lia.
  cbn [andb] in H. injection H as _ <-. rewrite moveto_sc. exists (w_x w1). split; [|reflexivity]. unfold Watch.moveto. destruct (trk (Watch.sc w1)); [|congruence]. reflexivity.
Qed.
Print Assumptions C152_failed_use.

(** A scanner in the middle of a text, coupled with a Tracker; a failing first alternative, a Pick and a lookahead *)
Definition w_reader : reader := RSeq [RAny [RSeq [RLit (lit "ab"); RLit (lit "x")]; RPick (lit "p") 3 (RLit (lit "abc"))]; RAt (RLit (lit "d"))].
Definition w_state : st := mkSt (mkSc (lit "--abcd") 2 (Some 0%nat)) heap0.
Example C152_case {L : GoLib} : exists w, told (Watch.read record 10 [] w_reader) w_state None [4; 2; 5; 6; 5] w /\ pos (Watch.sc w) = 5.
Proof. eexists. split; [split|]; vm_compute; reflexivity. Qed.
Example C152_case_sum {L : GoLib} : exists w, Watch.read (fun p hx => (fst hx, snd hx + p)) 10 [] w_reader (mkW w_state 100) = Ok (None, w) /\ w_x w = 100 + 4 + 2 + 5 + 6 + 5.
Proof. eexists. split; vm_compute; reflexivity. Qed.
Example C152_case_hyps {L : GoLib} : keeps_off (X := Z) (fun p hx => (fst hx, snd hx + p)) /\ own_state (fun x p => x + p) (fun p hx => (fst hx, snd hx + p)) /\
  rall no_wrap w_reader = true /\ eall no_wrap [] /\ in_text w_state /\ trk (sc w_state) <> None.
Proof.
  split; [intros p h x; exists (h_baskets h); destruct h; reflexivity|]. split; [intros p h x; reflexivity|]. split; [reflexivity|]. split; [intros [|i] r H; discriminate|].
  split; [in_here|discriminate].
Qed.
(** The bound below is met: the Update with marker 2 names the beginning. It is not met without the condition on user functions. *)
Example C152_wrap_case {L : GoLib} : exists w, told (Watch.read record 10 [] (RWrap (lit "back") (fun _ _ => ([0; 9], None)))) w_state None [0; 9] w.
Proof. eexists. split; vm_compute; reflexivity. Qed.
Example C152_failed_case {L : GoLib} : exists w, told (Watch.use record (Watch.read record 10 [] (RTimes 2 (RLit (lit "ab"))))) w_state (Some (EReadError 4 (quote_str (lit "ab")))) [4; 2] w.
Proof. eexists. split; vm_compute; reflexivity. Qed.

(* ------------------------------------------------------------------- C153 *)

(** A Tracker that passes every Update on to the Baskets [bs] *)
Definition fan {X} (bs : list nat) (p : Z) (hx : heap * X) : heap * X := (fold_left (fun h b => track (Some b) p h) bs (fst hx), snd hx).
Lemma fan_off {X} bs : keeps_off (fan (X := X) bs).
Proof.
  intros p h x. unfold fan. cbn [fst]. revert h. induction bs as [|b bs IH]; intros h; [exists (h_baskets h); destruct h; reflexivity|].
  cbn [fold_left]. destruct (IH (track (Some b) p h)) as [l ->]. exists l. reflexivity.
Qed.
Lemma update_again p l : basket_update p (basket_update p l) = basket_update p l.
Proof.
  unfold basket_update. rewrite rev_involutive. f_equal. induction (rev l) as [|a t IH]; [reflexivity|]. cbn [drop_behind].
  destruct (t_to (s_tok a) <=? p) eqn:E; [|exact IH]. cbn [drop_behind]. rewrite E. reflexivity.
Qed.
Lemma fan_basket {X} bs b p : forall h (x : X), get_basket b (fst (fan bs p (h, x))) = if existsb (Nat.eqb b) bs then basket_update p (get_basket b h) else get_basket b h.
Proof.
  unfold fan. cbn [fst]. induction bs as [|c bs IH]; intros h x; [reflexivity|]. cbn [fold_left existsb]. rewrite (IH _ x). cbn [track]. destruct (Nat.eqb_spec b c) as [->|N].
  - rewrite get_put_basket. cbn [orb]. destruct (existsb _ bs); [apply update_again|reflexivity].
  - rewrite other_basket by auto. reflexivity.
Qed.
(** Same scanner but for which Tracker it has, same objects but for the Baskets, same contents of Basket [b] *)
Definition Rf {X1 X2} (b : nat) (on : bool) (i : unit) (s : wst X1) (t : wst X2) : Prop :=
  full (Watch.sc s) = full (Watch.sc t) /\ pos (Watch.sc s) = pos (Watch.sc t) /\ h_same (Watch.hp s) (Watch.hp t) /\
  get_basket b (Watch.hp s) = get_basket b (Watch.hp t) /\ (on = true -> (trk (Watch.sc s) = None <-> trk (Watch.sc t) = None)) /\ (on = false -> trk (Watch.sc t) = None).
Lemma deed_basket P f b h1 h2 : deed P f -> get_basket b h1 = get_basket b h2 -> get_basket b (f h1) = get_basket b (f h2).
Proof.
  intros D E. destruct D; try exact E. unfold basket_add. destruct (Nat.eq_dec b0 b) as [->|N]; [rewrite !get_put_basket, E; reflexivity|rewrite !other_basket by auto; exact E].
Qed.
Lemma Rf_read {L : GoLib} {X1 X2} bs b e k r on i : existsb (Nat.eqb b) bs = on ->
  WatchFacts.sim (Rf b on) i (Watch.read (fan (X := X1) bs) k e r) (Watch.read (basket_up (X := X2) b) k e r).
Proof.
  intros On. apply (WatchFacts.sim_read (fan bs) (basket_up b) (Rf b on) anyr); try exact (anyr_e e); try exact (anyr_r r).
  - intros j s t H. apply H.
  - intros j s t H. apply H.
  - intros j s t (_ & _ & H & _). apply h_same_parts in H. apply H.
  - intros j s t (_ & _ & H & _). apply h_same_parts in H. apply H.
  - intros j s t p (A & B & C & D & E & F). unfold Rf. rewrite !moveto_sc. cbn [full pos trk]. split; auto. split; auto. split.
    { pose proof (moveto_same (fan bs) p s (fan_off bs)). pose proof (moveto_same (basket_up b) p t (basket_keeps_off b)). unfold h_same in *. congruence. }
    split; [|auto]. unfold Watch.moveto. destruct on.
    + specialize (E eq_refl). destruct (trk (Watch.sc s)), (trk (Watch.sc t)); try exact D; try (exfalso; destruct E; intuition discriminate).
      cbn [Watch.hp w_st State.hp]. change (Watch.hp (mkW (mkSt ?c ?h) ?x)) with h. rewrite fan_basket, On. unfold Watch.hp at 2. cbn [w_st State.hp basket_up fst track]. rewrite get_put_basket, D. reflexivity.
    + rewrite (F eq_refl). destruct (trk (Watch.sc s)); [|exact D]. unfold Watch.hp at 1. cbn [w_st State.hp]. rewrite fan_basket, On. exact D.
  - intros j s t f Df (A & B & C & D & E & F). split; auto. split; auto. split; [apply (h_same_deed _ _ _ _ Df C)|]. split; [apply (deed_basket _ _ _ _ _ Df D)|auto].
  - intros j s t str (A & B & C & D & E & F). exists tt. split; [repeat split; auto|]. intros s' t' (_ & _ & C' & D' & _). split; auto.
Qed.
(** Whichever Baskets the Tracker serves, each of them holds in the end what it would hold if it were the Tracker of the scanner itself ... *)
Theorem C153_every_basket_as_if_alone {L : GoLib} {X} bs b k e r s c (x : X) : In b bs -> trk (sc s) = Some c ->
  let t := mkSt (mkSc (full (sc s)) (pos (sc s)) (Some b)) (hp s) in
  match Watch.read (fan bs) k e r (mkW s x), read k e r t with
  | Ok (y, w), Ok (y', t') => y = y' /\ pos (Watch.sc w) = pos (sc t') /\ get_basket b (Watch.hp w) = get_basket b (hp t')
  | Panic, Panic => True
  | Fuel, Fuel => True
  | _, _ => False
  end.
Proof.
  intros B T t. assert (On : existsb (Nat.eqb b) bs = true). { apply existsb_exists. exists b. split; auto. apply Nat.eqb_refl. }
  assert (R0 : Rf b true tt (mkW s x) (mkW t tt)). { repeat split; auto; try (unfold Watch.sc; cbn; rewrite ?T; discriminate). }
  pose proof (Rf_read bs b e k r true tt On _ _ R0) as S.
  pose proof (WatchBase.sim_read (X1 := unit) b e k r tt (mkW t tt) t (conj eq_refl (conj eq_refl (or_intror eq_refl)))) as S2.
  destruct (Watch.read (fan bs) k e r (mkW s x)) as [[y w]| |], (Watch.read (basket_up b) k e r (mkW t tt)) as [[y2 w2]| |], (read k e r t) as [[y3 t']| |]; try tauto.
  destruct S as (-> & _ & A2 & _ & A4 & _), S2 as (-> & <- & _). auto.
Qed.
Print Assumptions C153_every_basket_as_if_alone.
(** ... and every other Basket what it would hold without a Tracker. *)
Theorem C153_other_baskets {L : GoLib} {X} bs b k e r s (x : X) : ~ In b bs ->
  let t := mkSt (mkSc (full (sc s)) (pos (sc s)) None) (hp s) in
  match Watch.read (fan bs) k e r (mkW s x), read k e r t with
  | Ok (y, w), Ok (y', t') => y = y' /\ pos (Watch.sc w) = pos (sc t') /\ get_basket b (Watch.hp w) = get_basket b (hp t')
  | Panic, Panic => True
  | Fuel, Fuel => True
  | _, _ => False
  end.
Proof.
  intros B t. assert (On : existsb (Nat.eqb b) bs = false). { apply Bool.not_true_iff_false. intros E. apply existsb_exists in E as (b' & H & E). apply Nat.eqb_eq in E. subst. auto. }
  assert (R0 : Rf b false tt (mkW s x) (mkW t tt)) by (repeat split; auto; discriminate).
  pose proof (Rf_read bs b e k r false tt On _ _ R0) as S.
  pose proof (WatchBase.sim_read (X1 := unit) b e k r tt (mkW t tt) t (conj eq_refl (conj eq_refl (or_introl eq_refl)))) as S2.
  destruct (Watch.read (fan bs) k e r (mkW s x)) as [[y w]| |], (Watch.read (basket_up b) k e r (mkW t tt)) as [[y2 w2]| |], (read k e r t) as [[y3 t']| |]; try tauto.
  destruct S as (-> & _ & A2 & _ & A4 & _), S2 as (-> & <- & _). auto.
Qed.
Print Assumptions C153_other_baskets.

(** Two Baskets, one of them in use: both are cleared of what was picked on the way to a failure, a third one is not. *)
Definition w_two : reader := RAny [RSeq [RPick (lit "a") 1 (RPick (lit "b") 2 (RPick (lit "c") 3 (RLit (lit "ab")))); RLit (lit "x")]; RPick (lit "d") 1 (RLit (lit "a"))].
Example C153_case {L : GoLib} : exists w, Watch.read (fan [1; 2]%nat) 10 [] w_two (mkW w_state tt) = Ok (None, w) /\
  get_basket 1 (Watch.hp w) = [mkSeg (lit "d") (mkTok 2 3)] /\ get_basket 2 (Watch.hp w) = [] /\ get_basket 3 (Watch.hp w) = [mkSeg (lit "c") (mkTok 2 4)].
Proof. eexists. vm_compute. repeat split; reflexivity. Qed.
(** A Tracker that couples nothing else is unable to influence a Read: this one empties every Basket. *)
Example C151_case {L : GoLib} : keeps_off (X := unit) (fun p hx => (set_baskets [] (fst hx), snd hx)) /\
  exists w, Watch.read (fun p hx => (set_baskets [] (fst hx), snd hx)) 10 [] w_two (mkW w_state tt) = Ok (None, w) /\ pos (Watch.sc w) = 3.
Proof. split; [intros p h x; exists []; reflexivity|]. eexists. vm_compute. split; reflexivity. Qed.

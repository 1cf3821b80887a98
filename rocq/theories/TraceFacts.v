(** TraceFacts.v - a Read makes exactly the calls and log entries of its trace. *)
From Verif Require Export Trace MarksFacts.
From Coq Require Import Lia ZifyBool.
From Verif Require Import ReaderSteps ReaderFwd.

Lemma traces_eats e N i c b ok c' b' l : traces e N i c b ok c' b' l -> eats e i c b ok c' b'.
Proof. induction 1; solve [eauto 3 using eats|econstructor; eauto]. Qed.
Lemma eats_traces e i c b ok c' b' : eats e i c b ok c' b' -> forall N, exists l, traces e N i c b ok c' b' l.
Proof.
  induction 1; intros N0;
  repeat match goal with IH : forall N, exists l, traces _ N (IR ?d) _ ?str _ _ _ l |- exists l, traces _ _ (IBody (?str ++ _) _ ?d _) _ _ _ _ _ l => destruct (IH (slen str)); clear IH end;
  repeat match goal with IH : forall N, exists l, _ |- _ => destruct (IH N0); clear IH end;
  try (eexists; solve [eauto 3 using traces|econstructor; eauto]).
Qed.
Lemma calls_app k l : calls (k ++ l) = calls k ++ calls l.
Proof. apply flat_map_app. Qed.
Lemma tries_app lg k l : tries lg (k ++ l) = tries lg k ++ tries lg l.
Proof. apply filter_app. Qed.
Lemma calls_deeper lg l : calls (map (deeper lg) l) = calls l.
Proof. induction l as [|[] l IH]; cbn; auto; [f_equal; auto|]. destruct (Nat.eqb _ _); auto. Qed.
Lemma tries_deeper lg l : tries lg (map (deeper lg) l) = map (deeper lg) (tries lg l).
Proof. induction l as [|[] l IH]; cbn; auto. destruct (Nat.eqb _ _) eqn:E; cbn; rewrite ?E; cbn; rewrite ?E; auto. f_equal. auto. Qed.
Lemma tries_deeper_other g lg l : g <> lg -> tries g (map (deeper lg) l) = tries g l.
Proof.
  intros N. induction l as [|a l IH]; [reflexivity|]. cbn [map tries filter]. fold (tries g l). fold (tries g (map (deeper lg) l)). rewrite IH.
  destruct a as [id t|g0 w v p ok q]; cbn [deeper]; [reflexivity|]. destruct (Nat.eqb g0 lg) eqn:E; [|reflexivity].
  destruct (Nat.eqb g0 g) eqn:F; [|reflexivity]. apply Nat.eqb_eq in E, F. congruence.
Qed.

(** What happened between two heaps. *)
Definition logged (lg : nat) (l : list act) (g g' : log) : Prop :=
  grown g g' /\ exists new, log_entries g' = log_entries g ++ new /\ Forall2 (entry_of (l_level g)) (tries lg l) new.
Definition acts (l : list act) (h h' : heap) : Prop :=
  (forall lg, log_ok (get_log lg h) -> logged lg l (get_log lg h) (get_log lg h')) /\ h_events h' = h_events h ++ calls l.
Definition still (h h' : heap) : Prop := h_logs h' = h_logs h /\ h_events h' = h_events h.
Lemma still_acts h h' : still h h' -> acts [] h h'.
Proof.
  intros [A B]. split; [|rewrite B, app_nil_r; auto]. intros lg H. unfold get_log in *. rewrite A. split; [apply grown_refl; auto|].
  exists []. rewrite app_nil_r. split; [auto|constructor].
Qed.
Lemma acts_app k l h h1 h' : acts k h h1 -> acts l h1 h' -> acts (k ++ l) h h'.
Proof.
  intros [A1 A2] [B1 B2]. split; [|rewrite B2, A2, calls_app, app_assoc; auto]. intros lg H. destruct (A1 lg H) as (G1 & n1 & E1 & F1).
  destruct (B1 lg ltac:(apply G1)) as (G2 & n2 & E2 & F2). split; [eapply grown_trans; eauto|]. exists (n1 ++ n2). rewrite E2, E1, app_assoc. split; auto.
  rewrite tries_app. apply Forall2_app; auto. destruct G1 as (_ & <- & _). auto.
Qed.
Lemma acts_still l h h1 h' : acts l h h1 -> still h1 h' -> acts l h h'.
Proof. intros A B. rewrite <- (app_nil_r l). eapply acts_app; [eauto|apply still_acts; auto]. Qed.
Lemma still_refl h : still h h.
Proof. split; auto. Qed.
Lemma still_moveto p s : still (hp s) (hp (moveto p s)).
Proof. unfold moveto, track. cbn. destruct (trk (sc s)); split; auto. Qed.
Lemma acts_moveto l h p s : acts l h (hp s) -> acts l h (hp (moveto p s)).
Proof. intros H. eapply acts_still; [eauto|apply still_moveto]. Qed.
Lemma acts_nil h : acts [] h h.
Proof. apply still_acts, still_refl. Qed.
Section Goes.
Context {L : GoLib} (e : env).
(** From [s] to a state at rest [b] of text [t], with [l] happening. *)
Definition goes (t : bytes) (s : st) (l : list act) (c : cells) (b : bytes) (s' : st) : Prop := stands t c b s' /\ acts l (hp s) (hp s').
Lemma leaf_still n r s x s' : leaf r = true -> read n e r s = Ok (x, s') -> still (hp s) (hp s').
Proof.
  intros Lf Rd.
  assert (Rd0 : read n [] r s = Ok (x, s')). { rewrite <- Rd. destruct n; [reflexivity|]. destruct r; try discriminate; reflexivity. }
  refine (frame_read [] (fun r => leaf r = true) (fun _ => false) (fun s s' => still (hp s) (hp s')) _ _ _ _ _ _ _ _ _ _ _ _ n r _ s x s' Rd0); try (intros; discriminate).
  - intros; apply still_refl.
  - intros s0 s1 s2 [A B] [C D]. split; congruence.
  - intros. apply still_moveto.
  - intros. split; reflexivity.
  - intros. split; reflexivity.
  - intros d t s0 str c h [X|X]; discriminate.
  - destruct r; try discriminate; cbn; auto.
Qed.
Lemma step_goes t c b s : stands t c b s -> exists s', move_runes 1 s = Ok (fst (step b), s') /\ stands t c (snd (step b)) s' /\ still (hp s) (hp s').
Proof.
  intros H. destruct (step_stands _ _ _ _ H) as (s' & F & S). exists s'. split; auto. split; auto.
  destruct (bprim_move_runes1 s (stands_in _ _ _ _ H)) as [X|[(p & Hp & X)|[X _]]]; [| |discriminate]; rewrite F in X; injection X as _ ->; [apply still_refl|apply still_moveto].
Qed.
Lemma goes_moveto t s l c b s1 b' : goes t s l c b s1 -> (exists a, t = a ++ b') -> goes t s l c b' (moveto (slen t - slen b') s1).
Proof. intros [A B] F. split; [eapply stands_moveto; eauto|apply acts_moveto; auto]. Qed.
Lemma goes_then t s k c b s1 l c' b' s' : goes t s k c b s1 -> goes t s1 l c' b' s' -> goes t s (k ++ l) c' b' s'.
Proof. intros [A B] [C D]. split; auto. eapply acts_app; eauto. Qed.
Lemma goes_here t c b s : stands t c b s -> goes t s [] c b s.
Proof. intros H. split; [auto|apply acts_nil]. Qed.
Lemma goes_step t s l c b s1 : goes t s l c b s1 -> exists s', move_runes 1 s1 = Ok (fst (step b), s') /\ goes t s l c (snd (step b)) s'.
Proof. intros [A B]. destruct (step_goes t c b s1 A) as (s' & F & S & St). exists s'. split; auto. split; auto. eapply acts_still; eauto. Qed.
Lemma goes_tokenize r t c b s x s1 l c1 b1 : stands t c b s -> reads e r s x s1 -> goes t s l c1 b1 s1 ->
  exists n s2, tokenize_use (read n e r) s = Ok ((make_token (slen t - slen b) (slen t - slen (if okx x then b1 else b)), x), s2) /\
    goes t s l c1 (if okx x then b1 else b) s2.
Proof.
  intros H [n Rd] Sn. exists n. unfold tokenize_use. rewrite (bind_ok _ _ _ _ _ (mark_ok s)), (bind_ok _ _ _ _ _ Rd). rewrite (stands_pos _ _ _ _ H).
  destruct x as [x|]; cbn [okx].
  - rewrite bind_run, to_marker_nonneg by (pose proof (stands_nonneg _ _ _ _ H); pose proof (stands_pos _ _ _ _ H); lia).
    eexists. split; [reflexivity|]. eapply goes_moveto; [exact Sn|apply H].
  - rewrite (bind_ok _ _ _ _ _ (mark_ok s1)), (stands_pos _ _ _ _ (proj1 Sn)). eexists. split; [reflexivity|auto].
Qed.
Lemma goes_marker {A} (x : A) t s l c b s1 b0 : goes t s l c b s1 -> (exists a, t = a ++ b0) ->
  exists s', ev (fun _ => to_marker (slen t - slen b0) ;; ret x) s1 x s' /\ goes t s l c b0 s'.
Proof.
  intros H [a E]. exists (moveto (slen t - slen b0) s1). split; [|eapply goes_moveto; eauto]. apply ev_const.
  rewrite bind_run, to_marker_nonneg by (rewrite E, slen_app; pose proof (slen_nonneg a); lia). reflexivity.
Qed.
Lemma goes_stop t c b s (f : nat -> M bool) w ok s1 c1 b1 l r : stands t c b s -> ev f s ok s1 -> goes t s l c1 b1 s1 ->
  (forall n, read (S n) e r = let* m := mark in let* ok := f n in if ok then ret None else to_marker m ;; error_for w) ->
  exists x s', reads e r s x s' /\ okx x = ok /\ goes t s l c1 (if ok then b1 else b) s'.
Proof.
  intros H [n F] Sn U. destruct ok.
  - exists None, s1. split; [|auto]. exists (S n). rewrite U, (bind_ok _ _ _ _ _ (mark_ok s)), (bind_ok _ _ _ _ _ F). reflexivity.
  - eexists _, (moveto (pos (sc s)) s1). split; [|split].
    + exists (S n). rewrite U, (bind_ok _ _ _ _ _ (mark_ok s)), (bind_ok _ _ _ _ _ F), bind_run, to_marker_nonneg by (eapply stands_nonneg; apply H). reflexivity.
    + reflexivity.
    + rewrite (stands_pos _ _ _ _ H). eapply goes_moveto; [exact Sn|apply H].
Qed.

(** A monitored Read. *)
Lemma deeper_entries v lg l new : Forall2 (entry_of (v + 1)) (tries lg l) new -> Forall2 (entry_of v) (map (deeper lg) (tries lg l)) new.
Proof.
  intros H. assert (G : Forall (fun a => match a with ATry g _ _ _ _ _ => g = lg | _ => False end) (tries lg l)).
  { apply Forall_forall. intros a A. apply filter_In in A as [_ A]. destruct a; [discriminate|]. apply Nat.eqb_eq; auto. }
  induction H as [|a en k new H _ IH]; cbn [map]; [constructor|]. inversion_clear G as [|? ? G1 G2]. constructor; auto.
  destruct a; [elim G1|]. subst. cbn [deeper entry_of] in *. rewrite Nat.eqb_refl. cbn [entry_of]. destruct H as (A & B & C). split; auto. split; [lia|auto].
Qed.
Lemma monitor_acts lg w s x s2 l : acts l (hp (entered lg w s)) (hp s2) ->
  acts (ATry lg w 1 (pos (sc s)) (okx x) (pos (sc s2)) :: map (deeper lg) l) (hp s) (hp (exited lg w s x s2)).
Proof.
  intros [A B]. split; [|cbn [calls flat_map app]; fold (calls (map (deeper lg) l)); rewrite calls_deeper; exact B].
  intros g Ok. destruct (Nat.eq_dec g lg) as [->|N].
  - assert (En : get_log lg (hp (entered lg w s)) = snd (log_enter w (pos (sc s)) (lgs lg s))) by (unfold entered; cbn [with_heap hp]; apply get_put_log).
    assert (Ex : get_log lg (hp (exited lg w s x s2)) = log_exit (fst (log_enter w (pos (sc s)) (lgs lg s))) (pos (sc s2)) x (lgs lg s2))
        by (unfold exited; cbn [with_heap hp]; apply get_put_log).
    pose proof (enter_spec w (pos (sc s)) (lgs lg s) Ok) as (Oe & Ee & Le & _). specialize (A lg). rewrite En in A. destruct (A Oe) as (G1 & n1 & E1 & F1).
    destruct (monitored_log w (pos (sc s)) (lgs lg s) (lgs lg s2) (pos (sc s2)) x Ok G1) as (M1 & n2 & M2 & M3). cbv zeta in *.
    rewrite Ex. split; [exact M1|]. rewrite M3. eexists. split; [reflexivity|]. unfold lgs at 1 in M2. rewrite E1, Ee in M2. apply app_inv_head in M2. subst n2.
    cbn [tries filter]. rewrite Nat.eqb_refl. constructor.
    + cbn [entry_of]. destruct (Nat.leb _ _); cbn; auto 8.
    + fold (tries lg (map (deeper lg) l)). rewrite tries_deeper. apply deeper_entries. rewrite Le in F1. exact F1.
  - assert (En : get_log g (hp (entered lg w s)) = get_log g (hp s)) by (unfold entered; cbn [with_heap hp]; apply get_put_log_other; auto).
    assert (Ex : get_log g (hp (exited lg w s x s2)) = get_log g (hp s2)) by (unfold exited; cbn [with_heap hp]; apply get_put_log_other; auto).
    specialize (A g). rewrite En in A. rewrite Ex. destruct (A Ok) as (G1 & n1 & E1 & F1). split; auto. exists n1. split; auto.
    cbn [tries filter]. replace (Nat.eqb lg g) with false by (symmetry; apply Nat.eqb_neq; auto). fold (tries g (map (deeper lg) l)). rewrite tries_deeper_other by auto. auto.
Qed.
Lemma acts_call l id t h h1 : acts l h h1 -> acts (l ++ [ACall id t]) h (add_event id t h1).
Proof.
  intros H. eapply acts_app; [exact H|]. split; [|reflexivity]. intros lg Ok. split; [apply grown_refl; auto|]. exists []. rewrite app_nil_r. split; [reflexivity|constructor].
Qed.

Definition walks (t : bytes) (i : item) (c : cells) (b : bytes) (ok : bool) (c' : cells) (b' : bytes) (l : list act) : Prop := forall s, stands t c b s ->
  match i with
  | IR r => exists x s', reads e r s x s' /\ okx x = ok /\ goes t s l c' b' s'
  | IAny rs => forall b0 errs, (exists a, t = a ++ b0) -> exists x s', ev (fun n => any_loop (map (read n e) rs) (slen t - slen b0) errs) s x s' /\
      okx x = ok /\ goes t s l c' (if ok then b' else b0) s'
  | ISeq rs => forall b0, (exists a, t = a ++ b0) -> exists x s', ev (fun n => seq_loop (map (read n e) rs) (slen t - slen b0)) s x s' /\
      okx x = ok /\ goes t s l c' (if ok then b' else b0) s'
  | IRep r => exists s', ev (fun n => rep_loop n (read n e r)) s tt s' /\ goes t s l c' b' s'
  | ITimes k r => exists x s', ev (fun n => times_loop k (read n e r)) s x s' /\ okx x = ok /\ goes t s l c' b' s'
  | IPast r => exists s', past_ev e r s ok s' /\ goes t s l c' b' s'
  | ITo r => exists s', to_ev e r s ok s' /\ goes t s l c' b' s'
  | IBody z k d r => (exists a, t = a ++ z) -> (exists u, z = u ++ b) -> exists s', body_ev e d r (slen t - slen z) k s ok s' /\ goes t s l c' b' s'
  end.
Lemma leaf_goes t r c b ok c' b' s : leaf r = true -> eats e (IR r) c b ok c' b' -> stands t c b s ->
  exists x s', reads e r s x s' /\ okx x = ok /\ goes t s [] c' b' s'.
Proof.
  intros Lf D St. destruct (eats_reads e r c b ok c' b' t s D St) as (x & s' & Rd & X & S). exists x, s'. split; auto. split; auto.
  split; auto. destruct Rd as [n Rd]. apply still_acts. eapply leaf_still; eauto.
Qed.
Lemma put_cell_still i v h : still h (put_cell i v h).
Proof. split; reflexivity. Qed.

Theorem traces_walks N i c b ok c' b' l : traces e N i c b ok c' b' l -> forall t, slen t = N -> walks t i c b ok c' b' l.
Proof.
  induction 1; intros t0 HN s St; subst N.
  - eapply leaf_goes; eauto using eats. destruct r; try discriminate; reflexivity.
  - eapply leaf_goes; eauto using eats.
  - eapply leaf_goes; eauto using eats.
  - eapply leaf_goes; eauto using eats.
  - eapply leaf_goes; eauto using eats.
  - destruct (IHtraces t0 eq_refl s St) as (x & s' & R & Sn). exists x, s'. split; auto. apply (rule_reads e i r); auto.
  - destruct (IHtraces t0 eq_refl s St) as (x & s' & [n R] & X & Sn). eexists (match x with None => None | Some y => Some (EOther (p ++ err_text y)) end), s'.
    split; [|destruct x; auto]. exists (S n). cbn [read]. rewrite H, (bind_ok _ _ _ _ _ R). destruct x; reflexivity.
  - destruct (IHtraces t0 eq_refl s St) as (x & s' & R & Sn). exists x, s'. split; auto. apply named_reads. auto.
  - destruct (IHtraces t0 eq_refl s St) as (x & s' & [n R] & X & Sn). exists (if ok then None else Some (EReadError (pos (sc s')) (what e (RRuleName r)))), s'.
    split; [|destruct ok; auto]. exists (S n). cbn [read]. rewrite (bind_ok _ _ _ _ _ R). destruct x, ok; try discriminate; reflexivity.
  - assert (S0 : stands t0 c b (entered lg w s)) by exact St.
    destruct (IHtraces t0 eq_refl _ S0) as (x & s2 & R & X & Sn). exists x, (exited lg w s x s2). split; [apply monitor_reads; eauto|]. split; [exact X|].
    split; [exact (proj1 Sn)|]. rewrite <- (stands_pos _ _ _ _ St), <- (stands_pos _ _ _ _ (proj1 Sn)), <- X. apply monitor_acts. exact (proj2 Sn).
  - destruct (IHtraces t0 eq_refl s St) as (x & s1 & R & X & Sn). pose proof (eats_suffix _ _ _ _ _ _ _ (traces_eats _ _ _ _ _ _ _ _ _ H)) as Sx. apply suffix_le in Sx.
    destruct (goes_tokenize r t0 c b s x s1 l c' b' St R Sn) as (n & s2 & T & S2). rewrite X in T, S2.
    destruct x as [x|]; rewrite <- X in *; cbn [okx] in *.
    + exists (Some x), s2. split; [|auto]. exists (S n). cbn [read]. rewrite (bind_ok _ _ _ _ _ T). reflexivity.
    + eexists None, _. split; [exists (S n); cbn [read]; rewrite (bind_ok _ _ _ _ _ T); reflexivity|]. split; [reflexivity|]. split; [exact (proj1 S2)|].
      cbn [fst with_heap hp]. replace (mkTok _ _) with (make_token (slen t0 - slen b) (slen t0 - slen b')) by (unfold make_token; replace (_ <? _) with false by lia; reflexivity).
      apply acts_call. exact (proj2 S2).
  - destruct (IHtraces t0 eq_refl s St) as (x & s1 & R & X & Sn). destruct (goes_tokenize r t0 c b s x s1 l c' b' St R Sn) as (n & s2 & T & S2). rewrite X in T, S2.
    destruct x as [x|]; rewrite <- X in *; cbn [okx] in *.
    + exists (Some x), s2. split; [|auto]. exists (S n). cbn [read]. rewrite (bind_ok _ _ _ _ _ T). reflexivity.
    + eexists None, _. split; [exists (S n); cbn [read]; rewrite (bind_ok _ _ _ _ _ T); reflexivity|]. split; [reflexivity|]. split; [exact (proj1 S2)|].
      eapply acts_still; [exact (proj2 S2)|split; reflexivity].
  - destruct (IHtraces t0 eq_refl s St) as (x & s1 & R & X & Sn). exists None, s1. split; [|auto]. apply opt_reads. eauto.
  - destruct (IHtraces t0 eq_refl s St) as (x & s1 & R & X & Sn). exists x, (moveto (pos (sc s)) s1). split; [|split; auto].
    + apply at_reads; [eapply stands_nonneg; eauto|]. eauto.
    + rewrite (stands_pos _ _ _ _ St). eapply goes_moveto; [exact Sn|apply St].
  - destruct (IHtraces t0 eq_refl s St) as (x & s1 & [n R] & X & Sn).
    assert (S2 : goes t0 s l c' b (moveto (pos (sc s)) s1)) by (rewrite (stands_pos _ _ _ _ St); eapply goes_moveto; [exact Sn|apply St]).
    destruct (goes_step _ _ _ _ _ _ S2) as (s3 & F & S3). pose proof (stands_nonneg _ _ _ _ St).
    assert (U : read (S n) e (RNot r) s = (match x with None => error_for (what e r) | Some _ => move_runes 1 ;; ret None end) (moveto (pos (sc s)) s1)).
    { cbn [read]. rewrite (bind_ok _ _ _ _ _ (mark_ok s)), (bind_ok _ _ _ _ _ R), bind_run, to_marker_nonneg by auto. reflexivity. }
    destruct x as [x|]; rewrite <- X; cbn [okx negb].
    + exists None, s3. split; [|auto]. exists (S n). rewrite U, (bind_ok _ _ _ _ _ F). reflexivity.
    + eexists (Some _), _. split; [exists (S n); rewrite U; reflexivity|]. auto.
  - destruct (IHtraces t0 eq_refl s St b [] ltac:(apply St)) as (x & s1 & [n R] & X & Sn). exists x, s1. split; [|auto]. exists (S n). cbn [read].
    rewrite (bind_ok _ _ _ _ _ (mark_ok s)), (stands_pos _ _ _ _ St). exact R.
  - destruct (IHtraces t0 eq_refl s St b ltac:(apply St)) as (x & s1 & [n R] & X & Sn). exists x, s1. split; [|auto]. exists (S n). cbn [read].
    rewrite (bind_ok _ _ _ _ _ (mark_ok s)), (stands_pos _ _ _ _ St). exact R.
  - destruct (IHtraces t0 eq_refl s St b ltac:(apply St)) as (x & s1 & [n R] & X & Sn). exists x, s1. split; [|auto]. apply skip_seq_reads. exists (S n). cbn [read].
    rewrite (bind_ok _ _ _ _ _ (mark_ok s)), (stands_pos _ _ _ _ St). exact R.
  - destruct (IHtraces t0 eq_refl s St) as (s1 & [n R] & Sn). exists None, s1. split; [|auto]. exists (S n). cbn [read]. rewrite (bind_ok _ _ _ _ _ R). reflexivity.
  - destruct (IHtraces t0 eq_refl s St) as (s1 & [n R] & Sn).
    exists (if Nat.ltb (length b') (length b) then None else Some (EReadError (pos (sc s1)) (what e (RMany r)))), s1. split; [|destruct (Nat.ltb _ _); auto].
    exists (S n). cbn [read]. rewrite (bind_ok _ _ _ _ _ (mark_ok s)), (bind_ok _ _ _ _ _ R), (bind_ok _ _ _ _ _ (mark_ok s1)).
    rewrite (stands_pos _ _ _ _ St), (stands_pos _ _ _ _ (proj1 Sn)) at 1.
    replace (slen t0 - slen b <? slen t0 - slen b') with (Nat.ltb (length b') (length b)) by (unfold slen; lia). destruct (Nat.ltb _ _); reflexivity.
  - destruct (IHtraces t0 eq_refl s St) as (x & s1 & [n R] & X & Sn). exists x, s1. split; [|auto]. exists (S n). exact R.
  - destruct (IHtraces t0 eq_refl s St) as (s1 & R & Sn). eapply goes_stop; [exact St|exact R|exact Sn|]. intros n. reflexivity.
  - destruct (IHtraces t0 eq_refl s St) as (s1 & R & Sn). eapply goes_stop; [exact St|exact R|exact Sn|]. intros n. reflexivity.
  - destruct (IHtraces t0 eq_refl s St ltac:(apply St) (ex_intro _ [] eq_refl)) as (s1 & R & Sn). rewrite <- (stands_pos _ _ _ _ St) in R.
    destruct ok.
    + exists None, s1. split; [exact (body_reads e true d t s true s1 (stands_nonneg _ _ _ _ St) R)|auto].
    + destruct (body_reads e true d t s false s1 (stands_nonneg _ _ _ _ St) R) as (x & R2). exists (Some x), (moveto (pos (sc s)) s1). split; [exact R2|].
      split; [reflexivity|]. rewrite (stands_pos _ _ _ _ St). eapply goes_moveto; [exact Sn|apply St].
  - destruct (IHtraces t0 eq_refl s St ltac:(apply St) (ex_intro _ [] eq_refl)) as (s1 & R & Sn). rewrite <- (stands_pos _ _ _ _ St) in R.
    destruct ok.
    + exists None, s1. split; [exact (body_reads e false d t s true s1 (stands_nonneg _ _ _ _ St) R)|auto].
    + destruct (body_reads e false d t s false s1 (stands_nonneg _ _ _ _ St) R) as (x & R2). exists (Some x), (moveto (pos (sc s)) s1). split; [exact R2|].
      split; [reflexivity|]. rewrite (stands_pos _ _ _ _ St). eapply goes_moveto; [exact Sn|apply St].
  - (* JanusBeg *) destruct (IHtraces t0 eq_refl s St) as (y & s1 & R & X & Sn). destruct y; [discriminate|].
    destruct (goes_tokenize r t0 c (x ++ b) s None s1 l c' b St R Sn) as (n & s2 & T & S2). cbn [okx] in *.
    assert (G : get_tok (make_token (slen t0 - slen (x ++ b)) (slen t0 - slen b)) s2 = Ok (x, s2)).
    { apply (tok_stands t0 c' b s2 x b (x ++ b) s2 c' b); auto; try apply St; apply S2. }
    eexists None, _. split; [exists (S n); cbn [read]; rewrite (bind_ok _ _ _ _ _ T); cbn [fst snd]; rewrite (bind_ok _ _ _ _ _ G); reflexivity|].
    split; [reflexivity|]. destruct S2 as [S2 A2]. split; [|eapply acts_still; [exact A2|split; reflexivity]].
    eapply stands_cells; [exact S2|]. unfold put_cell. cbn. destruct S2 as (_ & -> & _). reflexivity.
  - destruct (IHtraces t0 eq_refl s St) as (y & s1 & R & X & Sn). destruct y as [y|]; [|discriminate].
    destruct (goes_tokenize r t0 c b s (Some y) s1 l c' b' St R Sn) as (n & s2 & T & S2). cbn [okx] in *.
    exists (Some y), s2. split; [|auto]. exists (S n). cbn [read]. rewrite (bind_ok _ _ _ _ _ T). reflexivity.
  - eapply leaf_goes; eauto using eats.
  - eapply leaf_goes; eauto using eats.
  - (* loops *) intros b0 errs Sf. destruct (goes_marker (Some (get_deepest errs)) t0 s [] c b s b0 (goes_here _ _ _ _ St) Sf) as (s1 & E & Sn). exists (Some (get_deepest errs)), s1. auto.
  - intros b0 errs Sf. destruct (IHtraces t0 eq_refl s St) as (x & s1 & R & X & Sn). destruct x; [discriminate|]. exists None, s1. split; [|auto].
    destruct R as [n R]. exists n. cbn [map any_loop]. rewrite (bind_ok _ _ _ _ _ R). reflexivity.
  - intros b0 errs Sf. destruct (IHtraces1 t0 eq_refl s St) as (x & s1 & R & X & Sn). destruct x as [x|]; [|discriminate].
    destruct (IHtraces2 t0 eq_refl s1 (proj1 Sn) b0 (errs ++ [x]) Sf) as (y & s2 & R2 & Y & S2). exists y, s2. split; [|split; [auto|eapply goes_then; eauto]].
    apply (ev_first e r (fun x n => match x with None => ret None | Some x => any_loop (map (read n e) rs) (slen t0 - slen b0) (errs ++ [x]) end) s (Some x) s1); auto.
    intros [q|]; [apply mono_any|apply mono_const].
  - intros b0 Sf. exists None, s. split; [exists 0%nat; reflexivity|]. split; [auto|apply goes_here; auto].
  - intros b0 Sf. destruct (IHtraces t0 eq_refl s St) as (x & s1 & R & X & Sn). destruct x as [x|]; [|discriminate].
    destruct (goes_marker (Some x) t0 s l c' b' s1 b0 Sn Sf) as (s2 & E & S2). exists (Some x), s2. split; [|auto].
    apply (ev_first e r (fun x n => match x with None => seq_loop (map (read n e) rs) (slen t0 - slen b0) | Some x => to_marker (slen t0 - slen b0) ;; ret (Some x) end) s (Some x) s1); auto.
    intros [q|]; [apply mono_const|apply mono_seq].
  - intros b0 Sf. destruct (IHtraces1 t0 eq_refl s St) as (x & s1 & R & X & Sn). destruct x; [discriminate|].
    destruct (IHtraces2 t0 eq_refl s1 (proj1 Sn) b0 Sf) as (y & s2 & R2 & Y & S2). exists y, s2. split; [|split; [auto|eapply goes_then; eauto]].
    apply (ev_first e r (fun x n => match x with None => seq_loop (map (read n e) rs) (slen t0 - slen b0) | Some x => to_marker (slen t0 - slen b0) ;; ret (Some x) end) s None s1); auto.
    intros [q|]; [apply mono_const|apply mono_seq].
  - destruct (IHtraces t0 eq_refl s St) as (x & s1 & R & X & Sn). destruct x as [x|]; [|discriminate]. exists s1. split; auto.
    destruct R as [n R]. exists (S n). cbn [rep_loop]. rewrite (bind_ok _ _ _ _ _ (read_up e r n (S n) s _ ltac:(lia) R)). reflexivity.
  - destruct (IHtraces1 t0 eq_refl s St) as (x & s1 & [n R] & X & Sn). destruct x; [discriminate|]. destruct (IHtraces2 t0 eq_refl s1 (proj1 Sn)) as (s2 & [k R2] & S2).
    exists s2. split; [|eapply goes_then; eauto]. exists (S (n + k)). cbn [rep_loop]. rewrite (bind_ok _ _ _ _ _ (read_up e r n (S (n + k)) s _ ltac:(lia) R)).
    assert (F : fle (rep_loop k (read k e r)) (rep_loop (n + k) (read (S (n + k)) e r))) by (apply fle_rep; [lia|apply read_fle; lia]).
    destruct (F s1) as [Q|Q]; congruence.
  - exists None, s. split; [exists 0%nat; reflexivity|]. split; [auto|apply goes_here; auto].
  - destruct (IHtraces t0 eq_refl s St) as (x & s1 & R & X & Sn). destruct x as [x|]; [|discriminate]. exists (Some x), s1. split; [|auto].
    destruct R as [n R]. exists n. cbn [times_loop]. rewrite (bind_ok _ _ _ _ _ R). reflexivity.
  - destruct (IHtraces1 t0 eq_refl s St) as (x & s1 & R & X & Sn). destruct x; [discriminate|]. destruct (IHtraces2 t0 eq_refl s1 (proj1 Sn)) as (y & s2 & R2 & Y & S2).
    exists y, s2. split; [|split; [auto|eapply goes_then; eauto]].
    apply (ev_first e r (fun x n => match x with None => times_loop k (read n e r) | Some x => ret (Some x) end) s None s1); auto.
    intros [q|]; [apply mono_const|apply mono_times].
  - exists s. split; [apply past_stop|apply goes_here; auto]. rewrite (stands_pos _ _ _ _ St). destruct St as (-> & _). unfold slen; cbn; lia.
  - destruct (IHtraces t0 eq_refl s St) as (x & s1 & R & X & Sn). destruct x; [discriminate|]. exists s1. split; auto. apply past_here; auto.
    rewrite (stands_pos _ _ _ _ St). destruct St as (-> & _). destruct b; [congruence|unfold slen; cbn; lia].
  - destruct (IHtraces1 t0 eq_refl s St) as (x & s1 & R & X & Sn). destruct x as [x|]; [|discriminate]. destruct (goes_step _ _ _ _ _ _ Sn) as (s2 & F & S2).
    destruct (IHtraces2 t0 eq_refl s2 (proj1 S2)) as (s3 & R3 & S3). exists s3. split; [|eapply goes_then; eauto]. eapply past_next; eauto.
    rewrite (stands_pos _ _ _ _ St). destruct St as (-> & _). destruct b; [congruence|unfold slen; cbn; lia].
  - destruct (IHtraces t0 eq_refl s St) as (x & s1 & R & X & Sn). destruct x; [discriminate|]. exists (moveto (pos (sc s)) s1). split; [apply to_here; auto; eapply stands_nonneg; eauto|].
    rewrite (stands_pos _ _ _ _ St). eapply goes_moveto; [exact Sn|apply St].
  - destruct (IHtraces t0 eq_refl s St) as (x & s1 & R & X & Sn). destruct x as [x|]; [|discriminate]. destruct (goes_step _ _ _ _ _ _ Sn) as (s2 & F & S2). rewrite H0 in *. cbn [fst snd] in *.
    exists s2. split; auto. eapply to_stop; eauto.
  - destruct (IHtraces1 t0 eq_refl s St) as (x & s1 & R & X & Sn). destruct x as [x|]; [|discriminate]. destruct (goes_step _ _ _ _ _ _ Sn) as (s2 & F & S2). rewrite H0 in *. cbn [fst snd] in *.
    destruct (IHtraces2 t0 eq_refl s2 (proj1 S2)) as (s3 & R3 & S3). exists s3. split; [|eapply goes_then; eauto]. eapply to_next; eauto.
  - intros Sz Su. exists s. split; [apply body_stop|apply goes_here; auto]. rewrite (stands_pos _ _ _ _ St). destruct St as (-> & _). unfold slen; cbn; lia.
  - (* body hit *) intros Sz Su. destruct (IHtraces1 t0 eq_refl s St) as (y & s1 & [n R] & Y & [Sn A1]). destruct y; [discriminate|].
    assert (Ls : slen str < 2 ^ 63). { destruct St as (_ & _ & _ & _ & Lt). destruct Sz as [az Ez]. rewrite Ez, !slen_app in Lt. pose proof (slen_nonneg az). pose proof (slen_nonneg b). lia. }
    pose proof (fresh_stands t0 c1 b1 s1 str Sn Ls) as Fr. destruct (IHtraces2 str eq_refl _ Fr) as (q & s2 & [m R2] & Q & [S2 A2]). cbn [hp] in A2.
    pose proof (tok_stands t0 c b s str b (str ++ b) s1 c1 b1 St Sz eq_refl Sn eq_refl) as G.
    assert (S3 : exists s3, stands str c' (if ok then x else str) s3 /\ acts l2 (hp s1) (hp s3) /\ forall j, (m <= j)%nat -> on_sub str (read j e d) s1 = Ok ((q, no_text (if ok then x else str)), mkSt (sc s1) (hp s3))).
    { destruct q as [q|]; rewrite <- Q; cbn [okx].
      - assert (S3 : stands str c' str (moveto 0 s2)) by (eapply stands_moveto; [exact S2|exists []; auto|lia]).
        exists (moveto 0 s2). split; [exact S3|]. split; [apply acts_moveto; exact A2|]. intros j Hj.
        assert (V : use (read j e d) (mkSt (new_scanner str) (hp s1)) = Ok (Some q, moveto 0 s2)).
        { unfold use. rewrite (bind_ok _ _ _ _ _ (mark_ok _)), (bind_ok _ _ _ _ _ (read_up e d m j _ _ Hj R2)). cbn [pos sc new_scanner].
          rewrite bind_run, to_marker_nonneg by lia. reflexivity. }
        unfold on_sub. rewrite (bind_ok _ _ _ _ _ V), (bind_ok _ _ _ _ _ (end_stands _ _ _ _ S3)). reflexivity.
      - exists s2. split; [exact S2|]. split; [exact A2|]. intros j Hj.
        assert (V : use (read j e d) (mkSt (new_scanner str) (hp s1)) = Ok (None, s2)).
        { unfold use. rewrite (bind_ok _ _ _ _ _ (mark_ok _)), (bind_ok _ _ _ _ _ (read_up e d m j _ _ Hj R2)). reflexivity. }
        unfold on_sub. rewrite (bind_ok _ _ _ _ _ V), (bind_ok _ _ _ _ _ (end_stands _ _ _ _ S2)). reflexivity. }
    destruct S3 as (s3 & S3 & A3 & O). pose proof (back_stands t0 c1 b1 s1 s3 str _ _ Sn S3) as Bk.
    assert (Bg : goes t0 s (l1 ++ l2) c' b1 (mkSt (sc s1) (hp s3))) by (split; [exact Bk|eapply acts_app; eauto]).
    assert (Ne : no_text b = false) by (destruct b; [congruence|auto]).
    assert (U : exists s', body_loop (S (n + m)) (slen t0 - slen (str ++ b)) (read (S (n + m)) e d) (read (S (n + m)) e t) k s = Ok (ok && no_text x, s')
      /\ goes t0 s (l1 ++ l2) c' (if k && (ok && no_text x) then b else b1) s').
    { cbn [body_loop]. rewrite (bind_ok _ _ _ _ _ (end_stands _ _ _ _ St)), Ne, (bind_ok _ _ _ _ _ (mark_ok s)), (stands_pos _ _ _ _ St).
      rewrite (bind_ok _ _ _ _ _ (read_up e t n (S (n + m)) s _ ltac:(lia) R)), (bind_ok _ _ _ _ _ G), (bind_ok _ _ _ _ _ (O (S (n + m)) ltac:(lia))). cbn [fst snd].
      destruct q as [q|]; rewrite <- Q in *; cbn [okx andb] in *.
      - eexists. split; [reflexivity|]. rewrite andb_false_r. exact Bg.
      - destruct (no_text x); cbn [negb].
        + destruct k; cbn [andb].
          * rewrite bind_run, to_marker_nonneg. 2:{ pose proof (stands_len _ _ _ _ St). lia. } eexists. split; [reflexivity|].
            eapply goes_moveto; [exact Bg|apply St].
          * eexists. split; [reflexivity|exact Bg].
        + eexists. split; [reflexivity|]. rewrite andb_false_r. exact Bg. }
    destruct U as (s' & U & S'). exists s'. split; auto. exists (S (n + m)). exact U.
  - intros Sz [u Su]. destruct (IHtraces1 t0 eq_refl s St) as (x & s1 & R & X & Sn). destruct x as [x|]; [|discriminate]. destruct (goes_step _ _ _ _ _ _ Sn) as (s2 & F & S2).
    assert (Sx : exists v, z = v ++ snd (step b1)).
    { destruct (eats_suffix _ _ _ _ _ _ _ (traces_eats _ _ _ _ _ _ _ _ _ H0)) as [d1 X1]. destruct (step_suffix b1) as [d2 X2]. exists (u ++ d1 ++ d2). rewrite Su, X1 at 1. rewrite X2 at 1. rewrite !app_assoc. reflexivity. }
    destruct (IHtraces2 t0 eq_refl s2 (proj1 S2) Sz Sx) as (s3 & R3 & S3). exists s3. split; [|eapply goes_then; eauto]. eapply body_next; eauto.
    rewrite (stands_pos _ _ _ _ St). destruct St as (-> & _). destruct b; [congruence|unfold slen; cbn; lia].
Qed.

(** The calls and log entries of a Read. *)
Lemma reads_traces r t c b s x s' : eall covered e -> rall covered r = true -> stands t c b s -> reads e r s x s' ->
  exists c' b' l, traces e (slen t) (IR r) c b (okx x) c' b' l /\ stands t c' b' s' /\ acts l (hp s) (hp s').
Proof.
  intros C1 C2 St Rd. destruct (reads_eats e r t c b s x s' C1 C2 St Rd) as (c' & b' & _ & D).
  destruct (eats_traces e (IR r) c b (okx x) c' b' D (slen t)) as [l M]. exists c', b', l. split; auto.
  destruct (traces_walks _ _ _ _ _ _ _ _ M t eq_refl s St) as (y & s2 & R2 & _ & S2). destruct (reads_fun _ _ _ _ _ _ _ Rd R2) as [_ ->]. exact S2.
Qed.
End Goes.

(** MarksFacts.v - the Basket contains what [marks] says. *)
From Verif Require Export Marks PegFacts.
From Coq Require Import Lia ZifyBool Sorted.
From Verif Require Import ReaderSteps ReaderFacts ReaderFwd BasketFacts.

Lemma marks_eats e k R N i c b ok c' b' l : marks e k R N i c b ok c' b' l -> eats e i c b ok c' b'.
Proof. induction 1; solve [eauto 3 using eats|econstructor; eauto]. Qed.

(** Segments with rising ends between [p] and [q]. *)
Definition neat (p q : Z) (l : list segment) : Prop := by_end l /\ Forall (fun g => p <= t_to (s_tok g) <= q) l.
Lemma neat_nil p q : neat p q [].
Proof. split; constructor. Qed.
Lemma neat_app p q r l1 l2 : p <= q <= r -> neat p q l1 -> neat q r l2 -> neat p r (l1 ++ l2).
Proof.
  intros H [A1 A2] [B1 B2]. split.
  - unfold by_end in *. induction A1 as [|x l Hl IH Hx]; cbn; auto. inversion_clear A2. constructor; auto. apply Forall_app. split; auto.
    eapply Forall_impl; [|exact B2]. cbn. lia.
  - apply Forall_app. split; (eapply Forall_impl; [|eassumption]); cbn; lia.
Qed.
Lemma neat_wide p q p' q' l : p' <= p -> q <= q' -> neat p q l -> neat p' q' l.
Proof. intros A B [H1 H2]. split; auto. eapply Forall_impl; [|exact H2]. cbn. lia. Qed.
Lemma neat_cut N p q b l : neat p q l -> p <= N - slen b -> neat p (N - slen b) (cut N b l).
Proof.
  intros [H1 H2] H. split; [apply ss_filter; auto|]. apply Forall_forall. intros g G. apply filter_In in G as [G E]. rewrite Forall_forall in H2. specialize (H2 g G). lia.
Qed.
Lemma suffix_le (b b' : bytes) : (exists d, b = d ++ b') -> slen b' <= slen b.
Proof. intros [d ->]. rewrite slen_app. pose proof (slen_nonneg d). lia. Qed.
Lemma marks_le e k R N i c b ok c' b' l : marks e k R N i c b ok c' b' l -> slen b' <= slen b.
Proof. intros H. apply suffix_le. eapply eats_suffix. eapply marks_eats; eauto. Qed.
Lemma step_le b : slen (snd (step b)) <= slen b.
Proof. apply suffix_le, step_suffix. Qed.

Lemma marks_neat e k R N i c b ok c' b' l : marks e k R N i c b ok c' b' l -> neat (N - slen b) (N - slen b') l.
Proof.
  induction 1;
  repeat match goal with D : marks _ _ _ _ _ _ _ _ _ _ _ |- _ => apply marks_le in D end;
  try apply neat_nil; auto; unfold back;
  try (destruct ok; auto; eapply neat_cut; [eassumption|lia]);
  try (eapply neat_cut; [eassumption|lia]);
  try (eapply neat_app; [|eassumption|eassumption]; lia).
  - destruct ok; [|eapply neat_cut; [eassumption|lia]]. apply neat_app with (q := N - slen b'); auto; [lia|]. unfold picked_by. destruct (Nat.eqb k' k); [|apply neat_nil].
    split; [repeat constructor|]. repeat constructor; cbn; lia.
  - pose proof (step_le b). eapply neat_wide; [| |eapply (neat_cut N _ _ b); [eassumption|lia]]; [lia|]. destruct ok; lia.
  - pose proof (step_le b1). eapply neat_app; [|eapply neat_wide; [| |exact IHmarks1]|exact IHmarks2]; lia.
  - pose proof (step_le b1) as Q. rewrite H0 in Q. cbn in Q. eapply neat_wide; [| |exact IHmarks]; lia.
  - pose proof (step_le b1) as Q. rewrite H0 in Q. cbn in Q. eapply neat_app; [|eapply neat_wide; [| |exact IHmarks1]|exact IHmarks2]; lia.
  - destruct (q && (ok && no_text x)); cbn [negb]; auto. eapply neat_cut; [eassumption|lia].
  - pose proof (step_le b1). eapply neat_app; [|eapply neat_wide; [| |exact IHmarks1]|exact IHmarks2]; lia.
Qed.

(* ------------------------------------------- every derivation has its list *)

(** Bodies of Body and BodyTail pick nothing into the basket. *)
Definition flat_body (k : nat) (R : nat -> bool) (r : reader) : Prop :=
  match r with RBody d _ | RBodyTail d _ => unpicked k R d = true | _ => True end.
Definition iallP (P : reader -> Prop) (i : item) : Prop :=
  match i with
  | IR r | IRep r | ITimes _ r | IPast r | ITo r => rallP P r
  | IAny rs | ISeq rs => Forall (rallP P) rs
  | IBody _ _ d t => rallP P d /\ rallP P t /\ P (RBody d t)
  end.
Lemma all_Forall (P : reader -> Prop) rs : fold_right (fun x q => rallP P x /\ q) True rs -> Forall (rallP P) rs.
Proof. induction rs; cbn; [constructor|]. intros [A B]. constructor; auto. Qed.
Lemma all_interleave (P : reader -> Prop) sk rs : rallP P sk -> Forall (rallP P) rs -> Forall (rallP P) (interleave sk rs).
Proof.
  intros A. induction 1; cbn; repeat constructor; auto.
Qed.
Lemma eats_marks e k R N i c b ok c' b' : eallP (flat_body k R) e -> iallP (flat_body k R) i -> eats e i c b ok c' b' ->
  exists l, marks e k R N i c b ok c' b' l.
Proof.
  intros He Hi D. revert Hi. induction D; intros Hi; cbn [iallP rallP flat_body] in Hi;
  repeat match goal with
  | X : _ /\ _ |- _ => destruct X
  | X : True |- _ => clear X
  | X : Forall _ (_ :: _) |- _ => inversion_clear X
  | X : fold_right _ True ?l0 |- _ => apply all_Forall in X
  end;
  repeat match goal with
  | IH : rallP ?P ?r -> exists l, _, X : r_reader _ = Some ?r |- _ => destruct (IH (He _ _ X)); clear IH
  | IH : ?P -> exists l, _ |- _ => let Z := fresh in assert (Z : P) by (cbn [iallP rallP flat_body]; eauto using all_interleave); destruct (IH Z); clear IH Z
  end; try (eexists; solve [eauto 3 using marks|econstructor; eauto]).
Qed.

(* --------------------------------------------- the basket during a Read *)

Section Sits.
Context {L : GoLib} (e : env) (k : nat) (R : nat -> bool) (HR : unpicked_rules k R e).
(** Scanner at rest [b] of text [t], coupled with a basket that contains [B]. *)
Definition sits (t : bytes) (c : cells) (b : bytes) (B : list segment) (s : st) : Prop :=
  stands t c b s /\ trk (sc s) = Some k /\ get_basket k (hp s) = B.
Definition low (p : Z) (B : list segment) : Prop := Forall (fun g => t_to (s_tok g) <= p) B.

Lemma low_update p B : low p B -> basket_update p B = B.
Proof.
  intros H. rewrite <- (app_nil_r B) at 1. rewrite update_app; [apply app_nil_r|constructor|]. unfold low in H. rewrite Forall_forall in H. auto.
Qed.
Lemma cut_update N p q b B l : low p B -> p <= N - slen b -> neat p q l -> basket_update (N - slen b) (B ++ l) = B ++ cut N b l.
Proof.
  intros H Hp [H1 _]. rewrite update_app; auto. intros x X. unfold low in H. rewrite Forall_forall in H. specialize (H x X). lia.
Qed.
Lemma low_app p q B l : p <= q -> low p B -> neat p q l -> low q (B ++ l).
Proof.
  intros H A [_ C]. apply Forall_app. split; (eapply Forall_impl; [|eassumption]); cbn; lia.
Qed.
Lemma low_up p q B : p <= q -> low p B -> low q B.
Proof. intros H. apply Forall_impl. intros. lia. Qed.

Lemma sits_moveto t c b B s b' : sits t c b B s -> (exists a, t = a ++ b') ->
  sits t c b' (basket_update (slen t - slen b') B) (moveto (slen t - slen b') s).
Proof.
  intros (A1 & A2 & A3) F. split; [eapply stands_moveto; eauto|]. split; [exact A2|]. unfold moveto, track. cbn [hp]. rewrite A2, get_put_basket, A3. reflexivity.
Qed.
Lemma bprim_sits t c b B s c' b' m ok s' : sits t c b B s -> low (slen t - slen b) B -> bprim false m -> m s = Ok (ok, s') -> stands t c' b' s' -> sits t c' b' B s'.
Proof.
  intros (A1 & A2 & A3) Lw Bp E S. split; [exact S|]. pose proof (stands_in _ _ _ _ A1) as I. destruct (Bp s I) as [X|[(p & Hp & X)|[X _]]]; [| |discriminate];
    rewrite E in X; injection X as _ ->; auto. split; auto. unfold moveto, track. cbn [hp]. rewrite A2, get_put_basket, A3. apply low_update.
  eapply low_up; [|exact Lw]. rewrite <- (stands_pos _ _ _ _ A1). lia.
Qed.
Definition leaf (r : reader) : bool :=
  match r with RRune _ | RAnyRune _ | RBetween _ _ | RMatch _ _ | RHoley _ _ _ | RBetweenAny _ _ | RLit _ | RAtEnd | RInvalid _ | RJanusEnd _ _ => true | _ => false end.
Lemma leaf_sits t c b B s c' b' r x s' : leaf r = true -> sits t c b B s -> low (slen t - slen b) B -> reads e r s x s' -> stands t c' b' s' -> sits t c' b' B s'.
Proof.
  intros Lf (A1 & A2 & A3) Lw [n Rd] S. split; [exact S|]. pose proof (stands_in _ _ _ _ A1) as I.
  assert (Rd0 : reads [] r s x s'). { exists n. rewrite <- Rd. destruct n; [reflexivity|]. destruct r; try discriminate; reflexivity. }
  assert (W : rallP (pickableP k (fun _ => false) (fun r => leaf r = true)) r) by (destruct r; try discriminate; cbn; repeat split; auto).
  split.
  - destruct Rd0 as [m Rd0]. destruct (read_okfw [] ltac:(intros [|i] q; discriminate) m r ltac:(destruct r; try discriminate; reflexivity) s x s' I Rd0) as (_ & _ & T & _). congruence.
  - destruct (pickedP [] k (fun _ => false) (fun r => leaf r = true)) with (r := r) (s := s) (x := x) (s' := s') as (new & E & _ & _ & Ca); auto.
    + intros i q X; discriminate.
    + intros [|i] q; discriminate.
    + intros g G. rewrite A3 in G. unfold low in Lw. rewrite Forall_forall in Lw. specialize (Lw g G). rewrite (stands_pos _ _ _ _ A1). auto.
    + rewrite E, A3. destruct new as [|g new]; [apply app_nil_r|]. inversion_clear Ca. destruct H as (info & sub & s1 & s2 & X & _). discriminate.
Qed.
Lemma step_sits t c b B s : sits t c b B s -> low (slen t - slen b) B -> exists s', move_runes 1 s = Ok (fst (step b), s') /\ sits t c (snd (step b)) B s'.
Proof.
  intros H Lw. pose proof H as (A1 & _). destruct (step_stands _ _ _ _ A1) as (s' & F & S). exists s'. split; auto.
  eapply bprim_sits; eauto. apply bprim_move_runes1.
Qed.
Lemma sits_tokenize r t c b B s x s1 c1 b1 B1 : sits t c b B s -> reads e r s x s1 -> sits t c1 b1 B1 s1 ->
  exists n s2, tokenize_use (read n e r) s = Ok ((make_token (slen t - slen b) (slen t - slen (if okx x then b1 else b)), x), s2) /\
    sits t c1 (if okx x then b1 else b) (if okx x then B1 else basket_update (slen t - slen b) B1) s2.
Proof.
  intros (H & _ & _) [n Rd] Sn. exists n. unfold tokenize_use. rewrite (bind_ok _ _ _ _ _ (mark_ok s)), (bind_ok _ _ _ _ _ Rd). rewrite (stands_pos _ _ _ _ H).
  destruct x as [x|]; cbn [okx].
  - rewrite bind_run, to_marker_nonneg by (pose proof (stands_nonneg _ _ _ _ H); pose proof (stands_pos _ _ _ _ H); lia).
    eexists. split; [reflexivity|]. eapply sits_moveto; [exact Sn|apply H].
  - rewrite (bind_ok _ _ _ _ _ (mark_ok s1)), (stands_pos _ _ _ _ (proj1 Sn)). eexists. split; [reflexivity|auto].
Qed.
Lemma sits_marker {A} (x : A) t c b B s b0 : sits t c b B s -> (exists a, t = a ++ b0) ->
  exists s', ev (fun _ => to_marker (slen t - slen b0) ;; ret x) s x s' /\ sits t c b0 (basket_update (slen t - slen b0) B) s'.
Proof.
  intros H [a E]. exists (moveto (slen t - slen b0) s). split; [|eapply sits_moveto; eauto]. apply ev_const.
  rewrite bind_run, to_marker_nonneg by (rewrite E, slen_app; pose proof (slen_nonneg a); lia). reflexivity.
Qed.

Definition does (t : bytes) (i : item) (c : cells) (b : bytes) (ok : bool) (c' : cells) (b' : bytes) (l : list segment) : Prop :=
  forall B s, sits t c b B s -> low (slen t - slen b) B ->
  match i with
  | IR r => exists x s', reads e r s x s' /\ okx x = ok /\ sits t c' b' (B ++ l) s'
  | IAny rs => forall b0 errs, (exists a, t = a ++ b0) -> exists x s', ev (fun n => any_loop (map (read n e) rs) (slen t - slen b0) errs) s x s' /\
      okx x = ok /\ sits t c' (if ok then b' else b0) (if ok then B ++ l else basket_update (slen t - slen b0) (B ++ l)) s'
  | ISeq rs => forall b0, (exists a, t = a ++ b0) -> exists x s', ev (fun n => seq_loop (map (read n e) rs) (slen t - slen b0)) s x s' /\
      okx x = ok /\ sits t c' (if ok then b' else b0) (if ok then B ++ l else basket_update (slen t - slen b0) (B ++ l)) s'
  | IRep r => exists s', ev (fun n => rep_loop n (read n e r)) s tt s' /\ sits t c' b' (B ++ l) s'
  | ITimes n r => exists x s', ev (fun m => times_loop n (read m e r)) s x s' /\ okx x = ok /\ sits t c' b' (B ++ l) s'
  | IPast r => exists s', past_ev e r s ok s' /\ sits t c' b' (B ++ l) s'
  | ITo r => exists s', to_ev e r s ok s' /\ sits t c' b' (B ++ l) s'
  | IBody z q d r => (exists a, t = a ++ z) -> (exists u, z = u ++ b) -> exists s', body_ev e d r (slen t - slen z) q s ok s' /\ sits t c' b' (B ++ l) s'
  end.

Lemma leaf_case t r c b ok c' b' B s : leaf r = true -> eats e (IR r) c b ok c' b' -> sits t c b B s -> low (slen t - slen b) B ->
  exists x s', reads e r s x s' /\ okx x = ok /\ sits t c' b' (B ++ []) s'.
Proof.
  intros Lf D St Lw. destruct (eats_reads e r c b ok c' b' t s D (proj1 St)) as (x & s' & Rd & X & S). exists x, s'. split; auto. split; auto.
  rewrite app_nil_r. eapply leaf_sits; eauto.
Qed.
Lemma stop_sits t c b B s (f : nat -> M bool) w ok s1 c1 b1 B1 r : sits t c b B s -> ev f s ok s1 -> sits t c1 b1 B1 s1 ->
  (forall n, read (S n) e r = let* m := mark in let* ok := f n in if ok then ret None else to_marker m ;; error_for w) ->
  exists x s', reads e r s x s' /\ okx x = ok /\ sits t c1 (if ok then b1 else b) (if ok then B1 else basket_update (slen t - slen b) B1) s'.
Proof.
  intros H [n F] Sn U. destruct ok.
  - exists None, s1. split; [|auto]. exists (S n). rewrite U, (bind_ok _ _ _ _ _ (mark_ok s)), (bind_ok _ _ _ _ _ F). reflexivity.
  - eexists _, (moveto (pos (sc s)) s1). split; [|split].
    + exists (S n). rewrite U, (bind_ok _ _ _ _ _ (mark_ok s)), (bind_ok _ _ _ _ _ F), bind_run, to_marker_nonneg by (eapply stands_nonneg; apply H). reflexivity.
    + reflexivity.
    + rewrite (stands_pos _ _ _ _ (proj1 H)). eapply sits_moveto; [exact Sn|apply H].
Qed.

(** Backtracking in terms of [cut]. *)
Lemma back_update (t : bytes) i c b ok c' b' l B : marks e k R (slen t) i c b ok c' b' l -> low (slen t - slen b) B ->
  basket_update (slen t - slen b) (B ++ l) = B ++ cut (slen t) b l.
Proof. intros D Lw. eapply cut_update; [exact Lw|lia|eapply marks_neat; eauto]. Qed.
Lemma next_low (t : bytes) i c b ok c' b' l B : marks e k R (slen t) i c b ok c' b' l -> low (slen t - slen b) B -> low (slen t - slen b') (B ++ l).
Proof. intros D Lw. eapply low_app; [|exact Lw|eapply marks_neat; eauto]. pose proof (marks_le _ _ _ _ _ _ _ _ _ _ _ D). lia. Qed.

Theorem marks_does t0 i c b ok c' b' l : marks e k R (slen t0) i c b ok c' b' l -> does t0 i c b ok c' b' l.
Proof.
  induction 1; intros B s St Lw; pose proof (proj1 St) as Sd.
  - eapply leaf_case; eauto using eats. destruct r; try discriminate; reflexivity.
  - eapply leaf_case; eauto using eats.
  - eapply leaf_case; eauto using eats.
  - eapply leaf_case; eauto using eats.
  - eapply leaf_case; eauto using eats.
  - destruct (IHmarks B s St Lw) as (x & s' & Rd & Sn). exists x, s'. split; auto. apply (rule_reads e i r); auto.
  - destruct (IHmarks B s St Lw) as (x & s' & [n Rd] & X & Sn). eexists (match x with None => None | Some y => Some (EOther (p ++ err_text y)) end), s'.
    split; [|destruct x; auto]. exists (S n). cbn [read]. rewrite H, (bind_ok _ _ _ _ _ Rd). destruct x; reflexivity.
  - destruct (IHmarks B s St Lw) as (x & s' & Rd & Sn). exists x, s'. split; auto. apply named_reads. auto.
  - destruct (IHmarks B s St Lw) as (x & s' & [n Rd] & X & Sn). exists (if ok then None else Some (EReadError (pos (sc s')) (what e (RRuleName r)))), s'.
    split; [|destruct ok; auto]. exists (S n). cbn [read]. rewrite (bind_ok _ _ _ _ _ Rd). destruct x, ok; try discriminate; reflexivity.
  - assert (S0 : sits t0 c b B (with_heap (put_log lg (snd (log_enter w (pos (sc s)) (get_log lg (hp s)))) (hp s)) s)) by exact St.
    destruct (IHmarks B _ S0 Lw) as (x & s' & [n Rd] & X & Sn). eexists x, _. split; [exists (S n); cbn [read]|].
    + rewrite (bind_ok _ _ _ _ _ (mark_ok s)). unfold gets at 1. rewrite bind_run. unfold modh at 1, modify. rewrite bind_run. rewrite (bind_ok _ _ _ _ _ Rd).
      rewrite (bind_ok _ _ _ _ _ (mark_ok s')). reflexivity.
    + split; [exact X|exact Sn].
  - destruct (IHmarks B s St Lw) as (x & s1 & Rd & X & Sn). destruct (sits_tokenize r t0 c b B s x s1 c' b' _ St Rd Sn) as (n & s2 & T & S2). rewrite X in T, S2.
    destruct x as [x|]; rewrite <- X in *; cbn [okx back] in *.
    + exists (Some x), s2. rewrite (back_update _ _ _ _ _ _ _ _ _ H Lw) in S2. split; [|auto]. exists (S n). cbn [read]. rewrite (bind_ok _ _ _ _ _ T). reflexivity.
    + eexists None, _. split; [exists (S n); cbn [read]; rewrite (bind_ok _ _ _ _ _ T); reflexivity|]. split; [reflexivity|exact S2].
  - destruct (IHmarks B s St Lw) as (x & s1 & Rd & X & Sn). destruct (sits_tokenize r t0 c b B s x s1 c' b' _ St Rd Sn) as (n & s2 & T & S2). rewrite X in T, S2.
    destruct x as [x|]; rewrite <- X in *; cbn [okx] in *.
    + exists (Some x), s2. rewrite (back_update _ _ _ _ _ _ _ _ _ H Lw) in S2. split; [|auto]. exists (S n). cbn [read]. rewrite (bind_ok _ _ _ _ _ T). reflexivity.
    + eexists None, _. split; [exists (S n); cbn [read]; rewrite (bind_ok _ _ _ _ _ T); reflexivity|]. split; [reflexivity|]. cbn [fst].
      destruct S2 as (S2 & T2 & B2). split; [exact S2|]. split; [exact T2|]. cbn [with_heap hp]. unfold basket_add, picked_by. pose proof (marks_le _ _ _ _ _ _ _ _ _ _ _ H).
      destruct (Nat.eqb k' k) eqn:Ek.
      * apply Nat.eqb_eq in Ek as ->. rewrite get_put_basket, B2, <- app_assoc. unfold seg_of, make_token. replace (_ <? _) with false by lia. reflexivity.
      * apply Nat.eqb_neq in Ek. rewrite app_nil_r. etransitivity; [|exact B2]. unfold get_basket, put_basket. apply get_put_other. auto.
  - destruct (IHmarks B s St Lw) as (x & s1 & Rd & X & Sn). exists None, s1. split; [|auto]. apply opt_reads. eauto.
  - destruct (IHmarks B s St Lw) as (x & s1 & Rd & X & Sn). exists x, (moveto (pos (sc s)) s1). split; [|split; auto].
    + apply at_reads; [eapply stands_nonneg; eauto|]. eauto.
    + rewrite <- (back_update _ _ _ _ _ _ _ _ _ H Lw), (stands_pos _ _ _ _ Sd). eapply sits_moveto; [exact Sn|apply Sd].
  - destruct (IHmarks B s St Lw) as (x & s1 & [n Rd] & X & Sn).
    assert (S2 : sits t0 c' b (B ++ cut (slen t0) b l) (moveto (pos (sc s)) s1)).
    { rewrite <- (back_update _ _ _ _ _ _ _ _ _ H Lw), (stands_pos _ _ _ _ Sd). eapply sits_moveto; [exact Sn|apply Sd]. }
    assert (L2 : low (slen t0 - slen b) (B ++ cut (slen t0) b l)).
    { eapply low_app; [|exact Lw|eapply neat_cut; [eapply marks_neat; eauto|]]; lia. }
    destruct (step_sits _ _ _ _ _ S2 L2) as (s3 & F & S3). pose proof (stands_nonneg _ _ _ _ Sd).
    assert (U : read (S n) e (RNot r) s = (match x with None => error_for (what e r) | Some _ => move_runes 1 ;; ret None end) (moveto (pos (sc s)) s1)).
    { cbn [read]. rewrite (bind_ok _ _ _ _ _ (mark_ok s)), (bind_ok _ _ _ _ _ Rd), bind_run, to_marker_nonneg by auto. reflexivity. }
    destruct x as [x|]; rewrite <- X; cbn [okx negb].
    + exists None, s3. split; [|auto]. exists (S n). rewrite U, (bind_ok _ _ _ _ _ F). reflexivity.
    + eexists (Some _), _. split; [exists (S n); rewrite U; reflexivity|]. auto.
  - destruct (IHmarks B s St Lw b [] ltac:(apply Sd)) as (x & s1 & [n Rd] & X & Sn). exists x, s1. split; [exists (S n); cbn [read];
      rewrite (bind_ok _ _ _ _ _ (mark_ok s)), (stands_pos _ _ _ _ Sd); exact Rd|]. split; [auto|]. destruct ok; [exact Sn|]. rewrite (back_update _ _ _ _ _ _ _ _ _ H Lw) in Sn. exact Sn.
  - destruct (IHmarks B s St Lw b ltac:(apply Sd)) as (x & s1 & [n Rd] & X & Sn). exists x, s1. split; [exists (S n); cbn [read];
      rewrite (bind_ok _ _ _ _ _ (mark_ok s)), (stands_pos _ _ _ _ Sd); exact Rd|]. split; [auto|]. destruct ok; [exact Sn|]. rewrite (back_update _ _ _ _ _ _ _ _ _ H Lw) in Sn. exact Sn.
  - destruct (IHmarks B s St Lw b ltac:(apply Sd)) as (x & s1 & [n Rd] & X & Sn). exists x, s1. split; [apply skip_seq_reads; exists (S n); cbn [read];
      rewrite (bind_ok _ _ _ _ _ (mark_ok s)), (stands_pos _ _ _ _ Sd); exact Rd|]. split; [auto|]. destruct ok; [exact Sn|]. rewrite (back_update _ _ _ _ _ _ _ _ _ H Lw) in Sn. exact Sn.
  - destruct (IHmarks B s St Lw) as (s1 & [n Rd] & Sn). exists None, s1. split; [|auto]. exists (S n). cbn [read]. rewrite (bind_ok _ _ _ _ _ Rd). reflexivity.
  - destruct (IHmarks B s St Lw) as (s1 & [n Rd] & Sn). pose proof (proj1 Sn) as Sd1.
    exists (if Nat.ltb (length b') (length b) then None else Some (EReadError (pos (sc s1)) (what e (RMany r)))), s1. split; [|destruct (Nat.ltb _ _); auto].
    exists (S n). cbn [read]. rewrite (bind_ok _ _ _ _ _ (mark_ok s)), (bind_ok _ _ _ _ _ Rd), (bind_ok _ _ _ _ _ (mark_ok s1)).
    rewrite (stands_pos _ _ _ _ Sd), (stands_pos _ _ _ _ Sd1) at 1.
    replace (slen t0 - slen b <? slen t0 - slen b') with (Nat.ltb (length b') (length b)) by (unfold slen; lia). destruct (Nat.ltb _ _); reflexivity.
  - destruct (IHmarks B s St Lw) as (x & s1 & [m Rd] & X & Sn). exists x, s1. split; [|auto]. exists (S m). exact Rd.
  - destruct (IHmarks B s St Lw) as (s1 & Rd & Sn). destruct (stop_sits t0 c b B s _ (what e (RPast r)) ok s1 c' b' _ (RPast r) St Rd Sn ltac:(intros; reflexivity)) as (x & s2 & R2 & X & S2).
    exists x, s2. split; [auto|]. split; [auto|]. destruct ok; [exact S2|]. rewrite (back_update _ _ _ _ _ _ _ _ _ H Lw) in S2. exact S2.
  - destruct (IHmarks B s St Lw) as (s1 & Rd & Sn). destruct (stop_sits t0 c b B s _ (what e (RTo r)) ok s1 c' b' _ (RTo r) St Rd Sn ltac:(intros; reflexivity)) as (x & s2 & R2 & X & S2).
    exists x, s2. split; [auto|]. split; [auto|]. destruct ok; [exact S2|]. rewrite (back_update _ _ _ _ _ _ _ _ _ H Lw) in S2. exact S2.
  - destruct (IHmarks B s St Lw ltac:(apply Sd) (ex_intro _ [] eq_refl)) as (s1 & Rd & Sn). rewrite <- (stands_pos _ _ _ _ Sd) in Rd.
    destruct ok.
    + exists None, s1. split; [exact (body_reads e true d t s true s1 (stands_nonneg _ _ _ _ Sd) Rd)|auto].
    + destruct (body_reads e true d t s false s1 (stands_nonneg _ _ _ _ Sd) Rd) as (x & R2). exists (Some x), (moveto (pos (sc s)) s1). split; [exact R2|].
      split; [reflexivity|]. cbn [back]. rewrite <- (back_update _ _ _ _ _ _ _ _ _ H Lw), (stands_pos _ _ _ _ Sd). eapply sits_moveto; [exact Sn|apply Sd].
  - destruct (IHmarks B s St Lw ltac:(apply Sd) (ex_intro _ [] eq_refl)) as (s1 & Rd & Sn). rewrite <- (stands_pos _ _ _ _ Sd) in Rd.
    destruct ok.
    + exists None, s1. split; [exact (body_reads e false d t s true s1 (stands_nonneg _ _ _ _ Sd) Rd)|auto].
    + destruct (body_reads e false d t s false s1 (stands_nonneg _ _ _ _ Sd) Rd) as (x & R2). exists (Some x), (moveto (pos (sc s)) s1). split; [exact R2|].
      split; [reflexivity|]. cbn [back]. rewrite <- (back_update _ _ _ _ _ _ _ _ _ H Lw), (stands_pos _ _ _ _ Sd). eapply sits_moveto; [exact Sn|apply Sd].
  - (* JanusBeg *) destruct (IHmarks B s St Lw) as (y & s1 & Rd & X & Sn). destruct y; [discriminate|].
    destruct (sits_tokenize r t0 c (x ++ b) B s None s1 c' b _ St Rd Sn) as (n & s2 & T & S2). cbn [okx] in *. pose proof (proj1 S2) as Sd2.
    assert (G : get_tok (make_token (slen t0 - slen (x ++ b)) (slen t0 - slen b)) s2 = Ok (x, s2)).
    { apply (tok_stands t0 c' b s2 x b (x ++ b) s2 c' b); auto. apply Sd. }
    eexists None, _. split; [exists (S n); cbn [read]; rewrite (bind_ok _ _ _ _ _ T); cbn [fst snd]; rewrite (bind_ok _ _ _ _ _ G); reflexivity|].
    split; [reflexivity|]. split; [|exact (proj2 S2)]. eapply stands_cells; [exact Sd2|]. unfold put_cell. cbn. destruct Sd2 as (_ & -> & _). reflexivity.
  - destruct (IHmarks B s St Lw) as (y & s1 & Rd & X & Sn). destruct y as [y|]; [|discriminate].
    destruct (sits_tokenize r t0 c b B s (Some y) s1 c' b' _ St Rd Sn) as (n & s2 & T & S2). cbn [okx] in *. rewrite (back_update _ _ _ _ _ _ _ _ _ H Lw) in S2.
    exists (Some y), s2. split; [|auto]. exists (S n). cbn [read]. rewrite (bind_ok _ _ _ _ _ T). reflexivity.
  - eapply leaf_case; eauto using eats.
  - eapply leaf_case; eauto using eats.
  - (* loops *) intros b0 errs Sf. destruct (sits_marker (Some (get_deepest errs)) t0 c b B s b0 St Sf) as (s1 & E & Sn). exists (Some (get_deepest errs)), s1. rewrite app_nil_r. auto.
  - intros b0 errs Sf. destruct (IHmarks B s St Lw) as (x & s1 & Rd & X & Sn). destruct x; [discriminate|]. exists None, s1. split; [|auto].
    destruct Rd as [n Rd]. exists n. cbn [map any_loop]. rewrite (bind_ok _ _ _ _ _ Rd). reflexivity.
  - intros b0 errs Sf. destruct (IHmarks1 B s St Lw) as (x & s1 & Rd & X & Sn). destruct x as [x|]; [|discriminate].
    destruct (IHmarks2 _ s1 Sn (next_low _ _ _ _ _ _ _ _ _ H Lw) b0 (errs ++ [x]) Sf) as (y & s2 & R2 & Y & S2). rewrite <- app_assoc in S2. exists y, s2. split; [|auto].
    apply (ev_first e r (fun x n => match x with None => ret None | Some x => any_loop (map (read n e) rs) (slen t0 - slen b0) (errs ++ [x]) end) s (Some x) s1); auto.
    intros [q|]; [apply mono_any|apply mono_const].
  - intros b0 Sf. exists None, s. rewrite app_nil_r. split; [exists 0%nat; reflexivity|auto].
  - intros b0 Sf. destruct (IHmarks B s St Lw) as (x & s1 & Rd & X & Sn). destruct x as [x|]; [|discriminate].
    destruct (sits_marker (Some x) t0 c' b' _ s1 b0 Sn Sf) as (s2 & E & S2). exists (Some x), s2. split; [|auto].
    apply (ev_first e r (fun x n => match x with None => seq_loop (map (read n e) rs) (slen t0 - slen b0) | Some x => to_marker (slen t0 - slen b0) ;; ret (Some x) end) s (Some x) s1); auto.
    intros [q|]; [apply mono_const|apply mono_seq].
  - intros b0 Sf. destruct (IHmarks1 B s St Lw) as (x & s1 & Rd & X & Sn). destruct x; [discriminate|].
    destruct (IHmarks2 _ s1 Sn (next_low _ _ _ _ _ _ _ _ _ H Lw) b0 Sf) as (y & s2 & R2 & Y & S2). rewrite <- app_assoc in S2. exists y, s2. split; [|auto].
    apply (ev_first e r (fun x n => match x with None => seq_loop (map (read n e) rs) (slen t0 - slen b0) | Some x => to_marker (slen t0 - slen b0) ;; ret (Some x) end) s None s1); auto.
    intros [q|]; [apply mono_const|apply mono_seq].
  - destruct (IHmarks B s St Lw) as (x & s1 & Rd & X & Sn). destruct x as [x|]; [|discriminate]. exists s1. split; auto.
    destruct Rd as [n Rd]. exists (S n). cbn [rep_loop]. rewrite (bind_ok _ _ _ _ _ (read_up e r n (S n) s _ ltac:(lia) Rd)). reflexivity.
  - destruct (IHmarks1 B s St Lw) as (x & s1 & [n Rd] & X & Sn). destruct x; [discriminate|].
    destruct (IHmarks2 _ s1 Sn (next_low _ _ _ _ _ _ _ _ _ H Lw)) as (s2 & [m R2] & S2). rewrite <- app_assoc in S2.
    exists s2. split; auto. exists (S (n + m)). cbn [rep_loop]. rewrite (bind_ok _ _ _ _ _ (read_up e r n (S (n + m)) s _ ltac:(lia) Rd)).
    assert (F : fle (rep_loop m (read m e r)) (rep_loop (n + m) (read (S (n + m)) e r))) by (apply fle_rep; [lia|apply read_fle; lia]).
    destruct (F s1) as [Q|Q]; congruence.
  - exists None, s. rewrite app_nil_r. split; [exists 0%nat; reflexivity|auto].
  - destruct (IHmarks B s St Lw) as (x & s1 & Rd & X & Sn). destruct x as [x|]; [|discriminate]. exists (Some x), s1. split; [|auto].
    destruct Rd as [m Rd]. exists m. cbn [times_loop]. rewrite (bind_ok _ _ _ _ _ Rd). reflexivity.
  - destruct (IHmarks1 B s St Lw) as (x & s1 & Rd & X & Sn). destruct x; [discriminate|].
    destruct (IHmarks2 _ s1 Sn (next_low _ _ _ _ _ _ _ _ _ H Lw)) as (y & s2 & R2 & Y & S2). rewrite <- app_assoc in S2.
    exists y, s2. split; [|auto].
    apply (ev_first e r (fun x m => match x with None => times_loop n (read m e r) | Some x => ret (Some x) end) s None s1); auto.
    intros [q|]; [apply mono_const|apply mono_times].
  - exists s. rewrite app_nil_r. split; [apply past_stop|auto]. rewrite (stands_pos _ _ _ _ Sd). destruct Sd as (-> & _). unfold slen; cbn; lia.
  - destruct (IHmarks B s St Lw) as (x & s1 & Rd & X & Sn). destruct x; [discriminate|]. exists s1. split; auto. apply past_here; auto.
    rewrite (stands_pos _ _ _ _ Sd). destruct Sd as (-> & _). destruct b; [congruence|unfold slen; cbn; lia].
  - destruct (IHmarks1 B s St Lw) as (x & s1 & Rd & X & Sn). destruct x as [x|]; [|discriminate]. pose proof (next_low _ _ _ _ _ _ _ _ _ H0 Lw) as L1.
    destruct (step_sits _ _ _ _ _ Sn L1) as (s2 & F & S2).
    destruct (IHmarks2 _ s2 S2) as (s3 & R3 & S3); [eapply low_up; [|exact L1]; pose proof (step_le b1); lia|]. rewrite <- app_assoc in S3. exists s3. split; auto. eapply past_next; eauto.
    rewrite (stands_pos _ _ _ _ Sd). destruct Sd as (-> & _). destruct b; [congruence|unfold slen; cbn; lia].
  - destruct (IHmarks B s St Lw) as (x & s1 & Rd & X & Sn). destruct x; [discriminate|]. exists (moveto (pos (sc s)) s1). split; [apply to_here; auto; eapply stands_nonneg; eauto|].
    rewrite <- (back_update _ _ _ _ _ _ _ _ _ H Lw), (stands_pos _ _ _ _ Sd). eapply sits_moveto; [exact Sn|apply Sd].
  - destruct (IHmarks B s St Lw) as (x & s1 & Rd & X & Sn). destruct x as [x|]; [|discriminate]. destruct (step_sits _ _ _ _ _ Sn (next_low _ _ _ _ _ _ _ _ _ H Lw)) as (s2 & F & S2).
    rewrite H0 in *. cbn [fst snd] in *. exists s2. split; auto. eapply to_stop; eauto.
  - destruct (IHmarks1 B s St Lw) as (x & s1 & Rd & X & Sn). destruct x as [x|]; [|discriminate]. pose proof (next_low _ _ _ _ _ _ _ _ _ H Lw) as L1.
    destruct (step_sits _ _ _ _ _ Sn L1) as (s2 & F & S2). pose proof (step_le b1) as Q. rewrite H0 in *. cbn [fst snd] in *.
    destruct (IHmarks2 _ s2 S2) as (s3 & R3 & S3); [eapply low_up; [|exact L1]; lia|]. rewrite <- app_assoc in S3. exists s3. split; auto. eapply to_next; eauto.
  - intros Sz Su. exists s. rewrite app_nil_r. split; [apply body_stop|auto]. rewrite (stands_pos _ _ _ _ Sd). destruct Sd as (-> & _). unfold slen; cbn; lia.
  - (* body hit *) intros Sz Su. destruct (IHmarks B s St Lw) as (y & s1 & [n Rd] & Y & Sn). destruct y; [discriminate|]. pose proof (proj1 Sn) as Sd1.
    assert (Ls : slen str < 2 ^ 63). { destruct Sd as (_ & _ & _ & _ & Lt). destruct Sz as [az Ez]. rewrite Ez, !slen_app in Lt. pose proof (slen_nonneg az). pose proof (slen_nonneg b). lia. }
    pose proof (fresh_stands t0 c1 b1 s1 str Sd1 Ls) as Fr. destruct (eats_reads e d c1 str ok c' x str _ H2 Fr) as (q' & s2 & [m R2] & Q & S2).
    pose proof (tok_stands t0 c b s str b (str ++ b) s1 c1 b1 Sd Sz eq_refl Sd1 eq_refl) as G.
    destruct (read_unpicked k e R HR m d H1 (mkSt (new_scanner str) (hp s1)) q' s2 ltac:(discriminate) R2) as [Tk Kb]. cbn [trk sc new_scanner hp] in Tk, Kb.
    assert (S3 : exists s3, stands str c' (if ok then x else str) s3 /\ get_basket k (hp s3) = B ++ l /\
       forall j, (m <= j)%nat -> on_sub str (read j e d) s1 = Ok ((q', no_text (if ok then x else str)), mkSt (sc s1) (hp s3))).
    { destruct q' as [q'|]; rewrite <- Q; cbn [okx].
      - assert (S3 : stands str c' str (moveto 0 s2)) by (eapply stands_moveto; [exact S2|exists []; auto|lia]).
        exists (moveto 0 s2). split; [exact S3|]. split; [rewrite kb_move_state by congruence; rewrite Kb; apply Sn|]. intros j Hj.
        assert (V : use (read j e d) (mkSt (new_scanner str) (hp s1)) = Ok (Some q', moveto 0 s2)).
        { unfold use. rewrite (bind_ok _ _ _ _ _ (mark_ok _)), (bind_ok _ _ _ _ _ (read_up e d m j _ _ Hj R2)). cbn [pos sc new_scanner].
          rewrite bind_run, to_marker_nonneg by lia. reflexivity. }
        unfold on_sub. rewrite (bind_ok _ _ _ _ _ V), (bind_ok _ _ _ _ _ (end_stands _ _ _ _ S3)). reflexivity.
      - exists s2. split; [exact S2|]. split; [rewrite Kb; apply Sn|]. intros j Hj.
        assert (V : use (read j e d) (mkSt (new_scanner str) (hp s1)) = Ok (None, s2)).
        { unfold use. rewrite (bind_ok _ _ _ _ _ (mark_ok _)), (bind_ok _ _ _ _ _ (read_up e d m j _ _ Hj R2)). reflexivity. }
        unfold on_sub. rewrite (bind_ok _ _ _ _ _ V), (bind_ok _ _ _ _ _ (end_stands _ _ _ _ S2)). reflexivity. }
    destruct S3 as (s3 & S3 & B3 & O). pose proof (back_stands t0 c1 b1 s1 s3 str _ _ Sd1 S3) as Bk.
    assert (Bk2 : sits t0 c' b1 (B ++ l) (mkSt (sc s1) (hp s3))) by (split; [exact Bk|split; [apply Sn|exact B3]]).
    assert (Ne : no_text b = false) by (destruct b; [congruence|auto]).
    assert (U : exists s', body_loop (S (n + m)) (slen t0 - slen (str ++ b)) (read (S (n + m)) e d) (read (S (n + m)) e t) q s = Ok (ok && no_text x, s')
      /\ sits t0 c' (if q && (ok && no_text x) then b else b1) (B ++ back (slen t0) (negb (q && (ok && no_text x))) b l) s').
    { cbn [body_loop]. rewrite (bind_ok _ _ _ _ _ (end_stands _ _ _ _ Sd)), Ne, (bind_ok _ _ _ _ _ (mark_ok s)), (stands_pos _ _ _ _ Sd).
      rewrite (bind_ok _ _ _ _ _ (read_up e t n (S (n + m)) s _ ltac:(lia) Rd)), (bind_ok _ _ _ _ _ G), (bind_ok _ _ _ _ _ (O (S (n + m)) ltac:(lia))). cbn [fst snd].
      destruct q' as [q'|]; rewrite <- Q in *; cbn [okx andb] in *.
      - eexists. split; [reflexivity|]. rewrite andb_false_r. exact Bk2.
      - destruct (no_text x); cbn [negb].
        + destruct q; cbn [andb negb back].
          * rewrite bind_run, to_marker_nonneg. 2:{ pose proof (stands_len _ _ _ _ Sd). lia. } eexists. split; [reflexivity|].
            rewrite <- (back_update _ _ _ _ _ _ _ _ _ H0 Lw). eapply sits_moveto; [exact Bk2|apply Sd].
          * eexists. split; [reflexivity|exact Bk2].
        + eexists. split; [reflexivity|]. rewrite andb_false_r. exact Bk2. }
    destruct U as (s' & U & S'). exists s'. split; auto. exists (S (n + m)). exact U.
  - intros Sz [u Su]. destruct (IHmarks1 B s St Lw) as (x & s1 & Rd & X & Sn). destruct x as [x|]; [|discriminate]. pose proof (next_low _ _ _ _ _ _ _ _ _ H0 Lw) as L1.
    destruct (step_sits _ _ _ _ _ Sn L1) as (s2 & F & S2).
    assert (Sx : exists v, z = v ++ snd (step b1)).
    { destruct (eats_suffix _ _ _ _ _ _ _ (marks_eats _ _ _ _ _ _ _ _ _ _ _ H0)) as [d1 X1]. destruct (step_suffix b1) as [d2 X2]. exists (u ++ d1 ++ d2). rewrite Su, X1 at 1. rewrite X2 at 1. rewrite !app_assoc. reflexivity. }
    destruct (IHmarks2 _ s2 S2) as (s3 & R3 & S3); auto; [eapply low_up; [|exact L1]; pose proof (step_le b1); lia|]. rewrite <- app_assoc in S3. exists s3. split; auto. eapply body_next; eauto.
    rewrite (stands_pos _ _ _ _ Sd). destruct Sd as (-> & _). destruct b; [congruence|unfold slen; cbn; lia].
Qed.

(** Read with a coupled basket. *)
Lemma reads_marks r t c b B s x s' : eall covered e -> eallP (flat_body k R) e -> rall covered r = true -> rallP (flat_body k R) r ->
  sits t c b B s -> low (slen t - slen b) B -> reads e r s x s' ->
  exists c' b' l, marks e k R (slen t) (IR r) c b (okx x) c' b' l /\ sits t c' b' (B ++ l) s'.
Proof.
  intros C1 F1 C2 F2 St Lw Rd. destruct (reads_eats e r t c b s x s' C1 C2 (proj1 St) Rd) as (c' & b' & _ & D).
  destruct (eats_marks e k R (slen t) (IR r) c b (okx x) c' b' F1 F2 D) as [l M]. exists c', b', l. split; auto.
  destruct (marks_does t _ _ _ _ _ _ _ M B s St Lw) as (y & s2 & R2 & _ & S2). destruct (reads_fun _ _ _ _ _ _ _ Rd R2) as [_ ->]. exact S2.
Qed.
End Sits.

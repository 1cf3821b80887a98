(** LogCalls.v - the Levels of the entries of a Log: after Reads, and after any calls of Enter, Exit and Reset (C169). *)
From Verif Require Export LogFacts Grammar.
From Coq Require Import Lia ZifyBool.

(** monitor.go:17-19 (LogEntry.String) with the panic of strings.Repeat, that does not take a negative count. *)
Definition entry_text (e : entry) : res bytes := if e_level e <? 0 then Panic else Ok (entry_string e).

(** Calls of the methods of a Log from outside. *)
Inductive lcall := CEnter (info : bytes) (p : Z) | CExit (at_ : eptr) (p : Z) (x : option err) | CReset.
Definition do_call {L : GoLib} (l : log) (c : lcall) : log :=
  match c with CEnter i p => snd (log_enter i p l) | CExit a p x => log_exit a p x l | CReset => log_reset l end.
Definition do_calls {L : GoLib} (l : log) (cs : list lcall) : log := fold_left do_call cs l.

(** [forest v l]: the entries [l] list trees in preorder, the roots at level [v + 1], children one level below their parent. *)
Inductive forest : Z -> list entry -> Prop :=
| f_none v : forest v []
| f_tree v en a b : e_level en = v + 1 -> forest (v + 1) a -> forest v b -> forest v (en :: a ++ b).

Lemma forest_app v a b : forest v a -> forest v b -> forest v (a ++ b).
Proof. intros H K. induction H; cbn; auto. rewrite <- app_assoc. constructor; auto. Qed.
Lemma forest_low v l : forest v l -> forall en, In en l -> v + 1 <= e_level en.
Proof.
  induction 1 as [|v en a b E A IA B IB]; intros x I; [destruct I|]. destruct I as [<-|I]; [lia|].
  apply in_app_iff in I as [I|I]; [apply IA in I; lia|auto].
Qed.
Lemma forest_first v l : forest v l -> forall en t, l = en :: t -> e_level en = v + 1.
Proof. destruct 1; intros x t E; [discriminate|]. injection E as <- _. auto. Qed.
(** From one entry to the next the level rises by at most one. *)
Lemma forest_next v l : forest v l -> forall a x y b, l = a ++ x :: y :: b -> e_level y <= e_level x + 1.
Proof.
  induction 1 as [|v en a b E A IA B IB]; intros u x y w Eq; [destruct u; discriminate|].
  destruct u as [|z u]; cbn in Eq; injection Eq as <- Eq.
  - destruct a as [|a1 a]; cbn in Eq.
    + pose proof (forest_first v b B _ _ Eq). lia.
    + injection Eq as <- _. pose proof (forest_first _ _ A _ _ eq_refl). lia.
  - revert u Eq IA. pose proof (forest_low _ _ A) as Lo. clear A. revert Lo. induction a as [|a1 a IH]; intros Lo u Eq IA.
    + cbn in Eq. eapply IB; eauto.
    + destruct u as [|z u]; cbn in Eq; injection Eq as E1 Eq.
      * subst a1. destruct a as [|a2 a]; cbn in Eq.
        -- pose proof (forest_first v b B _ _ Eq). specialize (Lo x (or_introl eq_refl)). lia.
        -- injection Eq as <- _. eapply (IA [] x a2); reflexivity.
      * subst z. apply (IH (fun en0 I => Lo en0 (or_intror I)) u Eq). intros u' x' y' w' E'. eapply (IA (a1 :: u')). cbn. rewrite E'. reflexivity.
Qed.

Section Levels.
Context {L : GoLib} (e : env) (lg : nat).
Definition Pf (s s' : st) : Prop := log_ok (lgs lg s) -> grown (lgs lg s) (lgs lg s') /\
  exists new, log_entries (lgs lg s') = log_entries (lgs lg s) ++ new /\ forest (l_level (lgs lg s)) new.
Lemma Pf_same s s' : lgs lg s' = lgs lg s -> Pf s s'.
Proof. intros E. unfold Pf. rewrite E. intros H. split; [apply grown_refl; auto|]. exists []. rewrite app_nil_r. split; auto. constructor. Qed.
Lemma Pf_trans s s1 s2 : Pf s s1 -> Pf s1 s2 -> Pf s s2.
Proof.
  intros H1 H2 Ok. destruct (H1 Ok) as (G1 & n1 & E1 & A1). pose proof G1 as (Ok1 & Lv & _).
  destruct (H2 Ok1) as (G2 & n2 & E2 & A2). split; [eapply grown_trans; eauto|]. exists (n1 ++ n2). rewrite E2, E1, app_assoc. split; auto.
  rewrite Lv in A2. apply forest_app; auto.
Qed.
Lemma every_reader : forall r, rallP (fun _ => True) r.
Proof.
  induction r using reader_ind'; cbn [rallP]; repeat split; auto;
    match goal with H : Forall _ _ |- _ => induction H; cbn; auto end.
Qed.
Lemma forest_read r s x s' : reads e r s x s' -> Pf s s'.
Proof.
  intros [n H].
  refine (frame_read e (fun _ => True) (fun _ => true) Pf _ _ _ _ _ _ _ _ _ _ _ _ n r (every_reader r) s x s' H); auto.
  - intros. apply Pf_same; auto.
  - apply Pf_trans.
  - intros s0 p. apply Pf_same, log_moveto.
  - intros. apply Pf_same; reflexivity.
  - intros. apply Pf_same; reflexivity.
  - intros. apply Pf_same; reflexivity.
  - intros. apply Pf_same; reflexivity.
  - intros info l sub s0 y s2 _ Rd G Ok. destruct (Nat.eq_dec l lg) as [->|N].
    + assert (En : lgs lg (entered lg info s0) = snd (log_enter info (pos (sc s0)) (lgs lg s0))) by (unfold lgs, entered; cbn [with_heap hp]; apply get_put_log).
      assert (Ex : lgs lg (exited lg info s0 y s2) = log_exit (fst (log_enter info (pos (sc s0)) (lgs lg s0))) (pos (sc s2)) y (lgs lg s2))
        by (unfold exited; unfold lgs at 1; cbn [with_heap hp]; apply get_put_log).
      pose proof (enter_spec info (pos (sc s0)) (lgs lg s0) Ok) as (Oe & Ee & Le & _).
      unfold Pf in G. rewrite En in G. destruct (G Oe) as (G1 & n1 & E1 & A1).
      destruct (monitored_log info (pos (sc s0)) (lgs lg s0) (lgs lg s2) (pos (sc s2)) y Ok G1) as (M1 & n2 & M2 & M3). cbv zeta in *.
      rewrite Ex. split; [exact M1|]. rewrite M3. eexists. split; [reflexivity|].
      rewrite E1, Ee in M2. apply app_inv_head in M2. subst n2. rewrite Le in A1. rewrite <- (app_nil_r n1). constructor; [|exact A1|constructor].
      destruct (Nat.leb _ _); reflexivity.
    + assert (En : lgs lg (entered l info s0) = lgs lg s0) by (unfold lgs, entered; cbn [with_heap hp]; apply get_put_log_other; auto).
      assert (Ex : lgs lg (exited l info s0 y s2) = lgs lg s2) by (unfold lgs, exited; cbn [with_heap hp]; apply get_put_log_other; auto).
      rewrite Ex. unfold Pf in G. rewrite En in G. exact (G Ok).
  - intros i r0 _ _. apply every_reader.
Qed.
End Levels.

(* ------------------------------------------------------- calls from outside *)

(** The level after the calls: Enter counts up, Exit counts down, Reset starts again. *)
Definition level_after (v : Z) (cs : list lcall) : Z :=
  fold_left (fun v c => match c with CEnter _ _ => v + 1 | CExit _ _ _ => v - 1 | CReset => 0 end) cs v.
Lemma calls_level {L : GoLib} : forall cs l, l_level (do_calls l cs) = level_after (l_level l) cs.
Proof.
  induction cs as [|c cs IH]; intros l; [reflexivity|]. cbn [do_calls fold_left]. fold (do_calls (do_call l c) cs). rewrite IH.
  unfold level_after at 2. cbn [fold_left]. f_equal. destruct c; cbn; try reflexivity. unfold log_enter. destruct (Nat.ltb _ _); reflexivity.
Qed.

(** What Enter writes and nothing changes later. *)
Definition key (en : entry) : bytes * Z * Z := (e_info en, e_enter en, e_level en).
Lemma key_upd p x : forall l i, map key (upd l i (left_at p x)) = map key l.
Proof. induction l as [|h l IH]; intros [|i]; cbn; auto. rewrite IH. auto. Qed.
Lemma exit_keys a p x l : map key (log_entries (log_exit a p x l)) = map key (log_entries l).
Proof.
  destruct a as [c i]. unfold log_entries, log_exit. cbn. rewrite nth_upd. destruct (_ && _); auto. rewrite firstn_upd. apply key_upd.
Qed.
Lemma exit_ok a p x l : log_ok l -> log_ok (log_exit a p x l).
Proof.
  intros (A & B & C). pose proof (f_equal (@length _) (exit_keys a p x l)) as E. rewrite !map_length in E.
  split; [rewrite E; exact A|]. split; [exact B|]. cbn. rewrite upd_length. exact C.
Qed.
Lemma reset_ok l : log_ok (log_reset l) /\ log_entries (log_reset l) = [].
Proof. split; [split; [reflexivity|split; cbn; [lia|auto]]|reflexivity]. Qed.
Lemma call_ok {L : GoLib} l c : log_ok l -> log_ok (do_call l c).
Proof. intros H. destruct c; cbn; [apply enter_spec; auto|apply exit_ok; auto|apply reset_ok]. Qed.
Lemma calls_ok {L : GoLib} : forall cs l, log_ok l -> log_ok (do_calls l cs).
Proof. induction cs as [|c cs IH]; intros l H; [exact H|]. apply IH, call_ok, H. Qed.

(** The keys that the calls leave: those of the Enters since the last Reset. *)
Fixpoint keys_after (v : Z) (k : list (bytes * Z * Z)) (cs : list lcall) : list (bytes * Z * Z) :=
  match cs with
  | [] => k
  | CEnter i p :: t => keys_after (v + 1) (k ++ [(i, p, v + 1)]) t
  | CExit _ _ _ :: t => keys_after (v - 1) k t
  | CReset :: t => keys_after 0 [] t
  end.
Lemma calls_keys {L : GoLib} : forall cs l, log_ok l -> map key (log_entries (do_calls l cs)) = keys_after (l_level l) (map key (log_entries l)) cs.
Proof.
  induction cs as [|c cs IH]; intros l H; [reflexivity|]. cbn [do_calls fold_left]. fold (do_calls (do_call l c) cs). rewrite IH by (apply call_ok; auto).
  destruct c as [i p|a p x|]; cbn [do_call keys_after].
  - destruct (enter_spec i p l H) as (_ & E & Lv & _). rewrite E, Lv, map_app. reflexivity.
  - rewrite exit_keys. reflexivity.
  - reflexivity.
Qed.
Lemma keys_in : forall cs v k x, In x (keys_after v k cs) ->
  In x k \/ exists i p a b, cs = a ++ CEnter i p :: b /\ x = (i, p, level_after v a + 1).
Proof.
  induction cs as [|c cs IH]; intros v k x I; [auto|]. destruct c as [i p|a p y|]; cbn [keys_after] in I; apply IH in I as [I|(i' & p' & a' & b' & -> & ->)].
  - apply in_app_iff in I as [I|[<-|[]]]; [auto|]. right. exists i, p, [], cs. auto.
  - right. exists i', p', (CEnter i p :: a'), b'. auto.
  - auto.
  - right. exists i', p', (CExit a p y :: a'), b'. auto.
  - destruct I.
  - right. exists i', p', (CReset :: a'), b'. auto.
Qed.

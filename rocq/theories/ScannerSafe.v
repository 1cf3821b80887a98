(** ScannerSafe.v - arbitrary programs over the Scanner API (C01) and the scoped
    operations (C04). *)
From Verif Require Export ReadFacts.

(** Every program that can be written with the public methods of Scanner over a
    text of length [n]: sequencing, branching on results (the continuation is an
    arbitrary function), and the methods with arbitrary arguments - markers are
    positions of the text.  [pn] allows the methods that slice blindly (IfFold,
    RevIfFold, RevToFold), [lp] allows While with an arbitrary body. *)
Section prog.
Context {L : GoLib}.
Context (n : Z) (pn lp : bool).

Inductive prog : forall A, M A -> Prop :=
| p_ret A (x : A) : prog A (ret x)
| p_bind A B m k : prog A m -> (forall x, prog B (k x)) -> prog B (bind m k)
| p_with_mark B k : (forall m, 0 <= m <= n -> prog B (k m)) -> prog B (bind mark k)
| p_tail : prog bytes s_tail
| p_head : prog bytes s_head
| p_mark : prog Z mark
| p_move d : prog bool (move d)
| p_to_marker m : 0 <= m <= n -> prog bool (to_marker m)
| p_to_end : prog bool to_end
| p_to_start : prog bool to_start
| p_at_end : prog bool at_end
| p_at_start : prog bool at_start
| p_line_col tab : prog (Z * Z) (line_col tab)
| p_if_str x : prog bool (if_str x)
| p_if_any x : prog bool (if_any x)
| p_to_str x : prog bool (to_str x)
| p_scan_string k : prog (bytes * bool) (scan_string k)
| p_if_fold x : pn = true -> prog bool (if_fold x)
| p_to_fold x : prog bool (to_fold x)
| p_if_rune r : prog bool (if_rune r)
| p_to_rune r : prog bool (to_rune r)
| p_while_rune r : prog bool (while_rune r)
| p_if_any_rune x : prog bool (if_any_rune x)
| p_to_any_rune x : prog bool (to_any_rune x)
| p_while_any_rune x : prog bool (while_any_rune x)
| p_if_between a b : prog bool (if_between a b)
| p_to_between a b : prog bool (to_between a b)
| p_while_between a b : prog bool (while_between a b)
| p_if_match c : prog bool (if_match c)
| p_to_match c : prog bool (to_match c)
| p_while_match c : prog bool (while_match c)
| p_move_runes k : prog bool (move_runes k)
| p_rev_if x : prog bool (rev_if x)
| p_rev_if_any x : prog bool (rev_if_any x)
| p_rev_to x : prog bool (rev_to x)
| p_rev_if_fold x : pn = true -> prog bool (rev_if_fold x)
| p_rev_to_fold x : pn = true -> prog bool (rev_to_fold x)
| p_rev_if_rune r : prog bool (rev_if_rune r)
| p_rev_to_rune r : prog bool (rev_to_rune r)
| p_rev_while_rune r : prog bool (rev_while_rune r)
| p_rev_if_any_rune x : prog bool (rev_if_any_rune x)
| p_rev_to_any_rune x : prog bool (rev_to_any_rune x)
| p_rev_while_any_rune x : prog bool (rev_while_any_rune x)
| p_rev_if_between a b : prog bool (rev_if_between a b)
| p_rev_to_between a b : prog bool (rev_to_between a b)
| p_rev_while_between a b : prog bool (rev_while_between a b)
| p_rev_if_match c : prog bool (rev_if_match c)
| p_rev_to_match c : prog bool (rev_to_match c)
| p_rev_while_match c : prog bool (rev_while_match c)
| p_get_tok f t : 0 <= f <= t -> t <= n -> prog bytes (get_tok (mkTok f t))
| p_since m : 0 <= m <= n -> prog bytes (since m)
| p_scope f : prog bool f -> prog bool (scope f)
| p_trace f : prog bool f -> prog (bytes * bool) (trace f)
| p_while k f : lp = true -> prog bool f -> prog bool (while_f k f)
| p_tokenize f : prog bool f -> prog (token * bool) (tokenize f)
| p_capture f : prog bool f -> prog (bytes * bool) (capture f)
| p_use r : prog (option err) r -> prog (option err) (use r)
| p_trace_use r : prog (option err) r -> prog (bytes * option err) (trace_use r)
| p_tokenize_use r : prog (option err) r -> prog (token * option err) (tokenize_use r)
| p_capture_use r : prog (option err) r -> prog (bytes * option err) (capture_use r)
| p_error_for w : prog (option err) (error_for w)
| p_error_if_false ok w : prog (option err) (error_if_false ok w)
| p_read_rune : prog (Z * option err) read_rune
| p_rev_read_rune : prog (Z * option err) rev_read_rune
| p_read_bool f : prog (bool * option err) (read_bool f)
| p_read_int base bits : prog (Z * option err) (read_int base bits)
| p_read_uint base bits : prog (Z * option err) (read_uint base bits).

Context (t : bytes) (Hn : n = slen t).

(** What running [m] on text [t] may do. *)
Definition tame {A} (Q : A -> Prop) (m : M A) : Prop := forall s, in_text s -> full (sc s) = t ->
  match m s with
  | Ok (x, s') => in_text s' /\ full (sc s') = t /\ trk (sc s') = trk (sc s) /\ Q x
  | Panic => pn = true
  | Fuel => lp = true
  end.

Definition any {A} (_ : A) : Prop := True.

Lemma tame_ret {A} (Q : A -> Prop) x : Q x -> tame Q (ret x).
Proof. intros H s I F. cbn. auto. Qed.

Lemma tame_bind {A B} (Q : A -> Prop) (R : B -> Prop) m k :
  tame Q m -> (forall x, Q x -> tame R (k x)) -> tame R (bind m k).
Proof.
  intros Hm Hk s I F. unfold bind. specialize (Hm s I F). destruct (m s) as [[x s']| |]; auto.
  destruct Hm as (I' & F' & T' & Qx). specialize (Hk x Qx s' I' F').
  destruct (k x s') as [[y s'']| |]; auto. rewrite <- T'. exact Hk.
Qed.

Lemma tame_weaken {A} (Q R : A -> Prop) m : tame Q m -> (forall x, Q x -> R x) -> tame R m.
Proof.
  intros Hm W s I F. specialize (Hm s I F). destruct (m s) as [[x s']| |]; auto.
  intuition.
Qed.

Lemma tame_tail : tame any s_tail.
Proof.
  intros s I F. apply at_split_in_text in I as (a & b & H).
  rewrite (s_tail_split _ _ _ H). repeat split; auto; apply (in_text_split _ _ _ H).
Qed.
Lemma tame_head : tame any s_head.
Proof.
  intros s I F. apply at_split_in_text in I as (a & b & H).
  rewrite (s_head_split _ _ _ H). repeat split; auto; apply (in_text_split _ _ _ H).
Qed.
Lemma tame_mark : tame (fun m => 0 <= m <= n) mark.
Proof. intros s I F. cbn. repeat split; auto; try apply I. rewrite Hn, <- F. apply I. Qed.
Lemma tame_move d : tame any (move d).
Proof.
  intros s I F. destruct (move_total d s) as (ok & s' & E & Ef & Et & Ep). rewrite E.
  destruct I as [I1 I2]. split; [split; rewrite Ef; auto|]. repeat split; auto; congruence.
Qed.
Lemma tame_to_marker m : 0 <= m <= n -> tame any (to_marker m).
Proof.
  intros Hm s I F. rewrite (to_marker_nonneg m s) by lia.
  split; [|cbn; repeat split; auto]. unfold in_text. cbn. destruct I. split; auto. rewrite F, <- Hn. lia.
Qed.
Lemma tame_to_end : tame any to_end.
Proof.
  intros s I F. unfold to_end. apply (tame_to_marker (slen (full (sc s)))); auto.
  rewrite F, <- Hn. rewrite Hn. pose proof (slen_nonneg t). lia.
Qed.
Lemma tame_gets {A} (f : st -> A) : tame any (gets f).
Proof. intros s I F. cbn. repeat split; auto; apply I. Qed.
Lemma tame_panic {A} (Q : A -> Prop) : pn = true -> tame Q panic.
Proof. intros H s I F. exact H. Qed.
Lemma tame_fuel {A} (Q : A -> Prop) : lp = true -> tame Q out_of_fuel.
Proof. intros H s I F. exact H. Qed.
Lemma tame_get_tok f e : 0 <= f <= e -> e <= n -> tame any (get_tok (mkTok f e)).
Proof.
  intros H1 H2 s I F. unfold get_tok. cbn [t_from t_to]. rewrite F, <- Hn.
  replace ((0 <=? f) && (f <=? e) && (e <=? n)) with true by lia.
  repeat split; auto; apply I.
Qed.

Ltac tame_step :=
  match goal with
  | |- tame _ (bind mark _) => eapply tame_bind; [apply tame_mark|let H := fresh "H" in intros ? H; cbv beta in H]
  | |- tame _ (bind s_tail _) => eapply tame_bind; [apply tame_tail|intros ? _]
  | |- tame _ (bind s_head _) => eapply tame_bind; [apply tame_head|intros ? _]
  | |- tame _ (bind (move _) _) => eapply tame_bind; [apply tame_move|intros ? _]
  | |- tame _ (bind (to_marker _) _) => eapply tame_bind; [apply tame_to_marker; assumption|intros ? _]
  | |- tame _ (move _) => apply tame_move
  | |- tame _ (ret _) => apply tame_ret; exact I
  | |- tame _ panic => apply tame_panic; assumption
  | |- tame _ to_end => apply tame_to_end
  | |- tame _ (if ?c then _ else _) => destruct c
  | |- tame _ (match ?c with _ => _ end) => destruct c
  end.
Ltac tm := repeat tame_step.

Lemma tame_error_for w : tame any (error_for w).
Proof. unfold error_for. tm. Qed.
Lemma tame_error_if_false ok w : tame any (error_if_false ok w).
Proof. unfold error_if_false. tm. apply tame_error_for. Qed.
Lemma tame_if_str x : tame any (if_str x).
Proof. unfold if_str. tm. Qed.
Lemma tame_if_any x : tame any (if_any x).
Proof. induction x; cbn [if_any]; tm. eapply tame_bind; [apply tame_if_str|intros ? _]. tm. exact IHx. Qed.
Lemma tame_rev_if x : tame any (rev_if x).
Proof. unfold rev_if. tm. Qed.
Lemma tame_rev_if_any x : tame any (rev_if_any x).
Proof. induction x; cbn [rev_if_any]; tm. eapply tame_bind; [apply tame_rev_if|intros ? _]. tm. exact IHx. Qed.
Lemma tame_if_rune x : tame any (if_rune x).
Proof. unfold if_rune. tm. Qed.
Lemma tame_if_any_rune x : tame any (if_any_rune x).
Proof.
  unfold if_any_rune. generalize (runes x) as rs. induction rs; cbn [if_any_rune_loop]; tm.
  eapply tame_bind; [apply tame_if_rune|intros ? _]. tm. exact IHrs.
Qed.
Lemma tame_rev_to_fold x : pn = true -> tame any (rev_to_fold x).
Proof.
  intros H. unfold rev_to_fold. eapply tame_bind; [apply tame_head|intros a _].
  generalize (fst (rev_items a)), (slen a). intros l z.
  induction l as [|[s ?] l IH]; cbn [rev_to_fold_loop]; tm. exact IH.
Qed.
Lemma tame_rev_while p : tame any (rev_while p).
Proof. unfold rev_while. tm. Qed.
Lemma tame_since m : 0 <= m <= n -> tame any (since m).
Proof.
  intros H. unfold since. eapply tame_bind; [apply tame_mark|intros m0 H0; cbv beta in H0]. unfold make_token. destruct (m0 <? m) eqn:E; apply tame_get_tok; lia.
Qed.

Lemma make_token_range a b : 0 <= a <= n -> 0 <= b <= n ->
  exists f e, make_token a b = mkTok f e /\ 0 <= f <= e /\ e <= n.
Proof. intros. unfold make_token. destruct (b <? a) eqn:E; eexists _, _; (split; [reflexivity|]); lia. Qed.

Lemma tame_scope f : tame any f -> tame any (scope f).
Proof. intros H. unfold scope. tm. eapply tame_bind; [exact H|intros ? _]. tm. Qed.
Lemma tame_trace f : tame any f -> tame any (trace f).
Proof.
  intros H. unfold trace. tm. eapply tame_bind; [exact H|intros ? _].
  eapply tame_bind; [apply tame_since; assumption|intros ? _]. tm.
Qed.
Lemma tame_while k f : lp = true -> tame any f -> tame any (while_f k f).
Proof.
  intros Hl H. unfold while_f. tm. eapply (tame_bind any).
  - induction k as [|k IH]; cbn [while_loop]; [apply tame_fuel; exact Hl|].
    eapply tame_bind; [exact H|intros ? _]. tm. exact IH.
  - intros ? _. tm.
Qed.
Lemma tame_tokenize f : tame any f ->
  tame (fun p => exists a b, fst p = mkTok a b /\ 0 <= a <= b /\ b <= n) (tokenize f).
Proof.
  intros H. unfold tokenize. eapply tame_bind; [apply tame_mark|intros a Ha; cbv beta in Ha].
  eapply tame_bind; [exact H|intros r _].
  eapply tame_bind; [apply tame_mark|intros b Hb; cbv beta in Hb].
  destruct (make_token_range _ _ Ha Hb) as (f' & e' & E & ? & ?).
  destruct r; [apply tame_ret; cbn [fst]; eauto|].
  eapply tame_bind; [apply tame_to_marker; exact Ha|intros ? _]. apply tame_ret. cbn [fst]. eauto.
Qed.
Lemma tame_capture f : tame any f -> tame any (capture f).
Proof.
  intros H. unfold capture. eapply tame_bind; [apply tame_tokenize; exact H|].
  intros [tk ok] (a & b & E & ? & ?). cbn [fst snd] in *. subst tk. destruct ok; tm.
  eapply tame_bind; [apply tame_get_tok; assumption|intros ? _]. tm.
Qed.
Lemma tame_use r : tame any r -> tame any (use r).
Proof. intros H. unfold use. tm. eapply tame_bind; [exact H|intros ? _]. tm. Qed.
Lemma tame_trace_use r : tame any r -> tame any (trace_use r).
Proof.
  intros H. unfold trace_use. tm. eapply tame_bind; [exact H|intros ? _]. tm;
  (eapply tame_bind; [apply tame_since; assumption|intros ? _]); tm.
Qed.
Lemma tame_tokenize_use r : tame any r ->
  tame (fun p => exists a b, fst p = mkTok a b /\ 0 <= a <= b /\ b <= n) (tokenize_use r).
Proof.
  intros H. unfold tokenize_use. eapply tame_bind; [apply tame_mark|intros a Ha; cbv beta in Ha].
  eapply tame_bind; [exact H|intros e _]. destruct e as [x|].
  - eapply tame_bind; [apply tame_to_marker; exact Ha|intros ? _].
    eapply tame_bind; [apply tame_mark|intros b Hb; cbv beta in Hb].
    destruct (make_token_range _ _ Ha Hb) as (f' & e' & E & ? & ?). apply tame_ret. cbn [fst]. eauto.
  - eapply tame_bind; [apply tame_mark|intros b Hb; cbv beta in Hb].
    destruct (make_token_range _ _ Ha Hb) as (f' & e' & E & ? & ?). apply tame_ret. cbn [fst]. eauto.
Qed.
Lemma tame_capture_use r : tame any r -> tame any (capture_use r).
Proof.
  intros H. unfold capture_use. eapply tame_bind; [apply tame_tokenize_use; exact H|].
  intros [tk ok] (a & b & E & ? & ?). cbn [fst snd] in *. subst tk. destruct ok; tm.
  eapply tame_bind; [apply tame_get_tok; assumption|intros ? _]. tm.
Qed.
Lemma tame_read_rune : tame any read_rune.
Proof.
  unfold read_rune. tm.
  - eapply tame_bind; [apply tame_error_for|intros ? _]. tm.
  - eapply tame_bind; [apply tame_error_if_false|intros ? _]. tm.
Qed.
Lemma tame_rev_read_rune : tame any rev_read_rune.
Proof.
  unfold rev_read_rune. tm.
  - eapply tame_bind; [apply tame_error_for|intros ? _]. tm.
  - eapply tame_bind; [apply tame_error_if_false|intros ? _]. tm.
Qed.
Lemma tame_read_bool f : tame any (read_bool f).
Proof.
  assert (G : forall x y, tame any (read_bool_strs x y)).
  { intros x y. unfold read_bool_strs. eapply tame_bind; [apply tame_if_str|intros ? _]. tm.
    eapply tame_bind; [apply tame_if_str|intros ? _]. tm.
    eapply tame_bind; [apply tame_error_for|intros ? _]. tm. }
  unfold read_bool. tm; auto.
  eapply tame_bind; [apply tame_if_any|intros ? _]. tm.
  eapply tame_bind; [apply tame_if_any|intros ? _]. tm.
  eapply tame_bind; [apply tame_error_for|intros ? _]. tm.
Qed.
Lemma tame_read_int base bits : tame any (read_int base bits).
Proof.
  intros s I F. destruct (read_int_total base bits s I) as (v & e & s' & E & I' & F' & T' & _).
  rewrite E. repeat split; auto; try apply I'; congruence.
Qed.
Lemma tame_read_uint base bits : tame any (read_uint base bits).
Proof.
  intros s I F. destruct (read_uint_total base bits s I) as (v & e & s' & E & I' & F' & T' & _).
  rewrite E. repeat split; auto; try apply I'; congruence.
Qed.

Lemma prog_tame A m : prog A m -> tame any m.
Proof.
  induction 1; eauto using tame_tail, tame_head, tame_move, tame_to_marker, tame_to_end, @tame_gets,
    tame_error_for, tame_error_if_false, tame_if_str, tame_if_any, tame_rev_if, tame_rev_if_any,
    tame_if_rune, tame_if_any_rune, tame_rev_to_fold, tame_rev_while, tame_since, tame_get_tok,
    tame_scope, tame_trace, tame_while, tame_capture, tame_use, tame_trace_use, tame_capture_use,
    tame_read_rune, tame_rev_read_rune, tame_read_bool, tame_read_int, tame_read_uint.
  all: try solve [unfold line_col, to_str, scan_string, if_fold, to_fold, to_rune, while_rune, to_any_rune,
    while_any_rune, if_between, to_between, while_between, if_match, to_match, while_match,
    rev_to, rev_if_fold, rev_if_rune, rev_to_rune, rev_if_any_rune, rev_to_any_rune, rev_if_between,
    rev_to_between, rev_if_match, rev_to_match; tm].
  all: try (eapply tame_weaken; [first [apply tame_mark|apply tame_tokenize; eassumption
                                        |apply tame_tokenize_use; eassumption]|intros; exact I]; fail).
  - eapply tame_bind; [exact IHprog|auto].
  - eapply tame_bind; [apply tame_mark|]. intros m Hm. auto.
  - apply tame_to_marker. rewrite Hn. pose proof (slen_nonneg t). lia.
  - unfold move_runes. tm.
Qed.

End prog.

(** Programs run on any scanner state standing in the text. *)
Lemma prog_safe {L : GoLib} pn lp A m : forall s, in_text s -> prog (slen (full (sc s))) pn lp A m ->
  (forall x s', m s = Ok (x, s') ->
     in_text s' /\ full (sc s') = full (sc s) /\
     exists a b, s_head s' = Ok (a, s') /\ s_tail s' = Ok (b, s') /\ a ++ b = full (sc s)) /\
  (pn = false -> m s <> Panic) /\ (lp = false -> m s <> Fuel).
Proof.
  intros s I P. pose proof (prog_tame _ _ _ (full (sc s)) eq_refl _ _ P s I eq_refl) as T.
  split; [|split].
  - intros x s' E. rewrite E in T. destruct T as (I' & F' & _ & _). split; auto. split; auto.
    apply at_split_in_text in I' as (a & b & H). exists a, b.
    split; [apply (s_head_split _ _ _ H)|]. split; [apply (s_tail_split _ _ _ H)|].
    rewrite <- F'. symmetry. apply H.
  - intros -> E. rewrite E in T. discriminate.
  - intros -> E. rewrite E in T. discriminate.
Qed.

(* ------------------------------------------------------ scoped operations (C04) *)

Lemma since_ok s p : 0 <= p <= slen (full (sc s)) -> 0 <= pos (sc s) <= slen (full (sc s)) ->
  since p s = Ok (slice (full (sc s)) (Z.min p (pos (sc s))) (Z.max p (pos (sc s))), s).
Proof.
  intros H1 H2. unfold since, bind, mark, gets, get_tok, make_token.
  destruct (pos (sc s) <? p) eqn:E; cbn [t_from t_to].
  - replace ((0 <=? pos (sc s)) && (pos (sc s) <=? p) && (p <=? slen (full (sc s)))) with true by lia.
    replace (Z.min p (pos (sc s))) with (pos (sc s)) by lia.
    replace (Z.max p (pos (sc s))) with p by lia. reflexivity.
  - replace ((0 <=? p) && (p <=? pos (sc s)) && (pos (sc s) <=? slen (full (sc s)))) with true by lia.
    replace (Z.min p (pos (sc s))) with p by lia.
    replace (Z.max p (pos (sc s))) with (pos (sc s)) by lia. reflexivity.
Qed.


Lemma make_token_span p q : make_token p q = span p q.
Proof.
  unfold make_token, span. destruct (q <? p) eqn:E; f_equal; lia.
Qed.

Lemma get_span s p q : 0 <= p <= slen (full (sc s)) -> 0 <= q <= slen (full (sc s)) ->
  get_tok (span p q) s = Ok (part s p q, s).
Proof.
  intros H1 H2. unfold get_tok, span. cbn [t_from t_to].
  replace ((0 <=? Z.min p q) && (Z.min p q <=? Z.max p q) && (Z.max p q <=? slen (full (sc s)))) with true by lia.
  reflexivity.
Qed.

Lemma part_self s p : part s p p = [].
Proof.
  unfold part, slice. rewrite Z.min_id, Z.max_id, Z.sub_diag. reflexivity.
Qed.

Section scoped.
Context (s s' : st) (H : stays s s').
Let p := pos (sc s).
Let back := moveto p s'.

Lemma p_pos : 0 <= p. Proof. destruct H as ([? _] & _). subst p. lia. Qed.

Lemma scope_spec f r : f s = Ok (r, s') -> scope f s = Ok (r, if r then s' else back).
Proof.
  intros E. unfold scope, bind, mark, gets. rewrite E. destruct r; [reflexivity|].
  rewrite to_marker_nonneg by apply p_pos. reflexivity.
Qed.

Lemma since_spec : since p s' = Ok (part s p (pos (sc s')), s').
Proof.
  destruct H as ([I1 _] & [I2 _] & F). rewrite since_ok; unfold part; rewrite F in *; auto.
Qed.

Lemma trace_spec f r : f s = Ok (r, s') ->
  trace f s = Ok ((part s p (pos (sc s')), r), if r then s' else back).
Proof.
  intros E. unfold trace, bind at 1, mark, gets. unfold bind at 1. rewrite E.
  rewrite (bind_ok _ _ _ _ _ since_spec). destruct r; [reflexivity|].
  unfold bind. rewrite to_marker_nonneg by apply p_pos. reflexivity.
Qed.

Lemma tokenize_spec f r : f s = Ok (r, s') ->
  tokenize f s = Ok ((span p (pos (sc s')), r), if r then s' else back).
Proof.
  intros E. unfold tokenize, bind at 1, mark, gets. unfold bind at 1. rewrite E.
  unfold bind at 1. rewrite make_token_span. destruct r; [reflexivity|].
  unfold bind. rewrite to_marker_nonneg by apply p_pos. reflexivity.
Qed.

Lemma capture_spec f r : f s = Ok (r, s') ->
  capture f s = Ok (if r then (part s p (pos (sc s')), true) else ([], false), if r then s' else back).
Proof.
  intros E. unfold capture. rewrite (bind_ok _ _ _ _ _ (tokenize_spec f r E)). cbn [fst snd].
  destruct r; [|reflexivity]. destruct H as ([I1 _] & [I2 _] & F).
  assert (G : get_tok (span p (pos (sc s'))) s' = Ok (part s p (pos (sc s')), s')).
  { rewrite get_span; unfold part; rewrite F in *; auto. }
  rewrite (bind_ok _ _ _ _ _ G). reflexivity.
Qed.

Lemma use_spec rd e : rd s = Ok (e, s') ->
  use rd s = Ok (e, match e with None => s' | Some _ => back end).
Proof.
  intros E. unfold use, bind, mark, gets. rewrite E. destruct e; [|reflexivity].
  rewrite to_marker_nonneg by apply p_pos. reflexivity.
Qed.

Lemma trace_use_spec rd e : rd s = Ok (e, s') ->
  trace_use rd s = Ok (match e with None => part s p (pos (sc s')) | Some _ => [] end, e,
                       match e with None => s' | Some _ => back end).
Proof.
  intros E. unfold trace_use, bind at 1, mark, gets. unfold bind at 1. rewrite E.
  destruct e.
  - unfold bind at 1. rewrite to_marker_nonneg by apply p_pos. fold back.
    destruct H as ([I1 _] & [I2 _] & F).
    assert (S : since (pos (sc s)) back = Ok ([], back)).
    { rewrite since_ok by (unfold back, p; cbn; rewrite F; auto).
      fold (part back (pos (sc s)) (pos (sc back))). unfold back at 3, p at 1. cbn [moveto sc pos].
      rewrite part_self. reflexivity. }
    rewrite (bind_ok _ _ _ _ _ S). reflexivity.
  - rewrite (bind_ok _ _ _ _ _ since_spec). reflexivity.
Qed.

Lemma tokenize_use_spec rd e : rd s = Ok (e, s') ->
  tokenize_use rd s = Ok (match e with None => span p (pos (sc s')) | Some _ => span p p end, e,
                          match e with None => s' | Some _ => back end).
Proof.
  intros E. unfold tokenize_use, bind at 1, mark, gets. unfold bind at 1. rewrite E.
  destruct e.
  - unfold bind. rewrite to_marker_nonneg by apply p_pos. rewrite make_token_span. reflexivity.
  - unfold bind. rewrite make_token_span. reflexivity.
Qed.

Lemma capture_use_spec rd e : rd s = Ok (e, s') ->
  capture_use rd s = Ok (match e with None => part s p (pos (sc s')) | Some _ => [] end, e,
                         match e with None => s' | Some _ => back end).
Proof.
  intros E. unfold capture_use. rewrite (bind_ok _ _ _ _ _ (tokenize_use_spec rd e E)). cbn [fst snd].
  destruct e; [reflexivity|]. destruct H as ([I1 _] & [I2 _] & F).
  assert (G : get_tok (span p (pos (sc s'))) s' = Ok (part s p (pos (sc s')), s')).
  { rewrite get_span; unfold part; rewrite F in *; auto. }
  rewrite (bind_ok _ _ _ _ _ G). reflexivity.
Qed.
End scoped.

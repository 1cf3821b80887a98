(** ReaderScan.v - readers keep text and tracker; To, Past, Body, BodyTail
    (C43, C45, C46) and what failing reads leave (C39, C41). *)
From Verif Require Export ReaderSteps.
From Coq Require Import Lia ZifyBool.

(* ---------------------------------------- text and tracker never change *)

Definition keeps {A} (m : M A) : Prop := forall s x s', m s = Ok (x, s') -> full (sc s') = full (sc s) /\ trk (sc s') = trk (sc s).

Ltac kp_if H := match type of H with (if ?b then _ else _) = _ => destruct b end; try discriminate; injection H as _ <-; auto.
Lemma kp_ret {A} (a : A) : keeps (ret a).
Proof. intros s x s' H. injection H as _ <-. auto. Qed.
Lemma kp_panic {A} : keeps (@panic A).
Proof. intros s x s' H. discriminate. Qed.
Lemma kp_fuel {A} : keeps (@out_of_fuel A).
Proof. intros s x s' H. discriminate. Qed.
Lemma kp_bind {A B} (m : M A) (k : A -> M B) : keeps m -> (forall a, keeps (k a)) -> keeps (bind m k).
Proof.
  intros Hm Hk s x s' H. apply bind_inv in H as (a & s1 & H1 & H2).
  destruct (Hm _ _ _ H1), (Hk _ _ _ _ H2). split; congruence.
Qed.
Lemma kp_gets {A} (f : st -> A) : keeps (gets f).
Proof. intros s x s' H. injection H as _ <-. auto. Qed.
Lemma kp_modh f : keeps (modh f).
Proof. intros s x s' H. injection H as _ <-. auto. Qed.
Lemma kp_move n : keeps (move n).
Proof. intros s x s' H. unfold move in H. kp_if H. Qed.
Lemma kp_to_marker n : keeps (to_marker n).
Proof. intros s x s' H. unfold to_marker in H. kp_if H. Qed.
Lemma kp_s_tail : keeps s_tail.
Proof. intros s x s' H. unfold s_tail in H. kp_if H. Qed.
Lemma kp_get_tok t : keeps (get_tok t).
Proof. intros s x s' H. unfold get_tok in H. kp_if H. Qed.

Ltac kp_step :=
  match goal with
  | |- keeps (bind _ _) => apply kp_bind; [|intros ?]
  | |- keeps (ret _) => apply kp_ret
  | |- keeps panic => apply kp_panic
  | |- keeps out_of_fuel => apply kp_fuel
  | |- keeps (gets _) => apply kp_gets
  | |- keeps mark => apply kp_gets
  | |- keeps at_end => apply kp_gets
  | |- keeps (modh _) => apply kp_modh
  | |- keeps (move _) => apply kp_move
  | |- keeps (to_marker _) => apply kp_to_marker
  | |- keeps s_tail => apply kp_s_tail
  | |- keeps (get_tok _) => apply kp_get_tok
  | |- keeps (error_for _) => unfold error_for
  | |- keeps (error_if_false _ _) => unfold error_if_false
  | |- keeps (if ?b then _ else _) => destruct b
  | |- keeps (match ?b with _ => _ end) => destruct b
  end.
Ltac kp := repeat kp_step; auto.

Lemma kp_if_str x : keeps (if_str x).
Proof. unfold if_str. kp. Qed.
Lemma kp_if_any l : keeps (if_any l).
Proof. induction l; cbn [if_any]; kp. apply kp_if_str. Qed.
Lemma kp_if_rune r : keeps (if_rune r).
Proof. unfold if_rune. kp. Qed.
Lemma kp_if_any_rune x : keeps (if_any_rune x).
Proof. unfold if_any_rune. induction (runes x); cbn [if_any_rune_loop]; kp. apply kp_if_rune. Qed.
Lemma kp_if_between a b : keeps (if_between a b).
Proof. unfold if_between. kp. Qed.
Lemma kp_if_match f : keeps (if_match f).
Proof. unfold if_match. kp. Qed.
Lemma kp_if_fold {L : GoLib} f : keeps (if_fold f).
Proof. unfold if_fold. kp. Qed.
Lemma kp_move_runes k : keeps (move_runes k).
Proof. unfold move_runes. kp. unfold s_head. intros s x s' H. kp_if H. Qed.
Lemma kp_read_bool f : keeps (read_bool f).
Proof. unfold read_bool, read_bool_strs. kp; auto using kp_if_any, kp_if_str. Qed.
Lemma kp_read_int a b : keeps (read_int a b).
Proof. unfold read_int. kp; auto using kp_if_rune. Qed.
Lemma kp_read_uint a b : keeps (read_uint a b).
Proof. unfold read_uint. kp. Qed.
Lemma kp_tokenize_use m : keeps m -> keeps (tokenize_use m).
Proof. intros H. unfold tokenize_use. kp. Qed.
Lemma kp_between_any l : keeps (between_any_loop l).
Proof. induction l as [|[a b] l IH]; cbn [between_any_loop]; kp. apply kp_if_between. Qed.
Lemma kp_moves l : keeps (do_moves l).
Proof. induction l; cbn [do_moves]; kp. Qed.
Lemma kp_any l : Forall keeps l -> forall m errs, keeps (any_loop l m errs).
Proof. induction 1; intros; cbn [any_loop]; kp. Qed.
Lemma kp_seq l : Forall keeps l -> forall m, keeps (seq_loop l m).
Proof. induction 1; intros; cbn [seq_loop]; kp. Qed.
Lemma kp_skip sk l : keeps sk -> Forall keeps l -> forall x, keeps (skip_loop sk l x).
Proof. intros Hs. induction 1; intros; cbn [skip_loop]; kp. Qed.
Lemma kp_rep n m : keeps m -> keeps (rep_loop n m).
Proof. intros H. induction n; cbn [rep_loop]; kp. Qed.
Lemma kp_times n m : keeps m -> keeps (times_loop n m).
Proof. intros H. induction n; cbn [times_loop]; kp. Qed.
Lemma kp_past n m : keeps m -> keeps (past_loop n m).
Proof. intros H. induction n; cbn [past_loop]; kp. apply kp_move_runes. Qed.
Lemma kp_to n m : keeps m -> keeps (to_loop n m).
Proof. intros H. induction n; cbn [to_loop]; kp. apply kp_move_runes. Qed.
Lemma kp_on_sub str m : keeps (on_sub str m).
Proof. intros s x s' H. unfold on_sub in H. destruct (bind _ _ _) as [[y s1]| |]; try discriminate. injection H as _ <-. auto. Qed.
Lemma kp_body n m b t back : keeps t -> keeps (body_loop n m b t back).
Proof. intros Ht. induction n; cbn [body_loop]; kp; auto using kp_on_sub, kp_move_runes. Qed.

Lemma read_keeps {L : GoLib} e n : forall r, keeps (read n e r).
Proof.
  induction n as [|n IH]; intros r; [apply kp_fuel|].
  assert (Fl : forall rs, Forall keeps (map (read n e) rs)) by (intros rs; induction rs; constructor; auto).
  destruct r; cbn [read]; try unfold skip_seq; kp;
    auto using kp_any, kp_seq, kp_skip, kp_rep, kp_times, kp_past, kp_to, kp_body, kp_moves, kp_between_any, kp_tokenize_use,
      kp_if_str, kp_if_rune, kp_if_any_rune, kp_if_between, kp_if_match, kp_if_fold, kp_move_runes, kp_read_bool, kp_read_int, kp_read_uint.
Qed.
Lemma reads_keeps {L : GoLib} e r s x s' : reads e r s x s' -> full (sc s') = full (sc s) /\ trk (sc s') = trk (sc s).
Proof. intros [n H]. eapply read_keeps; eauto. Qed.

(* --------------------------------------------------- steps of the loops *)

Section Loops.
Context {L : GoLib} (e : env).

Lemma mono_to r : mono (fun n => to_loop n (read n e r)).
Proof. intros n1 n2 H. apply fle_to; auto. apply read_fle; auto. Qed.
Lemma mono_past r : mono (fun n => past_loop n (read n e r)).
Proof. intros n1 n2 H. apply fle_past; auto. apply read_fle; auto. Qed.
Lemma mono_body b r m back : mono (fun n => body_loop n m (read n e b) (read n e r) back).
Proof. intros n1 n2 H. apply fle_body; auto; apply read_fle; auto. Qed.
Lemma read_up r n m s o : (n <= m)%nat -> read n e r s = Ok o -> read m e r s = Ok o.
Proof. intros H E. apply (ev_up (fun n => read n e r) n m s o (mono_read e r) H E). Qed.

Definition to_ev r := ev (fun n => to_loop n (read n e r)).
Definition past_ev r := ev (fun n => past_loop n (read n e r)).
Definition body_ev b r m back := ev (fun n => body_loop n m (read n e b) (read n e r) back).

Lemma to_here r s s1 : 0 <= pos (sc s) -> reads e r s None s1 -> to_ev r s true (moveto (pos (sc s)) s1).
Proof.
  intros P [n H]. exists (S n). cbn [to_loop]. unfold bind, mark, gets. rewrite (read_up r n (S n) s _ ltac:(lia) H).
  rewrite to_marker_nonneg by auto. reflexivity.
Qed.
Lemma to_next r s x s1 s2 b s' : reads e r s (Some x) s1 -> move_runes 1 s1 = Ok (true, s2) -> to_ev r s2 b s' -> to_ev r s b s'.
Proof.
  intros [n H] Hm [k Hk]. exists (S (n + k)). cbn [to_loop]. unfold bind, mark, gets. rewrite (read_up r n (S (n + k)) s _ ltac:(lia) H), Hm.
  assert (F : fle (to_loop k (read k e r)) (to_loop (n + k) (read (S (n + k)) e r))) by (apply fle_to; [lia|apply read_fle; lia]).
  destruct (F s2); congruence.
Qed.
Lemma to_stop r s x s1 s2 : reads e r s (Some x) s1 -> move_runes 1 s1 = Ok (false, s2) -> to_ev r s false s2.
Proof.
  intros [n H] Hm. exists (S n). cbn [to_loop]. unfold bind, mark, gets. rewrite (read_up r n (S n) s _ ltac:(lia) H), Hm. reflexivity.
Qed.
Lemma past_here r s s1 : pos (sc s) < slen (full (sc s)) -> reads e r s None s1 -> past_ev r s true s1.
Proof.
  intros P [n H]. exists (S n). cbn [past_loop]. unfold bind, at_end, gets. replace (slen (full (sc s)) =? pos (sc s)) with false by lia.
  rewrite (read_up r n (S n) s _ ltac:(lia) H). reflexivity.
Qed.
Lemma past_next r s x s1 s2 ok b s' : pos (sc s) < slen (full (sc s)) -> reads e r s (Some x) s1 -> move_runes 1 s1 = Ok (ok, s2) ->
  past_ev r s2 b s' -> past_ev r s b s'.
Proof.
  intros P [n H] Hm [k Hk]. exists (S (n + k)). cbn [past_loop]. unfold bind, at_end, gets. replace (slen (full (sc s)) =? pos (sc s)) with false by lia.
  rewrite (read_up r n (S (n + k)) s _ ltac:(lia) H), Hm.
  assert (F : fle (past_loop k (read k e r)) (past_loop (n + k) (read (S (n + k)) e r))) by (apply fle_past; [lia|apply read_fle; lia]).
  destruct (F s2); congruence.
Qed.
Lemma past_stop r s : pos (sc s) = slen (full (sc s)) -> past_ev r s false s.
Proof.
  intros P. exists 1%nat. cbn [past_loop]. unfold bind, at_end, gets. replace (slen (full (sc s)) =? pos (sc s)) with true by lia. reflexivity.
Qed.
Lemma body_next b r m back s x s1 s2 ok v s' : pos (sc s) < slen (full (sc s)) -> reads e r s (Some x) s1 -> move_runes 1 s1 = Ok (ok, s2) ->
  body_ev b r m back s2 v s' -> body_ev b r m back s v s'.
Proof.
  intros P [n H] Hm [k Hk]. exists (S (n + k)). cbn [body_loop]. unfold bind, at_end, mark, gets. replace (slen (full (sc s)) =? pos (sc s)) with false by lia.
  rewrite (read_up r n (S (n + k)) s _ ltac:(lia) H), Hm.
  assert (F : fle (body_loop k m (read k e b) (read k e r) back) (body_loop (n + k) m (read (S (n + k)) e b) (read (S (n + k)) e r) back))
    by (apply fle_body; [lia|apply read_fle; lia|apply read_fle; lia]).
  destruct (F s2); congruence.
Qed.
Lemma body_stop b r m back s : pos (sc s) = slen (full (sc s)) -> body_ev b r m back s false s.
Proof.
  intros P. exists 1%nat. cbn [body_loop]. unfold bind, at_end, gets. replace (slen (full (sc s)) =? pos (sc s)) with true by lia. reflexivity.
Qed.
(** The tail matches: [x], [s2] is what the body reader does with the text [str] in between. *)
Lemma body_here b r m back s s1 str x s2 : 0 <= m <= pos (sc s) -> pos (sc s) < slen (full (sc s)) -> reads e r s None s1 ->
  str = slice (full (sc s)) m (pos (sc s)) -> reads e b (mkSt (new_scanner str) (hp s1)) x s2 ->
  exists s', let ok := match x with None => slen str =? pos (sc s2) | Some _ => false end in
    body_ev b r m back s ok s' /\
    full (sc s') = full (sc s) /\ (ok = true -> pos (sc s') = if back then pos (sc s) else pos (sc s1)).
Proof.
  intros Pm P H E B. destruct (reads_keeps e _ _ _ _ B) as [B1 _]. cbn in B1. destruct (reads_keeps e _ _ _ _ H) as [H1 _].
  destruct H as [n H], B as [k B].
  assert (G : get_tok (make_token m (pos (sc s))) s1 = Ok (str, s1)).
  { unfold get_tok, make_token. replace (pos (sc s) <? m) with false by lia. cbn [t_from t_to]. rewrite H1, E.
    replace ((0 <=? m) && (m <=? pos (sc s)) && (pos (sc s) <=? slen (full (sc s)))) with true by lia. reflexivity. }
  set (s3 := match x with None => s2 | Some _ => moveto 0 s2 end).
  assert (O : forall j, (k <= j)%nat -> on_sub str (read j e b) s1 = Ok ((x, slen str =? pos (sc s3)), mkSt (sc s1) (hp s3))).
  { intros j Hj. unfold on_sub, use. rewrite !bind_run. cbn [mark gets sc pos new_scanner]. rewrite bind_run, (read_up b k j _ _ Hj B).
    destruct x as [x|]; unfold s3.
    - rewrite bind_run, to_marker_nonneg by lia. cbn. rewrite B1. reflexivity.
    - cbn. rewrite B1. reflexivity. }
  exists (if (match x with None => slen str =? pos (sc s2) | Some _ => false end) && back then moveto (pos (sc s)) (mkSt (sc s1) (hp s3)) else mkSt (sc s1) (hp s3)).
  cbv zeta. split; [|split].
  - exists (S (n + k)). cbn [body_loop]. unfold at_end. rewrite bind_run. unfold gets. replace (slen (full (sc s)) =? pos (sc s)) with false by lia.
    rewrite bind_run. unfold mark at 1, gets. rewrite bind_run, (read_up r n (S (n + k)) s _ ltac:(lia) H), bind_run, G, bind_run, O by lia.
    cbn [fst snd]. destruct x as [x|]; [reflexivity|]. unfold s3. destruct (slen str =? pos (sc s2)); cbn [negb andb]; [|reflexivity].
    destruct back; [|reflexivity]. rewrite bind_run, to_marker_nonneg by lia. reflexivity.
  - match goal with |- context [if ?b then _ else _] => destruct b end; cbn; auto.
  - intros Y. rewrite Y. destruct back; reflexivity.
Qed.

Lemma to_reads r s b s' : 0 <= pos (sc s) -> to_ev r s b s' ->
  if b then reads e (RTo r) s None s' else exists x, reads e (RTo r) s (Some x) (moveto (pos (sc s)) s').
Proof.
  intros P [n H]. destruct b.
  - exists (S n). cbn [read]. unfold bind, mark, gets. rewrite H. reflexivity.
  - eexists. exists (S n). cbn [read]. unfold bind, mark, gets. rewrite H, to_marker_nonneg by auto. reflexivity.
Qed.
Lemma past_reads r s b s' : 0 <= pos (sc s) -> past_ev r s b s' ->
  if b then reads e (RPast r) s None s' else exists x, reads e (RPast r) s (Some x) (moveto (pos (sc s)) s').
Proof.
  intros P [n H]. destruct b.
  - exists (S n). cbn [read]. unfold bind, mark, gets. rewrite H. reflexivity.
  - eexists. exists (S n). cbn [read]. unfold bind, mark, gets. rewrite H, to_marker_nonneg by auto. reflexivity.
Qed.
Definition body_or_tail (back : bool) (b r : reader) : reader := if back then RBody b r else RBodyTail b r.
Lemma body_reads back b r s v s' : 0 <= pos (sc s) -> body_ev b r (pos (sc s)) back s v s' ->
  if v then reads e (body_or_tail back b r) s None s' else exists x, reads e (body_or_tail back b r) s (Some x) (moveto (pos (sc s)) s').
Proof.
  intros P [n H]. destruct v.
  - exists (S n). destruct back; cbn [read body_or_tail]; unfold bind, mark, gets; rewrite H; reflexivity.
  - destruct back; eexists; exists (S n); cbn [read body_or_tail]; unfold bind, mark, gets; rewrite H, to_marker_nonneg by auto; reflexivity.
Qed.

(* ------------------------------------------------------ leftmost match *)

(** On the text [t] the reader [r] always returns, and what it does is a function
    of the position: [f p = Some q] - it succeeds and stands at [q]; [None] - it
    fails and does not move. *)
Definition acts (r : reader) (t : bytes) (f : Z -> option Z) : Prop := forall s, in_text s -> full (sc s) = t ->
  exists x s', reads e r s x s' /\
    match f (pos (sc s)) with Some q => x = None /\ pos (sc s') = q | None => x <> None /\ pos (sc s') = pos (sc s) end.

Lemma step_rune s a c rs : at_split s a (utf8s (c :: rs)) -> Forall is_scalar (c :: rs) ->
  exists s', move_runes 1 s = Ok (true, s') /\ s' = moveto (pos (sc s) + slen (utf8 c)) s /\ at_split s' (a ++ utf8 c) (utf8s rs).
Proof.
  intros H F. pose proof (move_runes_text s a [c] rs H F ltac:(discriminate)) as Y. unfold yes_by in Y. cbn [utf8s flat_map] in Y.
  rewrite app_nil_r in Y. change (slen [c]) with 1 in Y. eexists. split; [exact Y|]. split; auto.
  assert (X : a ++ utf8s (c :: rs) = (a ++ utf8 c) ++ utf8s rs) by (cbn [utf8s flat_map]; rewrite app_assoc; reflexivity).
  destruct H as (H1 & H2 & H3). split; [|split]; cbn; [congruence|rewrite slen_app; lia|rewrite <- X; auto].
Qed.
Lemma split_same s s' a b : at_split s a b -> full (sc s') = full (sc s) -> pos (sc s') = pos (sc s) -> at_split s' a b.
Proof. intros (H1 & H2 & H3) A B. split; [congruence|split; [congruence|auto]]. Qed.
Lemma split_lt s a c rs : at_split s a (utf8s (c :: rs)) -> pos (sc s) < slen (full (sc s)).
Proof.
  intros (H1 & H2 & H3). rewrite H1, H2. cbn [utf8s flat_map]. rewrite !slen_app. pose proof (utf8_slen_pos c).
  pose proof (slen_nonneg (flat_map utf8 rs)). lia.
Qed.
Lemma split_end s a : at_split s a [] -> pos (sc s) = slen (full (sc s)).
Proof. intros (H1 & H2 & H3). rewrite H1, H2, app_nil_r. auto. Qed.

(** [r] fails at all the positions in front of the runes [r1]: the scan arrives behind them. *)
Definition none_before (f : Z -> option Z) (p : Z) (r1 : list Z) : Prop :=
  forall q1 c q2, r1 = q1 ++ c :: q2 -> f (p + slen (utf8s q1)) = None.
Lemma none_before_cons f p c r1 : none_before f p (c :: r1) -> f p = None /\ none_before f (p + slen (utf8 c)) r1.
Proof.
  intros H. split; [specialize (H [] c r1 eq_refl); cbn in H; rewrite Z.add_0_r in H; auto|].
  intros q1 d q2 ->. specialize (H (c :: q1) d q2 eq_refl). cbn [utf8s flat_map] in H. rewrite slen_app in H. fold (utf8s q1) in H.
  rewrite <- Z.add_assoc. auto.
Qed.

Lemma scan_prefix r t f : acts r t f -> forall r1 r2 s a, full (sc s) = t -> at_split s a (utf8s (r1 ++ r2)) ->
  Forall is_scalar (r1 ++ r2) -> none_before f (pos (sc s)) r1 ->
  exists s1, at_split s1 (a ++ utf8s r1) (utf8s r2) /\ full (sc s1) = t /\
    (forall b s', to_ev r s1 b s' -> to_ev r s b s') /\ (forall b s', past_ev r s1 b s' -> past_ev r s b s') /\
    (forall bd m back b s', body_ev bd r m back s1 b s' -> body_ev bd r m back s b s').
Proof.
  intros A. induction r1 as [|c r1 IH]; intros r2 s a T H F N.
  - exists s. cbn [utf8s flat_map]. rewrite app_nil_r. auto.
  - apply none_before_cons in N as [N0 N]. cbn [app] in H, F.
    destruct (A s (in_text_split _ _ _ H) T) as (x & s1 & R & X). rewrite N0 in X. destruct X as [X1 X2]. destruct x as [x|]; [|congruence].
    destruct (reads_keeps e _ _ _ _ R) as [K1 K2]. pose proof (split_same _ s1 _ _ H K1 X2) as H1.
    destruct (step_rune s1 a c (r1 ++ r2) H1 F) as (s2 & M2 & E2 & H2).
    destruct (IH r2 s2 (a ++ utf8 c)) as (s3 & B1 & B2 & B3 & B4 & B5); auto.
    + subst s2. cbn. congruence.
    + inversion F; auto.
    + subst s2. cbn. rewrite X2. auto.
    + exists s3. split; [cbn [utf8s flat_map]; rewrite app_assoc; auto|]. split; auto. pose proof (split_lt _ _ _ _ H) as Lt. split; [|split].
      * intros b s' Z. eapply to_next; eauto.
      * intros b s' Z. eapply past_next; eauto.
      * intros bd m back b s' Z. eapply body_next; eauto.
Qed.

Section Found.
Context (r : reader) (t : bytes) (f : Z -> option Z) (A : acts r t f).
Context (s : st) (a : bytes) (T : full (sc s) = t) (r1 r2 : list Z) (H : at_split s a (utf8s (r1 ++ r2))).
Context (F : Forall is_scalar (r1 ++ r2)) (N : none_before f (pos (sc s)) r1).
Let p1 := pos (sc s) + slen (utf8s r1).

Lemma found_pos s1 : at_split s1 (a ++ utf8s r1) (utf8s r2) -> pos (sc s1) = p1.
Proof. intros (_ & X & _). destruct H as (_ & Y & _). unfold p1. rewrite X, slen_app. lia. Qed.
Lemma start_nonneg : 0 <= pos (sc s).
Proof. destruct (in_text_split _ _ _ H); lia. Qed.

Lemma to_found q : f p1 = Some q -> exists s', reads e (RTo r) s None s' /\ pos (sc s') = p1.
Proof.
  intros Q. destruct (scan_prefix r t f A r1 r2 s a T H F N) as (s1 & B1 & B2 & B3 & _).
  destruct (A s1 (in_text_split _ _ _ B1) B2) as (x & s2 & R & X). rewrite (found_pos _ B1), Q in X. destruct X as [-> X2].
  pose proof (found_pos _ B1) as P. assert (0 <= pos (sc s1)) by (destruct (in_text_split _ _ _ B1); lia).
  pose proof (to_reads r s true _ start_nonneg (B3 _ _ (to_here r s1 s2 ltac:(auto) R))) as Y. cbv iota in Y.
  eexists. split; [exact Y|]. cbn. auto.
Qed.
Lemma to_missing : r2 = [] -> f p1 = None -> exists x s', reads e (RTo r) s (Some x) s' /\ pos (sc s') = pos (sc s).
Proof.
  intros E0 Q. destruct (scan_prefix r t f A r1 r2 s a T H F N) as (s1 & B1 & B2 & B3 & _).
  destruct (A s1 (in_text_split _ _ _ B1) B2) as (x & s2 & R & X). rewrite (found_pos _ B1), Q in X. destruct X as [X X2]. destruct x as [x|]; [|congruence].
  destruct (reads_keeps e _ _ _ _ R) as [K1 K2].
  pose proof (split_same _ s2 _ _ B1 K1 ltac:(rewrite X2; symmetry; apply found_pos; auto)) as B1'. rewrite E0 in B1'.
  pose proof (move_runes_text_no s2 _ [] 1 B1' (Forall_nil _) ltac:(cbn; lia)) as Mn. unfold no in Mn.
  pose proof (to_reads r s false _ start_nonneg (B3 _ _ (to_stop r s1 x s2 s2 R Mn))) as [y Y].
  exists y. eexists. split; [exact Y|]. reflexivity.
Qed.
Lemma past_found q : r2 <> [] -> f p1 = Some q -> exists s', reads e (RPast r) s None s' /\ pos (sc s') = q.
Proof.
  intros Ne Q. destruct (scan_prefix r t f A r1 r2 s a T H F N) as (s1 & B1 & B2 & _ & B3 & _).
  destruct (A s1 (in_text_split _ _ _ B1) B2) as (x & s2 & R & X). rewrite (found_pos _ B1), Q in X. destruct X as [-> X2].
  assert (Lt : pos (sc s1) < slen (full (sc s1))) by (clear - B1 Ne; destruct r2; [congruence|eapply split_lt; eauto]).
  pose proof (past_reads r s true _ start_nonneg (B3 _ _ (past_here r s1 s2 Lt R))) as Y. cbv iota in Y. eauto.
Qed.
Lemma past_missing : r2 = [] -> exists x s', reads e (RPast r) s (Some x) s' /\ pos (sc s') = pos (sc s).
Proof.
  intros E0. destruct (scan_prefix r t f A r1 r2 s a T H F N) as (s1 & B1 & B2 & _ & B3 & _). rewrite E0 in B1.
  pose proof (past_reads r s false _ start_nonneg (B3 _ _ (past_stop r s1 (split_end _ _ B1)))) as [y Y].
  exists y. eexists. split; [exact Y|]. reflexivity.
Qed.
Lemma body_missing back b : r2 = [] -> exists x s', reads e (body_or_tail back b r) s (Some x) s' /\ pos (sc s') = pos (sc s).
Proof.
  intros E0. destruct (scan_prefix r t f A r1 r2 s a T H F N) as (s1 & B1 & B2 & _ & _ & B3). rewrite E0 in B1.
  pose proof (body_reads back b r s false _ start_nonneg (B3 _ _ _ _ _ (body_stop b r (pos (sc s)) back s1 (split_end _ _ B1)))) as [y Y].
  exists y. eexists. split; [exact Y|]. reflexivity.
Qed.
(** What [b] does with a text of its own. *)
Definition covers (b : reader) (str : bytes) (ok : bool) : Prop := forall h, exists x s', reads e b (mkSt (new_scanner str) h) x s' /\
  (ok = true <-> x = None /\ pos (sc s') = slen str).
Lemma body_found back b q ok : r2 <> [] -> f p1 = Some q -> covers b (utf8s r1) ok ->
  (ok = true -> exists s', reads e (body_or_tail back b r) s None s' /\ pos (sc s') = if back then p1 else q) /\
  (ok = false -> exists x s', reads e (body_or_tail back b r) s (Some x) s' /\ pos (sc s') = pos (sc s)).
Proof.
  intros Ne Q C. destruct (scan_prefix r t f A r1 r2 s a T H F N) as (s1 & B1 & B2 & _ & _ & B3).
  destruct (A s1 (in_text_split _ _ _ B1) B2) as (x & s2 & R & X). rewrite (found_pos _ B1), Q in X. destruct X as [-> X2].
  assert (Lt : pos (sc s1) < slen (full (sc s1))) by (clear - B1 Ne; destruct r2; [congruence|eapply split_lt; eauto]).
  pose proof (found_pos _ B1) as P1. pose proof (slen_nonneg (utf8s r1)) as Sn.
  assert (E : utf8s r1 = slice (full (sc s1)) (pos (sc s)) (pos (sc s1))).
  { destruct B1 as (E1 & E2 & _). destruct H as (_ & E3 & _). rewrite E1, E2, E3. unfold slice. rewrite slen_app, <- app_assoc.
    unfold slen. rewrite !Nat2Z.id. replace (Z.to_nat (Z.of_nat (length a) + Z.of_nat (length (utf8s r1)) - Z.of_nat (length a))) with (length (utf8s r1)) by lia.
    rewrite skipn_app, skipn_all, Nat.sub_diag. cbn. rewrite firstn_app, firstn_all, Nat.sub_diag. cbn. rewrite app_nil_r. auto. }
  destruct (C (hp s2)) as (y & s3 & RB & OK).
  destruct (body_here b r (pos (sc s)) back s1 s2 _ y s3 ltac:(pose proof start_nonneg; unfold p1 in P1; lia) Lt R E RB) as (s' & BE & Fu & Po).
  assert (V : ok = match y with Some _ => false | None => slen (utf8s r1) =? pos (sc s3) end).
  { destruct y as [y|].
    - destruct ok; auto. destruct OK as [OK _]. destruct OK as [O _]; auto. discriminate.
    - destruct (slen (utf8s r1) =? pos (sc s3)) eqn:D.
      + apply OK. split; auto. lia.
      + destruct ok; auto. destruct OK as [OK _]. destruct OK as [_ O]; auto. lia. }
  rewrite <- V in BE, Po. pose proof (body_reads back b r s _ _ start_nonneg (B3 _ _ _ _ _ BE)) as Y. split; intros ->; cbv iota in Y.
  - exists s'. split; auto. rewrite Po by auto. destruct back; auto.
  - destruct Y as [z Y]. exists z. eexists. split; [exact Y|]. reflexivity.
Qed.
End Found.

(* --------------------------------------------------------- termination *)

(** The scanner stands in front of the encoded runes [rs], which end the text. *)
Definition before_runes (s : st) (rs : list Z) : Prop := Forall is_scalar rs /\ exists a, at_split s a (utf8s rs).
(** On text [t] the reader returns wherever it starts in front of whole runes, and
    if it fails it again stands in front of whole runes, and not before its start. *)
Definition settles (r : reader) (t : bytes) : Prop := forall s rs, full (sc s) = t -> before_runes s rs ->
  exists x s', reads e r s x s' /\ (x <> None -> exists rs', before_runes s' rs' /\ (length rs' <= length rs)%nat).

Lemma settle_step r t s c rs : settles r t -> full (sc s) = t -> before_runes s (c :: rs) ->
  (exists s1, reads e r s None s1) \/
  (exists x s1 ok s2 rs', reads e r s (Some x) s1 /\ move_runes 1 s1 = Ok (ok, s2) /\ full (sc s2) = t /\ before_runes s2 rs' /\
     (length rs' <= length rs)%nat /\ pos (sc s2) >= pos (sc s1)).
Proof.
  intros St T B. destruct (St s _ T B) as (x & s1 & R & X). destruct x as [x|]; [right|left; eauto].
  destruct (X ltac:(discriminate)) as (rs' & [F' (a' & H')] & Le). destruct (reads_keeps e _ _ _ _ R) as [K _].
  destruct rs' as [|c' rs'].
  - pose proof (move_runes_text_no s1 a' [] 1 H' F' ltac:(cbn; lia)) as Mn. unfold no in Mn.
    exists x, s1, false, s1, []. split; auto. split; auto. split; [congruence|]. split; [split; eauto|]. cbn. split; lia.
  - destruct (step_rune s1 a' c' rs' H' F') as (s2 & M2 & E2 & H2). exists x, s1, true, s2, rs'. split; auto. split; auto.
    split; [subst s2; cbn; congruence|]. split; [split; [inversion F'; auto|eauto]|]. cbn in Le. split; [lia|]. subst s2. cbn. pose proof (utf8_slen_pos c'). lia.
Qed.
Lemma past_settles r t : settles r t -> forall k rs s, (length rs <= k)%nat -> full (sc s) = t -> before_runes s rs -> exists b s', past_ev r s b s'.
Proof.
  intros St. induction k as [|k IH]; intros rs s Le T B.
  - destruct rs; [|cbn in Le; lia]. destruct B as [_ [a B]]. exists false, s. apply past_stop. eapply split_end; eauto.
  - destruct rs as [|c rs]. { destruct B as [_ [a B]]. exists false, s. apply past_stop. eapply split_end; eauto. }
    assert (Lt : pos (sc s) < slen (full (sc s))) by (destruct B as [_ [a B]]; eapply split_lt; eauto).
    destruct (settle_step r t s c rs St T B) as [(s1 & R)|(x & s1 & ok & s2 & rs' & R & Mv & T2 & B2 & Le2 & _)].
    + exists true, s1. apply past_here; auto.
    + destruct (IH rs' s2 ltac:(cbn in Le; lia) T2 B2) as (b & s' & Y). exists b, s'. eapply past_next; eauto.
Qed.
Lemma past_returns r t s rs : settles r t -> full (sc s) = t -> before_runes s rs -> exists x s', reads e (RPast r) s x s'.
Proof.
  intros St T B. destruct (past_settles r t St (length rs) rs s (Nat.le_refl _) T B) as (b & s' & Y).
  assert (P : 0 <= pos (sc s)) by (destruct B as [_ [a B]]; destruct (in_text_split _ _ _ B); lia).
  pose proof (past_reads r s b s' P Y) as Z. destruct b; [eauto|destruct Z; eauto].
Qed.
(** The body reader returns on every text. *)
Definition returns_everywhere (b : reader) : Prop := forall str h, slen str < 2 ^ 63 -> exists x s', reads e b (mkSt (new_scanner str) h) x s'.
Lemma slice_slen (t : bytes) i j : 0 <= i <= j -> j <= slen t -> slen (slice t i j) = j - i.
Proof.
  intros A B. unfold slice, slen in *. rewrite firstn_length, skipn_length. lia.
Qed.
Lemma body_settles b r t back : settles r t -> returns_everywhere b -> slen t < 2 ^ 63 ->
  (forall s x s', in_text s -> full (sc s) = t -> reads e r s x s' -> pos (sc s) <= pos (sc s')) ->
  forall k rs s m, (length rs <= k)%nat -> full (sc s) = t -> before_runes s rs -> 0 <= m <= pos (sc s) -> exists v s', body_ev b r m back s v s'.
Proof.
  intros St Rb Lt Fw. induction k as [|k IH]; intros rs s m Le T B P.
  - destruct rs; [|cbn in Le; lia]. destruct B as [_ [a B]]. exists false, s. apply body_stop. eapply split_end; eauto.
  - destruct rs as [|c rs]. { destruct B as [_ [a B]]. exists false, s. apply body_stop. eapply split_end; eauto. }
    assert (Ls : pos (sc s) < slen (full (sc s))) by (destruct B as [_ [a B]]; eapply split_lt; eauto).
    destruct (settle_step r t s c rs St T B) as [(s1 & R)|(x & s1 & ok & s2 & rs' & R & Mv & T2 & B2 & Le2 & Ge)].
    + destruct (Rb (slice (full (sc s)) m (pos (sc s))) (hp s1)) as (x & s2 & RB).
      { rewrite slice_slen by lia. rewrite T in Ls. lia. }
      destruct (body_here b r m back s s1 _ x s2 P Ls R eq_refl RB) as (s' & BE & _). eauto.
    + destruct (IH rs' s2 m ltac:(cbn in Le; lia) T2 B2) as (v & s' & Y).
      { assert (in_text s) by (destruct B as [_ [a B]]; eapply in_text_split; eauto). specialize (Fw s _ _ H T R). lia. }
      exists v, s'. eapply body_next; eauto.
Qed.
Lemma body_returns b r t back s rs : settles r t -> returns_everywhere b ->
  (forall s x s', in_text s -> full (sc s) = t -> reads e r s x s' -> pos (sc s) <= pos (sc s')) ->
  full (sc s) = t -> before_runes s rs -> exists x s', reads e (body_or_tail back b r) s x s'.
Proof.
  intros St Rb Fw T B. assert (I : in_text s) by (destruct B as [_ [a B]]; eapply in_text_split; eauto).
  destruct (body_settles b r t back St Rb ltac:(destruct I; congruence) Fw (length rs) rs s (pos (sc s)) (Nat.le_refl _) T B) as (v & s' & Y).
  { destruct I; lia. }
  pose proof (body_reads back b r s v s' ltac:(destruct I; lia) Y) as Z. destruct v; [eauto|destruct Z; eauto].
Qed.
(** To needs neither well-formed text nor a reader that goes back. *)
Lemma to_returns r t : (forall s, in_text s -> full (sc s) = t -> exists x s', reads e r s x s' /\ pos (sc s) <= pos (sc s') <= slen t) ->
  forall s, in_text s -> full (sc s) = t -> exists x s', reads e (RTo r) s x s'.
Proof.
  intros Rt.
  assert (G : forall k s, in_text s -> full (sc s) = t -> (Z.to_nat (slen t - pos (sc s)) <= k)%nat -> exists b s', to_ev r s b s').
  { induction k as [|k IH]; intros s I T Le;
      (destruct (Rt s I T) as (x & s1 & R & P); destruct x as [x|]; [|exists true; eexists; apply to_here; eauto; destruct I; lia];
       destruct (reads_keeps e _ _ _ _ R) as [K _];
       assert (I1 : in_text s1) by (destruct I; split; rewrite K, T; [lia|congruence]);
       destruct (move_runes1_strict s1 I1) as [E|(p & Pp & E)]; [exists false, s1; eapply to_stop; eauto|]).
    - exfalso. rewrite K, T in Pp. lia.
    - destruct (IH (moveto p s1)) as (b & s' & Y).
      + rewrite K, T in Pp. destruct I as [Ia Ib]. rewrite T in Ib. split; cbn; rewrite K, T; lia.
      + cbn. congruence.
      + cbn. lia.
      + exists b, s'. eapply to_next; eauto. }
  intros s I T. destruct (G _ s I T (Nat.le_refl _)) as (b & s' & Y).
  pose proof (to_reads r s b s' ltac:(destruct I; lia) Y) as Z. destruct b; [eauto|destruct Z; eauto].
Qed.

(* ------------------------------------------------------------- hanging *)

(** At [p] of [t] the reader fails without moving and MoveRunes(1) does not move:
    the loop stays there for ever. *)
Lemma past_hangs (X : st -> Prop) r : (forall s, X s -> pos (sc s) <> slen (full (sc s)) /\
    exists x s1 ok s2, reads e r s (Some x) s1 /\ move_runes 1 s1 = Ok (ok, s2) /\ X s2) ->
  forall s, X s -> hangs e (RPast r) s /\ forall b, hangs e (RBody b r) s /\ hangs e (RBodyTail b r) s.
Proof.
  intros H.
  assert (P : forall n k s, X s -> past_loop n (read k e r) s = Fuel).
  { induction n as [|n IH]; intros k s Xs; [reflexivity|]. cbn [past_loop]. unfold bind, at_end, gets.
    destruct (H s Xs) as (Ne & x & s1 & ok & s2 & R & Mv & X2). replace (slen (full (sc s)) =? pos (sc s)) with false by lia.
    destruct (read k e r s) as [[y s3]| |] eqn:E; auto.
    - destruct (reads_fun e r s _ _ _ _ R (ex_intro _ k E)) as [<- <-]. rewrite Mv. auto.
    - exfalso. eapply reads_panics; eauto. exists k; auto. }
  assert (B : forall n k m b back s, X s -> body_loop n m b (read k e r) back s = Fuel).
  { induction n as [|n IH]; intros k m b back s Xs; [reflexivity|]. cbn [body_loop]. unfold bind, at_end, mark, gets.
    destruct (H s Xs) as (Ne & x & s1 & ok & s2 & R & Mv & X2). replace (slen (full (sc s)) =? pos (sc s)) with false by lia.
    destruct (read k e r s) as [[y s3]| |] eqn:E; auto.
    - destruct (reads_fun e r s _ _ _ _ R (ex_intro _ k E)) as [<- <-]. rewrite Mv. apply IH; auto.
    - exfalso. eapply reads_panics; eauto. exists k; auto. }
  intros s Xs. split; [|intros b; split]; intros [|n]; try reflexivity; cbn [read]; unfold bind, mark, gets.
  - rewrite P; auto.
  - rewrite B; auto.
  - rewrite B; auto.
Qed.
End Loops.

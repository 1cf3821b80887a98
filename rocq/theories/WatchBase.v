(** WatchBase.v - with the Tracker that updates a Basket the definitions of Watch.v are those of Scanner.v, ReadVal.v
    and Reader.v. *)
From Verif Require Import ReaderFwd WatchFacts.
From Verif Require Watch.
From Coq Require Import Lia.
Import Watch (wst, mkW, w_st, w_x).

(** The Tracker that is Basket [b] *)
Definition basket_up {X} (b : nat) (p : Z) (hx : heap * X) : heap * X := (track (Some b) p (fst hx), snd hx).

Section Base.
Context {L : GoLib} {X1 : Type} (bk : nat).
Notation up1 := (basket_up (X := X1) bk).
(** The same state; the Tracker, if there is one, is Basket [b]. *)
Definition R (i : X1) (s : wst X1) (t : st) : Prop := w_st s = t /\ w_x s = i /\ (trk (sc t) = None \/ trk (sc t) = Some bk).
Lemma Rfull i s t : R i s t -> full (Watch.sc s) = full (sc t).
Proof. intros (<- & _). reflexivity. Qed.
Lemma Rpos i s t : R i s t -> pos (Watch.sc s) = pos (sc t).
Proof. intros (<- & _). reflexivity. Qed.
Lemma Rcells i s t : R i s t -> h_cells (Watch.hp s) = h_cells (hp t).
Proof. intros (<- & _). reflexivity. Qed.
Lemma Rlogs i s t : R i s t -> h_logs (Watch.hp s) = h_logs (hp t).
Proof. intros (<- & _). reflexivity. Qed.
Lemma Rmove i s t p : R i s t -> R i (Watch.moveto up1 p s) (moveto p t).
Proof.
  destruct s as [s x]. intros (<- & <- & T). cbn [w_st w_x] in *. unfold R, Watch.moveto, moveto, Watch.sc, Watch.hp. cbn [w_st w_x].
  destruct T as [T|T]; rewrite T; cbn; auto.
Qed.
Lemma Rdeed i s t f : R i s t -> R i (with_hp (f (Watch.hp s)) s) (with_heap (f (hp t)) t).
Proof. destruct s as [s x]. intros (<- & <- & T). repeat split; auto. Qed.
#[local] Hint Resolve Rmove : core.

Definition sim {A} (i : X1) (m1 : Watch.M (X := X1) A) (m2 : M A) : Prop := forall s t, R i s t ->
  match m1 s, m2 t with
  | Ok (a, s'), Ok (b, t') => a = b /\ R i s' t'
  | Panic, Panic => True
  | Fuel, Fuel => True
  | _, _ => False
  end.
Lemma sim_ret {A} i (a : A) : sim i (Watch.ret a) (ret a).
Proof. intros s t H. cbn. auto. Qed.
Lemma sim_panic {A} i : sim (A := A) i Watch.panic panic.
Proof. intros s t H. exact Logic.I. Qed.
Lemma sim_fuel {A} i : sim (A := A) i Watch.out_of_fuel out_of_fuel.
Proof. intros s t H. exact Logic.I. Qed.
Lemma sim_bind {A B} i (m1 : Watch.M (X := X1) A) m2 (f1 : A -> Watch.M (X := X1) B) f2 :
  sim i m1 m2 -> (forall a, sim i (f1 a) (f2 a)) -> sim i (Watch.bind m1 f1) (bind m2 f2).
Proof.
  intros H1 H2 s t H. unfold Watch.bind, bind. specialize (H1 s t H). destruct (m1 s) as [[a s']| |], (m2 t) as [[b t']| |]; try tauto.
  destruct H1 as [<- H1]. apply H2; auto.
Qed.
Lemma sim_gets {A} i (f1 : wst X1 -> A) (f2 : st -> A) : (forall s t, R i s t -> f1 s = f2 t) -> sim i (Watch.gets f1) (gets f2).
Proof. intros E s t H. cbn. auto. Qed.
Lemma sim_tail i : sim i Watch.s_tail s_tail.
Proof. intros s t H. unfold Watch.s_tail, s_tail. rewrite (Rpos _ _ _ H), (Rfull _ _ _ H). destruct (_ && _); auto. Qed.
Lemma sim_head i : sim i Watch.s_head s_head.
Proof. intros s t H. unfold Watch.s_head, s_head. rewrite (Rpos _ _ _ H), (Rfull _ _ _ H). destruct (_ && _); auto. Qed.
Lemma sim_tok i k : sim i (Watch.get_tok k) (get_tok k).
Proof. intros s t H. unfold Watch.get_tok, get_tok. rewrite (Rfull _ _ _ H). destruct (_ && _); auto. Qed.
Lemma sim_move i n : sim i (Watch.move up1 n) (move n).
Proof. intros s t H. unfold Watch.move, move. cbv zeta. rewrite (Rpos _ _ _ H), (Rfull _ _ _ H). destruct (_ || _); auto. Qed.
Lemma sim_marker i m : sim i (Watch.to_marker up1 m) (to_marker m).
Proof. intros s t H. unfold Watch.to_marker, to_marker. rewrite (Rfull _ _ _ H). destruct (_ && _); auto. Qed.
Lemma sim_to_end i : sim i (Watch.to_end up1) (to_end).
Proof. intros s t H. unfold Watch.to_end, to_end. rewrite (Rfull _ _ _ H). apply sim_marker; auto. Qed.
Lemma sim_mark i : sim i Watch.mark mark.
Proof. apply sim_gets. intros. eapply Rpos; eauto. Qed.
Lemma sim_at_end i : sim i Watch.at_end at_end.
Proof. apply sim_gets. intros. erewrite Rpos, Rfull; eauto. Qed.
Lemma sim_at_start i : sim i Watch.at_start at_start.
Proof. apply sim_gets. intros. erewrite Rpos; eauto. Qed.
Lemma sim_modh i f : sim i (Watch.modh f) (modh f).
Proof. intros s t H. cbn. split; auto. apply (Rdeed i s t f H). Qed.

Ltac s1 := first [ assumption | apply sim_ret | apply sim_panic | apply sim_fuel | apply sim_tail | apply sim_head | apply sim_tok
  | apply sim_move | apply sim_marker | apply sim_to_end | apply sim_mark | apply sim_at_end | apply sim_at_start
  | (apply sim_bind; [|intros]) ].
Ltac cases := match goal with
  | |- sim _ (match ?c with _ => _ end) _ => destruct c
  | |- sim _ (let '(_, _) := ?c in _) _ => destruct c end.
Ltac go := repeat first [s1 | cases].

Lemma sim_error_for i w : sim i (Watch.error_for w) (error_for w).
Proof. unfold Watch.error_for, error_for. go. Qed.
Lemma sim_error_if i ok w : sim i (Watch.error_if_false ok w) (error_if_false ok w).
Proof. unfold Watch.error_if_false, error_if_false. destruct ok; [go|apply sim_error_for]. Qed.
Ltac s2 := first [ s1 | apply sim_error_for | apply sim_error_if ].
Ltac go2 := repeat first [s2 | cases].

Lemma sim_line_col i t : sim i (Watch.line_col t) (line_col t).
Proof. unfold Watch.line_col, line_col. apply sim_bind; [go|]. intros h. cbv zeta. destruct (split_nl _); go. Qed.
Lemma sim_if_str i x : sim i (Watch.if_str up1 x) (if_str x).
Proof. unfold Watch.if_str, if_str. go. Qed.
Lemma sim_if_any i x : sim i (Watch.if_any up1 x) (if_any x).
Proof. induction x; cbn [Watch.if_any if_any]; [go|]. apply sim_bind; [apply sim_if_str|]. intros; go. Qed.
Lemma sim_to_str i x : sim i (Watch.to_str up1 x) (to_str x).
Proof. unfold Watch.to_str, to_str. go. Qed.
Lemma sim_scan_string i x : sim i (Watch.scan_string up1 x) (scan_string x).
Proof. unfold Watch.scan_string, scan_string. go. Qed.
Lemma sim_if_fold i x : sim i (Watch.if_fold up1 x) (if_fold x).
Proof. unfold Watch.if_fold, if_fold. cbv zeta. go. Qed.
Lemma sim_to_fold i x : sim i (Watch.to_fold up1 x) (to_fold x).
Proof. unfold Watch.to_fold, to_fold. go. Qed.
Lemma sim_if_rune i x : sim i (Watch.if_rune up1 x) (if_rune x).
Proof. unfold Watch.if_rune, if_rune. go. Qed.
Lemma sim_to_rune i x : sim i (Watch.to_rune up1 x) (to_rune x).
Proof. unfold Watch.to_rune, to_rune. go. Qed.
Lemma sim_while_rune i x : sim i (Watch.while_rune up1 x) (while_rune x).
Proof. unfold Watch.while_rune, while_rune. go. Qed.
Lemma sim_any_rune_loop i x : sim i (Watch.if_any_rune_loop up1 x) (if_any_rune_loop x).
Proof. induction x; cbn [Watch.if_any_rune_loop if_any_rune_loop]; [go|]. apply sim_bind; [apply sim_if_rune|]. intros; go. Qed.
Lemma sim_if_any_rune i x : sim i (Watch.if_any_rune up1 x) (if_any_rune x).
Proof. apply sim_any_rune_loop. Qed.
Lemma sim_to_any_rune i x : sim i (Watch.to_any_rune up1 x) (to_any_rune x).
Proof. unfold Watch.to_any_rune, to_any_rune. go. Qed.
Lemma sim_while_any_rune i x : sim i (Watch.while_any_rune up1 x) (while_any_rune x).
Proof. unfold Watch.while_any_rune, while_any_rune. go. Qed.
Lemma sim_if_between i x y : sim i (Watch.if_between up1 x y) (if_between x y).
Proof. unfold Watch.if_between, if_between. go. Qed.
Lemma sim_to_between i x y : sim i (Watch.to_between up1 x y) (to_between x y).
Proof. unfold Watch.to_between, to_between. go. Qed.
Lemma sim_while_between i x y : sim i (Watch.while_between up1 x y) (while_between x y).
Proof. unfold Watch.while_between, while_between. go. Qed.
Lemma sim_if_match i x : sim i (Watch.if_match up1 x) (if_match x).
Proof. unfold Watch.if_match, if_match. go. Qed.
Lemma sim_to_match i x : sim i (Watch.to_match up1 x) (to_match x).
Proof. unfold Watch.to_match, to_match. go. Qed.
Lemma sim_while_match i x : sim i (Watch.while_match up1 x) (while_match x).
Proof. unfold Watch.while_match, while_match. go. Qed.
Lemma sim_move_runes i n : sim i (Watch.move_runes up1 n) (move_runes n).
Proof. unfold Watch.move_runes, move_runes. go. Qed.
Lemma sim_rev_if i x : sim i (Watch.rev_if up1 x) (rev_if x).
Proof. unfold Watch.rev_if, rev_if. go. Qed.
Lemma sim_rev_if_any i x : sim i (Watch.rev_if_any up1 x) (rev_if_any x).
Proof. induction x; cbn [Watch.rev_if_any rev_if_any]; [go|]. apply sim_bind; [apply sim_rev_if|]. intros; go. Qed.
Lemma sim_rev_to i x : sim i (Watch.rev_to up1 x) (rev_to x).
Proof. unfold Watch.rev_to, rev_to. go. Qed.
Lemma sim_rev_if_fold i x : sim i (Watch.rev_if_fold up1 x) (rev_if_fold x).
Proof. unfold Watch.rev_if_fold, rev_if_fold. go. Qed.
Lemma sim_rev_to_fold i x : sim i (Watch.rev_to_fold up1 x) (rev_to_fold x).
Proof. unfold Watch.rev_to_fold, rev_to_fold. apply sim_bind; [go|]. intros h. induction (fst (rev_items h)) as [|[y v] l IH]; cbn [Watch.rev_to_fold_loop rev_to_fold_loop]; go. Qed.
Lemma sim_rev_if_rune i x : sim i (Watch.rev_if_rune up1 x) (rev_if_rune x).
Proof. unfold Watch.rev_if_rune, rev_if_rune. go. Qed.
Lemma sim_rev_to_rune i x : sim i (Watch.rev_to_rune up1 x) (rev_to_rune x).
Proof. unfold Watch.rev_to_rune, rev_to_rune. go. Qed.
Lemma sim_rev_while i x : sim i (Watch.rev_while up1 x) (rev_while x).
Proof. unfold Watch.rev_while, rev_while. go. Qed.
Lemma sim_rev_if_any_rune i x : sim i (Watch.rev_if_any_rune up1 x) (rev_if_any_rune x).
Proof. unfold Watch.rev_if_any_rune, rev_if_any_rune. go. Qed.
Lemma sim_rev_to_any_rune i x : sim i (Watch.rev_to_any_rune up1 x) (rev_to_any_rune x).
Proof. unfold Watch.rev_to_any_rune, rev_to_any_rune. go. Qed.
Lemma sim_rev_if_between i x y : sim i (Watch.rev_if_between up1 x y) (rev_if_between x y).
Proof. unfold Watch.rev_if_between, rev_if_between. go. Qed.
Lemma sim_rev_to_between i x y : sim i (Watch.rev_to_between up1 x y) (rev_to_between x y).
Proof. unfold Watch.rev_to_between, rev_to_between. go. Qed.
Lemma sim_rev_if_match i x : sim i (Watch.rev_if_match up1 x) (rev_if_match x).
Proof. unfold Watch.rev_if_match, rev_if_match. go. Qed.
Lemma sim_rev_to_match i x : sim i (Watch.rev_to_match up1 x) (rev_to_match x).
Proof. unfold Watch.rev_to_match, rev_to_match. go. Qed.
Lemma sim_read_rune i : sim i (Watch.read_rune up1) (read_rune).
Proof. unfold Watch.read_rune, read_rune. go2. Qed.
Lemma sim_rev_read_rune i : sim i (Watch.rev_read_rune up1) (rev_read_rune).
Proof. unfold Watch.rev_read_rune, rev_read_rune. go2. Qed.
Lemma sim_read_bool i f : sim i (Watch.read_bool up1 f) (read_bool f).
Proof. unfold Watch.read_bool, Watch.read_bool_strs, read_bool, read_bool_strs. repeat first [apply sim_if_any | apply sim_if_str | s2 | cases]. Qed.
Lemma sim_read_int i b n : sim i (Watch.read_int up1 b n) (read_int b n).
Proof. unfold Watch.read_int, read_int. repeat first [apply sim_if_rune | s2 | cases]. Qed.
Lemma sim_read_uint i b n : sim i (Watch.read_uint up1 b n) (read_uint b n).
Proof. unfold Watch.read_uint, read_uint. repeat first [s2 | cases]. Qed.

(** Functions that call a function *)
Section Call.
Context (i : X1).
Lemma sim_since m : sim i (Watch.since m) (since m).
Proof. unfold Watch.since, since. go. Qed.
Lemma sim_scope f g : sim i f g -> sim i (Watch.scope up1 f) (scope g).
Proof. intros H. unfold Watch.scope, scope. go. Qed.
Lemma sim_trace f g : sim i f g -> sim i (Watch.trace up1 f) (trace g).
Proof. intros H. unfold Watch.trace, trace. repeat first [apply sim_since | s1 | cases]. Qed.
Lemma sim_while n f g : sim i f g -> sim i (Watch.while_f n f) (while_f n g).
Proof.
  intros H. unfold Watch.while_f, while_f. apply sim_bind; [go|]. intros a. apply sim_bind; [|intros; go].
  induction n; cbn [Watch.while_loop while_loop]; go.
Qed.
Lemma sim_tokenize f g : sim i f g -> sim i (Watch.tokenize up1 f) (tokenize g).
Proof. intros H. unfold Watch.tokenize, tokenize. go. Qed.
Lemma sim_capture f g : sim i f g -> sim i (Watch.capture up1 f) (capture g).
Proof. intros H. unfold Watch.capture, capture. repeat first [apply sim_tokenize | s1 | cases]. Qed.
Lemma sim_use f g : sim i f g -> sim i (Watch.use up1 f) (use g).
Proof. intros H. unfold Watch.use, use. go. Qed.
Lemma sim_trace_use f g : sim i f g -> sim i (Watch.trace_use up1 f) (trace_use g).
Proof. intros H. unfold Watch.trace_use, trace_use. repeat first [apply sim_since | s1 | cases]. Qed.
Lemma sim_tokenize_use f g : sim i f g -> sim i (Watch.tokenize_use up1 f) (tokenize_use g).
Proof. intros H. unfold Watch.tokenize_use, tokenize_use. go. Qed.
Lemma sim_capture_use f g : sim i f g -> sim i (Watch.capture_use up1 f) (capture_use g).
Proof. intros H. unfold Watch.capture_use, capture_use. repeat first [apply sim_tokenize_use | s1 | cases]. Qed.
Lemma sim_any fs gs : Forall2 (sim i) fs gs -> forall m errs, sim i (Watch.any_loop up1 fs m errs) (any_loop gs m errs).
Proof. induction 1; intros m errs; cbn [Watch.any_loop any_loop]; [go|]. apply sim_bind; auto. intros [x'|]; [auto|go]. Qed.
Lemma sim_seq fs gs : Forall2 (sim i) fs gs -> forall m, sim i (Watch.seq_loop up1 fs m) (seq_loop gs m).
Proof. induction 1; intros m; cbn [Watch.seq_loop seq_loop]; [go|]. apply sim_bind; auto. intros [x'|]; [go|auto]. Qed.
Lemma sim_skip f g fs gs : sim i f g -> Forall2 (sim i) fs gs -> forall x, sim i (Watch.skip_loop f fs x) (skip_loop g gs x).
Proof.
  intros Hs. induction 1; intros [z|]; cbn [Watch.skip_loop skip_loop]; try solve [go]. apply sim_bind; auto. intros [x'|]; auto. apply sim_bind; auto.
Qed.
Lemma sim_skip_seq f g fs gs : sim i f g -> Forall2 (sim i) fs gs -> sim i (Watch.skip_seq up1 f fs) (skip_seq g gs).
Proof. intros H H2. unfold Watch.skip_seq, skip_seq. repeat first [apply sim_skip; solve [auto] | s1 | cases]. Qed.
Lemma sim_rep n f g : sim i f g -> sim i (Watch.rep_loop n f) (rep_loop n g).
Proof. intros H. induction n; cbn [Watch.rep_loop rep_loop]; go. Qed.
Lemma sim_times n f g : sim i f g -> sim i (Watch.times_loop n f) (times_loop n g).
Proof. intros H. induction n; cbn [Watch.times_loop times_loop]; go. Qed.
Lemma sim_past n f g : sim i f g -> sim i (Watch.past_loop up1 n f) (past_loop n g).
Proof. intros H. induction n; cbn [Watch.past_loop past_loop]; repeat first [apply sim_move_runes | s1 | cases]. Qed.
Lemma sim_to n f g : sim i f g -> sim i (Watch.to_loop up1 n f) (to_loop n g).
Proof. intros H. induction n; cbn [Watch.to_loop to_loop]; repeat first [apply sim_move_runes | s1 | cases]. Qed.
Lemma sim_bany l : sim i (Watch.between_any_loop up1 l) (between_any_loop l).
Proof. induction l as [|[a b] l IH]; cbn [Watch.between_any_loop between_any_loop]; repeat first [apply sim_if_between | s1 | cases]. Qed.
Lemma sim_moves ms : sim i (Watch.do_moves up1 ms) (do_moves ms).
Proof. induction ms; cbn [Watch.do_moves do_moves]; go. Qed.
End Call.
Lemma sim_on_sub i str f g : sim i f g -> sim i (Watch.on_sub up1 str f) (on_sub str g).
Proof.
  intros H s t Hr. unfold Watch.on_sub, on_sub. pose proof Hr as (H0 & H1 & H2). assert (R1 : R i (sub_of str s) (mkSt (new_scanner str) (hp t))) by (split; [destruct s; subst; reflexivity|split; auto]).
  assert (S : sim i (Watch.bind (Watch.use up1 f) (fun e => Watch.bind Watch.at_end (fun fin => Watch.ret (e, fin))))
                    (bind (use g) (fun e => bind at_end (fun fin => ret (e, fin))))).
  { apply sim_bind; [apply sim_use; auto|]. intros; go. }
  specialize (S _ _ R1). unfold sub_of in S.
  destruct (Watch.bind (Watch.use up1 f) _ _) as [[a s']| |], (bind (use g) _ _) as [[b t']| |]; try tauto.
  destruct S as [<- (S1 & S2 & _)]. split; auto. split; [destruct s, s', t; cbn in *; subst; reflexivity|]. split; auto.
Qed.
Lemma sim_body i n m f g f' g' k : sim i f g -> sim i f' g' -> sim i (Watch.body_loop up1 n m f f' k) (body_loop n m g g' k).
Proof.
  intros H H'. induction n; cbn [Watch.body_loop body_loop]; [go|].
  repeat first [apply sim_move_runes | s1 | apply sim_on_sub; solve [auto] | cases].
Qed.

Theorem sim_read e n : forall r i, sim i (Watch.read up1 n e r) (read n e r).
Proof.
  induction n as [|n IH]; intros r i; [apply sim_fuel|].
  assert (IL : forall rs, Forall2 (sim i) (map (Watch.read up1 n e) rs) (map (read n e) rs)) by (induction rs; constructor; auto).
  destruct r; cbn [Watch.read read];
    try solve [repeat first [ apply IH; solve [auto] | apply sim_if_any_rune | apply sim_if_between | apply sim_bany | apply sim_read_bool | apply sim_if_fold
      | apply sim_read_int | apply sim_read_uint | apply sim_if_str | apply sim_if_match | apply sim_if_rune | apply sim_rep | apply sim_times | apply sim_past | apply sim_to
      | apply sim_body; [apply IH|] | apply sim_any; solve [auto] | apply sim_seq; solve [auto] | apply sim_skip_seq; [|solve [auto]]
      | apply sim_tokenize_use | apply sim_moves | apply sim_move_runes | apply sim_modh | s2 | cases ] ].
  - (* JanusEnd *) apply sim_bind; [apply sim_gets; intros; unfold get_cell; erewrite Rcells; eauto|]. intros str. apply sim_bind; [apply sim_if_str|]. intros ok.
    apply sim_bind; [s2|]. intros [x|]; [s1|]. apply sim_bind; [apply sim_modh|intros; s1].
  - (* Wrap *) apply sim_bind; [apply sim_gets; intros; erewrite Rpos, Rfull; eauto|]. intros me. apply sim_bind; [apply sim_moves|intros; s1].
  - (* Monitor *) apply sim_bind; [s1|]. intros p. apply sim_bind; [apply sim_gets; intros; unfold get_log; erewrite Rlogs; eauto|]. intros ptr.
    apply sim_bind; [apply sim_modh|]. intros _. apply sim_bind; [apply IH; auto|]. intros x.
    apply sim_bind; [s1|]. intros q. apply sim_bind; [apply sim_modh|intros; s1].
Qed.
End Base.

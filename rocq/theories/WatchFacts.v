(** WatchFacts.v - two Scanners with Trackers of the user side by side. *)
From Verif Require Import ReaderFwd.
From Verif Require Watch.
From Coq Require Import Lia.
Import Watch (wst, mkW, w_st, w_x).

(** The new scanner of reader.go:328, and the old one with what came of the objects. *)
Definition sub_of {X} (str : bytes) (s : wst X) : wst X := mkW (mkSt (new_scanner str) (Watch.hp s)) (w_x s).
Definition back_to {X} (s s' : wst X) : wst X := mkW (mkSt (Watch.sc s) (Watch.hp s')) (w_x s').
Definition with_hp {X} (h : heap) (s : wst X) : wst X := mkW (mkSt (Watch.sc s) h) (w_x s).

(** What readers do to objects *)
Inductive deed (P : reader -> Prop) : (heap -> heap) -> Prop :=
| d_cell c v : deed P (put_cell c v)
| d_val i v : deed P (put_val i v)
| d_event i sub t : P (RMap i sub) -> deed P (add_event i t)
| d_pick info b sub t : P (RPick info b sub) -> deed P (basket_add b (mkSeg info t))
| d_log lg (f : log -> log) : deed P (fun h => put_log lg (f (get_log lg h)) h).

Section Sim.
Context {L : GoLib} {X1 X2 : Type} (up1 : Z -> heap * X1 -> heap * X1) (up2 : Z -> heap * X2 -> heap * X2).
Context {I : Type} (R : I -> wst X1 -> wst X2 -> Prop) (P : reader -> Prop).
Context (Rfull : forall i s t, R i s t -> full (Watch.sc s) = full (Watch.sc t))
  (Rpos : forall i s t, R i s t -> pos (Watch.sc s) = pos (Watch.sc t))
  (Rcells : forall i s t, R i s t -> h_cells (Watch.hp s) = h_cells (Watch.hp t))
  (Rlogs : forall i s t, R i s t -> h_logs (Watch.hp s) = h_logs (Watch.hp t))
  (Rmove : forall i s t p, R i s t -> R i (Watch.moveto up1 p s) (Watch.moveto up2 p t))
  (Rdeed : forall i s t f, deed P f -> R i s t -> R i (with_hp (f (Watch.hp s)) s) (with_hp (f (Watch.hp t)) t))
  (Rsub : forall i s t str, R i s t -> exists j, R j (sub_of str s) (sub_of str t) /\ forall s' t', R j s' t' -> R i (back_to s s') (back_to t t')).

Definition sim {A} (i : I) (m1 : Watch.M (X := X1) A) (m2 : Watch.M (X := X2) A) : Prop := forall s t, R i s t ->
  match m1 s, m2 t with
  | Ok (a, s'), Ok (b, t') => a = b /\ R i s' t'
  | Panic, Panic => True
  | Fuel, Fuel => True
  | _, _ => False
  end.
Lemma sim_ret {A} i (a : A) : sim i (Watch.ret a) (Watch.ret a).
Proof. intros s t H. cbn. auto. Qed.
Lemma sim_panic {A} i : sim (A := A) i Watch.panic Watch.panic.
Proof. intros s t H. exact Logic.I. Qed.
Lemma sim_fuel {A} i : sim (A := A) i Watch.out_of_fuel Watch.out_of_fuel.
Proof. intros s t H. exact Logic.I. Qed.
Lemma sim_bind {A B} i (m1 : Watch.M (X := X1) A) m2 (f1 : A -> Watch.M (X := X1) B) f2 :
  sim i m1 m2 -> (forall a, sim i (f1 a) (f2 a)) -> sim i (Watch.bind m1 f1) (Watch.bind m2 f2).
Proof.
  intros H1 H2 s t H. unfold Watch.bind. specialize (H1 s t H). destruct (m1 s) as [[a s']| |], (m2 t) as [[b t']| |]; try tauto.
  destruct H1 as [<- H1]. apply H2; auto.
Qed.
Lemma sim_gets {A} i (f1 : wst X1 -> A) (f2 : wst X2 -> A) : (forall s t, R i s t -> f1 s = f2 t) -> sim i (Watch.gets f1) (Watch.gets f2).
Proof. intros E s t H. cbn. auto. Qed.
Lemma sim_tail i : sim i Watch.s_tail Watch.s_tail.
Proof. intros s t H. unfold Watch.s_tail. rewrite (Rpos _ _ _ H), (Rfull _ _ _ H). destruct (_ && _); auto. Qed.
Lemma sim_head i : sim i Watch.s_head Watch.s_head.
Proof. intros s t H. unfold Watch.s_head. rewrite (Rpos _ _ _ H), (Rfull _ _ _ H). destruct (_ && _); auto. Qed.
Lemma sim_tok i k : sim i (Watch.get_tok k) (Watch.get_tok k).
Proof. intros s t H. unfold Watch.get_tok. rewrite (Rfull _ _ _ H). destruct (_ && _); auto. Qed.
Lemma sim_move i n : sim i (Watch.move up1 n) (Watch.move up2 n).
Proof. intros s t H. unfold Watch.move. cbv zeta. rewrite (Rpos _ _ _ H), (Rfull _ _ _ H). destruct (_ || _); auto. Qed.
Lemma sim_marker i m : sim i (Watch.to_marker up1 m) (Watch.to_marker up2 m).
Proof. intros s t H. unfold Watch.to_marker. rewrite (Rfull _ _ _ H). destruct (_ && _); auto. Qed.
Lemma sim_to_end i : sim i (Watch.to_end up1) (Watch.to_end up2).
Proof. intros s t H. unfold Watch.to_end. rewrite (Rfull _ _ _ H). apply sim_marker; auto. Qed.
Lemma sim_mark i : sim i Watch.mark Watch.mark.
Proof. apply sim_gets. intros. eapply Rpos; eauto. Qed.
Lemma sim_at_end i : sim i Watch.at_end Watch.at_end.
Proof. apply sim_gets. intros. erewrite Rpos, Rfull; eauto. Qed.
Lemma sim_at_start i : sim i Watch.at_start Watch.at_start.
Proof. apply sim_gets. intros. erewrite Rpos; eauto. Qed.
Lemma sim_modh i f : deed P f -> sim i (Watch.modh f) (Watch.modh f).
Proof. intros D s t H. cbn. split; auto. apply (Rdeed i s t f D H). Qed.

Ltac s1 := first [ assumption | apply sim_ret | apply sim_panic | apply sim_fuel | apply sim_tail | apply sim_head | apply sim_tok
  | apply sim_move | apply sim_marker | apply sim_to_end | apply sim_mark | apply sim_at_end | apply sim_at_start
  | (apply sim_bind; [|intros]) ].
Ltac cases := match goal with
  | |- sim _ (match ?c with _ => _ end) _ => destruct c
  | |- sim _ (let '(_, _) := ?c in _) _ => destruct c end.
Ltac go := repeat first [s1 | cases].

Lemma sim_error_for i w : sim i (Watch.error_for w) (Watch.error_for w).
Proof. unfold Watch.error_for. go. Qed.
Lemma sim_error_if i ok w : sim i (Watch.error_if_false ok w) (Watch.error_if_false ok w).
Proof. unfold Watch.error_if_false. destruct ok; [go|apply sim_error_for]. Qed.
Ltac s2 := first [ s1 | apply sim_error_for | apply sim_error_if ].
Ltac go2 := repeat first [s2 | cases].

Lemma sim_line_col i t : sim i (Watch.line_col t) (Watch.line_col t).
Proof. unfold Watch.line_col. apply sim_bind; [go|]. intros h. cbv zeta. destruct (split_nl _); go. Qed.
Lemma sim_if_str i x : sim i (Watch.if_str up1 x) (Watch.if_str up2 x).
Proof. unfold Watch.if_str. go. Qed.
Lemma sim_if_any i x : sim i (Watch.if_any up1 x) (Watch.if_any up2 x).
Proof. induction x; cbn [Watch.if_any]; [go|]. apply sim_bind; [apply sim_if_str|]. intros; go. Qed.
Lemma sim_to_str i x : sim i (Watch.to_str up1 x) (Watch.to_str up2 x).
Proof. unfold Watch.to_str. go. Qed.
Lemma sim_scan_string i x : sim i (Watch.scan_string up1 x) (Watch.scan_string up2 x).
Proof. unfold Watch.scan_string. go. Qed.
Lemma sim_if_fold i x : sim i (Watch.if_fold up1 x) (Watch.if_fold up2 x).
Proof. unfold Watch.if_fold. cbv zeta. go. Qed.
Lemma sim_to_fold i x : sim i (Watch.to_fold up1 x) (Watch.to_fold up2 x).
Proof. unfold Watch.to_fold. go. Qed.
Lemma sim_if_rune i x : sim i (Watch.if_rune up1 x) (Watch.if_rune up2 x).
Proof. unfold Watch.if_rune. go. Qed.
Lemma sim_to_rune i x : sim i (Watch.to_rune up1 x) (Watch.to_rune up2 x).
Proof. unfold Watch.to_rune. go. Qed.
Lemma sim_while_rune i x : sim i (Watch.while_rune up1 x) (Watch.while_rune up2 x).
Proof. unfold Watch.while_rune. go. Qed.
Lemma sim_any_rune_loop i x : sim i (Watch.if_any_rune_loop up1 x) (Watch.if_any_rune_loop up2 x).
Proof. induction x; cbn [Watch.if_any_rune_loop]; [go|]. apply sim_bind; [apply sim_if_rune|]. intros; go. Qed.
Lemma sim_if_any_rune i x : sim i (Watch.if_any_rune up1 x) (Watch.if_any_rune up2 x).
Proof. apply sim_any_rune_loop. Qed.
Lemma sim_to_any_rune i x : sim i (Watch.to_any_rune up1 x) (Watch.to_any_rune up2 x).
Proof. unfold Watch.to_any_rune. go. Qed.
Lemma sim_while_any_rune i x : sim i (Watch.while_any_rune up1 x) (Watch.while_any_rune up2 x).
Proof. unfold Watch.while_any_rune. go. Qed.
Lemma sim_if_between i x y : sim i (Watch.if_between up1 x y) (Watch.if_between up2 x y).
Proof. unfold Watch.if_between. go. Qed.
Lemma sim_to_between i x y : sim i (Watch.to_between up1 x y) (Watch.to_between up2 x y).
Proof. unfold Watch.to_between. go. Qed.
Lemma sim_while_between i x y : sim i (Watch.while_between up1 x y) (Watch.while_between up2 x y).
Proof. unfold Watch.while_between. go. Qed.
Lemma sim_if_match i x : sim i (Watch.if_match up1 x) (Watch.if_match up2 x).
Proof. unfold Watch.if_match. go. Qed.
Lemma sim_to_match i x : sim i (Watch.to_match up1 x) (Watch.to_match up2 x).
Proof. unfold Watch.to_match. go. Qed.
Lemma sim_while_match i x : sim i (Watch.while_match up1 x) (Watch.while_match up2 x).
Proof. unfold Watch.while_match. go. Qed.
Lemma sim_move_runes i n : sim i (Watch.move_runes up1 n) (Watch.move_runes up2 n).
Proof. unfold Watch.move_runes. go. Qed.
Lemma sim_rev_if i x : sim i (Watch.rev_if up1 x) (Watch.rev_if up2 x).
Proof. unfold Watch.rev_if. go. Qed.
Lemma sim_rev_if_any i x : sim i (Watch.rev_if_any up1 x) (Watch.rev_if_any up2 x).
Proof. induction x; cbn [Watch.rev_if_any]; [go|]. apply sim_bind; [apply sim_rev_if|]. intros; go. Qed.
Lemma sim_rev_to i x : sim i (Watch.rev_to up1 x) (Watch.rev_to up2 x).
Proof. unfold Watch.rev_to. go. Qed.
Lemma sim_rev_if_fold i x : sim i (Watch.rev_if_fold up1 x) (Watch.rev_if_fold up2 x).
Proof. unfold Watch.rev_if_fold. go. Qed.
Lemma sim_rev_to_fold i x : sim i (Watch.rev_to_fold up1 x) (Watch.rev_to_fold up2 x).
Proof. unfold Watch.rev_to_fold. apply sim_bind; [go|]. intros h. induction (fst (rev_items h)) as [|[y v] l IH]; cbn [Watch.rev_to_fold_loop]; go. Qed.
Lemma sim_rev_if_rune i x : sim i (Watch.rev_if_rune up1 x) (Watch.rev_if_rune up2 x).
Proof. unfold Watch.rev_if_rune. go. Qed.
Lemma sim_rev_to_rune i x : sim i (Watch.rev_to_rune up1 x) (Watch.rev_to_rune up2 x).
Proof. unfold Watch.rev_to_rune. go. Qed.
Lemma sim_rev_while i x : sim i (Watch.rev_while up1 x) (Watch.rev_while up2 x).
Proof. unfold Watch.rev_while. go. Qed.
Lemma sim_rev_if_any_rune i x : sim i (Watch.rev_if_any_rune up1 x) (Watch.rev_if_any_rune up2 x).
Proof. unfold Watch.rev_if_any_rune. go. Qed.
Lemma sim_rev_to_any_rune i x : sim i (Watch.rev_to_any_rune up1 x) (Watch.rev_to_any_rune up2 x).
Proof. unfold Watch.rev_to_any_rune. go. Qed.
Lemma sim_rev_if_between i x y : sim i (Watch.rev_if_between up1 x y) (Watch.rev_if_between up2 x y).
Proof. unfold Watch.rev_if_between. go. Qed.
Lemma sim_rev_to_between i x y : sim i (Watch.rev_to_between up1 x y) (Watch.rev_to_between up2 x y).
Proof. unfold Watch.rev_to_between. go. Qed.
Lemma sim_rev_if_match i x : sim i (Watch.rev_if_match up1 x) (Watch.rev_if_match up2 x).
Proof. unfold Watch.rev_if_match. go. Qed.
Lemma sim_rev_to_match i x : sim i (Watch.rev_to_match up1 x) (Watch.rev_to_match up2 x).
Proof. unfold Watch.rev_to_match. go. Qed.
Lemma sim_read_rune i : sim i (Watch.read_rune up1) (Watch.read_rune up2).
Proof. unfold Watch.read_rune. go2. Qed.
Lemma sim_rev_read_rune i : sim i (Watch.rev_read_rune up1) (Watch.rev_read_rune up2).
Proof. unfold Watch.rev_read_rune. go2. Qed.
Lemma sim_read_bool i f : sim i (Watch.read_bool up1 f) (Watch.read_bool up2 f).
Proof. unfold Watch.read_bool, Watch.read_bool_strs. repeat first [apply sim_if_any | apply sim_if_str | s2 | cases]. Qed.
Lemma sim_read_int i b n : sim i (Watch.read_int up1 b n) (Watch.read_int up2 b n).
Proof. unfold Watch.read_int. repeat first [apply sim_if_rune | s2 | cases]. Qed.
Lemma sim_read_uint i b n : sim i (Watch.read_uint up1 b n) (Watch.read_uint up2 b n).
Proof. unfold Watch.read_uint. repeat first [s2 | cases]. Qed.

(** Functions that call a function *)
Section Call.
Context (i : I).
Lemma sim_since m : sim i (Watch.since m) (Watch.since m).
Proof. unfold Watch.since. go. Qed.
Lemma sim_scope f g : sim i f g -> sim i (Watch.scope up1 f) (Watch.scope up2 g).
Proof. intros H. unfold Watch.scope. go. Qed.
Lemma sim_trace f g : sim i f g -> sim i (Watch.trace up1 f) (Watch.trace up2 g).
Proof. intros H. unfold Watch.trace. repeat first [apply sim_since | s1 | cases]. Qed.
Lemma sim_while n f g : sim i f g -> sim i (Watch.while_f n f) (Watch.while_f n g).
Proof.
  intros H. unfold Watch.while_f. apply sim_bind; [go|]. intros a. apply sim_bind; [|intros; go].
  induction n; cbn [Watch.while_loop]; go.
Qed.
Lemma sim_tokenize f g : sim i f g -> sim i (Watch.tokenize up1 f) (Watch.tokenize up2 g).
Proof. intros H. unfold Watch.tokenize. go. Qed.
Lemma sim_capture f g : sim i f g -> sim i (Watch.capture up1 f) (Watch.capture up2 g).
Proof. intros H. unfold Watch.capture. repeat first [apply sim_tokenize | s1 | cases]. Qed.
Lemma sim_use f g : sim i f g -> sim i (Watch.use up1 f) (Watch.use up2 g).
Proof. intros H. unfold Watch.use. go. Qed.
Lemma sim_trace_use f g : sim i f g -> sim i (Watch.trace_use up1 f) (Watch.trace_use up2 g).
Proof. intros H. unfold Watch.trace_use. repeat first [apply sim_since | s1 | cases]. Qed.
Lemma sim_tokenize_use f g : sim i f g -> sim i (Watch.tokenize_use up1 f) (Watch.tokenize_use up2 g).
Proof. intros H. unfold Watch.tokenize_use. go. Qed.
Lemma sim_capture_use f g : sim i f g -> sim i (Watch.capture_use up1 f) (Watch.capture_use up2 g).
Proof. intros H. unfold Watch.capture_use. repeat first [apply sim_tokenize_use | s1 | cases]. Qed.
Lemma sim_any fs gs : Forall2 (sim i) fs gs -> forall m errs, sim i (Watch.any_loop up1 fs m errs) (Watch.any_loop up2 gs m errs).
Proof. induction 1; intros m errs; cbn [Watch.any_loop]; [go|]. apply sim_bind; auto. intros [x'|]; [auto|go]. Qed.
Lemma sim_seq fs gs : Forall2 (sim i) fs gs -> forall m, sim i (Watch.seq_loop up1 fs m) (Watch.seq_loop up2 gs m).
Proof. induction 1; intros m; cbn [Watch.seq_loop]; [go|]. apply sim_bind; auto. intros [x'|]; [go|auto]. Qed.
Lemma sim_skip f g fs gs : sim i f g -> Forall2 (sim i) fs gs -> forall x, sim i (Watch.skip_loop f fs x) (Watch.skip_loop g gs x).
Proof.
  intros Hs. induction 1; intros [z|]; cbn [Watch.skip_loop]; try solve [go]. apply sim_bind; auto. intros [x'|]; auto. apply sim_bind; auto.
Qed.
Lemma sim_skip_seq f g fs gs : sim i f g -> Forall2 (sim i) fs gs -> sim i (Watch.skip_seq up1 f fs) (Watch.skip_seq up2 g gs).
Proof. intros H H2. unfold Watch.skip_seq. repeat first [apply sim_skip; solve [auto] | s1 | cases]. Qed.
Lemma sim_rep n f g : sim i f g -> sim i (Watch.rep_loop n f) (Watch.rep_loop n g).
Proof. intros H. induction n; cbn [Watch.rep_loop]; go. Qed.
Lemma sim_times n f g : sim i f g -> sim i (Watch.times_loop n f) (Watch.times_loop n g).
Proof. intros H. induction n; cbn [Watch.times_loop]; go. Qed.
Lemma sim_past n f g : sim i f g -> sim i (Watch.past_loop up1 n f) (Watch.past_loop up2 n g).
Proof. intros H. induction n; cbn [Watch.past_loop]; repeat first [apply sim_move_runes | s1 | cases]. Qed.
Lemma sim_to n f g : sim i f g -> sim i (Watch.to_loop up1 n f) (Watch.to_loop up2 n g).
Proof. intros H. induction n; cbn [Watch.to_loop]; repeat first [apply sim_move_runes | s1 | cases]. Qed.
Lemma sim_bany l : sim i (Watch.between_any_loop up1 l) (Watch.between_any_loop up2 l).
Proof. induction l as [|[a b] l IH]; cbn [Watch.between_any_loop]; repeat first [apply sim_if_between | s1 | cases]. Qed.
Lemma sim_moves ms : sim i (Watch.do_moves up1 ms) (Watch.do_moves up2 ms).
Proof. induction ms; cbn [Watch.do_moves]; go. Qed.
End Call.
Lemma sim_on_sub i str f g : (forall j, sim j f g) -> sim i (Watch.on_sub up1 str f) (Watch.on_sub up2 str g).
Proof.
  intros H s t Hr. unfold Watch.on_sub. destruct (Rsub i s t str Hr) as (j & R1 & R2).
  assert (S : sim j (Watch.bind (Watch.use up1 f) (fun e => Watch.bind Watch.at_end (fun fin => Watch.ret (e, fin))))
                    (Watch.bind (Watch.use up2 g) (fun e => Watch.bind Watch.at_end (fun fin => Watch.ret (e, fin))))).
  { apply sim_bind; [apply sim_use; auto|]. intros; go. }
  specialize (S _ _ R1). unfold sub_of in S.
  destruct (Watch.bind (Watch.use up1 f) _ _) as [[a s']| |], (Watch.bind (Watch.use up2 g) _ _) as [[b t']| |]; try tauto.
  destruct S as [<- S]. split; auto. apply R2; auto.
Qed.
Lemma sim_body i n m f g f' g' k : (forall j, sim j f g) -> sim i f' g' -> sim i (Watch.body_loop up1 n m f f' k) (Watch.body_loop up2 n m g g' k).
Proof.
  intros H H'. induction n; cbn [Watch.body_loop]; [go|].
  repeat first [apply sim_move_runes | s1 | apply sim_on_sub; solve [auto] | cases].
Qed.

Theorem sim_read e n : eallP P e -> forall r, rallP P r -> forall i, sim i (Watch.read up1 n e r) (Watch.read up2 n e r).
Proof.
  intros He. induction n as [|n IH]; intros r Hr i; [apply sim_fuel|].
  assert (IL : forall rs, fold_right (fun x q => rallP P x /\ q) True rs -> Forall2 (sim i) (map (Watch.read up1 n e) rs) (map (Watch.read up2 n e) rs)).
  { induction rs as [|x rs IHr]; cbn; [constructor|]. intros [H1 H2]. constructor; auto. }
  pose proof (rallP_here _ _ Hr) as Ph.
  destruct r; cbn [Watch.read]; cbn [rallP] in Hr; destruct Hr as [_ Hr];
    try match type of Hr with _ /\ _ => destruct Hr as [Hr Hr2] end;
    try solve [repeat first [ apply IH; solve [auto] | apply sim_if_any_rune | apply sim_if_between | apply sim_bany | apply sim_read_bool | apply sim_if_fold
      | apply sim_read_int | apply sim_read_uint | apply sim_if_str | apply sim_if_match | apply sim_if_rune | apply sim_rep | apply sim_times | apply sim_past | apply sim_to
      | apply sim_body; [intros; apply IH; solve [auto]|] | apply sim_any; solve [auto] | apply sim_seq; solve [auto] | apply sim_skip_seq; [|solve [auto]]
      | apply sim_tokenize_use | apply sim_moves | apply sim_move_runes | apply sim_modh; constructor | s2 | cases ] ].
  - (* JanusEnd *) apply sim_bind; [apply sim_gets; intros; unfold get_cell; erewrite Rcells; eauto|]. intros str. apply sim_bind; [apply sim_if_str|]. intros ok.
    apply sim_bind; [s2|]. intros [x|]; [s1|]. apply sim_bind; [apply sim_modh; constructor|intros; s1].
  - (* Map *) apply sim_bind; [apply sim_tokenize_use, IH; auto|]. intros te. destruct (snd te); [s1|]. apply sim_bind; [apply sim_modh; econstructor; eauto|intros; s1].
  - (* Wrap *) apply sim_bind; [apply sim_gets; intros; erewrite Rpos, Rfull; eauto|]. intros me. apply sim_bind; [apply sim_moves|intros; s1].
  - (* Pick *) apply sim_bind; [apply sim_tokenize_use, IH; auto|]. intros te. destruct (snd te); [s1|]. apply sim_bind; [apply sim_modh; econstructor; eauto|intros; s1].
  - (* Monitor *) apply sim_bind; [s1|]. intros p. apply sim_bind; [apply sim_gets; intros; unfold get_log; erewrite Rlogs; eauto|]. intros ptr.
    apply sim_bind; [apply sim_modh; exact (d_log P lg (fun l => snd (log_enter info p l)))|]. intros _. apply sim_bind; [apply IH; auto|]. intros x.
    apply sim_bind; [s1|]. intros q. apply sim_bind; [apply sim_modh; exact (d_log P lg (fun l => log_exit ptr q x l))|intros; s1].
  - (* Rule *) destruct (r_reader (get_rule e i0)) eqn:E; [|s1]. apply IH. eapply He; eauto.
  - (* Grammar *) destruct (r_reader (get_rule e i0)) eqn:E; [|s1]. apply sim_bind; [apply IH; eapply He; eauto|]. intros [x|]; s1.
Qed.
End Sim.

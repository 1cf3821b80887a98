(** Blame.v - which error a failing Read returns. *)
From Verif Require Export PegFacts.
From Verif Require Import ReaderSteps.
From Coq Require Import Lia ZifyBool.

(** Readers that report themselves, at the place where they stand when they fail. *)
Definition speaks (r : reader) : bool :=
  match r with
  | RAnyRune _ | RAtEnd | RBetween _ _ | RBetweenAny _ _ | RBody _ _ | RBodyTail _ _ | RHoley _ _ _ | RLit _ | RMany _
  | RMatch _ _ | RPast _ | RRune _ | RTo _ | RRuleName _ => true
  | _ => false
  end.

(** [blames t e i c b xs]: with strings [c] and rest [b] of a text of length [t], [i] fails with the error [xs]; the tail of an Any has a list of errors. *)
Inductive blames {L : GoLib} (t : Z) (e : env) : item -> cells -> bytes -> list err -> Prop :=
| b_self r c b c' b' : speaks r = true -> eats e (IR r) c b false c' b' -> blames t e (IR r) c b [EReadError (t - slen b') (what e r)]
| b_not r c b c' b' : eats e (IR r) c b true c' b' -> blames t e (IR (RNot r)) c b [EReadError (t - slen b) (what e r)]
| b_end i w c b : (forall x, b <> get [] c i ++ x) -> blames t e (IR (RJanusEnd i w)) c b [EReadError (t - slen b) (quote_str (get [] c i))]
| b_invalid m c b : blames t e (IR (RInvalid m)) c b [EOther (lit "INVALID-READER: " ++ m)]
| b_rule i r c b x : r_reader (get_rule e i) = Some r -> blames t e (IR r) c b [x] -> blames t e (IR (RRule i)) c b [x]
| b_grammar w p i r c b x : r_reader (get_rule e i) = Some r -> blames t e (IR r) c b [x] -> blames t e (IR (RGrammar w p i)) c b [EOther (p ++ err_text x)]
| b_named w r c b x : blames t e (IR r) c b [x] -> blames t e (IR (RNamed w r)) c b [x]
| b_monitor w l r c b x : blames t e (IR r) c b [x] -> blames t e (IR (RMonitor w l r)) c b [x]
| b_map id r c b x : blames t e (IR r) c b [x] -> blames t e (IR (RMap id r)) c b [x]
| b_pick w k r c b x : blames t e (IR r) c b [x] -> blames t e (IR (RPick w k r)) c b [x]
| b_janus i w r c b x : blames t e (IR r) c b [x] -> blames t e (IR (RJanusBeg i w r)) c b [x]
| b_at r c b x : blames t e (IR r) c b [x] -> blames t e (IR (RAt r)) c b [x]
| b_any rs c b xs : blames t e (IAny rs) c b xs -> blames t e (IR (RAny rs)) c b [get_deepest xs]
| b_seq rs c b x : blames t e (ISeq rs) c b [x] -> blames t e (IR (RSeq rs)) c b [x]
| b_skip sk rs c b x : blames t e (ISeq (interleave sk rs)) c b [x] -> blames t e (IR (RSkipSeq sk rs)) c b [x]
| b_times k r c b x : blames t e (ITimes (Z.to_nat k) r) c b [x] -> blames t e (IR (RTimes k r)) c b [x]
| bi_any_nil c b : blames t e (IAny []) c b []
| bi_any r rs c b x c1 b1 xs : blames t e (IR r) c b [x] -> eats e (IR r) c b false c1 b1 -> blames t e (IAny rs) c1 b1 xs -> blames t e (IAny (r :: rs)) c b (x :: xs)
| bi_seq_stop r rs c b x : blames t e (IR r) c b [x] -> blames t e (ISeq (r :: rs)) c b [x]
| bi_seq_next r rs c b c1 b1 x : eats e (IR r) c b true c1 b1 -> blames t e (ISeq rs) c1 b1 [x] -> blames t e (ISeq (r :: rs)) c b [x]
| bi_times_stop k r c b x : blames t e (IR r) c b [x] -> blames t e (ITimes (S k) r) c b [x]
| bi_times_next k r c b c1 b1 x : eats e (IR r) c b true c1 b1 -> blames t e (ITimes k r) c1 b1 [x] -> blames t e (ITimes (S k) r) c b [x].

Section Blame.
Context {L : GoLib} (e : env).
Lemma for_self w s x s' : error_for w s = Ok (Some x, s') -> x = EReadError (pos (sc s')) w.
Proof. unfold error_for. intros H. injection H as <- <-. reflexivity. Qed.
Lemma if_self ok w s x s' : error_if_false ok w s = Ok (Some x, s') -> x = EReadError (pos (sc s')) w.
Proof. destruct ok; [discriminate|apply for_self]. Qed.
Lemma stop_self (ok : bool) m w s x s' : (if ok then ret None else to_marker m ;; error_for w) s = Ok (Some x, s') -> x = EReadError (pos (sc s')) w.
Proof. destruct ok; [discriminate|]. intros H. apply bind_inv in H as (u & s1 & _ & H). apply for_self in H. exact H. Qed.
Lemma self_read n r s x s' : speaks r = true -> read n e r s = Ok (Some x, s') -> x = EReadError (pos (sc s')) (what e r).
Proof.
  intros Sp E. destruct n as [|n]; [discriminate|]. destruct r; try discriminate; cbn [read] in E.
  all: try (apply bind_inv in E as (? & ? & ? & E)); try (apply bind_inv in E as (? & ? & ? & E)); try (apply bind_inv in E as (? & ? & ? & E));
    try (apply if_self in E; exact E); try (eapply stop_self; exact E).
  - destruct x2; [discriminate|]. apply bind_inv in E as (ok & s4 & _ & E). eapply stop_self; exact E.
  - destruct (decode_rune x0) as [v w]. destruct (_ && _); [apply bind_inv in E as (? & ? & _ & E); eapply if_self; exact E|eapply for_self; exact E].
Qed.

(** Read returns the error [blames] says. *)
Definition blaming (n : nat) (r : reader) : Prop := forall t c b s x s', stands t c b s -> read n e r s = Ok (Some x, s') -> blames (slen t) e (IR r) c b [x].
Lemma any_blames n rs (He : eall covered e) (Hr : forallb (rall covered) rs = true) : (forall r, In r rs -> blaming n r) -> forall errs t c b s x s' m, stands t c b s ->
  any_loop (map (read n e) rs) m errs s = Ok (Some x, s') -> exists xs, blames (slen t) e (IAny rs) c b xs /\ x = get_deepest (errs ++ xs).
Proof.
  intros Bl. induction rs as [|r rs IH]; intros errs t c b s x s' m H E; cbn [map any_loop] in E.
  - apply bind_inv in E as (u & s1 & E1 & E2). injection E2 as <- <-. exists []. rewrite app_nil_r. split; auto. constructor.
  - cbn [forallb] in Hr. apply andb_true_iff in Hr as [Hr Hrs]. apply bind_inv in E as (y & s1 & E1 & E2). destruct (read_eats e n He r Hr t c b s y s1 H E1) as (c1 & b1 & S1 & D1).
    destruct y as [y|]; [|discriminate]. destruct (IH Hrs (fun q I => Bl q (or_intror I)) _ t c1 b1 s1 x s' m S1 E2) as (xs & B & ->). exists (y :: xs). split; [|rewrite <- app_assoc; reflexivity].
    eapply bi_any; eauto. eapply Bl; eauto. left; auto.
Qed.
Lemma seq_blames n rs (He : eall covered e) (Hr : forallb (rall covered) rs = true) : (forall r, In r rs -> blaming n r) -> forall t c b s x s' m, stands t c b s ->
  seq_loop (map (read n e) rs) m s = Ok (Some x, s') -> blames (slen t) e (ISeq rs) c b [x].
Proof.
  intros Bl. induction rs as [|r rs IH]; intros t c b s x s' m H E; cbn [map seq_loop] in E; [discriminate|].
  cbn [forallb] in Hr. apply andb_true_iff in Hr as [Hr Hrs]. apply bind_inv in E as (y & s1 & E1 & E2). destruct (read_eats e n He r Hr t c b s y s1 H E1) as (c1 & b1 & S1 & D1).
  destruct y as [y|].
  - apply bind_inv in E2 as (u & s2 & _ & E2). injection E2 as -> _. apply bi_seq_stop. eapply Bl; eauto. left; auto.
  - eapply bi_seq_next; eauto. exact (IH Hrs (fun q I => Bl q (or_intror I)) _ _ _ _ _ _ _ S1 E2).
Qed.
Lemma times_blames n r (He : eall covered e) (Hr : rall covered r = true) : blaming n r -> forall k t c b s x s', stands t c b s ->
  times_loop k (read n e r) s = Ok (Some x, s') -> blames (slen t) e (ITimes k r) c b [x].
Proof.
  intros Bl. induction k as [|k IH]; intros t c b s x s' H E; cbn [times_loop] in E; [discriminate|].
  apply bind_inv in E as (y & s1 & E1 & E2). destruct (read_eats e n He r Hr t c b s y s1 H E1) as (c1 & b1 & S1 & D1). destruct y as [y|].
  - injection E2 as -> _. apply bi_times_stop. eapply Bl; eauto.
  - eapply bi_times_next; eauto.
Qed.
Lemma tokenize_inv n r s tk x s' : tokenize_use (read n e r) s = Ok ((tk, Some x), s') -> exists s1, read n e r s = Ok (Some x, s1).
Proof.
  unfold tokenize_use. intros E. rewrite (bind_ok _ _ _ _ _ (mark_ok s)) in E. apply bind_inv in E as (y & s1 & E1 & E2). destruct y as [y|].
  - apply bind_inv in E2 as (u & s2 & E2 & E3). rewrite (bind_ok _ _ _ _ _ (mark_ok s2)) in E3. injection E3 as _ -> _. eauto.
  - rewrite (bind_ok _ _ _ _ _ (mark_ok s1)) in E2. discriminate.
Qed.
Theorem read_blames n : eall covered e -> forall r, rall covered r = true -> blaming n r.
Proof.
  intros He. induction n as [|n IH]; intros r Hr t c b s x s' H E; [discriminate|].
  assert (Sb : forall rs, forallb (rall covered) rs = true -> forall q, In q rs -> blaming n q).
  { intros rs Hs q I. apply IH. rewrite forallb_forall in Hs. auto. }
  destruct (speaks r) eqn:Sp.
  { destruct (read_eats e _ He r Hr t c b s (Some x) s' H E) as (c' & b' & St & D). rewrite (self_read _ _ _ _ _ Sp E), (stands_pos _ _ _ _ St). eapply b_self; eauto. }
  pose proof (rall_here _ _ Hr) as Pc. pose proof Hr as Hr0.
  destruct r; cbn [covered] in Pc; try discriminate; cbn [rall] in Hr; apply andb_true_iff in Hr as [_ Hr];
    try (apply andb_true_iff in Hr as [Hr Hr2]); cbn [read] in E.
  - (* Any *) rewrite (bind_ok _ _ _ _ _ (mark_ok s)) in E. destruct (any_blames n rs He Hr (Sb rs Hr) [] t c b s x s' _ H E) as (xs & B & ->). apply b_any. exact B.
  - (* At *) rewrite (bind_ok _ _ _ _ _ (mark_ok s)) in E. apply bind_inv in E as (y & s1 & E1 & E2). apply bind_inv in E2 as (u & s2 & _ & E2). injection E2 as -> _. apply b_at. eapply IH; eauto.
  - (* JanusBeg *) apply bind_inv in E as ([tk y] & s1 & E1 & E2). cbn [fst snd] in E2. destruct y as [y|].
    + injection E2 as -> _. destruct (tokenize_inv _ _ _ _ _ _ E1) as (s2 & E2). apply b_janus. eapply IH; eauto.
    + apply bind_inv in E2 as (? & ? & _ & E2). apply bind_inv in E2 as (? & ? & _ & E2). discriminate.
  - (* JanusEnd *) unfold gets in E. rewrite bind_run in E. assert (G : get_cell cell (hp s) = get [] c cell) by (unfold get_cell; destruct H as (_ & -> & _); reflexivity). rewrite G in E.
    destruct (if_str_stands (get [] c cell) t c b s H) as [(b' & s1 & -> & F & S)|[N F]]; rewrite (bind_ok _ _ _ _ _ F) in E.
    + cbn [error_if_false] in E. rewrite bind_run in E. cbn [ret] in E. apply bind_inv in E as (u & s2 & _ & E). discriminate.
    + apply bind_inv in E as (y & s1 & E1 & E2). destruct y as [y|]; [|discriminate E1]. injection E2 as -> _. pose proof (if_self _ _ _ _ _ E1) as ->. apply error_if_false_inv in E1 as [_ ->]. rewrite (stands_pos _ _ _ _ H). apply b_end. auto.
  - (* Invalid *) injection E as <- _. apply b_invalid.
  - (* Map *) apply bind_inv in E as ([tk y] & s1 & E1 & E2). cbn [fst snd] in E2. destruct y as [y|].
    + injection E2 as -> _. destruct (tokenize_inv _ _ _ _ _ _ E1) as (s2 & E2). apply b_map. eapply IH; eauto.
    + apply bind_inv in E2 as (? & ? & _ & E2). discriminate.
  - (* Named *) apply b_named. eapply IH; eauto.
  - (* Not *) rewrite (bind_ok _ _ _ _ _ (mark_ok s)) in E. apply bind_inv in E as (y & s1 & E1 & E2). destruct (read_eats e n He r Hr t c b s y s1 H E1) as (c1 & b1 & S1 & D1).
    apply bind_inv in E2 as (u & s2 & E2 & E3). rewrite (stands_pos _ _ _ _ H) in E2. destruct y as [y|]; [apply bind_inv in E3 as (? & ? & _ & E3); discriminate|].
    assert (S2 : stands t c1 b s2) by (eapply marker_stands; eauto; apply H). pose proof (for_self _ _ _ _ E3) as ->. apply error_for_inv in E3 as [_ ->]. rewrite (stands_pos _ _ _ _ S2). eapply b_not; eauto.
  - (* Opt *) apply bind_inv in E as (? & ? & _ & E). discriminate.
  - (* Seq *) rewrite (bind_ok _ _ _ _ _ (mark_ok s)) in E. apply b_seq. exact (seq_blames n rs He Hr (Sb rs Hr) _ _ _ _ _ _ _ H E).
  - (* SkipSeq *) change (skip_seq (read n e r) (map (read n e) rs) s) with (read (S n) e (RSkipSeq r rs) s) in E. rewrite skip_seq_read in E. cbn [read] in E.
    rewrite (bind_ok _ _ _ _ _ (mark_ok s)) in E.
    assert (Si : forallb (rall covered) (interleave r rs) = true).
    { rewrite interleave_flat. cbn [forallb]. rewrite Hr. cbn [andb]. clear -Hr Hr2. induction rs as [|q rs IHr]; auto. cbn in *. apply andb_true_iff in Hr2 as [A B]. rewrite A, Hr. auto. }
    apply b_skip. exact (seq_blames n _ He Si (Sb _ Si) _ _ _ _ _ _ _ H E).
  - (* Times *) apply b_times. exact (times_blames n r He Hr (IH r Hr) _ _ _ _ _ _ _ H E).
  - (* Zom *) apply bind_inv in E as (? & ? & _ & E). discriminate.
  - (* Pick *) apply bind_inv in E as ([tk y] & s1 & E1 & E2). cbn [fst snd] in E2. destruct y as [y|].
    + injection E2 as -> _. destruct (tokenize_inv _ _ _ _ _ _ E1) as (s2 & E2). apply b_pick. eapply IH; eauto.
    + apply bind_inv in E2 as (? & ? & _ & E2). discriminate.
  - (* Monitor *) rewrite (bind_ok _ _ _ _ _ (mark_ok s)) in E. unfold gets in E. rewrite bind_run in E.
    apply bind_inv in E as (u & s1 & E1 & E2). injection E1 as _ <-. apply bind_inv in E2 as (y & s2 & E2 & E3).
    rewrite (bind_ok _ _ _ _ _ (mark_ok s2)) in E3. apply bind_inv in E3 as (u3 & s3 & E3 & E4). injection E4 as -> _.
    apply b_monitor. eapply IH; [auto| |exact E2]. exact H.
  - (* Rule *) destruct (r_reader (get_rule e i)) as [q|] eqn:G; [|discriminate]. eapply b_rule; eauto. exact (IH q (He i q G) _ _ _ _ _ _ H E).
  - (* Grammar *) destruct (r_reader (get_rule e i)) as [q|] eqn:G; [|discriminate]. apply bind_inv in E as (y & s1 & E1 & E2). destruct y as [y|]; [|discriminate]. injection E2 as <- _.
    eapply b_grammar; eauto. exact (IH q (He i q G) _ _ _ _ _ _ H E1).
Qed.
Lemma reads_blames r t c b s x s' : eall covered e -> rall covered r = true -> stands t c b s -> reads e r s (Some x) s' -> blames (slen t) e (IR r) c b [x].
Proof. intros He Hr H [n R]. exact (read_blames n He r Hr t c b s x s' H R). Qed.

(** There is one error, and the item fails. *)
Lemma blames_fails t i c b xs : blames t e i c b xs -> exists c' b', eats e i c b false c' b'.
Proof.
  induction 1; repeat match goal with X : exists _, _ |- _ => destruct X as (? & ? & X) end; eauto.
  - eexists _, _. exact (e_not e r c b true _ _ H).
  - eexists _, _. now apply e_end_no.
  - eexists _, _. apply e_invalid.
  - eexists _, _. eapply e_rule; eauto.
  - eexists _, _. eapply e_grammar; eauto.
  - eexists _, _. apply e_named; eauto.
  - eexists _, _. apply e_monitor; eauto.
  - eexists _, _. exact (e_map e id r c b false _ _ IHblames).
  - eexists _, _. exact (e_pick e w k r c b false _ _ IHblames).
  - eexists _, _. eapply e_janus_no; eauto.
  - eexists _, _. eapply e_at; eauto.
  - eexists _, _. exact (e_any e rs c b false _ _ IHblames).
  - eexists _, _. exact (e_seq e rs c b false _ _ IHblames).
  - eexists _, _. exact (e_skip e sk rs c b false _ _ IHblames).
  - eexists _, _. apply e_times; eauto.
  - eexists _, _. apply i_any_nil.
  - eexists _, _. eapply i_any_next; [exact H0|eauto].
  - eexists _, _. eapply i_seq_stop; eauto.
  - eexists _, _. eapply i_seq_next; eauto.
  - eexists _, _. eapply i_times_stop; eauto.
  - eexists _, _. eapply i_times_next; eauto.
Qed.
Lemma blames_not t i c b xs c' b' : blames t e i c b xs -> eats e i c b true c' b' -> False.
Proof. intros B D. destruct (blames_fails _ _ _ _ _ B) as (c1 & b1 & F). destruct (eats_det _ _ _ _ _ _ _ F _ _ _ D). discriminate. Qed.
Lemma blames_det t i c b xs : blames t e i c b xs -> forall ys, blames t e i c b ys -> xs = ys.
Proof.
  induction 1; intros ys B; inversion B; subst; try discriminate; auto;
    try (match goal with X : blames _ _ ?i ?c ?b _, Y : eats e ?i ?c ?b true _ _ |- _ => elim (blames_not _ _ _ _ _ _ _ X Y) end);
    repeat match goal with
    | X : eats e ?i ?c ?b _ _ _, Y : eats e ?i ?c ?b _ _ _ |- _ => destruct (eats_det _ _ _ _ _ _ _ X _ _ _ Y) as (? & ? & ?); clear Y; subst; try discriminate
    | X : r_reader ?a = Some _, Y : r_reader ?a = Some _ |- _ => rewrite X in Y; injection Y as <-
    | X : forall ys, blames _ _ ?i ?c ?b ys -> _ = ys, Y : blames _ _ ?i ?c ?b _ |- _ => apply X in Y; try injection Y as <-; subst
    end; auto; try congruence.
Qed.
(** The error of a Read is the one [blames] has. *)
Lemma blames_read r t c b s x y s' : eall covered e -> rall covered r = true -> stands t c b s -> reads e r s y s' -> blames (slen t) e (IR r) c b [x] -> y = Some x.
Proof.
  intros He Hr H R B. destruct y as [y|].
  - apply (reads_blames _ _ _ _ _ _ _ He Hr H) in R. pose proof (blames_det _ _ _ _ _ B _ R). congruence.
  - destruct (reads_eats _ _ _ _ _ _ _ _ He Hr H R) as (c' & b' & _ & D). elim (blames_not _ _ _ _ _ _ _ B D).
Qed.
End Blame.

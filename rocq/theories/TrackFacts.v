(** TrackFacts.v - baskets and logs for whole grammars. *)
From Verif Require Import BasketFacts LogFacts SegFacts GraphFacts Grammar UseFacts ExKit Json Mxt Lua.
From Coq Require Import Lia ZifyBool Sorted.
From Verif Require Import ReaderSteps ReaderScan ReaderTrans BasketFacts.

(** The rules the demo json-stack picks (demo/json-stack/main.go:26-32). *)
Definition stack_ids : list nat := [jKey; jObject; jArray; jString; jNumber; jBool; jNull].
(** Every rule has a Reader. *)
Definition complete (e : env) : Prop := forall i, (i < length e)%nat -> r_reader (get_rule e i) <> None.
(** Nothing is picked or mapped, no user function, only the rules [R] below Body and BodyTail. *)
Definition ruleless (R : nat -> bool) (r : reader) : bool := match r with RRule i | RGrammar _ _ i => R i | RPick _ _ _ | RMap _ _ => false | _ => true end.
Definition pickless (R : nat -> bool) (r : reader) : bool :=
  match r with
  | RWrap _ _ | RPick _ _ _ | RMap _ _ => false
  | RBody d _ | RBodyTail d _ => rall (ruleless R) d
  | _ => true
  end.
(** Every rule restores the position when it fails. *)
Definition restores (e : env) : Prop := forall i r, r_reader (get_rule e i) = Some r -> restoring (fun _ => true) r = true.

Lemma rule_beyond e i : (length e <= i)%nat -> get_rule e i = rule0.
Proof. intros H. apply nth_overflow. auto. Qed.
(** [e'] is [e] with the readers of the rules [sel] changed by [f]. *)
Definition altered (f : rule -> rule) (sel : nat -> bool) (e e' : env) : Prop :=
  length e' = length e /\ forall i, (i < length e)%nat -> get_rule e' i = if sel i then f (get_rule e i) else get_rule e i.
Definition chosen (ids : list nat) (i : nat) : bool := existsb (Nat.eqb i) ids.

Lemma put_length {A} (d : A) l i x : (i < length l)%nat -> length (put d l i x) = length l.
Proof. revert i. induction l as [|y l IH]; intros [|i] H; cbn in *; try lia. rewrite IH; lia. Qed.
Lemma get_rule_put e i j x : get_rule (put rule0 e i x) j = if Nat.eqb i j then x else get_rule e j.
Proof. apply (get_put rule0). Qed.
Lemma alter_each (g : env -> rule -> rule) (f : rule -> rule) e : (forall e' r, length e' = length e -> g e' r = f r) -> forall ids, NoDup ids -> (forall i, In i ids -> (i < length e)%nat) ->
  altered f (chosen ids) e (fold_left (fun e i => put rule0 e i (g e (get_rule e i))) ids e).
Proof.
  intros Hg ids. rewrite <- (rev_involutive ids). induction (rev ids) as [|j l IH]; intros Nd Lt.
  - cbn. split; auto.
  - cbn [rev] in *. rewrite fold_left_app. cbn [fold_left]. destruct IH as [Ln Gt].
    { apply NoDup_remove_1 in Nd. rewrite app_nil_r in Nd. auto. } { intros i I. apply Lt, in_or_app. auto. }
    set (e1 := fold_left _ (rev l) e) in *. assert (Lj : (j < length e)%nat) by (apply Lt, in_or_app; cbn; auto).
    split; [rewrite put_length; lia|]. intros i Hi. rewrite get_rule_put. unfold chosen. rewrite existsb_app. cbn [existsb].
    rewrite orb_false_r. destruct (Nat.eqb j i) eqn:Ej.
    + apply Nat.eqb_eq in Ej as ->. rewrite Nat.eqb_refl, orb_true_r, Hg by auto. rewrite Gt by auto.
      replace (chosen (rev l) i) with false; auto. symmetry. apply not_true_iff_false. unfold chosen. rewrite existsb_exists. intros (y & Y1 & Y2).
      apply Nat.eqb_eq in Y2 as <-. apply NoDup_remove_2 in Nd. rewrite app_nil_r in Nd. contradiction.
    + rewrite (Nat.eqb_sym i j), Ej, orb_false_r. apply Gt. auto.
Qed.
Lemma pick_altered b ids e : NoDup ids -> (forall i, In i ids -> (i < length e)%nat) -> altered (rule_pick e b) (chosen ids) e (pick_rules b ids e).
Proof. intros. apply (alter_each (fun e => rule_pick e b)); auto. intros e' r El. unfold rule_pick, rule_sub, nil_reader. rewrite El. reflexivity. Qed.
Lemma monitor_altered b ids e : NoDup ids -> (forall i, In i ids -> (i < length e)%nat) -> altered (rule_monitor e b) (chosen ids) e (monitor_rules b ids e).
Proof. intros. apply (alter_each (fun e => rule_monitor e b)); auto. intros e' r El. unfold rule_monitor, rule_sub, nil_reader. rewrite El. reflexivity. Qed.
Lemma all_chosen n i : (i < n)%nat -> chosen (seq 0 n) i = true.
Proof. intros H. unfold chosen. apply existsb_exists. exists i. split; [apply in_seq; lia|apply Nat.eqb_refl]. Qed.

(** Readers without what is stripped stay the same. *)
Definition bare (sm sp : bool) (r : reader) : bool :=
  match r with RMonitor _ _ _ => negb sm | RPick _ _ _ | RMap _ _ => negb sp | _ => true end.
Lemma strip_id sm sp : forall r, rall (bare sm sp) r = true -> strip sm sp r = r.
Proof.
  refine (reader_ind' _ _ _ _ _ _ _ _ _ _ _ _ _ _ _ _ _ _ _ _ _ _ _ _ _ _ _ _ _ _ _ _ _ _ _ _ _); intros;
    cbn [strip rall bare] in *; rewrite ?andb_true_iff in *; repeat match goal with X : _ /\ _ |- _ => destruct X end;
    try reflexivity; try (f_equal; auto; fail).
  all: try (assert (X : map (strip sm sp) rs = rs) by
    (match goal with X : Forall _ _, Y : forallb _ _ = true |- _ => revert Y; clear - X; induction X as [|r0 l0 Hr0 Hl0 IHl0]; cbn; [auto|];
       intros Y; apply andb_true_iff in Y as [Y1 Y2]; rewrite (Hr0 Y1), (IHl0 Y2); auto end)).
  all: rewrite ?X; try reflexivity.
  all: try (f_equal; auto; fail).
  all: try (destruct sp; [discriminate|f_equal; auto]).
  all: try (destruct sm; [discriminate|f_equal; auto]).
Qed.

Definition monitorless (r : reader) : bool := match r with RMonitor _ _ _ | RWrap _ _ => false | _ => true end.
Lemma pick_bare R e e' b sel : complete e -> eall (pickless R) e -> altered (rule_pick e b) sel e e' -> strip_env false true e' = e.
Proof.
  intros C P [Ln Gt]. apply nth_ext with (d := rule0) (d' := rule0); [unfold strip_env; rewrite map_length; auto|].
  intros i Hi. unfold strip_env in Hi. rewrite map_length, Ln in Hi.
  change (get_rule (strip_env false true e') i = get_rule e i). rewrite strip_get, Gt by auto.
  specialize (C i Hi). specialize (P i). destruct (get_rule e i) as [nm [r|]]; [|contradiction].
  assert (X : strip false true r = r). { apply strip_id. specialize (P r eq_refl). revert P. apply rall_impl. intros y. destruct y; auto. }
  destruct (sel i); cbn in *; rewrite X; reflexivity.
Qed.
Lemma monitor_bare e e' lg sel : complete e -> eall monitorless e -> altered (rule_monitor e lg) sel e e' -> strip_env true false e' = e.
Proof.
  intros C P [Ln Gt]. apply nth_ext with (d := rule0) (d' := rule0); [unfold strip_env; rewrite map_length; auto|].
  intros i Hi. unfold strip_env in Hi. rewrite map_length, Ln in Hi.
  change (get_rule (strip_env true false e') i = get_rule e i). rewrite strip_get, Gt by auto.
  specialize (C i Hi). specialize (P i). destruct (get_rule e i) as [nm [r|]]; [|contradiction].
  assert (X : strip true false r = r). { apply strip_id. specialize (P r eq_refl). revert P. apply rall_impl. intros y. destruct y; auto. }
  destruct (sel i); cbn in *; rewrite X; reflexivity.
Qed.

(** The readers of the altered grammar. *)
Lemma altered_all (P : reader -> Prop) f (wrap : rule -> reader -> reader) sel e e' :
  (forall r x, r_reader r = Some x -> r_reader (f r) = Some (wrap r x)) ->
  complete e -> altered f sel e e' -> eallP P e ->
  (forall i r, sel i = true -> r_reader (get_rule e i) = Some r -> rallP P (wrap (get_rule e i) r)) -> eallP P e'.
Proof.
  intros Hf C [Ln Gt] A Pk i r E. destruct (Nat.lt_ge_cases i (length e)) as [H|H].
  - rewrite Gt in E by auto. destruct (sel i) eqn:Es; [|eapply A; eauto]. specialize (C i H).
    destruct (r_reader (get_rule e i)) as [x|] eqn:Er; [|contradiction]. rewrite (Hf _ _ Er) in E. injection E as <-. auto.
  - rewrite rule_beyond in E by lia. discriminate.
Qed.
Lemma pick_all (P : reader -> Prop) b sel e e' : complete e -> altered (rule_pick e b) sel e e' -> eallP P e ->
  (forall i r, sel i = true -> r_reader (get_rule e i) = Some r -> P (RPick (r_name (get_rule e i)) b r)) -> eallP P e'.
Proof.
  intros C Al A Pk. apply (altered_all P (rule_pick e b) (fun r x => RPick (r_name r) b x) sel e e'); auto.
  - intros r x E. unfold rule_pick, rule_sub. cbn. rewrite E. reflexivity.
  - intros i r Es E. split; [apply Pk; auto|eapply A; eauto].
Qed.
Lemma monitor_all_readers (P : reader -> Prop) b sel e e' : complete e -> altered (rule_monitor e b) sel e e' -> eallP P e ->
  (forall i r, sel i = true -> r_reader (get_rule e i) = Some r -> P (RMonitor (r_name (get_rule e i)) b r)) -> eallP P e'.
Proof.
  intros C Al A Pk. apply (altered_all P (rule_monitor e b) (fun r x => RMonitor (r_name r) b x) sel e e'); auto.
  - intros r x E. unfold rule_monitor, rule_sub. cbn. rewrite E. reflexivity.
  - intros i r Es E. split; [apply Pk; auto|eapply A; eauto].
Qed.

Lemma rule_reads' {L : GoLib} e i r s x s' : r_reader (get_rule e i) = Some r -> reads e r s x s' -> reads e (RRule i) s x s'.
Proof. intros E [n H]. exists (S n). cbn [read]. rewrite E. exact H. Qed.
Lemma reads_rule {L : GoLib} e i s x s' : reads e (RRule i) s x s' -> exists r, r_reader (get_rule e i) = Some r /\ reads e r s x s'.
Proof. intros [[|n] H]; [discriminate|]. cbn [read] in H. destruct (r_reader (get_rule e i)) as [r|]; [|discriminate]. exists r. split; auto. exists n. auto. Qed.

Section Pick.
Context {L : GoLib} (e e' : env) (b : nat) (sel : nat -> bool) (R : nat -> bool) (C : complete e) (P : eall (pickless R) e) (Q : restores e) (Al : altered (rule_pick e b) sel e e').
(** A Pick of a chosen rule. *)
Definition of_rule (r : reader) : Prop :=
  match r with RPick info b' sub => exists i, sel i = true /\ r_reader (get_rule e i) = Some sub /\ info = r_name (get_rule e i) | _ => True end.

Lemma pickless_ok r : rall (pickless R) r = true -> rallP (pickableP b R of_rule) r.
Proof.
  intros H. apply rallP_rall in H. revert H. apply rallP_impl. intros y H.
  destruct y; cbn in *; try discriminate; repeat split; auto;
    unfold unpicked; (eapply rall_impl; [|exact H]); intros z; destruct z; cbn; auto; discriminate.
Qed.
Lemma pick_allowed : eallP (pickableP b R of_rule) e'.
Proof.
  eapply pick_all; eauto.
  - intros i r E. apply pickless_ok. eapply P; eauto.
  - intros i r Es E. repeat split. exists i. auto.
Qed.
Lemma pickless_fits r : rall (pickless R) r = true -> rallP (picks_fit e') r.
Proof.
  intros H. apply rallP_rall in H. revert H. apply rallP_impl. intros y H. destruct y; cbn in *; auto; discriminate.
Qed.
Lemma pick_fits : eallP (picks_fit e') e'.
Proof.
  assert (A : eallP (picks_restore (fun _ => true)) e').
  { apply (pick_all _ b sel e e' C Al).
    - intros j r' E'. specialize (P j r' E'). apply rallP_rall in P. revert P. apply rallP_impl. intros y H. destruct y; cbn in *; auto; discriminate.
    - intros. cbn. eapply Q; eassumption. }
  intros i r E. eapply (picks_static _ (fun _ => true)); [|exact A|eapply A; eauto].
  intros j r' _ E'. destruct Al as [Ln Gt]. destruct (Nat.lt_ge_cases j (length e)) as [H|H].
  - rewrite Gt in E' by auto. destruct (sel j); [|eapply Q; eauto]. cbn in E'. injection E' as <-. reflexivity.
  - rewrite rule_beyond in E' by lia. discriminate.
Qed.
Lemma pickless_bare r : rall (pickless R) r = true -> strip false true r = r.
Proof. intros H. apply strip_id. revert H. apply rall_impl. intros y. destruct y; auto. Qed.

Lemma pick_same r s x s' : rall (pickless R) r = true -> in_text s -> reads e' r (new_basket b s) x s' ->
  exists t, reads e r s x t /\ full (sc t) = full (sc s') /\ pos (sc t) = pos (sc s').
Proof.
  intros Hr I Rd. pose proof (pick_bare R e e' b sel C P Al) as Eb.
  assert (Sp : same_place (new_basket b s) s) by (repeat split).
  destruct (pick_transparent e' r (new_basket b s) s I Sp (pickless_fits r Hr) pick_fits) as (A & _).
  destruct (A x s' Rd) as (t & Rt & (S1 & S2 & _)). rewrite Eb, pickless_bare in Rt by auto. exists t. auto.
Qed.
Lemma pick_hangs r s : rall (pickless R) r = true -> in_text s -> (hangs e' r (new_basket b s) <-> hangs e r s) /\ (panics e' r (new_basket b s) <-> panics e r s).
Proof.
  intros Hr I. pose proof (pick_bare R e e' b sel C P Al) as Eb.
  assert (Sp : same_place (new_basket b s) s) by (repeat split).
  destruct (pick_transparent e' r (new_basket b s) s I Sp (pickless_fits r Hr) pick_fits) as (_ & _ & A & B). rewrite Eb, pickless_bare in A, B by auto. auto.
Qed.
Lemma pick_back r s x t : rall (pickless R) r = true -> in_text s -> reads e r s x t -> exists s', reads e' r (new_basket b s) x s'.
Proof.
  intros Hr I Rd. pose proof (pick_bare R e e' b sel C P Al) as Eb.
  assert (Sp : same_place (new_basket b s) s) by (repeat split).
  destruct (pick_transparent e' r (new_basket b s) s I Sp (pickless_fits r Hr) pick_fits) as (_ & A & _). rewrite Eb, pickless_bare in A by auto.
  destruct (A x t Rd) as (s' & Rs & _). eauto.
Qed.
Lemma pick_last i s s' : sel i = true -> in_text s -> reads e' (RRule i) (new_basket b s) None s' ->
  exists l, get_basket b (hp s') = l ++ [mkSeg (r_name (get_rule e i)) (mkTok (pos (sc s)) (pos (sc s')))].
Proof.
  intros Es I Rd. apply reads_rule in Rd as (r & E & Rd). destruct Al as [Ln Gt]. destruct (Nat.lt_ge_cases i (length e)) as [H|H].
  2:{ rewrite rule_beyond in E by lia. discriminate. }
  rewrite Gt in E by auto. rewrite Es in E. cbn in E. injection E as <-. apply pick_adds in Rd as (s1 & R1 & ->). cbn [with_heap hp sc].
  unfold basket_add. rewrite get_put_basket. exists (get_basket b (hp s1)). f_equal. f_equal. f_equal. unfold make_token.
  assert (W : eall no_wrap e') by (eapply envP_wrap; apply pick_allowed).
  destruct R1 as [n R1].
  assert (Wr : rall no_wrap (rule_sub e (get_rule e i)) = true).
  { unfold rule_sub. destruct (r_reader (get_rule e i)) as [r|] eqn:Er; [|reflexivity]. specialize (P i r Er). revert P. apply rall_impl. intros y. destruct y; auto. }
  destruct (read_okfw _ W n _ Wr (new_basket b s) None s1 I R1) as (_ & _ & _ & M). cbn in M.
  cbn [new_basket sc pos]. replace (pos (sc s1) <? pos (sc s)) with false by lia. reflexivity.
Qed.
Context (Ru : forall i, R i = true -> sel i = false) (Rb : forall i r, R i = true -> r_reader (get_rule e i) = Some r -> rall (ruleless R) r = true).
Lemma pick_unpicked : unpicked_rules b R e'.
Proof.
  intros i r H E. destruct Al as [Ln Gt]. destruct (Nat.lt_ge_cases i (length e)) as [K|K].
  2:{ rewrite rule_beyond in E by lia. discriminate. }
  rewrite Gt, (Ru i H) in E by auto. specialize (Rb i r H E). unfold unpicked. revert Rb. apply rall_impl. intros y. destruct y; cbn; auto; discriminate.
Qed.
Lemma pick_new r s x s' : rall (pickless R) r = true -> in_text s -> reads e' r (new_basket b s) x s' ->
  StronglySorted older (get_basket b (hp s')) /\ Forall (fits (pos (sc s)) (pos (sc s)) (pos (sc s'))) (get_basket b (hp s')) /\
  Forall (came e' b of_rule (full (sc s))) (get_basket b (hp s')).
Proof.
  intros Hr I Rd.
  destruct (pickedP e' b R of_rule) with (r := r) (s := new_basket b s) (x := x) (s' := s') as (new & E & So & Fi & Ca); auto.
  { exact pick_unpicked. } { apply pick_allowed. } { apply pickless_ok. auto. }
  { intros h. cbn [new_basket hp]. rewrite get_put_basket. intros []. }
  cbn [new_basket hp sc full pos] in E. rewrite get_put_basket in E. cbn in E. rewrite E. auto.
Qed.
Lemma pick_from_rule r s x s' g : rall (pickless R) r = true -> in_text s -> reads e' r (new_basket b s) x s' -> In g (get_basket b (hp s')) ->
  exists j s1 s2, sel j = true /\ s_info g = r_name (get_rule e j) /\ reads e (RRule j) s1 None s2 /\ in_text s1 /\
     full (sc s1) = full (sc s) /\ s_tok g = mkTok (pos (sc s1)) (pos (sc s2)).
Proof.
  intros Hr I Rd G. destruct (pick_new r s x s' Hr I Rd) as (_ & _ & Ca). rewrite Forall_forall in Ca. pose proof (pick_bare R e e' b sel C P Al) as Eb.
  destruct (Ca g G) as (info & sub & s1 & s2 & (j & Sj & Ej & ->) & Rs & I1 & F1 & F2 & ->).
  assert (Hs : rall (pickless R) sub = true) by (eapply P; eauto).
  destruct (pick_transparent e' sub s1 s1 I1 ltac:(repeat split) (pickless_fits sub Hs) pick_fits) as (A & _).
  destruct (A _ _ Rs) as (t & Rt & (S1 & S2 & _)). rewrite Eb, pickless_bare in Rt by auto.
  exists j, s1, t. split; [auto|]. split; [reflexivity|]. split; [eapply rule_reads'; eauto|]. split; [auto|]. split; [exact F1|]. cbn. rewrite S2. reflexivity.
Qed.
End Pick.

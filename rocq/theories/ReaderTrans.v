(** ReaderTrans.v - Monitor, Pick and Map are transparent (C49, C50); a read depends
    on text and position only (C64). *)
From Verif Require Export ReaderSim.
From Coq Require Import Lia ZifyBool.

(* -------------------------------------------------------------- stripping *)

(** Leave out Monitor ([sm]) or Pick and Map ([sp]). *)
Fixpoint strip (sm sp : bool) (r : reader) : reader :=
  match r with
  | RAny rs => RAny (map (strip sm sp) rs)
  | RSeq rs => RSeq (map (strip sm sp) rs)
  | RSkipSeq a rs => RSkipSeq (strip sm sp a) (map (strip sm sp) rs)
  | RAt a => RAt (strip sm sp a)
  | RBody a b => RBody (strip sm sp a) (strip sm sp b)
  | RBodyTail a b => RBodyTail (strip sm sp a) (strip sm sp b)
  | RJanusBeg c x a => RJanusBeg c x (strip sm sp a)
  | RMany a => RMany (strip sm sp a)
  | RNamed x a => RNamed x (strip sm sp a)
  | RNot a => RNot (strip sm sp a)
  | ROpt a => ROpt (strip sm sp a)
  | RPast a => RPast (strip sm sp a)
  | RTimes k a => RTimes k (strip sm sp a)
  | RTo a => RTo (strip sm sp a)
  | RZom a => RZom (strip sm sp a)
  | RRuleName a => RRuleName (strip sm sp a)
  | RMonitor x i a => if sm then strip sm sp a else RMonitor x i (strip sm sp a)
  | RPick x i a => if sp then strip sm sp a else RPick x i (strip sm sp a)
  | RMap i a => if sp then strip sm sp a else RMap i (strip sm sp a)
  | _ => r
  end.
Definition strip_env (sm sp : bool) (e : env) : env :=
  map (fun ru => mkRule (r_name ru) (option_map (strip sm sp) (r_reader ru))) e.

Lemma strip_get sm sp e i : get_rule (strip_env sm sp e) i =
  mkRule (r_name (get_rule e i)) (option_map (strip sm sp) (r_reader (get_rule e i))).
Proof. unfold get_rule, strip_env. change rule0 with ((fun ru => mkRule (r_name ru) (option_map (strip sm sp) (r_reader ru))) rule0) at 1. apply map_nth. Qed.


(** What the readers have to be like. *)
Definition fit {L : GoLib} (kc kb sm sp : bool) (e : env) (r : reader) : Prop :=
  match r with
  | RJanusEnd _ _ => kc = true
  | RWrap _ f => wrap_inside f
  | RPick _ _ a | RMap _ a => sp = true -> kb = false /\ nonconsuming (strip_env sm sp e) (strip sm sp a)
  | _ => True
  end.

Lemma rel_strip {L : GoLib} kc kb sm sp e : forall r, rallP (fit kc kb sm sp e) r ->
  rel kc kb (strip_env sm sp e) e (strip sm sp r) r /\ rel kc kb e (strip_env sm sp e) r (strip sm sp r).
Proof.
  set (e' := strip_env sm sp e).
  refine (reader_ind' _ _ _ _ _ _ _ _ _ _ _ _ _ _ _ _ _ _ _ _ _ _ _ _ _ _ _ _ _ _ _ _ _ _ _ _ _); intros;
    cbn [rallP strip fit] in *;
    repeat match goal with X : _ /\ _ |- _ => destruct X end;
    repeat match goal with X : ?A -> _, Y : ?A |- _ => specialize (X Y) end;
    repeat match goal with X : _ /\ _ |- _ => destruct X end;
    try (split; constructor; auto; fail).
  all: try (assert (X : rels kc kb e' e (map (strip sm sp) rs) rs /\ rels kc kb e e' rs (map (strip sm sp) rs))
    by (match goal with X : Forall _ _, Y : fold_right _ _ _ |- _ => revert Y; clear - X; induction X as [|r0 l0 Hr0 Hl0 IHl0]; cbn; [split; constructor|];
        intros [Y1 Y2]; destruct (Hr0 Y1), (IHl0 Y2); split; constructor; auto end);
    destruct X; split; constructor; auto; fail).
  - (* Map *) subst e'. destruct sp.
    + destruct H0 as [K N]; auto. split; [apply rel_map_r|apply rel_map_l]; auto.
    + split; constructor; auto.
  - (* Pick *) subst e'. destruct sp.
    + destruct H0 as [K N]; auto. split; [apply rel_pick_r|apply rel_pick_l]; auto.
    + split; constructor; auto.
  - (* Monitor *) subst e'. destruct sm.
    + split; constructor; auto.
    + split; apply rel_mon_r, rel_mon_l; auto.
Qed.
Lemma erel_strip {L : GoLib} kc kb sm sp e : eallP (fit kc kb sm sp e) e ->
  erel kc kb (strip_env sm sp e) e /\ erel kc kb e (strip_env sm sp e).
Proof.
  intros H. split; intros i; rewrite strip_get; cbn [r_name r_reader]; (split; [reflexivity|]);
    destruct (r_reader (get_rule e i)) as [r|] eqn:E; cbn; auto; apply rel_strip; eapply H; eauto.
Qed.

(* ---------------------------------------------------------------- results *)

(** Read returns: the call ends with error value [x] in state [s']. *)
Definition reads {L : GoLib} (e : env) (r : reader) (s : st) (x : option err) (s' : st) : Prop :=
  exists n, read n e r s = Ok (x, s').
Definition panics {L : GoLib} (e : env) (r : reader) (s : st) : Prop := exists n, read n e r s = Panic.
(** Read does not return, however long one waits. *)
Definition hangs {L : GoLib} (e : env) (r : reader) (s : st) : Prop := forall n, read n e r s = Fuel.

Lemma reads_fun {L : GoLib} e r s x1 s1 x2 s2 : reads e r s x1 s1 -> reads e r s x2 s2 -> x1 = x2 /\ s1 = s2.
Proof.
  intros [n1 H1] [n2 H2]. assert (X : Ok (x1, s1) = Ok (x2, s2)) by (eapply read_agree; eauto; discriminate).
  injection X as -> ->. auto.
Qed.
Lemma reads_panics {L : GoLib} e r s x s' : reads e r s x s' -> panics e r s -> False.
Proof.
  intros [n1 H1] [n2 H2]. assert (X : Ok (x, s') = Panic) by (eapply read_agree; eauto; discriminate). discriminate.
Qed.

Section Run.
Context {L : GoLib} (kc kb : bool) (e1 e2 : env) (E : erel kc kb e1 e2).
Lemma rel_reads r1 r2 s1 s2 x s1' : rel kc kb e1 e2 r1 r2 -> srel kc kb (full (sc s1)) s1 s2 -> reads e1 r1 s1 x s1' ->
  exists s2', reads e2 r2 s2 x s2' /\ srel kc kb (full (sc s1)) s1' s2'.
Proof.
  intros H R [n Hn]. destruct (sim_read kc kb e1 e2 E n r1 r2 H) as [N HN].
  specialize (HN N (Nat.le_refl _) _ _ _ R). rewrite Hn in HN. destruct HN as (s2' & X & Y). exists s2'. split; auto. exists N; auto.
Qed.
Lemma rel_panics r1 r2 s1 s2 : rel kc kb e1 e2 r1 r2 -> srel kc kb (full (sc s1)) s1 s2 -> panics e1 r1 s1 -> panics e2 r2 s2.
Proof.
  intros H R [n Hn]. destruct (sim_read kc kb e1 e2 E n r1 r2 H) as [N HN].
  specialize (HN N (Nat.le_refl _) _ _ _ R). rewrite Hn in HN. exists N; auto.
Qed.
End Run.

Section Identity.
Context {L : GoLib} (kc kb : bool) (e : env).
Definition fit0 (r : reader) : Prop :=
  match r with
  | RJanusEnd _ _ => kc = true
  | RWrap _ f => wrap_inside f
  | _ => True
  end.
Lemma strip_none : forall r, strip false false r = r.
Proof.
  refine (reader_ind' _ _ _ _ _ _ _ _ _ _ _ _ _ _ _ _ _ _ _ _ _ _ _ _ _ _ _ _ _ _ _ _ _ _ _ _ _); intros; cbn [strip]; try congruence.
  all: f_equal; auto.
  all: match goal with X : Forall _ _ |- _ => induction X; cbn; congruence end.
Qed.
Lemma rel_id r : rallP fit0 r -> rel kc kb e e r r.
Proof.
  intros H. destruct (rel_strip kc kb false false e r) as [X _].
  - eapply rallP_impl; [|exact H]. intros x. unfold fit0, fit. destruct x; auto; discriminate.
  - assert (Y : strip_env false false e = e).
    { unfold strip_env. rewrite <- (map_id e) at 2. apply map_ext. intros [n o]. cbn. f_equal. destruct o; cbn; [rewrite strip_none|]; auto. }
    rewrite Y, strip_none in X. auto.
Qed.
Lemma erel_id : eallP fit0 e -> erel kc kb e e.
Proof. intros H i. split; [auto|]. destruct (r_reader (get_rule e i)) eqn:E; auto. apply rel_id. eapply H; eauto. Qed.
End Identity.

(** Wrap functions inside [r] move inside the text. *)
Definition wraps_inside (r : reader) : Prop := match r with RWrap _ f => wrap_inside f | _ => True end.
Definition same_but_logs (s1 s2 : st) : Prop :=
  sc s1 = sc s2 /\ h_cells (hp s1) = h_cells (hp s2) /\ h_baskets (hp s1) = h_baskets (hp s2) /\
  h_events (hp s1) = h_events (hp s2) /\ h_vals (hp s1) = h_vals (hp s2).

Lemma reads_or_hangs {L : GoLib} e r s : hangs e r s <-> (forall x s', ~ reads e r s x s') /\ ~ panics e r s.
Proof.
  unfold hangs, reads, panics. split.
  - intros H. split; [intros x s' [n N]|intros [n N]]; rewrite H in N; discriminate.
  - intros [H1 H2] n. destruct (read n e r s) as [[x s']| |] eqn:E; auto.
    + exfalso. apply (H1 x s'). eauto.
    + exfalso. apply H2. eauto.
Qed.

Lemma srel_same s1 s2 : srel true true (full (sc s1)) s1 s2 -> same_but_logs s1 s2.
Proof.
  intros (A & B & C & D & E & F & G). destruct (G eq_refl) as (G1 & G2 & G3). repeat split; auto.
  destruct s1 as [[? ? ?] ?], s2 as [[? ? ?] ?]; cbn in *. rewrite E by auto. congruence.
Qed.

Lemma monitor_transparent {L : GoLib} e r s : in_text s -> rallP wraps_inside r -> eallP wraps_inside e ->
  (forall x s1, reads e r s x s1 -> exists s2, reads (strip_env true false e) (strip true false r) s x s2 /\ same_but_logs s1 s2) /\
  (forall x s2, reads (strip_env true false e) (strip true false r) s x s2 -> exists s1, reads e r s x s1 /\ same_but_logs s1 s2) /\
  (panics e r s <-> panics (strip_env true false e) (strip true false r) s) /\
  (hangs e r s <-> hangs (strip_env true false e) (strip true false r) s).
Proof.
  intros I Hr He.
  assert (F : forall r, rallP wraps_inside r -> rallP (fit true true true false e) r).
  { apply rallP_impl. intros x. unfold wraps_inside, fit. destruct x; auto; discriminate. }
  destruct (rel_strip true true true false e r (F r Hr)) as [R1 R2].
  destruct (erel_strip true true true false e (fun i r' X => F r' (He i r' X))) as [E1 E2].
  assert (R0 : srel true true (full (sc s)) s s).
  { split; auto. split; auto. split; auto. split; auto. split; auto. split; auto. }
  assert (A : forall x s1, reads e r s x s1 -> exists s2, reads (strip_env true false e) (strip true false r) s x s2 /\ same_but_logs s1 s2).
  { intros x s1 H. destruct (rel_reads _ _ _ _ E2 _ _ _ _ _ _ R2 R0 H) as (s2 & X & Y). exists s2. split; auto.
    apply srel_same. pose proof Y as (Y1 & _). rewrite Y1. auto. }
  assert (B : forall x s2, reads (strip_env true false e) (strip true false r) s x s2 -> exists s1, reads e r s x s1 /\ same_but_logs s1 s2).
  { intros x s1 H. destruct (rel_reads _ _ _ _ E1 _ _ _ _ _ _ R1 R0 H) as (s2 & X & Y). exists s2. split; auto.
    assert (Z : same_but_logs s1 s2) by (apply srel_same; pose proof Y as (Y1 & _); rewrite Y1; auto).
    destruct Z as (? & ? & ? & ? & ?). repeat split; auto. }
  assert (C : panics e r s <-> panics (strip_env true false e) (strip true false r) s).
  { split; intros H; [exact (rel_panics _ _ _ _ E2 _ _ _ _ R2 R0 H)|exact (rel_panics _ _ _ _ E1 _ _ _ _ R1 R0 H)]. }
  split; auto. split; auto. split; auto. rewrite !reads_or_hangs. split; intros [H1 H2]; split; try tauto.
  - intros x s' X. destruct (B _ _ X) as (s1 & Y & _). eapply H1; eauto.
  - intros x s' X. destruct (A _ _ X) as (s1 & Y & _). eapply H1; eauto.
Qed.

(** Same text and position; the tracker and what readers have stored may differ,
    except the strings of Janus pairs. *)
Definition same_place (s1 s2 : st) : Prop :=
  full (sc s1) = full (sc s2) /\ pos (sc s1) = pos (sc s2) /\ h_cells (hp s1) = h_cells (hp s2).

Section Pick.
Context {L : GoLib} (e : env).
Let e' := strip_env false true e.
(** Every reader inside Pick or Map, itself without Pick and Map, does not move when it fails. *)
Definition picks_fit (r : reader) : Prop :=
  match r with
  | RWrap _ f => wrap_inside f
  | RPick _ _ a | RMap _ a => nonconsuming e' (strip false true a)
  | _ => True
  end.
Lemma pick_transparent r s t : in_text s -> same_place s t -> rallP picks_fit r -> eallP picks_fit e ->
  (forall x s1, reads e r s x s1 -> exists s2, reads e' (strip false true r) t x s2 /\ same_place s1 s2) /\
  (forall x s2, reads e' (strip false true r) t x s2 -> exists s1, reads e r s x s1 /\ same_place s1 s2) /\
  (panics e r s <-> panics e' (strip false true r) t) /\
  (hangs e r s <-> hangs e' (strip false true r) t).
Proof.
  intros I (P1 & P2 & P3) Hr He.
  assert (F : forall r, rallP picks_fit r -> rallP (fit true false false true e) r).
  { apply rallP_impl. intros x. unfold picks_fit, fit. destruct x; auto. }
  destruct (rel_strip true false false true e r (F r Hr)) as [R1 R2].
  destruct (erel_strip true false false true e (fun i r' X => F r' (He i r' X))) as [E1 E2].
  assert (R0 : srel true false (full (sc s)) s t).
  { split; auto. split; auto. split; auto. split; auto. split; [discriminate|]. split; [auto|discriminate]. }
  assert (R0' : srel true false (full (sc t)) t s).
  { split; auto. split; auto. split; auto. split. { destruct I. split; rewrite <- P1, <- ?P2; auto. } split; [discriminate|]. split; [auto|discriminate]. }
  assert (A : forall x s1, reads e r s x s1 -> exists s2, reads e' (strip false true r) t x s2 /\ same_place s1 s2).
  { intros x s1 H. destruct (rel_reads _ _ _ _ E2 _ _ _ _ _ _ R2 R0 H) as (s2 & X & (Y1 & Y2 & Y3 & Y4 & Y5 & Y6 & Y7)). exists s2. split; auto.
    split; [congruence|]. split; auto. }
  assert (B : forall x s2, reads e' (strip false true r) t x s2 -> exists s1, reads e r s x s1 /\ same_place s1 s2).
  { intros x s1 H. destruct (rel_reads _ _ _ _ E1 _ _ _ _ _ _ R1 R0' H) as (s2 & X & (Y1 & Y2 & Y3 & Y4 & Y5 & Y6 & Y7)). exists s2. split; auto.
    split; [congruence|]. split; auto. symmetry. auto. }
  assert (C : panics e r s <-> panics e' (strip false true r) t).
  { split; intros H; [exact (rel_panics _ _ _ _ E2 _ _ _ _ R2 R0 H)|exact (rel_panics _ _ _ _ E1 _ _ _ _ R1 R0' H)]. }
  split; auto. split; auto. split; auto. rewrite !reads_or_hangs. split; intros [H1 H2]; split; try tauto.
  - intros x s' X. destruct (B _ _ X) as (s1 & Y & _). eapply H1; eauto.
  - intros x s' X. destruct (A _ _ X) as (s1 & Y & _). eapply H1; eauto.
Qed.
End Pick.

(** Reads of graphs without a Janus end depend on text and position only. *)
Definition no_janus_end (r : reader) : Prop := match r with RJanusEnd _ _ => False | RWrap _ f => wrap_inside f | _ => True end.
Lemma read_local {L : GoLib} e r s t : in_text s -> full (sc s) = full (sc t) -> pos (sc s) = pos (sc t) ->
  rallP no_janus_end r -> eallP no_janus_end e ->
  forall x s', reads e r s x s' -> exists t', reads e r t x t' /\ full (sc s') = full (sc t') /\ pos (sc s') = pos (sc t').
Proof.
  intros I P1 P2 Hr He x s' H.
  assert (F : forall r, rallP no_janus_end r -> rallP (fit0 false) r).
  { apply rallP_impl. intros y. unfold no_janus_end, fit0. destruct y; tauto. }
  assert (E : erel false false e e) by (apply erel_id; intros i r' X; apply F, (He i r' X)).
  assert (R0 : srel false false (full (sc s)) s t).
  { split; auto. split; auto. split; auto. split; auto. split; [discriminate|]. split; discriminate. }
  destruct (rel_reads _ _ _ _ E _ _ _ _ _ _ (rel_id false false e r (F r Hr)) R0 H) as (s2 & X & (Y1 & Y2 & Y3 & _)).
  exists s2. split; auto. split; congruence.
Qed.

(* --------------------------------------- static conditions for picking *)

(** Everything picked or mapped is restoring, there is no Wrap. *)
Definition picks_restore (R : nat -> bool) (r : reader) : Prop :=
  match r with
  | RWrap _ _ => False
  | RPick _ _ a | RMap _ a => restoring R a = true
  | _ => True
  end.
Lemma restoring_strip R sm sp : forall r, restoring R r = true -> rallP (picks_restore R) r -> restoring R (strip sm sp r) = true.
Proof.
  refine (reader_ind' _ _ _ _ _ _ _ _ _ _ _ _ _ _ _ _ _ _ _ _ _ _ _ _ _ _ _ _ _ _ _ _ _ _ _ _ _); intros;
    cbn [restoring strip rallP picks_restore] in *; auto;
    repeat match goal with X : _ /\ _ |- _ => destruct X end; auto.
  - destruct sp; auto.
  - match goal with X : (_ || _)%bool = true |- _ => apply orb_true_iff in X as [X|X]; apply orb_true_iff; [auto|] end.
    right. apply andb_true_iff in H0 as [H0 H3]. rewrite H0. cbn. auto.
  - destruct sp; auto.
  - destruct sm; auto.
Qed.
Lemma no_wrap_strip R sm sp : forall r, rallP (picks_restore R) r -> rall no_wrap (strip sm sp r) = true.
Proof.
  refine (reader_ind' _ _ _ _ _ _ _ _ _ _ _ _ _ _ _ _ _ _ _ _ _ _ _ _ _ _ _ _ _ _ _ _ _ _ _ _ _); intros;
    cbn [strip rallP picks_restore] in *;
    repeat match goal with X : _ /\ _ |- _ => destruct X end; try tauto;
    repeat match goal with X : ?A -> _, Y : ?A |- _ => specialize (X Y) end;
    try (cbn [rall no_wrap]; auto; fail).
  all: try (assert (X : forallb (rall no_wrap) (map (strip sm sp) rs) = true)
    by (match goal with X : Forall _ _, Y : fold_right _ _ _ |- _ => revert Y; clear - X; induction X as [|r0 l0 Hr0 Hl0 IHl0]; cbn; [auto|];
        intros [Y1 Y2]; rewrite (Hr0 Y1), (IHl0 Y2); auto end)).
  all: cbn [rall no_wrap]; rewrite ?X; repeat match goal with X : rall _ _ = true |- _ => rewrite X end; auto.
  - destruct sp; cbn [rall no_wrap]; auto.
  - destruct sp; cbn [rall no_wrap]; auto.
  - destruct sm; cbn [rall no_wrap]; auto.
Qed.
Lemma picks_static {L : GoLib} e R : restoring_rules e R -> eallP (picks_restore R) e ->
  forall r, rallP (picks_restore R) r -> rallP (picks_fit e) r.
Proof.
  intros HR He.
  assert (X : forall a, restoring R a = true -> rallP (picks_restore R) a -> nonconsuming (strip_env false true e) (strip false true a)).
  { intros a A1 A2 n s x s' I E.
    assert (W : eall no_wrap (strip_env false true e)).
    { intros i r. rewrite strip_get. cbn. destruct (r_reader (get_rule e i)) eqn:Er; cbn; [|discriminate]. intros Z. injection Z as <-.
      eapply no_wrap_strip. eapply He; eauto. }
    refine (read_restores (strip_env false true e) W R _ n _ (no_wrap_strip R _ _ _ A2) (restoring_strip R _ _ _ A1 A2) s x s' I E).
    intros i r Hi. rewrite strip_get. cbn. destruct (r_reader (get_rule e i)) eqn:Er; cbn; [|discriminate]. intros Z. injection Z as <-.
    apply restoring_strip; [eapply HR; eauto|eapply He; eauto]. }
  refine (reader_ind' _ _ _ _ _ _ _ _ _ _ _ _ _ _ _ _ _ _ _ _ _ _ _ _ _ _ _ _ _ _ _ _ _ _ _ _ _); intros;
    cbn [rallP picks_restore picks_fit] in *;
    repeat match goal with X : _ /\ _ |- _ => destruct X end; try tauto;
    repeat match goal with |- _ /\ _ => split end; auto.
  all: match goal with X : Forall _ _, Y : fold_right _ _ _ |- _ => revert Y; clear - X; induction X; cbn; [auto|]; intros [Y1 Y2]; split; auto end.
Qed.

(** DepthBound.v - bounds on how deeply Reads nest, that can be computed for a grammar. *)
From Verif Require Export DepthFacts.
From Coq Require Import Lia ZifyBool.
From Verif Require Import Grammar PegTotal.

Local Open Scope nat_scope.
(** The bytes that count. *)
Definition tally (op : byte -> bool) (b : bytes) : nat := length (filter op b).
Lemma tally_app op a b : tally op (a ++ b) = tally op a + tally op b.
Proof. unfold tally. rewrite filter_app, app_length. reflexivity. Qed.

Section Bound.
Context (e : env) (w0 : reader -> nat).
Context (op : byte -> bool) (all : bool) (lf : reader -> bool) (N : nat -> bool).
Notation mu := (tally op).
(** All bytes count if [all]; a reader of one rune that is not [lf] consumes a byte that counts. *)
Context (Al : all = true -> forall x, op x = true)
        (Lf : forall r f b, rune_test r = Some f -> lf r = false -> test f b = true -> mu (after_rune b) < mu b).
(** [dry r]: [r] may succeed without consuming a byte that counts; [N] tells this of the rules. *)
Fixpoint dry (r : reader) : bool :=
  match r with
  | RAny rs => existsb dry rs
  | RSeq rs => forallb dry rs
  | RSkipSeq a rs => dry a && forallb dry rs
  | RJanusBeg _ _ a | RMap _ a | RNamed _ a | RPast a | RPick _ _ a | RMonitor _ _ a | RRuleName a => dry a
  | RBodyTail _ a => dry a
  | RTimes k a => (k <=? 0)%Z || dry a
  | RRule i | RGrammar _ _ i => N i
  | RLit x => negb (existsb op x)
  | RInvalid _ => false
  | RMany _ => negb all
  | _ => match rune_test r with Some f => lf r | None => true end
  end.
Context (Nd : forall i r, r_reader (get_rule e i) = Some r -> dry r = true -> N i = true).
Definition dry_item (i : item) : bool :=
  match i with
  | IR r => dry r | IAny rs => existsb dry rs | ISeq rs => forallb dry rs | IRep _ => true
  | ITimes k r => Nat.eqb k 0 || dry r | IPast r => dry r | ITo _ => true | IBody _ k _ t => k || dry t
  end.
Lemma eats_tally i c b ok c' b' : eats e i c b ok c' b' -> mu b' <= mu b.
Proof. intros H. destruct (eats_suffix _ _ _ _ _ _ _ H) as [d ->]. rewrite tally_app. lia. Qed.
Lemma step_tally b : mu (snd (step b)) <= mu b.
Proof. destruct (step_suffix b) as [d E]. rewrite E at 2. rewrite tally_app. lia. Qed.
Lemma all_tally b : all = true -> mu b = length b.
Proof. intros A. unfold tally. induction b as [|x b IH]; [reflexivity|]. cbn. rewrite (Al A). cbn. auto. Qed.
Lemma tally_some x b : existsb op x = true -> mu b < mu (x ++ b).
Proof.
  intros H. rewrite tally_app. assert (0 < mu x); [|lia]. apply existsb_exists in H as (y & I & O). unfold tally.
  destruct (filter op x) eqn:E; [|cbn; lia]. assert (In y []) as [] by (rewrite <- E; apply filter_In; auto).
Qed.
(** What is not dry consumes a byte that counts. *)
Lemma eats_dry i c b ok c' b' : eats e i c b ok c' b' -> ok = true -> dry_item i = false -> mu b' < mu b.
Proof.
  induction 1; intros Ok0 Ep; cbn [dry_item dry rune_test existsb forallb] in *; try discriminate.
  - (* test *) assert (Ep' : lf r = false) by (destruct r; try discriminate; exact Ep). rewrite Ok0. eapply Lf; eauto.
  - apply tally_some. destruct (existsb op x); [auto|discriminate].
  - apply IHeats; auto. cbn [dry_item]. destruct (dry r) eqn:Q; auto. rewrite (Nd i r H Q) in Ep. discriminate.
  - apply IHeats; auto. cbn [dry_item]. destruct (dry r) eqn:Q; auto. rewrite (Nd i r H Q) in Ep. discriminate.
  - auto.
  - auto.
  - auto.
  - rewrite Ok0. auto.
  - rewrite Ok0. auto.
  - rewrite Ok0. auto.
  - rewrite Ok0. auto.
  - rewrite Ok0. apply IHeats; auto. cbn [dry_item]. rewrite interleave_flat. cbn [forallb]. destruct (dry sk) eqn:Q; auto. cbn [andb] in *.
    clear -Ep. induction rs as [|x rs IH]; cbn [flat_map app forallb] in *; [discriminate|]. destruct (dry x); auto. cbn [andb] in *. rewrite IH by auto. apply andb_false_r.
  - assert (A : all = true) by (destruct all; [auto|discriminate]). rewrite !all_tally by auto. apply Nat.ltb_lt. auto.
  - apply IHeats; auto. cbn [dry_item]. destruct (dry r); [rewrite orb_true_r in Ep; discriminate|]. rewrite orb_false_r in *. apply Nat.eqb_neq. apply Z.leb_gt in Ep. lia.
  - rewrite Ok0. auto.
  - rewrite Ok0. apply IHeats; auto.
  - auto.
  - rewrite orb_false_iff in Ep. apply IHeats; tauto.
  - rewrite orb_false_iff in Ep. pose proof (eats_tally _ _ _ _ _ _ H). specialize (IHeats2 Ok0 (proj2 Ep)). lia.
  - pose proof (eats_tally _ _ _ _ _ _ H). pose proof (eats_tally _ _ _ _ _ _ H0). destruct (dry r) eqn:Q; [specialize (IHeats2 Ok0 Ep)|specialize (IHeats1 eq_refl eq_refl)]; lia.
  - pose proof (eats_tally _ _ _ _ _ _ H). pose proof (eats_tally _ _ _ _ _ _ H0). specialize (IHeats1 eq_refl Ep). lia.
  - auto.
  - pose proof (eats_tally _ _ _ _ _ _ H0). pose proof (step_tally b1). specialize (IHeats2 Ok0 Ep). lia.
  - destruct k; [discriminate|]. cbn [andb]. auto.
  - pose proof (eats_tally _ _ _ _ _ _ H0). pose proof (step_tally b1). specialize (IHeats2 Ok0 Ep). lia.
Qed.

(** Each byte that counts pays for [K]; the Read of a rule takes [phi] besides. *)
Context (K : nat) (phi : nat -> nat).
Definition pay (x : reader) (v : nat) : nat := if dry x then v else v - K.
Fixpoint pot (r : reader) : nat :=
  let seqs := fix seqs (rs : list reader) : nat := match rs with [] => 0 | x :: t => Nat.max (pot x) (pay x (seqs t)) end in
  w0 r + match r with
  | RAny rs => fold_right (fun x m => Nat.max (pot x) m) 0 rs
  | RSeq rs => seqs rs
  | RSkipSeq a rs => Nat.max (pot a) (pay a ((fix skips (rs : list reader) : nat :=
      match rs with [] => 0 | x :: t => Nat.max (pot x) (pay x (Nat.max (pot a) (pay a (skips t)))) end) rs))
  | RBody d t | RBodyTail d t => Nat.max (pot d) (pot t)
  | RAt a | RJanusBeg _ _ a | RMany a | RMap _ a | RNamed _ a | RNot a | ROpt a | RPast a
  | RTimes _ a | RTo a | RZom a | RPick _ _ a | RMonitor _ _ a | RRuleName a => pot a
  | RRule i | RGrammar _ _ i => phi i
  | _ => 0
  end.
Fixpoint pot_seq (rs : list reader) : nat := match rs with [] => 0 | x :: t => Nat.max (pot x) (pay x (pot_seq t)) end.
Definition pot_item (i : item) : nat :=
  match i with
  | IR r | IRep r | ITimes _ r | IPast r | ITo r => pot r
  | IAny rs => fold_right (fun x m => Nat.max (pot x) m) 0 rs
  | ISeq rs => pot_seq rs
  | IBody _ _ d t => Nat.max (pot d) (pot t)
  end.
Lemma pot_seq_is rs : pot (RSeq rs) = w0 (RSeq rs) + pot_seq rs.
Proof. cbn [pot]. f_equal. all: induction rs as [|x t IH]; cbn; auto. Qed.
Lemma pot_skip_is a rs : pot (RSkipSeq a rs) = w0 (RSkipSeq a rs) + pot_seq (interleave a rs).
Proof.
  rewrite interleave_flat. cbn [pot]. f_equal. cbn [pot_seq]. f_equal. f_equal. induction rs as [|x t IH]; [reflexivity|]. cbn [flat_map app pot_seq]. rewrite IH. reflexivity.
Qed.
Context (Ph : forall i r, r_reader (get_rule e i) = Some r -> pot r <= phi i).
(** A Body reads what is between its start and the place where the tail begins. *)
Definition from (i : item) (b : bytes) : bytes := match i with IBody y _ _ _ => y | _ => b end.
Lemma pay_le x v : pay x v <= v.
Proof. unfold pay. destruct (dry x); lia. Qed.
Lemma dive_bound i c b ok c' b' n : dives e w0 i c b ok c' b' n -> (exists d, from i b = d ++ b) -> n <= K * mu (from i b) + pot_item i.
Proof.
  induction 1; intros Fr; cbn [from pot_item] in *;
    rewrite ?pot_seq_is, ?pot_skip_is;
    repeat match goal with IH : (exists d, ?y = d ++ ?y) -> _ |- _ => specialize (IH (ex_intro _ [] eq_refl)) end;
    try (cbn [pot fold_right pot_seq]; lia).
  - (* test *) destruct r; cbn [pot]; lia.
  - cbn [pot]. pose proof (Ph _ _ H). lia.
  - cbn [pot]. pose proof (Ph _ _ H). lia.
  - cbn [fold_right]. pose proof (eats_tally _ _ _ _ _ _ (dives_eats _ _ _ _ _ _ _ _ _ H)). nia.
  - cbn [pot_seq]. pose proof (eats_tally _ _ _ _ _ _ (dives_eats _ _ _ _ _ _ _ _ _ H)) as T. unfold pay. destruct (dry r) eqn:Q; [nia|].
    pose proof (eats_dry _ _ _ _ _ _ (dives_eats _ _ _ _ _ _ _ _ _ H) eq_refl Q) as S. nia.
  - pose proof (eats_tally _ _ _ _ _ _ (dives_eats _ _ _ _ _ _ _ _ _ H)). nia.
  - pose proof (eats_tally _ _ _ _ _ _ (dives_eats _ _ _ _ _ _ _ _ _ H)). nia.
  - pose proof (eats_tally _ _ _ _ _ _ (dives_eats _ _ _ _ _ _ _ _ _ H0)). pose proof (step_tally b1). nia.
  - pose proof (eats_tally _ _ _ _ _ _ (dives_eats _ _ _ _ _ _ _ _ _ H)). pose proof (step_tally b1) as S. rewrite H0 in S. cbn [snd] in S. nia.
  - rewrite tally_app. nia.
  - destruct Fr as [d0 Fr]. subst z. pose proof (eats_tally _ _ _ _ _ _ (dives_eats _ _ _ _ _ _ _ _ _ H0)).
    assert (n2 <= K * mu (d0 ++ b) + Nat.max (pot d) (pot t)).
    { apply IHdives2. destruct (step_suffix b1) as [p1 E1]. destruct (eats_suffix _ _ _ _ _ _ _ (dives_eats _ _ _ _ _ _ _ _ _ H0)) as [p2 E2]. exists (d0 ++ p2 ++ p1). rewrite E2, E1 at 1. now rewrite !app_assoc. }
    rewrite tally_app in *. nia.
Qed.
End Bound.

(** A certificate for the rules of [e]: which may be dry, and the potentials. *)
Definition rules_hold (e : env) (f : nat -> reader -> bool) : bool :=
  forallb (fun i => match r_reader (get_rule e i) with Some r => f i r | None => true end) (seq 0 (length e)).
Lemma rules_hold_ok e f : rules_hold e f = true -> forall i r, r_reader (get_rule e i) = Some r -> f i r = true.
Proof.
  intros H i r Q. assert (i < length e) as I.
  { destruct (Nat.lt_ge_cases i (length e)); auto. unfold get_rule, get in Q. rewrite nth_overflow in Q by auto. discriminate. }
  unfold rules_hold in H. rewrite forallb_forall in H. specialize (H i). rewrite Q in H. apply H. apply in_seq. lia.
Qed.
Definition shallow (e : env) (w0 : reader -> nat) (op : byte -> bool) (all : bool) (lf : reader -> bool) (N : nat -> bool) (K : nat) (phi : nat -> nat) : bool :=
  rules_hold e (fun i r => (negb (dry op all lf N r) || N i) && (pot w0 op all lf N K phi r <=? phi i)).
Theorem shallow_bound e w0 op all lf N K phi : (all = true -> forall x, op x = true) ->
  (forall r f b, rune_test r = Some f -> lf r = false -> test f b = true -> tally op (after_rune b) < tally op b) ->
  shallow e w0 op all lf N K phi = true ->
  forall r c b ok c' b' n, dives e w0 (IR r) c b ok c' b' n -> n <= K * tally op b + pot w0 op all lf N K phi r.
Proof.
  intros A Lf S r c b ok c' b' n D. pose proof (rules_hold_ok _ _ S) as R. cbv beta in R.
  apply (dive_bound e w0 op all lf N A Lf) with (K := K) (phi := phi) in D; [exact D| | |exists []; reflexivity].
  - intros i q H Dq. specialize (R i q H). rewrite Dq in R. apply andb_true_iff in R as [R _]. exact R.
  - intros i q H. specialize (R i q H). apply andb_true_iff in R as [_ R]. now apply Nat.leb_le.
Qed.
(** How to find one. *)
Definition phi_of (l : list nat) (i : nat) : nat := nth i l 0.
Definition improve (e : env) (w0 : reader -> nat) op all lf N K (l : list nat) : list nat :=
  map (fun i => match r_reader (get_rule e i) with Some r => pot w0 op all lf N K (phi_of l) r | None => 0 end) (seq 0 (length e)).
Fixpoint settle (k : nat) (e : env) (w0 : reader -> nat) op all lf N K (l : list nat) : list nat :=
  match k with O => l | S k => settle k e w0 op all lf N K (improve e w0 op all lf N K l) end.

(** CostBound.v - bounds for the number of calls of Read, computed from the readers. *)
From Verif Require Export CostFacts.
From Coq Require Import Lia ZifyBool.
From Verif Require Import PegTotal MarksFacts.

Local Open Scope nat_scope.
(** Success: at most [su] per byte consumed and [sb]; failure: at most [fu] per byte of the rest of the text and [fb];
    [top]: at most that in any case; [nv]: there is no failure. *)
Record bound := mkBound { su : nat; sb : nat; fu : nat; fb : nat; top : option nat; nv : bool }.
Definition plus1 (q : bound) : bound := mkBound (su q) (S (sb q)) (fu q) (S (fb q)) (option_map S (top q)) (nv q).
Definition both (x y : option nat) : option nat := match x, y with Some a, Some b => Some (a + b) | _, _ => None end.
Definition zero (ok : bool) : bound := mkBound 0 0 0 0 (Some 0) ok.
Definition alt (q t : bound) : bound := mkBound (Nat.max (su q) (su t)) (sb q + fb q + sb t) (fu t) (fb q + fb t) (both (top q) (top t)) (nv q || nv t).
Definition cat (q t : bound) : bound :=
  mkBound (Nat.max (su q) (su t)) (sb q + sb t)
    (if nv t then fu q else match top q with Some _ => Nat.max (fu q) (fu t) | None => Nat.max (su q) (Nat.max (fu q) (fu t)) end)
    (if nv t then fb q else match top q with Some m => fb q + m + fb t | None => fb q + sb q + fb t end) (both (top q) (top t)) (nv q && nv t).
Fixpoint alts (l : list (option bound)) : option bound :=
  match l with
  | [] => Some (zero false)
  | [o] => o
  | Some q :: l => match alts l with Some t => if Nat.eqb (fu q) 0 then Some (alt q t) else None | None => None end
  | None :: _ => None
  end.
Fixpoint cats (l : list (option bound)) : option bound :=
  match l with
  | [] => Some (zero true)
  | Some q :: l => match cats l with Some t => Some (cat q t) | None => None end
  | None :: _ => None
  end.
(** Without Janus the strings stay. *)
Definition no_janus (r : reader) : bool := match r with RJanusBeg _ _ _ | RJanusEnd _ _ => false | _ => true end.
Lemma janus_cells e i c b ok c' b' : eats e i c b ok c' b' -> eallP (fun r => no_janus r = true) e -> iallP (fun r => no_janus r = true) i -> c' = c.
Proof.
  intros H E. induction H; intros I; cbn [iallP rallP no_janus] in *; repeat match goal with X : _ /\ _ |- _ => destruct X end;
    repeat match goal with X : Forall _ (_ :: _) |- _ => inversion X; subst; clear X end;
    repeat match goal with X : fold_right _ True _ |- _ => apply all_Forall in X end; auto; try discriminate.
  all: try (apply IHeats; eapply E; eauto; fail).
  all: try (rewrite IHeats2, IHeats1; auto; fail).
  apply IHeats. apply all_interleave; auto.
Qed.

Section Bound.
Context (N : nat -> bool) (nj : bool) (e : env).
Fixpoint bounded (n : nat) (r : reader) : option bound :=
  match n with
  | O => None
  | S n =>
    match r with
    | RRune _ | RAnyRune _ | RBetween _ _ | RMatch _ _ | RHoley _ _ _ | RBetweenAny _ _ | RLit _ | RAtEnd | RInvalid _ | RJanusEnd _ _ => Some (mkBound 0 1 0 1 (Some 1) false)
    | RRule i | RGrammar _ _ i => match r_reader (get_rule e i) with Some q => option_map plus1 (bounded n q) | None => None end
    | RNamed _ a | RRuleName a | RMonitor _ _ a | RMap _ a | RPick _ _ a | RJanusBeg _ _ a => option_map plus1 (bounded n a)
    | ROpt a => match bounded n a with
                | Some q => if Nat.eqb (fu q) 0 then Some (mkBound (su q) (S (sb q + fb q)) 0 0 (option_map S (top q)) true) else None
                | None => None
                end
    | RAny rs => option_map plus1 (alts (map (bounded n) rs))
    | RSeq rs => option_map plus1 (cats (map (bounded n) rs))
    | RSkipSeq sk rs => option_map plus1 (cats (map (bounded n) (interleave sk rs)))
    | RTimes k a => option_map plus1 (cats (map (bounded n) (repeat a (Z.to_nat k))))
    | RZom a => match bounded n a with
                | Some q => if Nat.eqb (fu q) 0 && (negb (eps N a) || nj && rall no_janus a) then Some (mkBound (su q + sb q) (S (fb q)) 0 0 None true) else None
                | None => None
                end
    | RMany a => match bounded n a with
                | Some q => if Nat.eqb (fu q) 0 && (negb (eps N a) || nj && rall no_janus a) then Some (mkBound (su q + sb q) (S (fb q)) 0 (S (fb q)) None false) else None
                | None => None
                end
    | _ => None
    end
  end.

Definition within (i : item) (q : bound) : Prop := forall c b ok c' b' k, works e each i c b ok c' b' k ->
  (ok = true -> k + su q * length b' <= su q * length b + sb q) /\ (ok = false -> k <= fu q * length b + fb q) /\ (forall m, top q = Some m -> k <= m) /\ (nv q = true -> ok = true).
Context (Ce : forall i r, r_reader (get_rule e i) = Some r -> eps N r = true -> N i = true) (Cj : nj = true -> eall no_janus e).
Lemma works_le i c b ok c' b' k : works e each i c b ok c' b' k -> length b' <= length b.
Proof. intros W. eapply eats_le. eapply works_eats. eauto. Qed.
Lemma within_alts rs : forall os q, Forall2 (fun r o => forall t, o = Some t -> within (IR r) t) rs os -> alts os = Some q -> within (IAny rs) q.
Proof.
  induction rs as [|r rs IH]; intros os q F A; inversion F as [|? o ? os' F1 F2]; subst.
  - injection A as <-. intros c b ok c' b' k W. inversion W; subst. cbn. repeat split; try discriminate; intros; lia.
  - destruct os' as [|o' os'].
    + inversion F2; subst. assert (A' : o = Some q) by (destruct o; exact A). specialize (F1 q A'). intros c b ok c' b' k W. apply any_calls in W as [[-> W]|(c1 & b1 & n1 & n2 & W1 & W2 & ->)].
      * exact (F1 _ _ _ _ _ _ W).
      * inversion W2; subst. rewrite Nat.add_0_r. destruct (F1 _ _ _ _ _ _ W1) as (A1 & A2 & A3 & A4). repeat split; auto.
    + cbn [alts] in A. destruct o as [q1|]; [|discriminate]. change (match alts (o' :: os') with Some t => if Nat.eqb (fu q1) 0 then Some (alt q1 t) else None | None => None end = Some q) in A.
      destruct (alts (o' :: os')) as [t|] eqn:E; [|discriminate]. destruct (Nat.eqb_spec (fu q1) 0) as [Z|]; [|discriminate]. injection A as <-.
      specialize (F1 q1 eq_refl). specialize (IH _ t F2 E). intros c b ok c' b' k W. apply any_calls in W as [[-> W]|(c1 & b1 & n1 & n2 & W1 & W2 & ->)].
      * destruct (F1 _ _ _ _ _ _ W) as (A1 & A2 & A3 & A4). pose proof (works_le _ _ _ _ _ _ _ W). cbn [su sb fu fb top nv alt]. split; [intros _|split; [discriminate|split; [|auto]]].
        { specialize (A1 eq_refl). pose proof (Nat.le_max_l (su q1) (su t)). nia. }
        intros m. unfold both. destruct (top q1) as [m1|]; [|discriminate]. destruct (top t) as [m2|]; [|discriminate]. intros X. injection X as <-. specialize (A3 m1 eq_refl). lia.
      * destruct (F1 _ _ _ _ _ _ W1) as (A1 & A2 & A3 & A4). destruct (IH _ _ _ _ _ _ W2) as (B1 & B2 & B3 & B4). pose proof (works_le _ _ _ _ _ _ _ W1). pose proof (works_le _ _ _ _ _ _ _ W2).
        specialize (A2 eq_refl). cbn [su sb fu fb top nv alt]. rewrite Z in A2. split; [intros K|split; [intros K|split]].
        { specialize (B1 K). pose proof (Nat.le_max_r (su q1) (su t)). nia. }
        { specialize (B2 K). nia. }
        { intros m. unfold both. destruct (top q1) as [m1|]; [|discriminate]. destruct (top t) as [m2|]; [|discriminate]. intros X. injection X as <-. specialize (A3 m1 eq_refl). specialize (B3 m2 eq_refl). lia. }
        intros X. apply orb_true_iff in X as [X|X]; [discriminate (A4 X)|auto].
Qed.
Lemma within_cats rs : forall os q, Forall2 (fun r o => forall t, o = Some t -> within (IR r) t) rs os -> cats os = Some q -> within (ISeq rs) q.
Proof.
  induction rs as [|r rs IH]; intros os q F A; inversion F as [|? o ? os' F1 F2]; subst.
  - injection A as <-. intros c b ok c' b' k W. inversion W; subst. cbn. repeat split; try discriminate; intros; lia.
  - cbn [cats] in A. destruct o as [q1|]; [|discriminate]. destruct (cats os') as [t|] eqn:E; [|discriminate]. injection A as <-.
    specialize (F1 q1 eq_refl). specialize (IH _ t F2 E). intros c b ok c' b' k W. cbn [su sb fu fb top nv cat]. apply seq_calls in W as [[-> W]|(c1 & b1 & n1 & n2 & W1 & W2 & ->)].
    + destruct (F1 _ _ _ _ _ _ W) as (A1 & A2 & A3 & A4). split; [discriminate|]. split; [intros _|split].
      { specialize (A2 eq_refl). destruct (nv t), (top q1); nia. }
      { intros m. unfold both. destruct (top q1) as [m1|]; [|discriminate]. destruct (top t) as [m2|]; [|discriminate]. intros X. injection X as <-. specialize (A3 m1 eq_refl). lia. }
      intros X. apply andb_true_iff in X as [X _]. auto.
    + destruct (F1 _ _ _ _ _ _ W1) as (A1 & A2 & A3 & A4). destruct (IH _ _ _ _ _ _ W2) as (B1 & B2 & B3 & B4). pose proof (works_le _ _ _ _ _ _ _ W1). pose proof (works_le _ _ _ _ _ _ _ W2).
      specialize (A1 eq_refl). split; [intros K|split; [intros K|split]].
      { specialize (B1 K). pose proof (Nat.le_max_l (su q1) (su t)). pose proof (Nat.le_max_r (su q1) (su t)). nia. }
      { specialize (B2 K). destruct (nv t) eqn:Nv; [rewrite (B4 eq_refl) in K; discriminate|]. destruct (top q1) as [m1|]; [specialize (A3 m1 eq_refl)|]; nia. }
      { intros m. unfold both. destruct (top q1) as [m1|]; [|discriminate]. destruct (top t) as [m2|]; [|discriminate]. intros X. injection X as <-. specialize (A3 m1 eq_refl). specialize (B3 m2 eq_refl). lia. }
      intros X. apply andb_true_iff in X as [_ X]. auto.
Qed.
Lemma within_plus1 r i q : (forall c b ok c' b' k, works e each (IR r) c b ok c' b' k -> exists c1 b1 k1, works e each i c b ok c1 b1 k1 /\ k = S k1 /\ (ok = true -> b' = b1)) ->
  within i q -> within (IR r) (plus1 q).
Proof.
  intros H W c b ok c' b' k K. destruct (H _ _ _ _ _ _ K) as (c1 & b1 & k1 & K1 & -> & E). destruct (W _ _ _ _ _ _ K1) as (A1 & A2 & A3 & A4). cbn [su sb fu fb top nv plus1].
  split; [intros X; specialize (A1 X); rewrite (E X); lia|]. split; [intros X; specialize (A2 X); lia|]. split; auto. intros m X. destruct (top q) as [m1|]; [|discriminate]. injection X as <-. specialize (A3 m1 eq_refl). lia.
Qed.
Lemma rep_moves a c b c1 b1 k1 c' b' k2 : eps N a = false \/ nj && rall no_janus a = true -> works e each (IR a) c b true c1 b1 k1 -> works e each (IRep a) c1 b1 true c' b' k2 -> length b1 < length b.
Proof.
  intros [Ep|J] W1 W2; [exact (eats_eps N e Ce _ _ _ _ _ _ (works_eats _ _ _ _ _ _ _ _ _ W1) eq_refl Ep)|]. apply andb_true_iff in J as [J1 J2].
  pose proof (janus_cells _ _ _ _ _ _ _ (works_eats _ _ _ _ _ _ _ _ _ W1) (proj1 (eallP_eall _ _) (Cj J1)) (proj1 (rallP_rall _ _) J2)) as ->.
  destruct (eats_suffix _ _ _ _ _ _ _ (works_eats _ _ _ _ _ _ _ _ _ W1)) as [d ->]. destruct d as [|x d]; [|cbn; rewrite app_length; lia]. cbn [app] in W1.
  pose proof (works_det _ _ _ _ _ _ _ _ _ (wi_rep_next _ _ _ _ _ _ _ _ _ _ _ W1 W2) _ _ _ _ W2) as X. assert (k1 = 0) by lia. subst k1.
  inversion W1; unfold each in *; lia.
Qed.
Lemma rep_within a q : within (IR a) q -> fu q = 0 -> eps N a = false \/ nj && rall no_janus a = true -> forall c b ok c' b' k, works e each (IRep a) c b ok c' b' k -> k + (su q + sb q) * length b' <= (su q + sb q) * length b + fb q.
Proof.
  intros H Z Ep c b ok c' b' k W. remember (IRep a) as i eqn:Ei. induction W; try discriminate Ei; injection Ei as ->.
  - destruct (H _ _ _ _ _ _ W) as (_ & A2 & _). specialize (A2 eq_refl). pose proof (works_le _ _ _ _ _ _ _ W). rewrite Z in A2. nia.
  - destruct (H _ _ _ _ _ _ W1) as (A1 & _ & _). specialize (A1 eq_refl). specialize (IHW2 eq_refl). pose proof (rep_moves _ _ _ _ _ _ _ _ _ Ep W1 W2). nia.
Qed.
Lemma times_seq a : forall k c b ok c' b' n, works e each (ITimes k a) c b ok c' b' n -> works e each (ISeq (repeat a k)) c b ok c' b' n.
Proof.
  induction k as [|k IH]; intros c b ok c' b' n W; inversion W; subst; cbn [repeat]; [constructor|apply wi_seq_stop; auto|]. eapply wi_seq_next; eauto.
Qed.
Lemma bounded_within n : forall r q, bounded n r = Some q -> within (IR r) q.
Proof.
  induction n as [|n IH]; intros r q H; [discriminate|].
  assert (Ls : forall rs, Forall2 (fun r o => forall t, o = Some t -> within (IR r) t) rs (map (bounded n) rs)).
  { induction rs; cbn; constructor; auto. }
  assert (Leaf : forall x, mkBound 0 1 0 1 (Some 1) false = x -> (forall c b ok c' b' k, works e each (IR r) c b ok c' b' k -> k = 1) -> within (IR r) x).
  { intros x <- K c b ok c' b' k W. rewrite (K _ _ _ _ _ _ W). cbn. repeat split; intros; try lia; try discriminate. injection H0 as <-. lia. }
  destruct r; cbn [bounded] in H; try discriminate; try (apply Leaf; [congruence|]; intros c b ok c' b' k W; inversion W; subst; try discriminate; reflexivity).
  all: try (match type of H with option_map plus1 ?o = _ => destruct o as [q1|] eqn:E; [|discriminate H]; injection H as <- end).
  all: try (apply (within_plus1 _ (IR r)); [intros c b ok c' b' k W; inversion W; subst; try discriminate; eexists _, _, _; split; [eassumption|]; split; [reflexivity|intros ->; reflexivity]|apply IH; exact E]; fail).
  - apply (within_plus1 _ (IAny rs)); [intros c b ok c' b' k W; inversion W; subst; try discriminate; eexists _, _, _; split; [eassumption|]; split; [reflexivity|intros ->; reflexivity]|eapply within_alts; eauto].
  - (* JanusBeg *) apply (within_plus1 _ (IR r)); [|apply IH; exact E]. intros c b ok c' b' k W.
    inversion W; subst; try discriminate; eexists _, _, _; (split; [eassumption|]); split; try reflexivity; discriminate.
  - (* Many *) destruct (bounded n r) as [q1|] eqn:E; [|discriminate]. destruct (Nat.eqb_spec (fu q1) 0) as [Z|]; [|discriminate]. destruct (negb (eps N r) || nj && rall no_janus r) eqn:Ep; [|discriminate]. apply orb_true_iff in Ep. rewrite negb_true_iff in Ep. injection H as <-.
    intros c b ok c' b' k W. inversion W; subst; try discriminate. match goal with X : works _ _ (IRep r) _ _ _ _ _ _ |- _ => pose proof (rep_within r q1 (IH _ _ E) Z Ep _ _ _ _ _ _ X) as K end. cbn [su sb fu fb top nv]. unfold each.
    split; [intros _; lia|]. split; [intros O; apply Nat.ltb_ge in O; nia|split; discriminate].
  - (* Opt *) destruct (bounded n r) as [q1|] eqn:E; [|discriminate]. destruct (Nat.eqb_spec (fu q1) 0) as [Z|]; [|discriminate]. injection H as <-.
    intros c b ok c' b' k W. inversion W; subst; try discriminate. match goal with X : works _ _ (IR r) _ _ _ _ _ _ |- _ => destruct (IH _ _ E _ _ _ _ _ _ X) as (A1 & A2 & A3 & A4); pose proof (works_le _ _ _ _ _ _ _ X) end.
    cbn [su sb fu fb top nv]. unfold each. split; [intros _; destruct ok0; [specialize (A1 eq_refl)|specialize (A2 eq_refl)]; nia|]. split; [discriminate|]. split; auto. intros m X. destruct (top q1) as [m1|]; [|discriminate]. injection X as <-. specialize (A3 m1 eq_refl). lia.
  - apply (within_plus1 _ (ISeq rs)); [intros c b ok c' b' k W; inversion W; subst; try discriminate; eexists _, _, _; split; [eassumption|]; split; [reflexivity|intros ->; reflexivity]|eapply within_cats; eauto].
  - apply (within_plus1 _ (ISeq (interleave r rs))); [intros c b ok c' b' k W; inversion W; subst; try discriminate; eexists _, _, _; split; [eassumption|]; split; [reflexivity|intros ->; reflexivity]|eapply within_cats; eauto].
  - apply (within_plus1 _ (ISeq (repeat r (Z.to_nat n0)))); [intros c b ok c' b' k W; inversion W; subst; try discriminate; eexists _, _, _; split; [eapply times_seq; eassumption|]; split; [reflexivity|intros ->; reflexivity]|eapply within_cats; eauto].
  - (* Zom *) destruct (bounded n r) as [q1|] eqn:E; [|discriminate]. destruct (Nat.eqb_spec (fu q1) 0) as [Z|]; [|discriminate]. destruct (negb (eps N r) || nj && rall no_janus r) eqn:Ep; [|discriminate]. apply orb_true_iff in Ep. rewrite negb_true_iff in Ep. injection H as <-.
    intros c b ok c' b' k W. inversion W; subst; try discriminate. match goal with X : works _ _ (IRep r) _ _ _ _ _ _ |- _ => pose proof (rep_within r q1 (IH _ _ E) Z Ep _ _ _ _ _ _ X) as K end. cbn [su sb fu fb top nv]. unfold each.
    split; [intros _; lia|]. repeat split; try discriminate.
  - (* Rule *) destruct (r_reader (get_rule e i)) as [r|] eqn:R; [|discriminate]. destruct (bounded n r) as [q1|] eqn:E; [|discriminate]. injection H as <-.
    apply (within_plus1 _ (IR r)); [|apply IH; exact E]. intros c b ok c' b' k W. apply (rule_calls_inv _ _ _ _ _ _ _ _ _ _ R) in W as (m & W & ->). eexists _, _, _. split; [exact W|]. split; auto.
  - destruct (r_reader (get_rule e i)) as [r|] eqn:R; [|discriminate]. destruct (bounded n r) as [q1|] eqn:E; [|discriminate]. injection H as <-.
    apply (within_plus1 _ (IR r)); [|apply IH; exact E]. intros c b ok c' b' k W. inversion W; subst; try discriminate. replace r with r0 by congruence. eexists _, _, _. split; [eassumption|]. split; auto.
Qed.
End Bound.

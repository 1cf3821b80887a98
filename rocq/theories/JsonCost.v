(** JsonCost.v - how much work the readers of grammar/json.go do. *)
From Verif Require Import PegTotal.
From Verif Require Export JsonFacts CostBound.
From Coq Require Import Lia ZifyBool.

Local Open Scope nat_scope.
Section JsonCost.
Context {L : GoLib}.
Notation E := json_env.
Notation out := (out json_env).
Notation costs i c b ok c' b' k := (works json_env each i c b ok c' b' k).

Definition json_nullable (i : nat) : bool := existsb (Nat.eqb i) [jWS; jSign; jExponent; jFraction; jCharacters; jCharacter].
Lemma json_eps i r : r_reader (get_rule E i) = Some r -> eps json_nullable r = true -> json_nullable i = true.
Proof.
  intros G. assert (forallb (fun i => match r_reader (get_rule E i) with Some r => negb (eps json_nullable r) || json_nullable i | None => true end) (seq 0 (length E)) = true) by (vm_compute; reflexivity).
  rewrite forallb_forall in H. destruct (Nat.lt_ge_cases i (length E)) as [I|I].
  - assert (In i (seq 0 (length E))) as In by (revert I; generalize (length E); intros m I; apply in_seq; lia). specialize (H i In). rewrite G in H. intros X. rewrite X in H. exact H.
  - exfalso. unfold get_rule in G. rewrite nth_overflow in G by exact I. discriminate.
Qed.
Lemma json_no_janus : eall no_janus E. Proof. apply eall_check. vm_compute. reflexivity. Qed.
Lemma leaf i q : bounded json_nullable true E 20 (RRule i) = Some q -> CostBound.within E (IR (RRule i)) q.
Proof. apply bounded_within; [apply json_eps|intros _; apply json_no_janus]. Qed.
Lemma leaf_ws c b ok c' b' k : costs (IR (RRule jWS)) c b ok c' b' k -> k + length b' <= length b + 3.
Proof.
  intros W. assert (exists q, bounded json_nullable true E 20 (RRule jWS) = Some q /\ su q = 1 /\ sb q = 3 /\ nv q = true) as (q & B & S1 & S2 & S3) by (eexists; split; [vm_compute; reflexivity|auto]).
  destruct (leaf _ _ B _ _ _ _ _ _ W) as (A1 & A2 & A3 & A4). rewrite S1, S2 in A1. specialize (A1 (A4 S3)). lia.
Qed.
Lemma leaf_string i c b ok c' b' k : i = jString \/ i = jKey -> costs (IR (RRule i)) c b ok c' b' k -> (ok = true -> k + 21 * length b' <= 21 * length b + 33) /\ (ok = false -> k <= 21 * length b + 35).
Proof.
  intros I W. assert (exists q, bounded json_nullable true E 20 (RRule i) = Some q /\ su q = 21 /\ sb q = 33 /\ fu q = 21 /\ fb q = 35) as (q & B & S1 & S2 & S3 & S4)
    by (destruct I as [-> | ->]; eexists; (split; [vm_compute; reflexivity|auto])).
  destruct (leaf _ _ B _ _ _ _ _ _ W) as (A1 & A2 & _ & _). rewrite S1, S2 in A1. rewrite S3, S4 in A2. auto.
Qed.
Lemma leaf_scalar i c b ok c' b' k : i = jNumber \/ i = jBool \/ i = jNull -> costs (IR (RRule i)) c b ok c' b' k -> (ok = true -> k + length b' <= length b + 54) /\ (ok = false -> k <= 11).
Proof.
  intros I W. assert (exists q, bounded json_nullable true E 20 (RRule i) = Some q /\ su q <= 1 /\ sb q <= 54 /\ fu q = 0 /\ fb q <= 11) as (q & B & S1 & S2 & S3 & S4)
    by (destruct I as [->|[->| ->]]; eexists; (split; [vm_compute; reflexivity|cbn; repeat split; auto; lia])).
  destruct (leaf _ _ B _ _ _ _ _ _ W) as (A1 & A2 & _ & _). pose proof (works_le _ _ _ _ _ _ _ _ W) as Le. rewrite S3 in A2. split; intros X; [specialize (A1 X); nia|specialize (A2 X); lia].
Qed.

(* ------------------------------------------------------- taking readers apart *)

Lemma seq_inv rs c b ok c' b' k : costs (IR (RSeq rs)) c b ok c' b' k -> exists b1 n, costs (ISeq rs) c b ok c' b1 n /\ k = S n /\ b' = if ok then b1 else b.
Proof. inversion 1; subst; try discriminate. eauto. Qed.
Lemma any_inv rs c b ok c' b' k : costs (IR (RAny rs)) c b ok c' b' k -> exists b1 n, costs (IAny rs) c b ok c' b1 n /\ k = S n /\ b' = if ok then b1 else b.
Proof. inversion 1; subst; try discriminate. eauto. Qed.
Lemma zom_inv r c b ok c' b' k : costs (IR (RZom r)) c b ok c' b' k -> exists n, costs (IRep r) c b true c' b' n /\ k = S n /\ ok = true.
Proof. inversion 1; subst; try discriminate. eauto. Qed.
Lemma rep_inv r c b ok c' b' k : costs (IRep r) c b ok c' b' k -> ok = true /\ (costs (IR r) c b false c' b' k \/
  exists c1 b1 n1 n2, costs (IR r) c b true c1 b1 n1 /\ costs (IRep r) c1 b1 true c' b' n2 /\ k = n1 + n2).
Proof. inversion 1; subst; split; auto. right. eauto 9. Qed.
Lemma nil_seq c b ok c' b' k : costs (ISeq []) c b ok c' b' k -> ok = true /\ b' = b /\ k = 0.
Proof. inversion 1; auto. Qed.
Lemma nil_any c b ok c' b' k : costs (IAny []) c b ok c' b' k -> ok = false /\ k = 0.
Proof. inversion 1; auto. Qed.
Lemma rune_inv n c b ok c' b' k : (0 <= n < 128)%Z -> costs (IR (RRune n)) c b ok c' b' k -> k = 1 /\ ok = first (is n) b /\ b' = if first (is n) b then tl b else b.
Proof.
  intros R W. pose proof (works_eats _ _ _ _ _ _ _ _ _ W) as Ea. destruct (eats_det _ _ _ _ _ _ _ Ea _ _ _ (t_rune n R c b)) as (-> & _ & ->).
  split; auto. inversion W; subst; auto.
Qed.
Lemma rule_inv i r c b ok c' b' k : r_reader (get_rule E i) = Some r -> costs (IR (RRule i)) c b ok c' b' k -> exists n, costs (IR r) c b ok c' b' n /\ k = S n.
Proof. intros H W. apply (rule_calls_inv _ _ _ _ _ _ _ _ _ _ H W). Qed.
Lemma ws_inv c b ok c' b' k : costs (IR (RRule jWS)) c b ok c' b' k -> exists w, b = w ++ b' /\ ok = true /\ first b_ws b' = false /\ j_ws w /\ k <= length w + 3.
Proof.
  intros W. pose proof (leaf_ws _ _ _ _ _ _ W) as K. pose proof (works_eats _ _ _ _ _ _ _ _ _ W) as Ea. destruct (ws_run b) as (w & t & -> & Hw & F & O).
  destruct (eats_det _ _ _ _ _ _ _ Ea _ _ _ (O c)) as (-> & _ & ->). exists w. repeat split; auto. rewrite app_length in K. lia.
Qed.
(** A reader that begins with a byte that is not there. *)
Lemma guard i o rs c b ok c' b' k : (0 <= o < 128)%Z -> r_reader (get_rule E i) = Some (RSeq (RRune o :: rs)) -> first (is o) b = false ->
  costs (IR (RRule i)) c b ok c' b' k -> ok = false /\ b' = b /\ k = 3.
Proof.
  intros R G F W. destruct (rule_inv _ _ _ _ _ _ _ _ G W) as (n & W1 & ->). destruct (seq_inv _ _ _ _ _ _ _ W1) as (b1 & n1 & W2 & -> & ->).
  apply seq_calls in W2 as [[-> W2]|(c1 & b2 & n2 & n3 & W2 & _ & _)]; destruct (rune_inv _ _ _ _ _ _ _ R W2) as (-> & X & Y); [auto|congruence].
Qed.
Lemma back i rs c b ok c' b' k : r_reader (get_rule E i) = Some (RSeq rs) \/ r_reader (get_rule E i) = Some (RAny rs) -> costs (IR (RRule i)) c b ok c' b' k -> ok = false -> b' = b.
Proof.
  intros G W ->. destruct G as [G|G]; destruct (rule_inv _ _ _ _ _ _ _ _ G W) as (n & W1 & ->); [destruct (seq_inv _ _ _ _ _ _ _ W1) as (b1 & n1 & W2 & -> & ->)|destruct (any_inv _ _ _ _ _ _ _ W1) as (b1 & n1 & W2 & -> & ->)]; auto.
Qed.
Lemma is_not m n b : m <> n -> first (is m) b = true -> first (is n) b = false.
Proof. intros D. destruct b as [|x b]; cbn; [discriminate|]. unfold is. lia. Qed.

(* ------------------------------------------------------------------- the bounds *)

Definition A := 250.
Definition close (x : byte) : bool := is 0x5D x || is 0x7D x.
(** [b] is spaces [w] and a rest [t] without. *)
Definition spaced (b w t : bytes) : Prop := b = w ++ t /\ j_ws w /\ first b_ws t = false.
Definition frugal (B k : nat) (b : bytes) (ok : bool) (b' : bytes) : Prop :=
  (ok = true -> k + A * length b' <= A * length b + B) /\
  (ok = false -> forall w t, spaced b w t -> k <= length w + A * length t + B /\ (first close t = true -> k <= length w + B)).
Lemma spaced_same b w1 t1 w2 t2 : spaced b w1 t1 -> spaced b w2 t2 -> w1 = w2 /\ t1 = t2.
Proof.
  intros (-> & J1 & F1) (Eq & J2 & F2). pose proof (o_ws _ _ J1 F1) as O1. pose proof (o_ws _ _ J2 F2) as O2. rewrite Eq in O1. destruct (out_det _ _ _ _ _ _ _ O1 O2) as [_ ->].
  apply app_inv_tail in Eq. auto.
Qed.
Lemma close_no n t : (n <> 0x5D)%Z -> (n <> 0x7D)%Z -> first close t = true -> first (is n) t = false.
Proof. intros D1 D2. destruct t as [|x t]; cbn; [discriminate|]. unfold close, is. lia. Qed.

(** Lists with commas. *)
Section Lists.
Context (i : nat) (n : nat) (B : nat) (HB : B + 2 <= A) (Hi : forall k c b ok c' b', k < n -> costs (IR (RRule i)) c b ok c' b' k -> frugal B k b ok b').
Lemma more_cost : forall k c b ok c' b', k <= n -> costs (IRep (rd_more i)) c b ok c' b' k ->
  k <= A * length b + 2 /\ (first (is 0x2C) b' = false -> k + A * length b' <= A * length b + 2).
Proof.
  induction k as [k IH] using (well_founded_induction lt_wf). intros c b ok c' b' Hk W. apply rep_inv in W as [-> [W|(c1 & b1 & n1 & n2 & W1 & W2 & ->)]].
  - destruct (seq_inv _ _ _ _ _ _ _ W) as (b1 & n1 & W1 & -> & ->). apply seq_calls in W1 as [[_ W1]|(c2 & b2 & n2 & n3 & W1 & W2 & ->)].
    + apply rune_inv in W1 as (-> & F & _); [|lia]. split; [lia|]. intros _. lia.
    + apply rune_inv in W1 as (-> & F & ->); [|lia]. symmetry in F. rewrite F in W2. apply first_is in F as [t ->]. cbn [tl] in W2.
      apply seq_calls in W2 as [[_ W2]|(c3 & b3 & n4 & n5 & _ & W3 & _)]; [|apply nil_seq in W3 as [X _]; discriminate].
      destruct (ws_run t) as (w & u & Eq & J & F & _). destruct (Hi n3 _ _ _ _ _ ltac:(lia) W2) as [_ Fa]. destruct (Fa eq_refl w u (conj Eq (conj J F))) as [X _].
      apply (f_equal (@length byte)) in Eq. rewrite app_length in Eq. cbn [length]. unfold A in *. split; [nia|]. intros Z. vm_compute in Z. discriminate.
  - destruct (seq_inv _ _ _ _ _ _ _ W1) as (b2 & n3 & W3 & -> & ->). apply seq_calls in W3 as [[X _]|(c2 & b3 & n4 & n5 & W3 & W4 & ->)]; [discriminate|].
    apply rune_inv in W3 as (-> & F & ->); [|lia]. symmetry in F. rewrite F in W4. apply first_is in F as [t ->]. cbn [tl] in W4.
    apply seq_calls in W4 as [[X _]|(c3 & b3 & n4 & n6 & W4 & W5 & ->)]; [discriminate|]. apply nil_seq in W5 as (_ & <- & ->).
    destruct (Hi n4 _ _ _ _ _ ltac:(lia) W4) as [Su _]. specialize (Su eq_refl). destruct (IH n2 ltac:(lia) _ _ _ _ _ ltac:(lia) W2) as [I1 I2].
    cbn [length]. unfold A in *. split; [nia|]. intros X. specialize (I2 X). nia.
Qed.
Lemma list_cost ks k c b ok c' b' : k <= n -> r_reader (get_rule E ks) = Some (RSeq [RRule i; RZom (rd_more i)]) -> costs (IR (RRule ks)) c b ok c' b' k ->
  (ok = true -> k <= A * length b + (B + 5) /\ (first (is 0x2C) b' = false -> k + A * length b' <= A * length b + (B + 5))) /\
  (ok = false -> b' = b /\ forall w t, spaced b w t -> k <= length w + A * length t + (B + 5) /\ (first close t = true -> k <= length w + (B + 5))).
Proof.
  intros Hk G W. pose proof (back ks _ _ _ _ _ _ _ (or_introl G) W) as Bk. destruct (rule_inv _ _ _ _ _ _ _ _ G W) as (n1 & W1 & ->). destruct (seq_inv _ _ _ _ _ _ _ W1) as (b1 & n2 & W2 & -> & ->).
  apply seq_calls in W2 as [[-> W2]|(c2 & b2 & n3 & n4 & W2 & W3 & ->)].
  - split; [discriminate|]. intros _. split; auto. intros w t Sp. destruct (Hi n2 _ _ _ _ _ ltac:(lia) W2) as [_ Fa]. destruct (Fa eq_refl w t Sp) as [X Y]. split; [lia|]. intros Z. specialize (Y Z). lia.
  - destruct (Hi n3 _ _ _ _ _ ltac:(lia) W2) as [Su _]. specialize (Su eq_refl). apply seq_calls in W3 as [[-> W3]|(c3 & b3 & n5 & n6 & W3 & W4 & ->)].
    { apply zom_inv in W3 as (? & _ & _ & X). discriminate. }
    apply nil_seq in W4 as (-> & -> & ->). apply zom_inv in W3 as (n7 & W3 & -> & _). apply more_cost in W3 as [X Y]; [|lia]. unfold A in *. split; [|discriminate]. intros _. split; [lia|]. intros Z. specialize (Y Z). lia.
Qed.
Lemma bracket_cost ks o cl k c b ok c' b' : (0 <= o < 128)%Z -> (cl = 0x5D \/ cl = 0x7D)%Z -> B + 20 <= A -> k <= n ->
  r_reader (get_rule E ks) = Some (RSeq [RRule i; RZom (rd_more i)]) ->
  costs (IR (RSeq [RRune o; RAny [RRule ks; RRule jWS]; RRune cl])) c b ok c' b' k ->
  (ok = true -> k + A * length b' <= A * length b) /\ (ok = false -> b' = b /\ k <= A * length b + 2).
Proof.
  intros Ho Hc Hb Hk G W. destruct (seq_inv _ _ _ _ _ _ _ W) as (b1 & n1 & W1 & -> & ->). apply seq_calls in W1 as [[-> W1]|(c1 & b2 & n2 & n3 & W1 & W2 & ->)].
  { apply rune_inv in W1 as (-> & _ & _); auto. split; [discriminate|]. intros _. split; auto. lia. }
  apply rune_inv in W1 as (-> & F & ->); auto. symmetry in F. rewrite F in W2. apply first_is in F as [t ->]. cbn [tl] in W2.
  apply seq_calls in W2 as [[-> W2]|(c2 & b3 & n4 & n5 & W2 & W3 & ->)].
  { exfalso. apply any_inv in W2 as (b3 & n4 & W2 & _). apply any_calls in W2 as [[X _]|(c2 & b4 & n5 & n6 & _ & W2 & _)]; [discriminate|].
    apply any_calls in W2 as [[X _]|(c3 & b5 & n7 & n8 & W2 & _)]; [discriminate|]. apply ws_inv in W2 as (? & _ & X & _). discriminate. }
  apply any_inv in W2 as (b4 & n6 & W2 & -> & ->).
  assert (In : n6 <= A * length t + (B + 8) /\ (first close b4 = true -> n6 + A * length b4 <= A * length t + (B + 8))).
  { apply any_calls in W2 as [[_ W2]|(c3 & b5 & n7 & n8 & W2 & W4 & ->)].
    - apply list_cost in W2 as [X _]; auto; [|lia]. destruct (X eq_refl) as [X1 X2]. split; [lia|]. intros Z. specialize (X2 (close_no 0x2C%Z _ ltac:(lia) ltac:(lia) Z)). lia.
    - apply list_cost in W2 as [_ X]; auto; [|lia]. destruct (X eq_refl) as [-> X1]. apply any_calls in W4 as [[_ W4]|(c4 & b6 & n9 & n10 & W4 & _)]; [|apply ws_inv in W4 as (? & _ & Y & _); discriminate].
      apply ws_inv in W4 as (w & -> & _ & F & J & K). destruct (X1 w b4) as [Y1 Y2]; [repeat split; auto|]. rewrite app_length. unfold A in *. split; [lia|]. intros Z. specialize (Y2 Z). lia. }
  destruct In as [In1 In2]. cbn [length]. apply seq_calls in W3 as [[-> W3]|(c3 & b5 & n7 & n8 & W3 & W4 & ->)].
  - apply rune_inv in W3 as (-> & _ & _); [|lia]. split; [discriminate|]. intros _. split; auto. unfold A in *. lia.
  - apply nil_seq in W4 as (-> & -> & ->). apply rune_inv in W3 as (-> & F & ->); [|lia]. rewrite <- F. symmetry in F. apply first_is in F as [u ->]. cbn [tl length] in *. split; [|discriminate]. intros _.
    assert (first close (zb cl :: u) = true) by (destruct Hc as [-> | ->]; vm_compute; reflexivity). specialize (In2 H). cbn [length] in In2. unfold A in *. lia.
Qed.
End Lists.

Lemma rest_le c b ok c' b' k i : costs i c b ok c' b' k -> length b' <= length b.
Proof. apply works_le. Qed.
Section Step.
Context (n : nat) (Hn : forall k c b ok c' b', k < n -> costs (IR (RRule jElement)) c b ok c' b' k -> frugal 140 k b ok b').
Lemma string_guard i c b ok c' b' k : i = jString \/ i = jKey -> first (is 0x22) b = false -> costs (IR (RRule i)) c b ok c' b' k -> ok = false /\ b' = b /\ k = 3.
Proof. intros I F W. eapply (guard i 0x22); [lia| |exact F|exact W]. destruct I as [-> | ->]; [apply env_string|apply env_key]. Qed.
Lemma string_back i c b ok c' b' k : i = jString \/ i = jKey -> costs (IR (RRule i)) c b ok c' b' k -> ok = false -> b' = b.
Proof. intros I. eapply back. left. destruct I as [-> | ->]; [apply env_string|apply env_key]. Qed.
Lemma member_cost k c b ok c' b' : k < n -> costs (IR (RRule jMember)) c b ok c' b' k -> frugal 200 k b ok b'.
Proof.
  intros Hk W. destruct (rule_inv _ _ _ _ _ _ _ _ env_member W) as (n1 & W1 & ->). destruct (seq_inv _ _ _ _ _ _ _ W1) as (b1 & n2 & W2 & -> & ->).
  apply seq_calls in W2 as [[-> W2]|(c2 & b2 & n3 & n4 & W2 & W3 & ->)]; [apply ws_inv in W2 as (? & _ & X & _); discriminate|].
  apply ws_inv in W2 as (w & -> & _ & F & J & K). assert (Sp : spaced (w ++ b2) w b2) by (repeat split; auto).
  assert (Q : (first close b2 = true -> ok = false /\ n4 <= 3) /\ (ok = true -> n4 + A * length b1 <= A * length b2 + 180) /\ (ok = false -> n4 <= A * length b2 + 180)).
  { assert (Cl : first close b2 = true -> first (is 0x22) b2 = false) by (apply close_no; lia).
    apply seq_calls in W3 as [[-> W3]|(c3 & b3 & n5 & n6 & W3 & W4 & ->)].
    - destruct (leaf_string jKey _ _ _ _ _ _ (or_intror eq_refl) W3) as [_ X]. specialize (X eq_refl). split; [|split; [discriminate|unfold A; lia]].
      intros Z. apply (string_guard jKey) in W3 as (_ & _ & ->); auto.
    - destruct (leaf_string jKey _ _ _ _ _ _ (or_intror eq_refl) W3) as [X _]. specialize (X eq_refl). pose proof (rest_le _ _ _ _ _ _ _ W3) as Le3.
      split; [intros Z; apply (string_guard jKey) in W3 as (Y & _); auto; discriminate|].
      apply seq_calls in W4 as [[-> W4]|(c4 & b4 & n7 & n8 & W4 & W5 & ->)]; [apply ws_inv in W4 as (? & _ & Y & _); discriminate|].
      apply ws_inv in W4 as (w4 & -> & _ & _ & _ & K4). rewrite app_length in *.
      apply seq_calls in W5 as [[-> W5]|(c5 & b5 & n9 & n10 & W5 & W6 & ->)]; apply rune_inv in W5 as (-> & F5 & Eq5); try lia.
      + split; [discriminate|unfold A; lia].
      + rewrite <- F5 in Eq5. symmetry in F5. apply first_is in F5 as [t ->]. cbn [tl length] in *. subst b5.
        apply seq_calls in W6 as [[-> W6]|(c6 & b6 & n11 & n12 & W6 & W7 & ->)].
        * destruct (Hn n10 _ _ _ _ _ ltac:(lia) W6) as [_ Fa]. destruct (ws_run t) as (w6 & u & Eq6 & J6 & F6 & _). destruct (Fa eq_refl w6 u (conj Eq6 (conj J6 F6))) as [Y _].
          subst t. rewrite app_length in *. split; [discriminate|unfold A in *; lia].
        * apply nil_seq in W7 as (-> & -> & ->). destruct (Hn n11 _ _ _ _ _ ltac:(lia) W6) as [Su _]. specialize (Su eq_refl). split; [unfold A in *; lia|discriminate]. }
  destruct Q as (Q1 & Q2 & Q3). split; intros ->.
  - specialize (Q2 eq_refl). rewrite app_length. unfold A in *. lia.
  - specialize (Q3 eq_refl). intros w' t' Sp'. destruct (spaced_same _ _ _ _ _ Sp Sp') as [<- <-]. split; [lia|]. intros Z. destruct (Q1 Z). lia.
Qed.
Lemma object_cost k c b ok c' b' : k <= n -> costs (IR (RRule jObject)) c b ok c' b' k -> (ok = true -> k + A * length b' <= A * length b + 1) /\ (ok = false -> b' = b /\ k <= A * length b + 3).
Proof.
  intros Hk W. destruct (rule_inv _ _ _ _ _ _ _ _ env_object W) as (n1 & W1 & ->). eapply (bracket_cost jMember n 200) in W1 as [X Y]; try apply env_members; try (unfold A; lia).
  - split; intros Z; [specialize (X Z); lia|destruct (Y Z); split; auto; lia].
  - intros. eapply member_cost; eauto.
Qed.
Lemma array_cost k c b ok c' b' : k <= n -> costs (IR (RRule jArray)) c b ok c' b' k -> (ok = true -> k + A * length b' <= A * length b + 1) /\ (ok = false -> b' = b /\ k <= A * length b + 3).
Proof.
  intros Hk W. destruct (rule_inv _ _ _ _ _ _ _ _ env_array W) as (n1 & W1 & ->). eapply (bracket_cost jElement n 140) in W1 as [X Y]; try apply env_elements; try (unfold A; lia).
  - split; intros Z; [specialize (X Z); lia|destruct (Y Z); split; auto; lia].
  - exact Hn.
Qed.
(** The alternatives behind the brackets. *)
Lemma scalars_cost k c b ok c' b' : costs (IAny [RRule jString; RRule jNumber; RRule jBool; RRule jNull]) c b ok c' b' k ->
  (ok = true -> k + 21 * length b' <= 21 * length b + 100) /\ (ok = false -> k <= 21 * length b + 70) /\ (ok = false -> first (is 0x22) b = false -> k <= 40) /\ (ok = true -> k <= 21 * length b + 100).
Proof.
  intros W. assert (Sc : forall k c b ok c' b', costs (IAny [RRule jNumber; RRule jBool; RRule jNull]) c b ok c' b' k -> (ok = true -> k + length b' <= length b + 76) /\ (ok = false -> k <= 33)).
  { clear. intros k c b ok c' b' W.
    apply any_calls in W as [[-> W]|(c1 & b1 & n1 & n2 & W1 & W2 & ->)]; [destruct (leaf_scalar jNumber _ _ _ _ _ _ ltac:(auto) W) as [X _]; specialize (X eq_refl); split; [lia|discriminate]|].
    destruct (leaf_scalar jNumber _ _ _ _ _ _ ltac:(auto) W1) as [_ X1]. specialize (X1 eq_refl). pose proof (rest_le _ _ _ _ _ _ _ W1) as L1.
    apply any_calls in W2 as [[-> W]|(c2 & b2 & n3 & n4 & W3 & W4 & ->)]; [destruct (leaf_scalar jBool _ _ _ _ _ _ ltac:(auto) W) as [X _]; specialize (X eq_refl); split; [lia|discriminate]|].
    destruct (leaf_scalar jBool _ _ _ _ _ _ ltac:(auto) W3) as [_ X3]. specialize (X3 eq_refl). pose proof (rest_le _ _ _ _ _ _ _ W3) as L3.
    apply any_calls in W4 as [[-> W]|(c3 & b3 & n5 & n6 & W5 & W6 & ->)]; [destruct (leaf_scalar jNull _ _ _ _ _ _ ltac:(auto) W) as [X _]; specialize (X eq_refl); split; [lia|discriminate]|].
    destruct (leaf_scalar jNull _ _ _ _ _ _ ltac:(auto) W5) as [_ X5]. specialize (X5 eq_refl). apply nil_any in W6 as [-> ->]. split; [discriminate|lia]. }
  apply any_calls in W as [[-> W]|(c1 & b1 & n1 & n2 & W1 & W2 & ->)].
  - pose proof (rest_le _ _ _ _ _ _ _ W). destruct (leaf_string jString _ _ _ _ _ _ (or_introl eq_refl) W) as [X _]. specialize (X eq_refl). repeat split; try discriminate; lia.
  - destruct (leaf_string jString _ _ _ _ _ _ (or_introl eq_refl) W1) as [_ X]. specialize (X eq_refl). pose proof (string_back jString _ _ _ _ _ _ (or_introl eq_refl) W1 eq_refl) as Eq. subst b1.
    destruct (Sc _ _ _ _ _ _ W2) as [Y1 Y2]. pose proof (rest_le _ _ _ _ _ _ _ W2) as L2. assert (G : first (is 0x22) b = false -> n1 = 3) by (intros F; eapply (string_guard jString) in W1 as (_ & _ & ->); auto).
    assert (S1 : first (is 0x22) b = true -> ok = false).
    { intros F. destruct ok; auto. exfalso. apply first_is in F as [t ->]. clear -W2. apply works_eats in W2.
      assert (Eo : eats E (IAny [RRule jNumber; RRule jBool; RRule jNull]) c1 (zb 0x22 :: t) false c1 (zb 0x22 :: t)).
      { eapply i_any_next; [apply o_number_no; reflexivity|]. eapply i_any_next; [apply o_bool_no; reflexivity|]. eapply i_any_next; [apply o_null_no; reflexivity|]. constructor. }
      destruct (eats_det _ _ _ _ _ _ _ W2 _ _ _ Eo) as [Z _]. discriminate. }
    split; [|split; [intros Z; specialize (Y2 Z); lia|split]].
    + intros Z. specialize (Y1 Z). destruct (first (is 0x22) b); [rewrite (S1 eq_refl) in Z; discriminate|]. rewrite (G eq_refl). lia.
    + intros Z F. rewrite (G F). specialize (Y2 Z). lia.
    + intros Z. specialize (Y1 Z). destruct (first (is 0x22) b); [rewrite (S1 eq_refl) in Z; discriminate|]. rewrite (G eq_refl). lia.
Qed.
Lemma value_cost k c b ok c' b' : k <= n -> costs (IR (RRule jValue)) c b ok c' b' k ->
  (ok = true -> k + A * length b' <= A * length b + 125) /\ (ok = false -> b' = b /\ k <= A * length b + 125 /\ (first close b = true -> k <= 125)).
Proof.
  intros Hk W. pose proof (back jValue _ _ _ _ _ _ _ (or_intror env_value) W) as Bk. pose proof (rest_le _ _ _ _ _ _ _ W) as Le.
  destruct (rule_inv _ _ _ _ _ _ _ _ env_value W) as (n1 & W1 & ->). destruct (any_inv _ _ _ _ _ _ _ W1) as (b1 & n2 & W2 & -> & ->).
  assert (Go : forall k c ok c' b', first (is 0x7B) b = false -> costs (IR (RRule jObject)) c b ok c' b' k -> ok = false /\ b' = b /\ k = 3) by (intros; eapply (guard jObject 0x7B); eauto; [lia|apply env_object]).
  assert (Ga : forall k c ok c' b', first (is 0x5B) b = false -> costs (IR (RRule jArray)) c b ok c' b' k -> ok = false /\ b' = b /\ k = 3) by (intros; eapply (guard jArray 0x5B); eauto; [lia|apply env_array]).
  apply any_calls in W2 as [[-> W2]|(c1 & b2 & n3 & n4 & W2 & W3 & ->)].
  { apply object_cost in W2 as [X _]; [|lia]. specialize (X eq_refl). split; [lia|discriminate]. }
  pose proof W2 as W2'. apply object_cost in W2' as [_ X]; [|lia]. destruct (X eq_refl) as [-> X1]. clear X.
  apply any_calls in W3 as [[-> W3]|(c3 & b4 & n5 & n6 & W3 & W4 & ->)].
  { destruct (first (is 0x7B) b) eqn:F.
    - apply (is_not _ 0x5B) in F; [|lia]. destruct (Ga _ _ _ _ _ F W3) as [Z _]. discriminate.
    - destruct (Go _ _ _ _ _ eq_refl W2) as (_ & _ & ->). apply array_cost in W3 as [X _]; [|lia]. specialize (X eq_refl). split; [lia|discriminate]. }
  pose proof W3 as W3'. apply array_cost in W3' as [_ X]; [|lia]. destruct (X eq_refl) as [-> X2]. clear X.
  destruct (scalars_cost _ _ _ _ _ _ W4) as (S1 & S2 & S3 & S4).
  assert (Quiet : first (is 0x22) b = false -> (first (is 0x7B) b = true \/ first (is 0x5B) b = true) -> ok = false).
  { intros Q F. destruct ok; auto. exfalso. clear -W4 F Q. apply works_eats in W4.
    assert (Eo : eats E (IAny [RRule jString; RRule jNumber; RRule jBool; RRule jNull]) c3 b false c3 b).
    { assert (No : forall x, (x <> 0x7B)%Z -> (x <> 0x5B)%Z -> first (is x) b = false) by (intros x N1 N2; destruct F as [F|F]; (eapply is_not; [|exact F]); intros X; subst x; auto).
      assert (Nd : first b_dig b = false) by (destruct F as [F|F]; apply first_is in F as [t ->]; reflexivity).
      eapply i_any_next; [apply (o_string_no jString); [apply env_string|auto]|]. eapply i_any_next; [apply o_number_no; auto; apply No; lia|].
      eapply i_any_next; [apply o_bool_no; apply No; lia|]. eapply i_any_next; [apply o_null_no; apply No; lia|]. constructor. }
    destruct (eats_det _ _ _ _ _ _ _ W4 _ _ _ Eo) as [Z _]. discriminate. }
  assert (Nq : first (is 0x7B) b = true \/ first (is 0x5B) b = true -> first (is 0x22) b = false) by (intros [F|F]; eapply is_not; eauto; lia).
  destruct (first (is 0x7B) b) eqn:Fo.
  - specialize (Nq ltac:(auto)). specialize (Quiet Nq ltac:(auto)). subst ok. specialize (S3 eq_refl Nq). pose proof (is_not 0x7B 0x5B b ltac:(discriminate) Fo) as Fa. destruct (Ga _ _ _ _ _ Fa W3) as (_ & _ & ->).
    split; [discriminate|]. intros _. split; auto. split; [lia|]. intros Z. apply (close_no 0x7B) in Z; [congruence|lia|lia].
  - destruct (Go _ _ _ _ _ eq_refl W2) as (_ & _ & ->). destruct (first (is 0x5B) b) eqn:Fa.
    + specialize (Nq ltac:(auto)). specialize (Quiet Nq ltac:(auto)). subst ok. specialize (S3 eq_refl Nq).
      split; [discriminate|]. intros _. split; auto. split; [lia|]. intros Z. apply (close_no 0x5B) in Z; [congruence|lia|lia].
    + destruct (Ga _ _ _ _ _ eq_refl W3) as (_ & _ & ->). pose proof (rest_le _ _ _ _ _ _ _ W4). split; [intros Z; specialize (S1 Z); subst ok; unfold A; lia|]. intros Z. split; auto. specialize (S2 Z). split; [unfold A; lia|].
      intros Y. apply (close_no 0x22) in Y; lia.
Qed.
End Step.
Lemma element_cost : forall n k c b ok c' b', k < n -> costs (IR (RRule jElement)) c b ok c' b' k -> frugal 140 k b ok b'.
Proof.
  induction n as [|n IH]; intros k c b ok c' b' Hk W; [lia|]. destruct (rule_inv _ _ _ _ _ _ _ _ env_element W) as (n1 & W1 & ->). destruct (seq_inv _ _ _ _ _ _ _ W1) as (b1 & n2 & W2 & -> & ->).
  apply seq_calls in W2 as [[-> W2]|(c2 & b2 & n3 & n4 & W2 & W3 & ->)]; [apply ws_inv in W2 as (? & _ & X & _); discriminate|].
  apply ws_inv in W2 as (w & -> & _ & F & J & K). assert (Sp : spaced (w ++ b2) w b2) by (repeat split; auto).
  apply seq_calls in W3 as [[-> W3]|(c3 & b3 & n5 & n6 & W3 & W4 & ->)]; apply (value_cost n IH) in W3 as [V1 V2]; try lia.
  - split; [discriminate|]. intros _ w' t' Sp'. destruct (spaced_same _ _ _ _ _ Sp Sp') as [<- <-]. destruct (V2 eq_refl) as (_ & X & Y). split; [lia|]. intros Z. specialize (Y Z). lia.
  - specialize (V1 eq_refl). apply seq_calls in W4 as [[-> W4]|(c4 & b4 & n7 & n8 & W4 & W5 & ->)]; [apply ws_inv in W4 as (? & _ & X & _); discriminate|].
    apply ws_inv in W4 as (w4 & -> & _ & _ & _ & K4). apply nil_seq in W5 as (-> & -> & ->). split; [|discriminate]. intros _. rewrite !app_length in *. unfold A in *. lia.
Qed.
(** JSON() does work in proportion to the text. *)
Lemma json_cost c b ok c' b' k : costs (IR json) c b ok c' b' k -> k <= 250 * length b + 140.
Proof.
  intros W. apply grammar_calls_inv in W as (n1 & W1 & ->). unfold each in *. set (n := 1 + n1) in *.
  destruct (element_cost (S n) n _ _ _ _ _ ltac:(lia) W1) as [X Y]. destruct ok; [specialize (X eq_refl); unfold A in *; lia|].
  destruct (ws_run b) as (w & t & Eq & J & F & _). destruct (Y eq_refl w t (conj Eq (conj J F))) as [Z _]. subst b. rewrite app_length. unfold A in *. lia.
Qed.
End JsonCost.

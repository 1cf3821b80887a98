(** PickFrom.v - where the segments of a Basket come from: each is a parse of a chosen rule, at a place of the text that
    meets any invariant the grammar keeps. *)
From Verif Require Import CfgFacts UseFacts PropTrack Grammar LuaSyntax.
From Coq Require Import Lia ZifyBool.

Section From.
Context (e : env) (k : nat) (R : nat -> bool) (N : Z) (W : cells -> bytes -> Prop) (G : reader -> Prop) (of : bytes -> nat -> reader -> Prop) (V : nat -> Prop).
(** A reader without picks, or a pick of one. *)
Definition top (r : reader) : Prop := match r with RPick w k' q => of w k' q /\ rallP G q | _ => rallP G r end.
Context (Gp : forall w k' q, ~ G (RPick w k' q)) (Gv : forall r, G r -> match r with RRule i | RGrammar _ _ i => V i | _ => True end) (Te : forall i r, V i -> r_reader (get_rule e i) = Some r -> top r) (HWs : forall c b, W c b -> W c (snd (step b))).
Context (HW : forall r c b ok c' b', top r -> eats e (IR r) c b ok c' b' -> W c b -> W c' b').
Definition from_parse (g : segment) : Prop :=
  exists w r c0 b0 c1 b1, of w k r /\ rallP G r /\ W c0 b0 /\ eats e (IR r) c0 b0 true c1 b1 /\ g = seg_of N w b0 b1.
Definition tops (i : item) : Prop :=
  match i with
  | IR r | IRep r | ITimes _ r | IPast r | ITo r => top r
  | IAny rs | ISeq rs => Forall top rs
  | IBody _ _ d t => top t
  end.
Lemma top_of r : rallP G r -> top r.
Proof. destruct r; auto. intros [H _]. destruct (Gp _ _ _ H). Qed.
Lemma tops_of rs : fold_right (fun x q => rallP G x /\ q) True rs -> Forall top rs.
Proof. intros H. apply MarksFacts.all_Forall in H. eapply Forall_impl; [|exact H]. exact top_of. Qed.
Lemma from_cut b l : Forall from_parse l -> Forall from_parse (cut N b l).
Proof. intros H. apply Forall_forall. intros x Hx. apply filter_In in Hx as [Hx _]. rewrite Forall_forall in H. auto. Qed.
Lemma from_back ok b l : Forall from_parse l -> Forall from_parse (back N ok b l).
Proof. destruct ok; cbn; auto using from_cut. Qed.
Lemma top_interleave sk rs : top sk -> Forall top rs -> Forall top (interleave sk rs).
Proof. intros H. induction 1; cbn; auto. Qed.

Lemma marks_from i c b ok c' b' l : marks e k R N i c b ok c' b' l -> tops i -> W c b -> Forall from_parse l.
Proof.
  induction 1; intros Hp Hw; cbn [tops] in *; try constructor;
    try match goal with H : top (RPick _ _ _) |- _ => idtac | H : top (_ _) |- _ => pose proof H as Hp'; cbn [top rallP] in Hp' | H : top (_ _ _) |- _ => pose proof H as Hp'; cbn [top rallP] in Hp' | H : top (_ _ _ _) |- _ => pose proof H as Hp'; cbn [top rallP] in Hp' end;
    try match goal with H : Forall top (_ :: _) |- _ => inversion H; subst; clear H end;
    try (apply from_back); try (apply from_cut); try solve [apply IHmarks; auto; apply top_of; tauto|apply IHmarks; auto].
  - apply IHmarks; auto. exact (Te _ _ (Gv _ (proj1 Hp')) H).
  - apply IHmarks; auto. exact (Te _ _ (Gv _ (proj1 Hp')) H).
  - destruct Hp as [Ho Hq]. assert (F : Forall from_parse l) by (apply IHmarks; auto; apply top_of; auto). destruct ok; [|apply from_cut; auto]. apply Forall_app. split; auto.
    unfold picked_by. destruct (Nat.eqb_spec k' k); constructor; auto. subst k'. exists w, r, c, b, c', b'. split; [exact Ho|]. split; [exact Hq|]. split; [exact Hw|]. split; [|reflexivity]. eapply marks_eats; eauto.
  - apply IHmarks; auto. apply tops_of. apply Hp'.
  - apply IHmarks; auto. apply tops_of. apply Hp'.
  - apply IHmarks; auto. apply top_interleave; [apply top_of; apply Hp'|]. apply tops_of. apply Hp'.
  - apply Forall_app. split; [apply IHmarks1; auto|]. apply IHmarks2; auto. eapply HW; [|eapply marks_eats; eauto|]; auto.
  - apply Forall_app. split; [apply IHmarks1; auto|]. apply IHmarks2; auto. eapply HW; [|eapply marks_eats; eauto|]; auto.
  - apply Forall_app. split; [apply IHmarks1; auto|]. apply IHmarks2; auto. eapply HW; [|eapply marks_eats; eauto|]; auto.
  - apply Forall_app. split; [apply IHmarks1; auto|]. apply IHmarks2; auto. eapply HW; [|eapply marks_eats; eauto|]; auto.
  - apply Forall_app. split; [apply IHmarks1; auto|]. apply IHmarks2; auto. apply HWs. eapply HW; [|eapply marks_eats; eauto|]; auto.
  - apply Forall_app. split; [apply IHmarks1; auto|]. apply IHmarks2; auto. replace b2 with (snd (step b1)) by (rewrite H0; auto). apply HWs. eapply HW; [|eapply marks_eats; eauto|]; auto.
  - apply Forall_app. split; [apply IHmarks1; tauto|]. apply IHmarks2; auto. apply HWs. eapply HW; [|eapply marks_eats; eauto|]; tauto.
Qed.
End From.

Section Picked.
Context {L : GoLib} (e : env) (k : nat) (ids : list nat) (R : nat -> bool) (M : may_pick R ids e) (Ce : eall covered e).
Let e' := pick_rules k ids e.
(** Picks do not change a parse. *)
Lemma picked_eats r c b ok c' b' : rall (pickless R) r = true -> rall covered r = true -> slen b < 2 ^ 63 ->
  eats e' (IR r) c b ok c' b' -> eats e (IR r) c b ok c' b'.
Proof.
  intros Hr Hc Lt D. destruct (may_altered R ids e k M) as [Al Ru]. destruct M as (C & P & Q & N & B & Rb).
  pose proof (stands_start c b Lt) as St. destruct (eats_reads e' r _ _ _ _ _ _ _ D St) as (x & s' & Rd & <- & S').
  assert (I1 : in_text (start_of c b)) by (split; [cbn; pose proof (slen_nonneg b); lia|exact Lt]).
  pose proof (pick_bare R e e' k _ C P Al) as Eb.
  destruct (pick_transparent e' r (start_of c b) (start_of c b) I1 ltac:(repeat split) (pickless_fits e' R r Hr) (pick_fits e e' k _ R C P Q Al)) as (A & _).
  destruct (A _ _ Rd) as (t & Rt & S1 & S2 & S3). rewrite Eb, (pickless_bare R) in Rt by auto.
  destruct (reads_eats e r _ _ _ _ _ _ Ce Hc St Rt) as (c2 & b2 & T & D2).
  assert (T' : stands b c2 b2 s').
  { destruct T as (T1 & T2 & T3 & T4 & T5). repeat split; auto; congruence. }
  destruct (stands_fun _ _ _ _ _ _ S' T') as [-> ->]. exact D2.
Qed.

Context (W : cells -> bytes -> Prop) (G : reader -> Prop) (V : nat -> Prop) (Gv : forall r, G r -> match r with RRule i | RGrammar _ _ i => V i | _ => True end).
Context (Ge : forall i q, V i -> r_reader (get_rule e i) = Some q -> rallP G q) (HWs : forall c b, W c b -> W c (snd (step b))).
Context (HW : forall r c b ok c' b', rallP G r -> eats e (IR r) c b ok c' b' -> W c b -> W c' b').
Definition plain_ (r : reader) : Prop := G r /\ pickless R r = true /\ covered r = true.
Definition of_ids (w : bytes) (k' : nat) (q : reader) : Prop := exists j, V j /\ chosen ids j = true /\ r_reader (get_rule e j) = Some q /\ w = r_name (get_rule e j).
Lemma plain_all r : rallP plain_ r -> rallP G r /\ rall (pickless R) r = true /\ rall covered r = true.
Proof.
  intros H. split; [|split; apply rallP_rall]; revert H; apply rallP_impl; intros x Hx; apply Hx.
Qed.
Lemma all_plain r : rallP G r -> rall (pickless R) r = true -> rall covered r = true -> rallP plain_ r.
Proof. intros H1 H2 H3. apply rallP_and; auto. apply rallP_and; apply rallP_rall; auto. Qed.
(** Every segment in the basket is a parse of a chosen rule. *)
Lemma basket_from r s a b x s' g : rall (pickless R) r = true -> rall covered r = true -> rallP G r -> at_split s a b -> W (h_cells (hp s)) b ->
  reads e' r (new_basket k s) x s' -> In g (get_basket k (hp s')) ->
  exists j q u v z c c', V j /\ In j ids /\ s_info g = r_name (get_rule e j) /\ r_reader (get_rule e j) = Some q /\
    a ++ b = u ++ v ++ z /\ s_tok g = mkTok (slen u) (slen (u ++ v)) /\ W c (v ++ z) /\ eats e (IR q) c (v ++ z) true c' z.
Proof.
  intros Hr Hc Hg Sp Hw Rd Ig. destruct (may_altered R ids e k M) as [Al Ru]. pose proof M as (C & P & Q & N & B & Rb).
  assert (Lt : slen (a ++ b) < 2 ^ 63) by apply Sp.
  assert (Pe : forall i q, V i -> r_reader (get_rule e i) = Some q -> rallP plain_ q) by (intros i q Vi E; apply all_plain; [exact (Ge i q Vi E)|exact (P i q E)|exact (Ce i q E)]).
  assert (Np : forall w k' q, ~ plain_ (RPick w k' q)) by (intros w k' q (_ & H & _); discriminate).
  assert (Te : forall i q, V i -> r_reader (get_rule e' i) = Some q -> top plain_ of_ids q).
  { intros i q Vi E. destruct (Nat.lt_ge_cases i (length e)) as [K|K].
    - destruct Al as [_ Gt]. unfold e' in E. rewrite Gt in E by auto. destruct (chosen ids i) eqn:Es; [|apply top_of; [exact Np|]; eapply Pe; eauto].
      specialize (C i K). destruct (r_reader (get_rule e i)) as [y|] eqn:Er; [|contradiction]. cbn in E. unfold rule_sub in E. rewrite Er in E. injection E as <-. split; [|eapply Pe; eauto]. exists i. auto.
    - destruct Al as [Ln _]. unfold e' in E. rewrite rule_beyond in E by lia. discriminate. }
  set (W' := fun c b1 => W c b1 /\ exists a1, a ++ b = a1 ++ b1).
  assert (HW0 : forall q c y ok c' y', rallP plain_ q -> eats e' (IR q) c y ok c' y' -> W' c y -> W' c' y' /\ eats e (IR q) c y ok c' y').
  { intros q c y ok c' y' Hq D [Wy [a1 Ea]]. apply plain_all in Hq as (Q1 & Q2 & Q3).
    assert (Ly : slen y < 2 ^ 63) by (rewrite Ea, slen_app in Lt; pose proof (slen_nonneg a1); lia).
    apply picked_eats in D; auto. split; [|auto]. split; [eapply HW; eauto|]. destruct (eats_suffix _ _ _ _ _ _ _ D) as [d ->]. exists (a1 ++ d). rewrite Ea, app_assoc. auto. }
  assert (HW1 : forall q c y ok c' y', top plain_ of_ids q -> eats e' (IR q) c y ok c' y' -> W' c y -> W' c' y').
  { intros q c y ok c' y' Hq D Wy. destruct q; cbn [top] in Hq; try (eapply HW0; eauto; fail).
    destruct Hq as [(j & _ & _ & Ej & _) Hq]. inversion D; subst; try discriminate. match goal with H : eats e' _ _ _ _ _ _ |- _ => destruct (HW0 _ _ _ _ _ _ Hq H Wy) as [W1 D1] end. destruct ok; auto.
    pose proof (eats_restore e Q _ _ _ _ _ _ D1) as X. cbn in X. rewrite (X (Q _ _ Ej) eq_refl) in W1. exact W1. }
  assert (Cv : eall covered e').
  { intros i q E. apply rallP_rall. revert i q E. change (eallP (fun r => covered r = true) e'). eapply pick_all; eauto. intros i q E. apply rallP_rall. exact (Ce i q E). }
  assert (Fl : forall q, rall (pickless R) q = true -> rallP (flat_body k R) q).
  { intros q Hq. apply rallP_rall in Hq. revert Hq. apply rallP_impl. intros y H. destruct y; cbn in *; auto; unfold unpicked; revert H; apply rall_impl; intros z; destruct z; cbn; auto; discriminate. }
  assert (Fe : eallP (flat_body k R) e').
  { eapply pick_all; eauto; [intros i q E; apply Fl; exact (P i q E)|intros; exact Logic.I]. }
  destruct (reads_marks e' k R (pick_unpicked e e' k _ R Al Ru Rb) r (a ++ b) (h_cells (hp s)) b [] (new_basket k s) x s' Cv Fe Hc (Fl r Hr)) as (c' & b' & l & Mk & S'); auto.
  { split; [exact (stands_split _ _ _ Sp)|]. split; [reflexivity|apply get_put_basket]. }
  { constructor. }
  destruct S' as (_ & _ & Eg). rewrite Eg in Ig. cbn [app] in Ig.
  assert (Tr : top plain_ of_ids r) by (apply top_of; [exact Np|]; apply all_plain; auto).
  pose proof (marks_from e' k R (slen (a ++ b)) W' plain_ of_ids V Np (fun r H => Gv r (proj1 H)) Te) as F.
  assert (HWs' : forall c y, W' c y -> W' c (snd (step y))).
  { intros c y [W1 [a1 E1]]. split; [auto|]. destruct (step_suffix y) as [d Ed]. exists (a1 ++ d). rewrite E1, Ed at 1. apply app_assoc. }
  specialize (F HWs' HW1 (IR r) _ _ _ _ _ _ Mk Tr (conj Hw (ex_intro _ a eq_refl))). rewrite Forall_forall in F.
  destruct (F g Ig) as (w & q & c0 & b0 & c1 & b1 & (j & Vj & Cj & Ej & ->) & Hq & Wb & D & ->).
  destruct (HW0 _ _ _ _ _ _ Hq D Wb) as [_ D1]. destruct Wb as [Wb [a0 Ea]]. destruct (eats_suffix _ _ _ _ _ _ _ D1) as [v ->].
  exists j, q, a0, v, b1, c0, c1. split; [auto|]. split. { unfold chosen in Cj. apply existsb_exists in Cj as (i & Ii & X). apply Nat.eqb_eq in X. congruence. }
  split; [reflexivity|]. split; [auto|]. split; [auto|]. split; [|auto]. cbn. rewrite Ea, !slen_app. f_equal; lia.
Qed.
End Picked.

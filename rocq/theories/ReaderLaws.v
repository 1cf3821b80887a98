(** ReaderLaws.v - which readers behave alike. *)
From Verif Require Export Exchange CostBound.
From Coq Require Import Lia ZifyBool.
From Verif Require Import ReaderFacts.

Section Laws.
Context (e : env).
Notation E i c b ok c' b' := (eats e i c b ok c' b').
(** A failing [r] does not move; [r] leaves the strings of the Janus pairs as they are. *)
Definition tidy (r : reader) : Prop := forall c b c' b', E (IR r) c b false c' b' -> b' = b.
Definition keeps (r : reader) : Prop := forall c b ok c' b', E (IR r) c b ok c' b' -> c' = c.

(* ------------------------------------------------------ taking readers apart *)

Lemma any_in rs c b ok c' b' : E (IR (RAny rs)) c b ok c' b' <-> exists b1, E (IAny rs) c b ok c' b1 /\ b' = if ok then b1 else b.
Proof. split; [inversion 1; subst; try discriminate; eauto|intros (b1 & H & ->); constructor; auto]. Qed.
Lemma seq_in rs c b ok c' b' : E (IR (RSeq rs)) c b ok c' b' <-> exists b1, E (ISeq rs) c b ok c' b1 /\ b' = if ok then b1 else b.
Proof. split; [inversion 1; subst; try discriminate; eauto|intros (b1 & H & ->); constructor; auto]. Qed.
Lemma any_cons r rs c b ok c' b' : E (IAny (r :: rs)) c b ok c' b' <-> (ok = true /\ E (IR r) c b true c' b') \/ exists c1 b1, E (IR r) c b false c1 b1 /\ E (IAny rs) c1 b1 ok c' b'.
Proof. split; [inversion 1; subst; eauto|intros [[-> H]|(c1 & b1 & H1 & H2)]; [now constructor|econstructor; eauto]]. Qed.
Lemma seq_cons r rs c b ok c' b' : E (ISeq (r :: rs)) c b ok c' b' <-> (ok = false /\ E (IR r) c b false c' b') \/ exists c1 b1, E (IR r) c b true c1 b1 /\ E (ISeq rs) c1 b1 ok c' b'.
Proof. split; [inversion 1; subst; eauto|intros [[-> H]|(c1 & b1 & H1 & H2)]; [now constructor|econstructor; eauto]]. Qed.
Lemma any_nil c b ok c' b' : E (IAny []) c b ok c' b' <-> ok = false /\ c' = c /\ b' = b.
Proof. split; [inversion 1; auto|intros (-> & -> & ->); constructor]. Qed.
Lemma seq_nil c b ok c' b' : E (ISeq []) c b ok c' b' <-> ok = true /\ c' = c /\ b' = b.
Proof. split; [inversion 1; auto|intros (-> & -> & ->); constructor]. Qed.
Lemma any_app xs ys c b ok c' b' : E (IAny (xs ++ ys)) c b ok c' b' <-> (ok = true /\ E (IAny xs) c b true c' b') \/ exists c1 b1, E (IAny xs) c b false c1 b1 /\ E (IAny ys) c1 b1 ok c' b'.
Proof.
  revert c b. induction xs as [|x xs IH]; intros c b; cbn [app].
  - split; [intros H; right; exists c, b; split; auto; constructor|intros [[_ H]|(c1 & b1 & H & H2)]; inversion H; subst; auto].
  - rewrite !any_cons. split.
    + intros [[-> H]|(c1 & b1 & H1 & H2)]; [auto|]. apply IH in H2 as [[-> H2]|(c2 & b2 & H2 & H3)]; [left; split; auto; right; eauto|]. right. exists c2, b2. split; auto. apply any_cons. right. eauto.
    + intros [[-> [[_ H]|(c1 & b1 & H1 & H2)]]|(c1 & b1 & H & H3)]; [auto|right; exists c1, b1; split; auto; apply IH; auto|].
      apply any_cons in H as [[X _]|(c2 & b2 & H1 & H2)]; [discriminate|]. right. exists c2, b2. split; auto. apply IH. right. eauto.
Qed.
Lemma seq_app xs ys c b ok c' b' : E (ISeq (xs ++ ys)) c b ok c' b' <-> (ok = false /\ E (ISeq xs) c b false c' b') \/ exists c1 b1, E (ISeq xs) c b true c1 b1 /\ E (ISeq ys) c1 b1 ok c' b'.
Proof.
  revert c b. induction xs as [|x xs IH]; intros c b; cbn [app].
  - split; [intros H; right; exists c, b; split; auto; constructor|intros [[_ H]|(c1 & b1 & H & H2)]; inversion H; subst; auto].
  - rewrite !seq_cons. split.
    + intros [[-> H]|(c1 & b1 & H1 & H2)]; [auto|]. apply IH in H2 as [[-> H2]|(c2 & b2 & H2 & H3)]; [left; split; auto; right; eauto|]. right. exists c2, b2. split; auto. apply seq_cons. right. eauto.
    + intros [[-> [[_ H]|(c1 & b1 & H1 & H2)]]|(c1 & b1 & H & H3)]; [auto|right; exists c1, b1; split; auto; apply IH; auto|].
      apply seq_cons in H as [[X _]|(c2 & b2 & H1 & H2)]; [discriminate|]. right. exists c2, b2. split; auto. apply IH. right. eauto.
Qed.
Lemma any_tidy rs c b c' b' : Forall tidy rs -> E (IAny rs) c b false c' b' -> b' = b.
Proof.
  intros F. revert c b. induction F as [|r rs T F IH]; intros c b H; [apply any_nil in H; tauto|]. apply any_cons in H as [[X _]|(c1 & b1 & H1 & H2)]; [discriminate|].
  apply T in H1. subst b1. eauto.
Qed.
Lemma alike_iff r1 r2 : (forall c b ok c' b', E (IR r1) c b ok c' b' <-> E (IR r2) c b ok c' b') -> alike e r1 r2.
Proof. intros H. split; intros c b ok c' b'; apply H. Qed.

(* ----------------------------------------------------------------- the laws *)

(** Any(a.., Any(b..), c..) is Any(a.., b.., c..) - if failing b.. do not move. *)
Lemma law_any_flat xs rs ys : Forall tidy rs -> alike e (RAny (xs ++ RAny rs :: ys)) (RAny (xs ++ rs ++ ys)).
Proof.
  intros T. apply alike_iff. intros c b ok c' b'. rewrite !any_in.
  enough (X : forall b1, E (IAny (xs ++ RAny rs :: ys)) c b ok c' b1 <-> E (IAny (xs ++ rs ++ ys)) c b ok c' b1) by (split; intros (b1 & H & ->); exists b1; split; auto; apply X; auto).
  intros b1. rewrite !any_app. assert (Y : forall c2 b2, E (IAny (RAny rs :: ys)) c2 b2 ok c' b1 <-> E (IAny (rs ++ ys)) c2 b2 ok c' b1).
  { intros c2 b2. rewrite any_cons, any_app. split.
    - intros [[-> H]|(c3 & b3 & H1 & H2)].
      + apply any_in in H as (b4 & H & ->). auto.
      + apply any_in in H1 as (b4 & H & ->). right. exists c3, b4. pose proof (any_tidy _ _ _ _ _ T H). subst b4. auto.
    - intros [[-> H]|(c3 & b3 & H1 & H2)]; [left; split; auto; apply any_in; eauto|]. pose proof (any_tidy _ _ _ _ _ T H1). subst b3. right. exists c3, b2. split; auto. apply any_in. eauto. }
  split; (intros [H|(c2 & b2 & H1 & H2)]; [auto|right; exists c2, b2; split; auto; apply Y; auto]).
Qed.
(** Seq(a.., Seq(b..), c..) is Seq(a.., b.., c..). *)
Lemma law_seq_flat xs rs ys : alike e (RSeq (xs ++ RSeq rs :: ys)) (RSeq (xs ++ rs ++ ys)).
Proof.
  apply alike_iff. intros c b ok c' b'. rewrite !seq_in.
  assert (Y : forall c2 b2 b1, E (ISeq (RSeq rs :: ys)) c2 b2 ok c' b1 -> exists b3, E (ISeq (rs ++ ys)) c2 b2 ok c' b3 /\ (ok = true -> b1 = b3)).
  { intros c2 b2 b1. rewrite seq_cons. intros [[-> H]|(c3 & b3 & H1 & H2)].
    - apply seq_in in H as (b4 & H & ->). exists b4. split; [apply seq_app; auto|discriminate].
    - apply seq_in in H1 as (b4 & H & ->). exists b1. split; auto. apply seq_app. right. eauto. }
  assert (Z : forall c2 b2 b1, E (ISeq (rs ++ ys)) c2 b2 ok c' b1 -> exists b3, E (ISeq (RSeq rs :: ys)) c2 b2 ok c' b3 /\ (ok = true -> b1 = b3)).
  { intros c2 b2 b1. rewrite seq_app. intros [[-> H]|(c3 & b3 & H1 & H2)].
    - exists b2. split; [|discriminate]. apply seq_cons. left. split; auto. apply seq_in. eauto.
    - exists b1. split; auto. apply seq_cons. right. exists c3, b3. split; auto. apply seq_in. eauto. }
  split; intros (b1 & H & ->); apply seq_app in H as [[-> H]|(c1 & b2 & H1 & H2)].
  - exists b1. split; auto. apply seq_app. auto.
  - apply Y in H2 as (b3 & H2 & Q). exists b3. split; [apply seq_app; right; eauto|destruct ok; auto].
  - exists b1. split; auto. apply seq_app. auto.
  - apply Z in H2 as (b3 & H2 & Q). exists b3. split; [apply seq_app; right; eauto|destruct ok; auto].
Qed.
(** Any(a) is a, and Seq(a) is a - exactly if a failing a does not move. *)
Lemma law_any_one r : alike e (RAny [r]) r <-> tidy r.
Proof.
  split.
  - intros [_ D] c b c' b' H. apply D in H. apply any_in in H as (b1 & _ & ->). reflexivity.
  - intros T. apply alike_iff. intros c b ok c' b'. rewrite any_in. split.
    + intros (b1 & H & ->). apply any_cons in H as [[-> H]|(c1 & b2 & H1 & H2)]; auto. apply any_nil in H2 as (-> & -> & ->). now rewrite <- (T _ _ _ _ H1) at 2.
    + intros H. exists b'. destruct ok; [split; auto; apply any_cons; auto|]. pose proof (T _ _ _ _ H) as ->. split; auto. apply any_cons. right. exists c', b. split; auto. constructor.
Qed.
Lemma law_seq_one r : alike e (RSeq [r]) r <-> tidy r.
Proof.
  split.
  - intros [_ D] c b c' b' H. apply D in H. apply seq_in in H as (b1 & _ & ->). reflexivity.
  - intros T. apply alike_iff. intros c b ok c' b'. rewrite seq_in. split.
    + intros (b1 & H & ->). apply seq_cons in H as [[-> H]|(c1 & b2 & H1 & H2)]; [now rewrite <- (T _ _ _ _ H) at 2|]. apply seq_nil in H2 as (-> & -> & ->). auto.
    + intros H. exists b'. destruct ok; [split; auto; apply seq_cons; right; exists c', b'; split; auto; constructor|]. pose proof (T _ _ _ _ H) as ->. split; auto. apply seq_cons. auto.
Qed.
(** Opt(a) is Any(a, ""). *)
Lemma lit_nil c b ok c' b' : E (IR (RLit [])) c b ok c' b' <-> ok = true /\ c' = c /\ b' = b.
Proof.
  split; [inversion 1; subst; try discriminate; auto|intros (-> & -> & ->); exact (e_lit_yes e [] c b)].
  exfalso. match goal with X : forall t, _ |- _ => apply (X b'); reflexivity end.
Qed.
Lemma opt_in r c b ok c' b' : E (IR (ROpt r)) c b ok c' b' <-> ok = true /\ exists ok1, E (IR r) c b ok1 c' b'.
Proof. split; [inversion 1; subst; try discriminate; eauto|intros (-> & ok1 & H); econstructor; eauto]. Qed.
Lemma law_opt r : alike e (ROpt r) (RAny [r; RLit []]).
Proof.
  apply alike_iff. intros c b ok c' b'. rewrite opt_in, any_in. split.
  - intros (-> & ok1 & H). exists b'. split; auto. apply any_cons. destruct ok1; [auto|]. right. exists c', b'. split; auto. apply any_cons. left. split; auto. apply lit_nil. auto.
  - intros (b1 & H & ->). apply any_cons in H as [[-> H]|(c1 & b2 & H1 & H2)]; [eauto|]. apply any_cons in H2 as [[-> H2]|(c2 & b3 & H2 & _)]; [apply lit_nil in H2 as (_ & -> & ->); eauto|apply lit_nil in H2 as (X & _); discriminate].
Qed.
(** Zom(a) is Opt(Seq(a, Zom(a))), if a failing a does not move. *)
Lemma zom_in r c b ok c' b' : E (IR (RZom r)) c b ok c' b' <-> ok = true /\ E (IRep r) c b true c' b'.
Proof. split; [inversion 1; subst; try discriminate; eauto|intros (-> & H); constructor; auto]. Qed.
Lemma rep_in r c b ok c' b' : E (IRep r) c b ok c' b' <-> ok = true /\ (E (IR r) c b false c' b' \/ exists c1 b1, E (IR r) c b true c1 b1 /\ E (IRep r) c1 b1 true c' b').
Proof. split; [inversion 1; subst; eauto 6|intros (-> & [H|(c1 & b1 & H1 & H2)]); [now apply i_rep_stop|eapply i_rep_next; eauto]]. Qed.
Lemma seq_zom_in r c b ok c' b' : tidy r -> (E (IR (RSeq [r; RZom r])) c b ok c' b' <->
  if ok then exists c1 b1, E (IR r) c b true c1 b1 /\ E (IRep r) c1 b1 true c' b' else b' = b /\ E (IR r) c b false c' b).
Proof.
  intros T. rewrite seq_in. split.
  - intros (b1 & H & ->). apply seq_cons in H as [[-> H]|(c1 & b2 & H1 & H2)]; [pose proof (T _ _ _ _ H) as ->; auto|].
    apply seq_cons in H2 as [[-> H2]|(c2 & b3 & H2 & H3)]; [apply zom_in in H2 as [X _]; discriminate|]. apply zom_in in H2 as [_ H2]. apply seq_nil in H3 as (-> & -> & ->). eauto.
  - destruct ok; [intros (c1 & b1 & H1 & H2); exists b'; split; auto|intros [-> H]; exists b; split; auto; apply seq_cons; auto].
    apply seq_cons. right. exists c1, b1. split; auto. apply seq_cons. right. exists c', b'. split; [apply zom_in; auto|constructor].
Qed.
Lemma law_zom r : tidy r -> alike e (RZom r) (ROpt (RSeq [r; RZom r])).
Proof.
  intros T. apply alike_iff. intros c b ok c' b'. rewrite zom_in, opt_in, rep_in. split.
  - intros (-> & _ & [H|(c1 & b1 & H1 & H2)]); split; auto; [exists false|exists true]; apply seq_zom_in; auto; [pose proof (T _ _ _ _ H) as ->; auto|eauto].
  - intros (-> & ok1 & H). apply seq_zom_in in H; auto. destruct ok1; [eauto 6|destruct H as [-> H]; auto].
Qed.
(** Many(a) is Seq(a, Zom(a)), if moreover a leaves the strings of the Janus pairs. *)
Lemma rep_moves_on r c b c1 b1 c' b' : keeps r -> E (IR r) c b true c1 b1 -> E (IRep r) c1 b1 true c' b' -> (length b1 < length b)%nat.
Proof.
  intros K H1 H2. pose proof (K _ _ _ _ _ H1) as ->. destruct (eats_suffix _ _ _ _ _ _ _ H1) as [d ->]. destruct d as [|x d]; [|cbn; rewrite app_length; lia]. cbn [app] in H1.
  destruct (eats_works e each _ _ _ _ _ _ H1) as (k1 & W1). destruct (eats_works e each _ _ _ _ _ _ H2) as (k2 & W2).
  pose proof (works_det _ _ _ _ _ _ _ _ _ (wi_rep_next _ _ _ _ _ _ _ _ _ _ _ W1 W2) _ _ _ _ W2) as X. assert (k1 = 0%nat) by lia. subst k1.
  inversion W1; unfold each in *; lia.
Qed.
Lemma rep_le r c b ok c' b' : E (IRep r) c b ok c' b' -> (length b' <= length b)%nat.
Proof. intros H. destruct (eats_suffix _ _ _ _ _ _ _ H) as [d ->]. rewrite app_length. lia. Qed.
Lemma many_in r c b ok c' b' : E (IR (RMany r)) c b ok c' b' <-> ok = Nat.ltb (length b') (length b) /\ E (IRep r) c b true c' b'.
Proof. split; [inversion 1; subst; try discriminate; eauto|intros (-> & H); constructor; auto]. Qed.
Lemma law_many r : tidy r -> keeps r -> alike e (RMany r) (RSeq [r; RZom r]).
Proof.
  intros T K. apply alike_iff. intros c b ok c' b'. rewrite many_in, (seq_zom_in r); auto. split.
  - intros (-> & H). apply rep_in in H as (_ & [H|(c1 & b1 & H1 & H2)]).
    + pose proof (T _ _ _ _ H) as ->. rewrite Nat.ltb_irrefl. auto.
    + pose proof (rep_moves_on _ _ _ _ _ _ _ K H1 H2). pose proof (rep_le _ _ _ _ _ _ H2). destruct (Nat.ltb_spec (length b') (length b)); [eauto|lia].
  - destruct ok.
    + intros (c1 & b1 & H1 & H2). pose proof (rep_moves_on _ _ _ _ _ _ _ K H1 H2). pose proof (rep_le _ _ _ _ _ _ H2). split; [symmetry; apply Nat.ltb_lt; lia|]. apply rep_in. eauto 6.
    + intros [-> H]. rewrite Nat.ltb_irrefl. split; auto. now apply i_rep_stop.
Qed.
(** Seq(a, .. , a) with k a is Any(Times(k, a)). *)
Lemma times_in k r c b ok c' b' : E (ITimes k r) c b ok c' b' <-> E (ISeq (repeat r k)) c b ok c' b'.
Proof.
  revert c b. induction k as [|k IH]; intros c b; cbn [repeat]; [rewrite seq_nil; split; [inversion 1; auto|intros (-> & -> & ->); constructor]|].
  rewrite seq_cons. split; [inversion 1; subst; [auto|right; eexists _, _; split; [eassumption|now apply IH]]|].
  intros [[-> H]|(c1 & b1 & H1 & H2)]; [now constructor|econstructor; [eassumption|now apply IH]].
Qed.
Lemma law_times k r : alike e (RAny [RTimes k r]) (RSeq (repeat r (Z.to_nat k))).
Proof.
  apply alike_iff. intros c b ok c' b'. rewrite any_in, seq_in. split; intros (b1 & H & ->).
  - apply any_cons in H as [[-> H]|(c1 & b2 & H1 & H2)]; [exists b1|apply any_nil in H2 as (-> & -> & ->); exists b2]; split; auto; apply times_in; inversion H || inversion H1; subst; try discriminate; auto.
  - apply times_in in H. exists b1. split; auto. apply any_cons. destruct ok; [left; split; auto; now constructor|]. right. exists c', b1. split; [now constructor|constructor].
Qed.
(** Left factoring: Any(Seq(a, b..), Seq(a, c..)) is Seq(a, Any(Seq(b..), Seq(c..))). *)
Lemma seq_keeps rs c b ok c' b' : Forall keeps rs -> E (ISeq rs) c b ok c' b' -> c' = c.
Proof.
  intros F. revert c b. induction F as [|r rs K F IH]; intros c b H; [apply seq_nil in H; tauto|]. apply seq_cons in H as [[-> H]|(c1 & b1 & H1 & H2)]; [eapply K; eauto|]. pose proof (K _ _ _ _ _ H1) as ->. eauto.
Qed.
Lemma law_factor a xs ys : keeps a -> Forall keeps xs -> alike e (RAny [RSeq (a :: xs); RSeq (a :: ys)]) (RSeq [a; RAny [RSeq xs; RSeq ys]]).
Proof.
  intros Ka Kx. apply alike_iff. intros c b ok c' b'. rewrite any_in, seq_in. split.
  - intros (b1 & H & ->). apply any_cons in H as [[-> H]|(c1 & b2 & H1 & H2)].
    + apply seq_in in H as (b3 & H & ->). apply seq_cons in H as [[X _]|(c1 & b2 & H1 & H2)]; [discriminate|]. exists b3. split; auto. apply seq_cons. right. exists c1, b2. split; auto.
      apply seq_cons. right. exists c', b3. split; [|constructor]. apply any_in. exists b3. split; auto. apply any_cons. left. split; auto. apply seq_in. eauto.
    + apply seq_in in H1 as (b3 & H1 & ->). assert (c1 = c) as -> by (apply (seq_keeps (a :: xs)) in H1; auto).
      apply any_cons in H2 as [[-> H2]|(c2 & b4 & H2 & H4)].
      * apply seq_in in H2 as (b5 & H2 & ->). apply seq_cons in H2 as [[X _]|(c2 & b6 & H2 & H4)]; [discriminate|]. pose proof (Ka _ _ _ _ _ H2) as ->.
        apply seq_cons in H1 as [[_ H1]|(c2 & b7 & H1 & H5)]; [destruct (eats_det _ _ _ _ _ _ _ H1 _ _ _ H2); discriminate|]. destruct (eats_det _ _ _ _ _ _ _ H1 _ _ _ H2) as (_ & -> & ->).
        exists b5. split; auto. apply seq_cons. right. exists c, b6. split; auto. apply seq_cons. right. exists c', b5. split; [|constructor]. apply any_in. exists b5. split; auto.
        apply any_cons. right. exists c, b6. split; [apply seq_in; eauto|]. apply any_cons. left. split; auto. apply seq_in. eauto.
      * apply any_nil in H4 as (-> & -> & ->). apply seq_in in H2 as (b5 & H2 & ->). apply seq_cons in H1 as [[_ H1]|(c3 & b7 & H1 & H5)].
        { apply seq_cons in H2 as [[_ H2]|(c3 & b6 & H2 & H4)]; [|destruct (eats_det _ _ _ _ _ _ _ H1 _ _ _ H2); discriminate].
          destruct (eats_det _ _ _ _ _ _ _ H1 _ _ _ H2) as (_ & <- & _). exists b3. split; auto. apply seq_cons. auto. }
        { apply seq_cons in H2 as [[_ H2]|(c4 & b6 & H2 & H4)]; [destruct (eats_det _ _ _ _ _ _ _ H1 _ _ _ H2); discriminate|]. destruct (eats_det _ _ _ _ _ _ _ H1 _ _ _ H2) as (_ & -> & ->). pose proof (Ka _ _ _ _ _ H2) as ->.
          exists b6. split; auto. apply seq_cons. right. exists c, b6. split; auto. apply seq_cons. left. split; auto. apply any_in. exists b6. split; auto.
          apply any_cons. right. exists c, b6. split; [apply seq_in; eauto|]. apply any_cons. right. exists c2, b6. split; [apply seq_in; eauto|constructor]. }
  - intros (b1 & H & ->). apply seq_cons in H as [[-> H]|(c1 & b2 & H1 & H2)].
    + exists b. split; auto. pose proof (Ka _ _ _ _ _ H) as ->. apply any_cons. right. exists c, b. split; [apply seq_in; exists b1; split; auto; apply seq_cons; auto|].
      apply any_cons. right. exists c, b. split; [apply seq_in; exists b1; split; auto; apply seq_cons; auto|constructor].
    + pose proof (Ka _ _ _ _ _ H1) as ->. apply seq_cons in H2 as [[-> H2]|(c2 & b3 & H2 & H3)].
      * apply any_in in H2 as (b4 & H2 & ->). apply any_cons in H2 as [[X _]|(c3 & b5 & H3 & H4)]; [discriminate|]. apply any_cons in H4 as [[X _]|(c4 & b6 & H4 & H5)]; [discriminate|]. apply any_nil in H5 as (_ & -> & ->).
        apply seq_in in H3 as (b7 & H3 & ->). apply seq_in in H4 as (b8 & H4 & ->). pose proof (seq_keeps _ _ _ _ _ _ Kx H3) as ->. exists b. split; auto. apply any_cons. right. exists c, b. split; [apply seq_in; exists b7; split; auto; apply seq_cons; right; eauto|].
        apply any_cons. right. exists c4, b. split; [apply seq_in; exists b8; split; auto; apply seq_cons; right; eauto|constructor].
      * apply seq_nil in H3 as (-> & -> & ->). apply any_in in H2 as (b4 & H2 & ->). exists b4. split; auto. apply any_cons in H2 as [[_ H2]|(c3 & b5 & H3 & H4)].
        { apply seq_in in H2 as (b5 & H2 & ->). apply any_cons. left. split; auto. apply seq_in. exists b5. split; auto. apply seq_cons. right. eauto. }
        { apply seq_in in H3 as (b6 & H3 & ->). pose proof (seq_keeps _ _ _ _ _ _ Kx H3) as ->. apply any_cons in H4 as [[_ H4]|(c4 & b7 & H4 & H5)]; [|apply any_nil in H5 as (X & _); discriminate].
          apply seq_in in H4 as (b7 & H4 & ->). apply any_cons. right. exists c, b. split; [apply seq_in; exists b6; split; auto; apply seq_cons; right; eauto|].
          apply any_cons. left. split; auto. apply seq_in. exists b7. split; auto. apply seq_cons. right. eauto. }
Qed.
(** What follows an alternative that never fails is never tried. *)
Lemma law_dead xs r ys : (forall c b c' b', ~ E (IR r) c b false c' b') -> alike e (RAny (xs ++ r :: ys)) (RAny (xs ++ [r])).
Proof.
  intros N. apply alike_iff. intros c b ok c' b'. rewrite !any_in.
  enough (X : forall b1, E (IAny (xs ++ r :: ys)) c b ok c' b1 <-> E (IAny (xs ++ [r])) c b ok c' b1) by (split; intros (b1 & H & ->); exists b1; split; auto; apply X; auto).
  intros b1. rewrite !any_app. assert (Y : forall zs c2 b2, E (IAny (r :: zs)) c2 b2 ok c' b1 <-> ok = true /\ E (IR r) c2 b2 true c' b1).
  { intros zs c2 b2. rewrite any_cons. split; [intros [H|(c3 & b3 & H & _)]; [auto|destruct (N _ _ _ _ H)]|auto]. }
  split; (intros [H|(c2 & b2 & H1 & H2)]; [auto|right; exists c2, b2; split; auto; apply Y; apply Y in H2; auto]).
Qed.
(** At(At(a)) is At(a). *)
Lemma at_in r c b ok c' b' : E (IR (RAt r)) c b ok c' b' <-> b' = b /\ exists b1, E (IR r) c b ok c' b1.
Proof. split; [inversion 1; subst; try discriminate; eauto|intros (-> & b1 & H); econstructor; eauto]. Qed.
Lemma law_at r : alike e (RAt (RAt r)) (RAt r).
Proof. apply alike_iff. intros c b ok c' b'. rewrite !at_in. split; [intros (-> & b1 & H); apply at_in in H as (_ & b2 & H); eauto|intros (-> & b1 & H); split; auto; exists b; apply at_in; eauto]. Qed.
(** BodyTail(a, b) is Seq(Body(a, b), b). *)
Lemma body_in z k1 k2 d t c b ok c' b' : E (IBody z k1 d t) c b ok c' b' -> exists b2, E (IBody z k2 d t) c b ok c' b2.
Proof.
  intros H. remember (IBody z k1 d t) as i eqn:Ei. induction H; try discriminate Ei; injection Ei as ? ? ? ?; subst.
  - eexists. constructor.
  - eexists. eapply i_body_hit; eauto.
  - destruct (IHeats2 eq_refl) as (b2 & H2). exists b2. eapply i_body_next; eauto.
Qed.
Lemma body_hits z d t c b c' b' : keeps d -> keeps t -> E (IBody z true d t) c b true c' b' -> c' = c /\ exists b2, E (IR t) c b' true c b2 /\ E (IBody z false d t) c b true c b2.
Proof.
  intros Kd Kt H. remember (IBody z true d t) as i eqn:Ei. remember true as o eqn:Eo. induction H; try discriminate Ei; injection Ei as ? ? ? ?; subst; try discriminate.
  - rewrite Eo. cbn [andb]. pose proof (Kt _ _ _ _ _ H0) as ->. pose proof (Kd _ _ _ _ _ H1) as ->. split; auto. exists b1. split; auto. pose proof (i_body_hit e false d t c str b c b1 ok c x H H0 H1) as X. rewrite Eo in X. exact X.
  - pose proof (Kt _ _ _ _ _ H0) as ->. destruct (IHeats2 eq_refl eq_refl) as (-> & b2 & A & B). split; auto. exists b2. split; auto. eapply i_body_next; eauto.
Qed.
Lemma tail_is d t c b ok c' b' : E (IR (RBodyTail d t)) c b ok c' b' <-> exists b1, E (IBody b false d t) c b ok c' b1 /\ b' = if ok then b1 else b.
Proof. split; [inversion 1; subst; try discriminate; eauto|intros (b1 & H & ->); constructor; auto]. Qed.
Lemma body_is d t c b ok c' b' : E (IR (RBody d t)) c b ok c' b' <-> exists b1, E (IBody b true d t) c b ok c' b1 /\ b' = if ok then b1 else b.
Proof. split; [inversion 1; subst; try discriminate; eauto|intros (b1 & H & ->); constructor; auto]. Qed.
Lemma law_body_tail d t : keeps d -> keeps t -> alike e (RBodyTail d t) (RSeq [RBody d t; t]).
Proof.
  intros Kd Kt. apply alike_iff. intros c b ok c' b'. rewrite seq_in, tail_is. split.
  - intros (b1 & B & ->). destruct (body_in _ _ true _ _ _ _ _ _ _ B) as (b2 & B2). destruct ok.
    + destruct (body_hits _ _ _ _ _ _ _ Kd Kt B2) as (-> & b3 & H3 & B3). destruct (eats_det _ _ _ _ _ _ _ B _ _ _ B3) as (_ & _ & ->).
      exists b3. split; auto. apply seq_cons. right. exists c, b2. split; [apply body_is; eauto|]. apply seq_cons. right. exists c, b3. split; auto. constructor.
    + exists b. split; auto. apply seq_cons. left. split; auto. apply body_is. eauto.
  - intros (b1 & H & ->). apply seq_cons in H as [[-> H]|(c1 & b2 & H1 & H2)].
    + apply body_is in H as (b2 & H & ->). destruct (body_in _ _ false _ _ _ _ _ _ _ H) as (b3 & B3). eauto.
    + apply body_is in H1 as (b5 & H1 & ->). destruct (body_hits _ _ _ _ _ _ _ Kd Kt H1) as (-> & b3 & H3 & B3).
      apply seq_cons in H2 as [[-> H2]|(c2 & b4 & H2 & H4)]; [destruct (eats_det _ _ _ _ _ _ _ H2 _ _ _ H3); discriminate|]. apply seq_nil in H4 as (-> & -> & ->). destruct (eats_det _ _ _ _ _ _ _ H2 _ _ _ H3) as (_ & -> & ->). eauto.
Qed.
(** Alternatives of which only one can succeed commute. *)
Lemma law_swap r q : tidy r -> tidy q -> keeps r -> keeps q -> (forall c b c' b', E (IR r) c b true c' b' -> E (IR q) c b false c b) -> (forall c b c' b', E (IR q) c b true c' b' -> E (IR r) c b false c b) ->
  alike e (RAny [r; q]) (RAny [q; r]).
Proof.
  intros Tr Tq Kr Kq Hr Hq.
  assert (X : forall r q, tidy r -> tidy q -> keeps r -> keeps q -> (forall c b c' b', E (IR r) c b true c' b' -> E (IR q) c b false c b) -> does e (RAny [r; q]) (RAny [q; r])).
  { clear. intros r q Tr Tq Kr Kq Hr c b ok c' b' H. apply any_in in H as (b1 & H & ->). apply any_in. exists b1. split; auto. apply any_cons in H as [[-> H]|(c1 & b2 & H1 & H2)].
    - apply any_cons. right. exists c, b. split; [eapply Hr; eauto|]. apply any_cons. auto.
    - pose proof (Tr _ _ _ _ H1) as ->; pose proof (Kr _ _ _ _ _ H1) as ->. apply any_cons in H2 as [[-> H2]|(c2 & b3 & H2 & H3)]; [apply any_cons; auto|]. apply any_nil in H3 as (-> & -> & ->).
      pose proof (Tq _ _ _ _ H2) as ->; pose proof (Kq _ _ _ _ _ H2) as ->. apply any_cons. right. exists c, b. split; auto. apply any_cons. right. exists c, b. split; auto. constructor. }
  split; apply X; auto.
Qed.
(** Past(a) is Seq(To(a), a) where Past returns, if a fails at the end of the text. *)
Lemma past_to r : tidy r -> keeps r -> (forall c, E (IR r) c [] false c []) -> forall c b ok c' b', E (IPast r) c b ok c' b' -> c' = c /\ exists b2, E (ITo r) c b ok c b2 /\ (ok = true -> E (IR r) c b2 true c b').
Proof.
  intros T K N c b ok c' b' H. remember (IPast r) as i eqn:Ei. induction H; try discriminate Ei; injection Ei as ->.
  - split; auto. exists []. split; [|discriminate]. eapply i_to_stop; [apply N|reflexivity].
  - pose proof (K _ _ _ _ _ H0) as ->. split; auto. exists b. split; auto. eapply i_to_hit; eauto.
  - pose proof (K _ _ _ _ _ H0) as ->. pose proof (T _ _ _ _ H0) as ->. destruct (IHeats2 eq_refl) as (-> & b2 & A & B). split; auto. exists b2. split; auto.
    destruct (step b) as [[] b3] eqn:Es; [eapply i_to_next; eauto|]. exfalso. cbn [snd] in *. assert (b3 = b) as -> by (unfold step in Es; destruct b; [congruence|destruct (Nat.leb _ _); congruence]).
    destruct (eats_works e each _ _ _ _ _ _ H0) as (k1 & W1). destruct (eats_works e each _ _ _ _ _ _ H1) as (k2 & W2).
    assert (W3 : works e each (IPast r) c (snd (step b)) ok c b' k2) by (rewrite Es; exact W2).
    pose proof (works_det _ _ _ _ _ _ _ _ _ (wi_past_next _ _ _ _ _ _ _ _ _ _ _ _ H W1 W3) _ _ _ _ W2) as X. assert (k1 = 0%nat) by lia. subst k1. inversion W1; unfold each in *; lia.
Qed.
Lemma past_is r c b ok c' b' : E (IR (RPast r)) c b ok c' b' <-> exists b1, E (IPast r) c b ok c' b1 /\ b' = if ok then b1 else b.
Proof. split; [inversion 1; subst; try discriminate; eauto|intros (b1 & H & ->); constructor; auto]. Qed.
Lemma to_is r c b ok c' b' : E (IR (RTo r)) c b ok c' b' <-> exists b1, E (ITo r) c b ok c' b1 /\ b' = if ok then b1 else b.
Proof. split; [inversion 1; subst; try discriminate; eauto|intros (b1 & H & ->); constructor; auto]. Qed.
Lemma law_past r : tidy r -> keeps r -> (forall c, E (IR r) c [] false c []) -> does e (RPast r) (RSeq [RTo r; r]).
Proof.
  intros T K N c b ok c' b' H. apply past_is in H as (b1 & H & ->). apply (past_to r T K N) in H as (-> & b2 & A & B). apply seq_in. destruct ok.
  - exists b1. split; auto. apply seq_cons. right. exists c, b2. split; [apply to_is; eauto|]. apply seq_cons. right. exists c, b1. split; auto. constructor.
  - exists b. split; auto. apply seq_cons. left. split; auto. apply to_is. eauto.
Qed.
(** Names, Logs and - if a failing a does not move - Pick and Map. *)
Lemma law_named w r : alike e (RNamed w r) r. Proof. apply alike_iff. split; [inversion 1; subst; try discriminate; auto|now constructor]. Qed.
Lemma law_rule_name r : alike e (RRuleName r) r. Proof. apply alike_iff. split; [inversion 1; subst; try discriminate; auto|now constructor]. Qed.
Lemma law_monitor w l r : alike e (RMonitor w l r) r. Proof. apply alike_iff. split; [inversion 1; subst; try discriminate; auto|now constructor]. Qed.
Lemma law_rule i r : r_reader (get_rule e i) = Some r -> alike e (RRule i) r.
Proof. intros G. apply alike_iff. split; [inversion 1; subst; try discriminate; congruence|intros H; econstructor; eauto]. Qed.
Lemma law_grammar w p i : alike e (RGrammar w p i) (RRule i).
Proof. apply alike_iff. split; (inversion 1; subst; try discriminate; econstructor; eauto). Qed.
Lemma law_pick w k r : tidy r -> alike e (RPick w k r) r.
Proof.
  intros T. apply alike_iff. intros c b ok c' b'. split.
  - inversion 1; subst; try discriminate. match goal with X : eats _ (IR r) _ _ _ _ _ |- _ => rename X into D end. destruct ok; auto. now rewrite (T _ _ _ _ D) in D.
  - intros H. pose proof (e_pick e w k r c b ok c' b' H) as X. destruct ok; auto. now rewrite (T _ _ _ _ H).
Qed.
Lemma law_map id r : tidy r -> alike e (RMap id r) r.
Proof.
  intros T. apply alike_iff. intros c b ok c' b'. split.
  - inversion 1; subst; try discriminate. match goal with X : eats _ (IR r) _ _ _ _ _ |- _ => rename X into D end. destruct ok; auto. now rewrite (T _ _ _ _ D) in D.
  - intros H. pose proof (e_map e id r c b ok c' b' H) as X. destruct ok; auto. now rewrite (T _ _ _ _ H).
Qed.
Lemma law_skip sk rs : alike e (RSkipSeq sk rs) (RSeq (interleave sk rs)).
Proof. apply alike_iff. intros c b ok c' b'. rewrite seq_in. split; [inversion 1; subst; try discriminate; eauto|intros (b1 & H & ->); constructor; auto]. Qed.
Lemma alike_refl r : alike e r r. Proof. split; intros c b ok c' b' H; exact H. Qed.
Lemma alike_sym r q : alike e r q -> alike e q r. Proof. intros [A B]. split; auto. Qed.
Lemma alike_trans r q p : alike e r q -> alike e q p -> alike e r p. Proof. intros [A B] [C D]. split; intros c b ok c' b' H; auto. Qed.

(* ------------------------------------------ how to see that the conditions hold *)

Lemma restoring_tidy R : restoring_rules e R -> forall i c b ok c' b', E i c b ok c' b' ->
  match i with IR r => restoring R r = true -> ok = false -> b' = b | ITimes k r => restoring R r = true -> (k <= 1)%nat -> ok = false -> b' = b | _ => True end.
Proof.
  intros Rr. induction 1; auto; cbn [restoring] in *; intros; subst; try discriminate; auto.
  all: try (match goal with X : (_ && _)%bool = false |- _ => idtac end).
  all: try (apply IHeats; auto; eapply Rr; eauto; fail).
  - match goal with X : test _ _ = false |- _ => rewrite X; reflexivity end.
  - destruct ok; [reflexivity|discriminate].
  - match goal with X : (_ <? _)%nat = false |- _ => apply Nat.ltb_ge in X; rename X into Ge end. destruct (eats_suffix _ _ _ _ _ _ _ H) as [d ->]. rewrite app_length in Ge. destruct d; [reflexivity|cbn in Ge; lia].
  - apply orb_true_iff in H0 as [K|K]; [|apply andb_true_iff in K as [K1 K2]]; [|apply IHeats; auto; lia]. replace (Z.to_nat k) with 0%nat in H by lia. inversion H.
  - assert (k = 0%nat) by lia. subst k. inversion H0.
Qed.
Lemma tidy_check R r : restoring_rules e R -> restoring R r = true -> tidy r.
Proof. intros Rr Re c b c' b' H. exact (restoring_tidy R Rr _ _ _ _ _ _ H Re eq_refl). Qed.
Lemma keeps_check r : eall no_janus e -> rall no_janus r = true -> keeps r.
Proof. intros A B c b ok c' b' H. exact (janus_cells _ _ _ _ _ _ _ H (proj1 (eallP_eall _ _) A) (proj1 (rallP_rall _ _) B)). Qed.
End Laws.

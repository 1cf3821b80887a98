(** PegBytes.v - readers that test one ASCII character, in terms of bytes. *)
From Verif Require Export PegFacts.
From Coq Require Import Lia ZifyBool.
From Verif Require Import ReaderSteps ReaderScan.

(** [g] holds of the first byte. *)
Definition first (g : byte -> bool) (b : bytes) : bool := match b with [] => false | x :: _ => g x end.
(** [r] reads one byte with [g], which holds of ASCII characters only. *)
Definition reads_byte (r : reader) (g : byte -> bool) : Prop :=
  exists f, rune_test r = Some f /\ (forall v i, 128 <= v -> f v i = false) /\ forall x, g x = ((bz x <? 128) && f (bz x) 1%nat).

Lemma decode_ascii x b : bz x < 128 -> decode_rune (x :: b) = (bz x, 1%nat).
Proof. intros H. unfold decode_rune. replace (bz x <? 0x80) with true by lia. reflexivity. Qed.
Lemma decode_high x b : 128 <= bz x -> 128 <= fst (decode_rune (x :: b)).
Proof.
  intros H. destruct (decode_cases (x :: b)) as [(r & t & S & E & D)|[D _]]; [discriminate| |rewrite D; unfold RuneError; cbn; lia].
  rewrite D. cbn [fst]. destruct (Z.ltb_spec r 128) as [G|G]; [|lia].
  unfold utf8 in E. replace (r <? 0x80) with true in E by lia. injection E as -> _. rewrite bz_zb in H; unfold is_scalar in S; lia.
Qed.
Section Bytes.
Context {L : GoLib} (e : env).
Lemma test_byte f g b : (forall v i, 128 <= v -> f v i = false) -> (forall x, g x = ((bz x <? 128) && f (bz x) 1%nat)) -> test f b = first g b.
Proof.
  intros A G. unfold test. destruct b as [|x b]; cbn [first].
  - apply A. cbn. unfold RuneError. lia.
  - rewrite G. destruct (Z.ltb_spec (bz x) 128) as [H|H]; cbn [andb].
    + rewrite decode_ascii by auto. reflexivity.
    + apply A, decode_high. auto.
Qed.
Lemma byte_small r g x : reads_byte r g -> g x = true -> bz x < 128.
Proof. intros (f & _ & _ & G) H. rewrite G in H. lia. Qed.
Lemma byte_yes r g c x b : reads_byte r g -> g x = true -> eats e (IR r) c (x :: b) true c b.
Proof.
  intros R H. pose proof (byte_small _ _ _ R H) as S. destruct R as (f & E & A & G). pose proof (e_test e r f c (x :: b) E) as X.
  rewrite (test_byte f g) in X by auto. cbn [first] in X. rewrite H in X. unfold after_rune in X. rewrite decode_ascii in X by auto. exact X.
Qed.
Lemma byte_no r g c b : reads_byte r g -> first g b = false -> eats e (IR r) c b false c b.
Proof. intros (f & E & A & G) H. pose proof (e_test e r f c b E) as X. rewrite (test_byte f g) in X by auto. rewrite H in X. exact X. Qed.
Lemma byte_inv r g c b ok c' b' : reads_byte r g -> eats e (IR r) c b ok c' b' ->
  c' = c /\ ok = first g b /\ (if ok then exists x, b = x :: b' /\ g x = true else b' = b).
Proof.
  intros (f & E & A & G) H. pose proof (test_byte f g b A G) as T. inversion H; subst; try discriminate.
  match goal with H : rune_test r = Some ?f' |- _ => assert (f' = f) by congruence; subst f' end.
  split; auto. split; auto. rewrite T. destruct (first g b) eqn:F; auto. destruct b as [|x b]; [discriminate|]. cbn [first] in F.
  exists x. split; auto. f_equal. unfold after_rune. rewrite decode_ascii; [reflexivity|]. rewrite G in F. lia.
Qed.
Lemma byte_returns r g c b : reads_byte r g -> returns e r c b.
Proof.
  intros R. destruct (first g b) eqn:F.
  - destruct b as [|x b]; [discriminate|]. exists true, c, b. eapply byte_yes; eauto.
  - exists false, c, b. eapply byte_no; eauto.
Qed.
End Bytes.

(** What a byte must be. *)
Definition is (n : Z) (x : byte) : bool := bz x =? n.
Definition within (l h : Z) (x : byte) : bool := (l <=? bz x) && (bz x <=? h).
Definition one_of (s : bytes) (x : byte) : bool := existsb (fun y => bz x =? bz y) s.

Lemma rb_rune n : 0 <= n < 128 -> reads_byte (RRune n) (is n).
Proof. intros H. eexists. split; [reflexivity|]. split; [intros; cbv beta; lia|]. intros x. unfold is. lia. Qed.
Lemma rb_between l h : h < 128 -> reads_byte (RBetween l h) (within l h).
Proof. intros H. eexists. split; [reflexivity|]. split; [intros; unfold in_range; cbv beta; lia|]. intros x. unfold within, in_range. cbn [Nat.eqb negb andb]. lia. Qed.
Lemma runes_ascii s : forallb (fun x => bz x <? 128) s = true -> runes s = map bz s.
Proof.
  intros H. assert (C : chunked s (map (fun x => (bz x, [x])) s)).
  { induction s as [|x s IH]; [constructor|]. cbn [forallb] in H. apply andb_prop in H as [H1 H2]. cbn [map].
    assert (E : utf8 (bz x) = [x]) by (unfold utf8; rewrite H1, zb_bz; reflexivity).
    change (x :: s) with ([x] ++ s). rewrite <- E. constructor; [unfold is_scalar; pose proof (bz_range x); lia|auto]. }
  rewrite (runes_chunked _ _ C), map_map. reflexivity.
Qed.
Lemma rb_any s : forallb (fun x => bz x <? 128) s = true -> reads_byte (RAnyRune s) (one_of s).
Proof.
  intros H. eexists. split; [reflexivity|]. rewrite runes_ascii by auto. split.
  - intros v i V. cbv beta. induction s as [|y s IH]; [reflexivity|]. cbn [forallb] in H. apply andb_prop in H as [H1 H2]. cbn. rewrite IH by auto. lia.
  - intros x. unfold one_of. assert (E : existsb (Z.eqb (bz x)) (map bz s) = existsb (fun y => bz x =? bz y) s).
    { clear H. induction s as [|y s IH]; [reflexivity|]. cbn. rewrite IH. reflexivity. }
    rewrite E. clear E. destruct (Z.ltb_spec (bz x) 128) as [G|G]; [reflexivity|]. cbn [andb].
    induction s as [|y s IH]; [reflexivity|]. cbn [forallb] in H. apply andb_prop in H as [H1 H2]. cbn. rewrite IH by auto. lia.
Qed.
Lemma rb_ranges l : forallb (fun q => snd q <? 128) l = true -> reads_byte (RBetweenAny l []) (fun x => existsb (fun q => within (fst q) (snd q) x) l).
Proof.
  intros H. eexists. split; [reflexivity|]. split.
  - intros v i V. cbv beta. change (runes []) with (@nil Z). cbn [existsb]. rewrite orb_false_r. replace (existsb _ l) with false; [apply andb_false_r|].
    induction l as [|q l IH]; [reflexivity|]. cbn [forallb] in H. apply andb_prop in H as [H1 H2]. cbn [existsb]. rewrite <- IH by auto. unfold in_range. lia.
  - intros x. change (runes []) with (@nil Z). cbn [existsb Nat.eqb negb andb]. rewrite orb_false_r.
    induction l as [|q l IH]; [cbn; lia|]. cbn [forallb] in H. apply andb_prop in H as [H1 H2]. cbn [existsb]. rewrite IH by auto. unfold in_range, within. lia.
Qed.

(** A reader that takes one byte with [g], or fails. *)
Section Loops.
Context (e : env).
Definition takes (r : reader) (g : byte -> bool) : Prop := forall c b,
  eats e (IR r) c b (first g b) c (if first g b then tl b else b).
Lemma takes_byte r g : reads_byte r g -> takes r g.
Proof.
  intros R c b. destruct (first g b) eqn:F.
  - destruct b as [|x b]; [discriminate|]. eapply byte_yes; eauto.
  - eapply byte_no; eauto.
Qed.
Lemma takes_yes r g c x b : takes r g -> g x = true -> eats e (IR r) c (x :: b) true c b.
Proof. intros T H. specialize (T c (x :: b)). cbn [first tl] in T. rewrite H in T. exact T. Qed.
Lemma takes_no r g c b : takes r g -> first g b = false -> eats e (IR r) c b false c b.
Proof. intros T H. specialize (T c b). rewrite H in T. exact T. Qed.
Lemma takes_inv r g c b ok c' b' : takes r g -> eats e (IR r) c b ok c' b' ->
  c' = c /\ ok = first g b /\ (if ok then exists x, b = x :: b' /\ g x = true else b' = b).
Proof.
  intros T H. destruct (eats_det _ _ _ _ _ _ _ (T c b) _ _ _ H) as (E1 & <- & <-). split; auto. split; auto.
  rewrite <- E1. destruct (first g b) eqn:F; auto. destruct b as [|x b]; [discriminate|]. exists x. auto.
Qed.
Lemma takes_any r1 g1 r2 g2 : takes r1 g1 -> takes r2 g2 -> takes (RAny [r1; r2]) (fun x => g1 x || g2 x).
Proof.
  intros T1 T2 c b.
  assert (F : first (fun x => g1 x || g2 x) b = first g1 b || first g2 b) by (destruct b; reflexivity). rewrite F.
  assert (D : eats e (IAny [r1; r2]) c b (first g1 b || first g2 b) c (if first g1 b || first g2 b then tl b else b)).
  { specialize (T1 c b). specialize (T2 c b). destruct (first g1 b); cbn [orb].
    - apply i_any_hit. exact T1.
    - eapply i_any_next; [exact T1|]. destruct (first g2 b); [apply i_any_hit; exact T2|]. eapply i_any_next; [exact T2|]. apply i_any_nil. }
  apply e_any in D. destruct (first g1 b || first g2 b); exact D.
Qed.
Lemma rep_takes r g c w b : takes r g -> forallb g w = true -> first g b = false -> eats e (IRep r) c (w ++ b) true c b.
Proof.
  intros T W B. induction w as [|x w IH]; cbn [forallb app] in *.
  - apply i_rep_stop. eapply takes_no; eauto.
  - apply andb_prop in W as [W1 W2]. eapply i_rep_next; [eapply takes_yes; eauto|]. auto.
Qed.
Lemma byte_span g (b : bytes) : exists w t, b = w ++ t /\ forallb g w = true /\ first g t = false.
Proof.
  induction b as [|x b (w & t & -> & W & F)]; [exists [], []; auto|]. destruct (g x) eqn:G.
  - exists (x :: w), t. cbn. rewrite G. auto.
  - exists [], (x :: w ++ t). auto.
Qed.
Lemma rep_takes_inv r g c b ok c' b' : takes r g -> eats e (IRep r) c b ok c' b' ->
  ok = true /\ c' = c /\ exists w, b = w ++ b' /\ forallb g w = true /\ first g b' = false.
Proof.
  intros T H. destruct (byte_span g b) as (w & t & -> & W & F). destruct (eats_det _ _ _ _ _ _ _ (rep_takes r g c w t T W F) _ _ _ H) as (<- & <- & <-).
  split; auto. split; auto. exists w. auto.
Qed.
End Loops.

(** Steps of the combinators on readers that leave the strings of the Janus pairs alone. *)
Section Kit.
Context (e : env).
(** [r] has the outcome [ok] on [b] and leaves [b']. *)
Definition out (i : item) (b : bytes) (ok : bool) (b' : bytes) : Prop := forall c, eats e i c b ok c b'.
(** There is no outcome. *)
Definition stuck (i : item) (b : bytes) : Prop := forall c ok c' b', ~ eats e i c b ok c' b'.
Lemma out_det i b ok1 b1 ok2 b2 : out i b ok1 b1 -> out i b ok2 b2 -> ok1 = ok2 /\ b1 = b2.
Proof. intros H1 H2. destruct (eats_det _ _ _ _ _ _ _ (H1 []) _ _ _ (H2 [])) as (A & _ & B). auto. Qed.
Lemma out_eats i b ok1 b1 c ok2 c2 b2 : out i b ok1 b1 -> eats e i c b ok2 c2 b2 -> ok1 = ok2 /\ c2 = c /\ b1 = b2.
Proof. intros H1 H2. destruct (eats_det _ _ _ _ _ _ _ (H1 c) _ _ _ H2) as (A & B & C). auto. Qed.

Lemma o_takes r g b : takes e r g -> out (IR r) b (first g b) (if first g b then tl b else b).
Proof. intros T c. apply T. Qed.
Lemma o_takes_yes r g x b : takes e r g -> g x = true -> out (IR r) (x :: b) true b.
Proof. intros T H c. eapply takes_yes; eauto. Qed.
Lemma o_takes_no r g b : takes e r g -> first g b = false -> out (IR r) b false b.
Proof. intros T H c. eapply takes_no; eauto. Qed.
Lemma o_rule k r b ok b' : r_reader (get_rule e k) = Some r -> out (IR r) b ok b' -> out (IR (RRule k)) b ok b'.
Proof. intros E H c. eapply e_rule; eauto. Qed.
Lemma o_lit x b : out (IR (RLit x)) (x ++ b) true b.
Proof. intros c. apply e_lit_yes. Qed.
Lemma o_lit_no x b : (forall t, b <> x ++ t) -> out (IR (RLit x)) b false b.
Proof. intros H c. apply e_lit_no. auto. Qed.
Lemma lit_cases (x b : bytes) : (exists t, b = x ++ t) \/ (forall t, b <> x ++ t).
Proof.
  revert b. induction x as [|a x IH]; intros b; [left; exists b; auto|]. destruct b as [|a' b]; [right; discriminate|].
  destruct (Byte.eqb a a') eqn:E.
  - apply byte_eqb_eq in E as ->. destruct (IH b) as [[t ->]|N]; [left; exists t; auto|]. right. intros t H. injection H as H. eapply N; eauto.
  - right. intros t H. injection H as -> _. rewrite byte_eqb_refl in E. discriminate.
Qed.
Lemma o_opt_yes r b b' : out (IR r) b true b' -> out (IR (ROpt r)) b true b'.
Proof. intros H c. eapply e_opt; eauto. Qed.
Lemma o_opt_no r b b' : out (IR r) b false b' -> out (IR (ROpt r)) b true b'.
Proof. intros H c. eapply e_opt; eauto. Qed.
Lemma o_any rs b b' : out (IAny rs) b true b' -> out (IR (RAny rs)) b true b'.
Proof. intros H c. exact (e_any e rs c b true c b' (H c)). Qed.
Lemma o_any_no rs b b' : out (IAny rs) b false b' -> out (IR (RAny rs)) b false b.
Proof. intros H c. exact (e_any e rs c b false c b' (H c)). Qed.
Lemma o_seq rs b b' : out (ISeq rs) b true b' -> out (IR (RSeq rs)) b true b'.
Proof. intros H c. exact (e_seq e rs c b true c b' (H c)). Qed.
Lemma o_seq_no rs b b' : out (ISeq rs) b false b' -> out (IR (RSeq rs)) b false b.
Proof. intros H c. exact (e_seq e rs c b false c b' (H c)). Qed.
Lemma oa_nil b : out (IAny []) b false b.
Proof. intros c. apply i_any_nil. Qed.
Lemma oa_hit r rs b b' : out (IR r) b true b' -> out (IAny (r :: rs)) b true b'.
Proof. intros H c. apply i_any_hit. auto. Qed.
Lemma oa_next r rs b b1 ok b' : out (IR r) b false b1 -> out (IAny rs) b1 ok b' -> out (IAny (r :: rs)) b ok b'.
Proof. intros H1 H2 c. eapply i_any_next; [apply H1|apply H2]. Qed.
Lemma os_nil b : out (ISeq []) b true b.
Proof. intros c. apply i_seq_nil. Qed.
Lemma os_stop r rs b b' : out (IR r) b false b' -> out (ISeq (r :: rs)) b false b'.
Proof. intros H c. apply i_seq_stop. auto. Qed.
Lemma os_next r rs b b1 ok b' : out (IR r) b true b1 -> out (ISeq rs) b1 ok b' -> out (ISeq (r :: rs)) b ok b'.
Proof. intros H1 H2 c. eapply i_seq_next; [apply H1|apply H2]. Qed.
Lemma or_stop r b b' : out (IR r) b false b' -> out (IRep r) b true b'.
Proof. intros H c. apply i_rep_stop. auto. Qed.
Lemma or_next r b b1 b' : out (IR r) b true b1 -> out (IRep r) b1 true b' -> out (IRep r) b true b'.
Proof. intros H1 H2 c. eapply i_rep_next; [apply H1|apply H2]. Qed.
Lemma o_zom r b b' : out (IRep r) b true b' -> out (IR (RZom r)) b true b'.
Proof. intros H c. apply e_zom. auto. Qed.
Lemma o_many r b b' : out (IRep r) b true b' -> out (IR (RMany r)) b (Nat.ltb (length b') (length b)) b'.
Proof. intros H c. apply e_many. auto. Qed.
Lemma o_rep_takes r g w b : takes e r g -> forallb g w = true -> first g b = false -> out (IRep r) (w ++ b) true b.
Proof. intros T W F c. eapply rep_takes; eauto. Qed.

Lemma k_rule k r b : r_reader (get_rule e k) = Some r -> stuck (IR r) b -> stuck (IR (RRule k)) b.
Proof. intros E H c ok c' b' D. inversion D; subst; try discriminate. match goal with Q : r_reader _ = Some ?q |- _ => assert (q = r) by congruence; subst q end. eapply H; eauto. Qed.
Lemma k_grammar w p k r b : r_reader (get_rule e k) = Some r -> stuck (IR r) b -> stuck (IR (RGrammar w p k)) b.
Proof. intros E H c ok c' b' D. inversion D; subst; try discriminate. match goal with Q : r_reader _ = Some ?q |- _ => assert (q = r) by congruence; subst q end. eapply H; eauto. Qed.
Lemma grammar_is_rule w p k c b ok c' b' : eats e (IR (RGrammar w p k)) c b ok c' b' <-> eats e (IR (RRule k)) c b ok c' b'.
Proof. split; intros H; inversion H; subst; try discriminate; [eapply e_rule|eapply e_grammar]; eauto. Qed.
Lemma k_any rs b : stuck (IAny rs) b -> stuck (IR (RAny rs)) b.
Proof. intros H c ok c' b' D. inversion D; subst; try discriminate. eapply H; eauto. Qed.
Lemma k_seq rs b : stuck (ISeq rs) b -> stuck (IR (RSeq rs)) b.
Proof. intros H c ok c' b' D. inversion D; subst; try discriminate. eapply H; eauto. Qed.
Lemma k_zom r b : stuck (IRep r) b -> stuck (IR (RZom r)) b.
Proof. intros H c ok c' b' D. inversion D; subst; try discriminate. eapply H; eauto. Qed.
Lemma k_opt r b : stuck (IR r) b -> stuck (IR (ROpt r)) b.
Proof. intros H c ok c' b' D. inversion D; subst; try discriminate. eapply H; eauto. Qed.
Lemma ka_here r rs b : stuck (IR r) b -> stuck (IAny (r :: rs)) b.
Proof. intros H c ok c' b' D. inversion D; subst; eapply H; eauto. Qed.
Lemma ka_next r rs b b1 : out (IR r) b false b1 -> stuck (IAny rs) b1 -> stuck (IAny (r :: rs)) b.
Proof. intros O H c ok c' b' D. inversion D; subst; match goal with X : eats e (IR r) c b _ _ _ |- _ => destruct (out_eats _ _ _ _ _ _ _ _ O X) as (? & ? & ?) end; subst; try discriminate. eapply H; eauto. Qed.
Lemma ks_here r rs b : stuck (IR r) b -> stuck (ISeq (r :: rs)) b.
Proof. intros H c ok c' b' D. inversion D; subst; eapply H; eauto. Qed.
Lemma ks_next r rs b b1 : out (IR r) b true b1 -> stuck (ISeq rs) b1 -> stuck (ISeq (r :: rs)) b.
Proof. intros O H c ok c' b' D. inversion D; subst; match goal with X : eats e (IR r) c b _ _ _ |- _ => destruct (out_eats _ _ _ _ _ _ _ _ O X) as (? & ? & ?) end; subst; try discriminate. eapply H; eauto. Qed.
Lemma kr_here r b : stuck (IR r) b -> stuck (IRep r) b.
Proof. intros H c ok c' b' D. inversion D; subst; eapply H; eauto. Qed.
Lemma kr_next r b b1 : out (IR r) b true b1 -> stuck (IRep r) b1 -> stuck (IRep r) b.
Proof. intros O H c ok c' b' D. inversion D; subst; match goal with X : eats e (IR r) c b _ _ _ |- _ => destruct (out_eats _ _ _ _ _ _ _ _ O X) as (? & ? & ?) end; subst; try discriminate. eapply H; eauto. Qed.
(** Succeeding without progress: there is no end. *)
Lemma kr_loop r b : out (IR r) b true b -> stuck (IRep r) b.
Proof.
  intros O c ok c' b' D. remember (IRep r) as i eqn:Ei. revert Ei. induction D; intros Ei; try discriminate; injection Ei as ->.
  - destruct (out_eats _ _ _ _ _ _ _ _ O D) as (X & _). discriminate.
  - destruct (out_eats _ _ _ _ _ _ _ _ O D1) as (_ & -> & <-). auto.
Qed.
End Kit.

(** Checking a condition on all rules. *)
Definition all_rules (p : reader -> bool) (e : env) : bool := forallb (fun r => match r_reader r with Some x => rall p x | None => true end) e.
Lemma eall_check p e : all_rules p e = true -> eall p e.
Proof.
  intros H i r R. unfold get_rule in R. unfold all_rules in H. rewrite forallb_forall in H. destruct (nth_in_or_default i e rule0) as [I|D].
  - specialize (H _ I). rewrite R in H. exact H.
  - rewrite D in R. discriminate.
Qed.

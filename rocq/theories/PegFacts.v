(** PegFacts.v - Read does what [eats] says. *)
From Verif Require Export Peg.
From Coq Require Import Lia ZifyBool.
From Verif Require Import ReaderSteps Peg.

(** Scanner at rest [b] of text [t]. *)
Definition stands (t : bytes) (c : cells) (b : bytes) (s : st) : Prop :=
  full (sc s) = t /\ h_cells (hp s) = c /\ (exists a, t = a ++ b) /\ pos (sc s) = slen t - slen b /\ slen t < 2 ^ 63.
Definition okx (x : option err) : bool := match x with None => true | Some _ => false end.

Lemma stands_split s a b : at_split s a b -> stands (a ++ b) (h_cells (hp s)) b s.
Proof. intros (A & B & C). repeat split; auto; [exists a; auto|]. rewrite slen_app. lia. Qed.
Lemma split_stands t c b s a : stands t c b s -> t = a ++ b -> at_split s a b.
Proof. intros (A & _ & _ & D & E) ->. rewrite slen_app in D. split; [auto|]. split; [lia|auto]. Qed.
Lemma stands_in t c b s : stands t c b s -> in_text s.
Proof. intros H. pose proof H as (_ & _ & [a E] & _). eapply in_text_split. eapply split_stands; eauto. Qed.
Lemma cells_moveto p s : h_cells (hp (moveto p s)) = h_cells (hp s).
Proof. unfold moveto, track. cbn. destruct (trk (sc s)); reflexivity. Qed.
Lemma stands_moveto t c b b' s p : stands t c b s -> (exists a, t = a ++ b') -> p = slen t - slen b' -> stands t c b' (moveto p s).
Proof. intros (A & B & C & D & E) F ->. split; [exact A|]. split; [rewrite cells_moveto; auto|]. split; [auto|]. split; [reflexivity|auto]. Qed.
Lemma stands_suffix t c b s b' d : stands t c b s -> b = d ++ b' -> exists a, t = a ++ b'.
Proof. intros (_ & _ & [a ->] & _) ->. exists (a ++ d). rewrite app_assoc. reflexivity. Qed.
Lemma stands_pos t c b s : stands t c b s -> pos (sc s) = slen t - slen b.
Proof. intros H. apply H. Qed.
Lemma stands_nonneg t c b s : stands t c b s -> 0 <= pos (sc s).
Proof. intros H. destruct (stands_in _ _ _ _ H) as [H1 _]. lia. Qed.
Lemma stands_same t c b b2 s : stands t c b s -> (exists a, t = a ++ b2) -> pos (sc s) = slen t - slen b2 -> stands t c b2 s.
Proof. intros (A & B & C & D & E) F G. repeat split; auto. Qed.
Lemma stands_cells t c b s c' f : stands t c b s -> h_cells (f (hp s)) = c' -> stands t c' b (with_heap (f (hp s)) s).
Proof. intros (A & B & C & D & E) F. repeat split; auto. Qed.
Lemma stands_len t c b s : stands t c b s -> slen b <= slen t.
Proof. intros (_ & _ & [a ->] & _). rewrite slen_app. pose proof (slen_nonneg a). lia. Qed.
Lemma app_inj_2 (a1 b1 a2 b2 : bytes) : a1 ++ b1 = a2 ++ b2 -> length b1 = length b2 -> a1 = a2 /\ b1 = b2.
Proof.
  revert a2. induction a1 as [|x a1 IH]; intros [|y a2] E N; cbn in E.
  - auto.
  - exfalso. rewrite E in N. cbn in N. rewrite app_length in N. lia.
  - exfalso. rewrite <- E in N. cbn in N. rewrite app_length in N. lia.
  - injection E as -> E. destruct (IH _ E N) as [-> ->]. auto.
Qed.
Lemma suffix_eq (t b1 b2 : bytes) : (exists a, t = a ++ b1) -> (exists a, t = a ++ b2) -> length b1 = length b2 -> b1 = b2.
Proof. intros [a1 ->] [a2 E] N. apply app_inj_2 in E; tauto. Qed.

(* ---------------------------------------------------------- primitives *)

Lemma tail_stands t c b s : stands t c b s -> s_tail s = Ok (b, s).
Proof. intros H. pose proof H as (_ & _ & [a E] & _). eapply s_tail_split. eapply split_stands; eauto. Qed.
Lemma move_stands t c b s d b' : stands t c b s -> b = d ++ b' -> exists s', move (slen d) s = Ok (true, s') /\ stands t c b' s'.
Proof.
  intros H E. pose proof H as (_ & _ & [a E2] & _). pose proof (split_stands _ _ _ _ _ H E2) as S. rewrite E in S.
  pose proof (move_fwd _ _ _ _ S) as M. eexists. split; [exact M|]. eapply stands_moveto; eauto.
  - eapply stands_suffix; eauto.
  - rewrite (stands_pos _ _ _ _ H), E, slen_app. lia.
Qed.
Lemma after_rune_app b : exists d, b = d ++ after_rune b /\ slen d = Z.of_nat (snd (decode_rune b)).
Proof.
  exists (firstn (snd (decode_rune b)) b). unfold after_rune. rewrite firstn_skipn. split; auto.
  unfold slen. rewrite firstn_length. pose proof (decode_le b). lia.
Qed.
Definition tests (m : M bool) (f : Z -> nat -> bool) : Prop := forall t c b s, stands t c b s ->
  exists s', m s = Ok (test f b, s') /\ stands t c (if test f b then after_rune b else b) s'.
Lemma move_rune t c b s : stands t c b s -> exists s', move (Z.of_nat (snd (decode_rune b))) s = Ok (true, s') /\ stands t c (after_rune b) s'.
Proof. intros H. destruct (after_rune_app b) as (d & E & <-). eapply move_stands; eauto. Qed.
Lemma tests_rune r : tests (if_rune r) (fun v i => v =? r).
Proof.
  intros t c b s H. unfold if_rune. rewrite (bind_ok _ _ _ _ _ (tail_stands _ _ _ _ H)).
  destruct (decode_rune b) as [v i] eqn:E. unfold test. rewrite E. cbn [fst snd].
  destruct (v =? r); cbn [negb]; [|exists s; split; [reflexivity|exact H]]. replace i with (snd (decode_rune b)) by (rewrite E; auto). apply move_rune. auto.
Qed.
Lemma tests_or m1 m2 f1 f2 : tests m1 f1 -> tests m2 f2 -> tests (let* ok := m1 in if ok then ret true else m2) (fun v i => f1 v i || f2 v i).
Proof.
  intros A B t c b s H. destruct (A t c b s H) as (s1 & R1 & S1). rewrite (bind_ok _ _ _ _ _ R1).
  change (test (fun v i => f1 v i || f2 v i) b) with (test f1 b || test f2 b). destruct (test f1 b); cbn [orb].
  - exists s1. split; [reflexivity|exact S1].
  - apply B. auto.
Qed.
Lemma tests_ext m f g : (forall v i, f v i = g v i) -> tests m f -> tests m g.
Proof. intros E A t c b s H. assert (X : test g b = test f b) by (unfold test; auto). rewrite X. apply A. auto. Qed.
Lemma tests_no : tests (ret false) (fun _ _ => false).
Proof. intros t c b s H. exists s. split; [reflexivity|exact H]. Qed.
Lemma tests_any_rune str : tests (if_any_rune str) (fun v i => existsb (Z.eqb v) (runes str)).
Proof.
  unfold if_any_rune. induction (runes str) as [|r l IH]; [apply tests_no|]. cbn [if_any_rune_loop existsb]. apply tests_or; auto. apply tests_rune.
Qed.
Lemma tests_between mn mx : tests (if_between mn mx) (fun v i => negb (Nat.eqb i 0) && in_range mn v mx).
Proof.
  intros t c b s H. unfold if_between. rewrite (bind_ok _ _ _ _ _ (tail_stands _ _ _ _ H)). destruct b as [|b0 bt]; [exists s; split; [reflexivity|exact H]|].
  set (b := b0 :: bt) in *. replace (slen b =? 0) with false by (unfold b, slen; cbn; lia).
  assert (Nz : Nat.eqb (snd (decode_rune b)) 0 = false).
  { apply Nat.eqb_neq. intros Z0. destruct (chunked_exists b) as [l C]. destruct l as [|[r w] l]; [apply chunked_nil_r in C; discriminate|].
    apply chunked_cons_inv in C as (u & E1 & _ & E2 & N & _). rewrite E2 in Z0. destruct w; [congruence|discriminate]. }
  destruct (decode_rune b) as [v i] eqn:E. unfold test. rewrite E. cbn [fst snd] in *. rewrite Nz. cbn [negb andb].
  destruct (in_range mn v mx); cbn [negb]; [|exists s; split; [reflexivity|exact H]]. replace i with (snd (decode_rune b)) by (rewrite E; auto). apply move_rune. auto.
Qed.
Lemma tests_match f : tests (if_match f) (fun v i => negb (Nat.eqb i 0) && f v).
Proof.
  intros t c b s H. unfold if_match. rewrite (bind_ok _ _ _ _ _ (tail_stands _ _ _ _ H)).
  destruct (decode_rune b) as [v i] eqn:E. unfold test. rewrite E. cbn [fst snd].
  destruct (negb (Nat.eqb i 0) && f v); [|exists s; split; [reflexivity|exact H]]. replace i with (snd (decode_rune b)) by (rewrite E; auto). apply move_rune. auto.
Qed.
Lemma tests_ranges l : tests (between_any_loop l) (fun v i => negb (Nat.eqb i 0) && existsb (fun q => in_range (fst q) v (snd q)) l).
Proof.
  induction l as [|[mn mx] l IH].
  - eapply tests_ext; [|apply tests_no]. intros. cbn. rewrite andb_false_r. auto.
  - cbn [between_any_loop existsb fst snd]. eapply tests_ext; [|apply tests_or; [apply tests_between|exact IH]].
    intros v i. cbn. destruct (negb _); auto.
Qed.
Lemma if_str_stands x t c b s : stands t c b s ->
  (exists b' s', b = x ++ b' /\ if_str x s = Ok (true, s') /\ stands t c b' s') \/ ((forall u, b <> x ++ u) /\ if_str x s = Ok (false, s)).
Proof.
  intros H. unfold if_str. rewrite (bind_ok _ _ _ _ _ (tail_stands _ _ _ _ H)). destruct (has_prefix b x) eqn:E.
  - apply has_prefix_iff in E as [u ->]. left. destruct (move_stands t c (x ++ u) s x u H eq_refl) as (s' & A & B). eauto 6.
  - right. split; [|reflexivity]. intros u ->. rewrite has_prefix_app in E. discriminate.
Qed.
Lemma step_stands t c b s : stands t c b s -> exists s', move_runes 1 s = Ok (fst (step b), s') /\ stands t c (snd (step b)) s'.
Proof.
  intros H. unfold move_runes. cbn [Z.ltb Z.compare]. rewrite (bind_ok _ _ _ _ _ (tail_stands _ _ _ _ H)).
  destruct b as [|b0 bt]; [exists s; split; [reflexivity|exact H]|]. unfold step. set (b := b0 :: bt) in *.
  change (match b with [] => (false, []) | _ :: _ => ?x end) with x.
  destruct (chunked_exists b) as [l C]. rewrite (range_str_chunked _ _ C). destruct l as [|[r w] l]; [apply chunked_nil_r in C; discriminate|].
  apply chunked_cons_inv in C as (u & E1 & _ & E2 & N & K). cbn [indexed move_runes_fwd]. rewrite E2. cbn [fst].
  assert (Rl : 1 <= rune_len r <= 4).
  { destruct K as [[K _]|(-> & _)]; [|cbn; lia]. rewrite rune_len_scalar by auto. unfold slen. pose proof (utf8_length_pos r). lia. }
  replace (0 + rune_len r) with (rune_len r) by lia.
  cbn [Z.eqb Z.add]. destruct (Nat.leb (Z.to_nat (rune_len r)) (length b)) eqn:Le; cbn [fst snd].
  - apply Nat.leb_le in Le. destruct (move_stands t c b s (firstn (Z.to_nat (rune_len r)) b) (skipn (Z.to_nat (rune_len r)) b) H) as (s' & A & B); [rewrite firstn_skipn; auto|].
    replace (slen (firstn (Z.to_nat (rune_len r)) b)) with (rune_len r) in A by (unfold slen; rewrite firstn_length_le by auto; lia).
    exists s'. split; [exact A|exact B].
  - apply Nat.leb_gt in Le. exists s. split; [|exact H]. pose proof (stands_pos _ _ _ _ H). pose proof (stands_in _ _ _ _ H) as I. apply move_no; [auto|lia|].
    destruct H as (F & _). rewrite F. unfold slen at 2 in H0. lia.
Qed.

Lemma step_suffix b : exists d, b = d ++ snd (step b).
Proof.
  unfold step. destruct b as [|b0 b]; [exists []; auto|]. destruct (Nat.leb _ _); cbn [snd]; [|exists []; auto].
  exists (firstn (Z.to_nat (rune_len (fst (decode_rune (b0 :: b))))) (b0 :: b)). rewrite firstn_skipn. auto.
Qed.
(** Nothing but a part of the rest is consumed. *)
Lemma eats_suffix e i c b ok c' b' : eats e i c b ok c' b' -> exists d, b = d ++ b'.
Proof.
  assert (Id : forall b : bytes, exists d, b = d ++ b) by (intros; exists []; auto).
  assert (Tr : forall b1 b2 b3 : bytes, (exists d, b1 = d ++ b2) -> (exists d, b2 = d ++ b3) -> exists d, b1 = d ++ b3)
    by (intros b1 b2 b3 [d1 ->] [d2 ->]; exists (d1 ++ d2); rewrite app_assoc; auto).
  induction 1; repeat match goal with |- exists d, _ = d ++ (if ?x then _ else _) => destruct x end; eauto; try (apply Id).
  - destruct (after_rune_app b) as (d & E & _). eauto.
  - apply step_suffix.
  - eapply Tr; [eassumption|]. eapply Tr; [apply step_suffix|]. eassumption.
  - eapply Tr; [eassumption|]. eapply Tr; [apply step_suffix|]. rewrite H0. eauto.
  - eapply Tr; [eassumption|]. eapply Tr; [|eassumption]. destruct (step_suffix b1) as [d X]. rewrite H0 in X. eauto.
  - eapply Tr; [eassumption|]. eapply Tr; [apply step_suffix|]. eassumption.
Qed.

(* ------------------------------------------------ a Read is a derivation *)

Section Sound.
Context {L : GoLib} (e : env).
Definition doing (m : M (option err)) (R : cells -> bytes -> bool -> cells -> bytes -> Prop) : Prop :=
  forall t c b s x s', stands t c b s -> m s = Ok (x, s') -> exists c' b', stands t c' b' s' /\ R c b (okx x) c' b'.

Lemma marker_stands t c b s b0 u s' : stands t c b s -> (exists a, t = a ++ b0) -> to_marker (slen t - slen b0) s = Ok (u, s') -> stands t c b0 s'.
Proof.
  intros H [a E] M. assert (P : 0 <= slen t - slen b0) by (rewrite E, slen_app; pose proof (slen_nonneg a); lia).
  rewrite to_marker_nonneg in M by auto. injection M as _ <-. eapply stands_moveto; eauto.
Qed.
Lemma error_for_inv w s x s' : error_for w s = Ok (x, s') -> okx x = false /\ s' = s.
Proof. unfold error_for. intros H. injection H as <- <-. auto. Qed.
Lemma error_if_false_inv ok w s x s' : error_if_false ok w s = Ok (x, s') -> okx x = ok /\ s' = s.
Proof. unfold error_if_false. destruct ok; [intros H; injection H as <- <-; auto|apply error_for_inv]. Qed.

Lemma d_test m f w (R : cells -> bytes -> bool -> cells -> bytes -> Prop) : tests m f ->
  (forall c b, R c b (test f b) c (if test f b then after_rune b else b)) -> doing (let* ok := m in error_if_false ok w) R.
Proof.
  intros T HR t c b s x s' H E. apply bind_inv in E as (ok & s1 & E1 & E2). destruct (T t c b s H) as (s2 & F & S).
  rewrite F in E1. injection E1 as <- <-. apply error_if_false_inv in E2 as [-> ->]. eauto.
Qed.

Definition subs (n : nat) (rs : list reader) : Prop := forall r, In r rs -> doing (read n e r) (eats e (IR r)).
Lemma subs_cons n r rs : subs n (r :: rs) -> doing (read n e r) (eats e (IR r)) /\ subs n rs.
Proof. intros H. split; [apply H; left; auto|]. intros r' I. apply H. right. auto. Qed.

Lemma any_sound n rs : subs n rs -> forall errs t c b s x s' b0, stands t c b s -> (exists a, t = a ++ b0) ->
  any_loop (map (read n e) rs) (slen t - slen b0) errs s = Ok (x, s') ->
  exists c' b', stands t c' (if okx x then b' else b0) s' /\ eats e (IAny rs) c b (okx x) c' b'.
Proof.
  induction rs as [|r rs IH]; intros Sb errs t c b s x s' b0 H Sf E; cbn [map any_loop] in E.
  - apply bind_inv in E as (u & s1 & E1 & E2). injection E2 as <- <-. exists c, b. split; [eapply marker_stands; eauto|apply i_any_nil].
  - apply subs_cons in Sb as [Hr Sb]. apply bind_inv in E as (y & s1 & E1 & E2). destruct (Hr t c b s y s1 H E1) as (c1 & b1 & S1 & D1).
    destruct y as [y|]; cbn [okx] in D1.
    + destruct (IH Sb _ t c1 b1 s1 x s' b0 S1 Sf E2) as (c' & b' & S' & D'). exists c', b'. split; auto. eapply i_any_next; eauto.
    + injection E2 as <- <-. exists c1, b1. split; auto. apply i_any_hit. auto.
Qed.
Lemma seq_sound n rs : subs n rs -> forall t c b s x s' b0, stands t c b s -> (exists a, t = a ++ b0) ->
  seq_loop (map (read n e) rs) (slen t - slen b0) s = Ok (x, s') ->
  exists c' b', stands t c' (if okx x then b' else b0) s' /\ eats e (ISeq rs) c b (okx x) c' b'.
Proof.
  induction rs as [|r rs IH]; intros Sb t c b s x s' b0 H Sf E; cbn [map seq_loop] in E.
  - injection E as <- <-. exists c, b. split; [auto|apply i_seq_nil].
  - apply subs_cons in Sb as [Hr Sb]. apply bind_inv in E as (y & s1 & E1 & E2). destruct (Hr t c b s y s1 H E1) as (c1 & b1 & S1 & D1).
    destruct y as [y|]; cbn [okx] in D1.
    + apply bind_inv in E2 as (u & s2 & E2 & E3). injection E3 as <- <-. exists c1, b1. split; [eapply marker_stands; eauto|apply i_seq_stop; auto].
    + destruct (IH Sb t c1 b1 s1 x s' b0 S1 Sf E2) as (c' & b' & S' & D'). exists c', b'. split; auto. eapply i_seq_next; eauto.
Qed.
Lemma rep_sound n r : doing (read n e r) (eats e (IR r)) -> forall k t c b s s', stands t c b s ->
  rep_loop k (read n e r) s = Ok (tt, s') -> exists c' b', stands t c' b' s' /\ eats e (IRep r) c b true c' b'.
Proof.
  intros Hr. induction k as [|k IH]; intros t c b s s' H E; [discriminate|]. cbn [rep_loop] in E.
  apply bind_inv in E as (y & s1 & E1 & E2). destruct (Hr t c b s y s1 H E1) as (c1 & b1 & S1 & D1). destruct y as [y|]; cbn [okx] in D1.
  - injection E2 as <-. exists c1, b1. split; auto. apply i_rep_stop. auto.
  - destruct (IH t c1 b1 s1 s' S1 E2) as (c' & b' & S' & D'). exists c', b'. split; auto. eapply i_rep_next; eauto.
Qed.
Lemma times_sound n r : doing (read n e r) (eats e (IR r)) -> forall k, doing (times_loop k (read n e r)) (eats e (ITimes k r)).
Proof.
  intros Hr. induction k as [|k IH]; intros t c b s x s' H E; cbn [times_loop] in E.
  - injection E as <- <-. exists c, b. split; auto. apply i_times_0.
  - apply bind_inv in E as (y & s1 & E1 & E2). destruct (Hr t c b s y s1 H E1) as (c1 & b1 & S1 & D1). destruct y as [y|]; cbn [okx] in D1.
    + injection E2 as <- <-. exists c1, b1. split; auto. apply i_times_stop. auto.
    + destruct (IH t c1 b1 s1 x s' S1 E2) as (c' & b' & S' & D'). exists c', b'. split; auto. eapply i_times_next; eauto.
Qed.
Lemma end_stands t c b s : stands t c b s -> at_end s = Ok (no_text b, s).
Proof.
  intros (A & _ & _ & D & _). unfold at_end, gets. rewrite A, D. do 2 f_equal. destruct b; unfold slen; cbn [length no_text]; lia.
Qed.
Lemma no_text_false b : no_text b = false -> b <> [].
Proof. destruct b; [discriminate|intros _; discriminate]. Qed.
Lemma past_sound n r : doing (read n e r) (eats e (IR r)) -> forall k t c b s ok s', stands t c b s ->
  past_loop k (read n e r) s = Ok (ok, s') -> exists c' b', stands t c' b' s' /\ eats e (IPast r) c b ok c' b'.
Proof.
  intros Hr. induction k as [|k IH]; intros t c b s ok s' H E; [discriminate|]. cbn [past_loop] in E.
  rewrite (bind_ok _ _ _ _ _ (end_stands _ _ _ _ H)) in E. destruct (no_text b) eqn:Nt.
  - injection E as <- <-. destruct b; [|discriminate]. exists c, []. split; auto. apply i_past_end.
  - apply bind_inv in E as (y & s1 & E1 & E2). destruct (Hr t c b s y s1 H E1) as (c1 & b1 & S1 & D1). destruct y as [y|]; cbn [okx] in D1.
    + destruct (step_stands _ _ _ _ S1) as (s2 & F & S2). rewrite (bind_ok _ _ _ _ _ F) in E2.
      destruct (IH _ _ _ _ _ _ S2 E2) as (c' & b' & S' & D'). exists c', b'. split; auto. eapply i_past_next; eauto using no_text_false.
    + injection E2 as <- <-. exists c1, b1. split; auto. apply i_past_hit; auto using no_text_false.
Qed.
Lemma to_sound n r : doing (read n e r) (eats e (IR r)) -> forall k t c b s ok s', stands t c b s ->
  to_loop k (read n e r) s = Ok (ok, s') -> exists c' b', stands t c' b' s' /\ eats e (ITo r) c b ok c' b'.
Proof.
  intros Hr. induction k as [|k IH]; intros t c b s ok s' H E; [discriminate|]. cbn [to_loop] in E.
  rewrite (bind_ok _ _ _ _ _ (mark_ok s)) in E.
  apply bind_inv in E as (y & s1 & E1 & E2). destruct (Hr t c b s y s1 H E1) as (c1 & b1 & S1 & D1). destruct y as [y|]; cbn [okx] in D1.
  - destruct (step_stands _ _ _ _ S1) as (s2 & F & S2). rewrite (bind_ok _ _ _ _ _ F) in E2. destruct (step b1) as [g b2] eqn:G. cbn [fst snd] in *.
    destruct g.
    + destruct (IH _ _ _ _ _ _ S2 E2) as (c' & b' & S' & D'). exists c', b'. split; auto. eapply i_to_next; eauto.
    + injection E2 as <- <-. exists c1, b2. split; auto. eapply i_to_stop; eauto.
  - apply bind_inv in E2 as (u & s2 & E2 & E3). injection E3 as <- <-. rewrite (stands_pos _ _ _ _ H) in E2. exists c1, b. split; [|eapply i_to_hit; eauto].
    eapply marker_stands; eauto. apply H.
Qed.
Lemma tok_stands t c b s str b0 z s1 c1 b1 : stands t c b s -> (exists a, t = a ++ z) -> z = str ++ b -> stands t c1 b1 s1 -> b0 = b ->
  get_tok (make_token (slen t - slen z) (slen t - slen b0)) s1 = Ok (str, s1).
Proof.
  intros H [a E] Ez H1 ->. unfold get_tok, make_token.
  assert (X : slen t - slen z = slen a) by (rewrite E, slen_app; lia). assert (Y : slen t - slen b = slen a + slen str) by (rewrite E, Ez, !slen_app; lia).
  rewrite X, Y. pose proof (slen_nonneg a). pose proof (slen_nonneg str). pose proof (slen_nonneg b). replace (slen a + slen str <? slen a) with false by lia. cbn [t_from t_to].
  destruct H1 as (F & _). rewrite F. replace ((0 <=? slen a) && _ && _) with true by (rewrite E, Ez, !slen_app; lia).
  do 2 f_equal. rewrite E, Ez. apply slice_app.
Qed.
Lemma fresh_stands t c b s str : stands t c b s -> slen str < 2 ^ 63 -> stands str c str (mkSt (new_scanner str) (hp s)).
Proof. intros (_ & B & _) Ls. repeat split; cbn; auto; [exists []; auto|lia]. Qed.
Lemma back_stands t c b s s2 str c2 b2 : stands t c b s -> stands str c2 b2 s2 -> stands t c2 b (mkSt (sc s) (hp s2)).
Proof. intros (A & B & C & D & E) (_ & F & _). repeat split; cbn; auto. Qed.
Lemma body_sound n d r k z t : doing (read n e r) (eats e (IR r)) -> doing (read n e d) (eats e (IR d)) -> (exists a, t = a ++ z) -> forall m c b s ok s',
  stands t c b s -> (exists u, z = u ++ b) -> body_loop m (slen t - slen z) (read n e d) (read n e r) k s = Ok (ok, s') ->
  exists c' b', stands t c' b' s' /\ eats e (IBody z k d r) c b ok c' b'.
Proof.
  intros Hr Hd Sz. induction m as [|m IH]; intros c b s ok s' H [u Su] E; [discriminate|]. cbn [body_loop] in E.
  rewrite (bind_ok _ _ _ _ _ (end_stands _ _ _ _ H)) in E. destruct (no_text b) eqn:Nt.
  - injection E as <- <-. destruct b; [|discriminate]. exists c, []. split; auto. apply i_body_end.
  - rewrite (bind_ok _ _ _ _ _ (mark_ok s)) in E.
    apply bind_inv in E as (y & s1 & E1 & E2). destruct (Hr t c b s y s1 H E1) as (c1 & b1 & S1 & D1). destruct y as [y|]; cbn [okx] in D1.
    + destruct (step_stands _ _ _ _ S1) as (s2 & F & S2). rewrite (bind_ok _ _ _ _ _ F) in E2.
      assert (Sx : exists v, z = v ++ snd (step b1)).
      { destruct (eats_suffix _ _ _ _ _ _ _ D1) as [d1 X1]. destruct (step_suffix b1) as [d2 X2]. exists (u ++ d1 ++ d2). rewrite Su, X1 at 1. rewrite X2 at 1. rewrite !app_assoc. reflexivity. }
      destruct (IH c1 _ s2 ok s' S2 Sx E2) as (c' & b' & S' & D').
      exists c', b'. split; auto. eapply i_body_next; eauto using no_text_false.
    + rewrite (stands_pos _ _ _ _ H) in E2. rewrite (bind_ok _ _ _ _ _ (tok_stands t c b s u b z s1 c1 b1 H Sz Su S1 eq_refl)) in E2.
      apply bind_inv in E2 as ([q fin] & s2 & E2 & E3). unfold on_sub in E2.
      destruct (bind _ _ _) as [[w s3]| |] eqn:E4 in E2; try discriminate. injection E2 as -> <-.
      assert (Lu : slen u < 2 ^ 63). { destruct H as (_ & _ & [a Ea] & _ & Lt). destruct Sz as [az Ez]. rewrite Ez, Su, !slen_app in Lt. pose proof (slen_nonneg az). pose proof (slen_nonneg b). lia. }
      pose proof (fresh_stands t c1 b1 s1 u S1 Lu) as Fr.
      apply bind_inv in E4 as (q1 & s4 & E4 & E5). unfold use in E4. rewrite (bind_ok _ _ _ _ _ (mark_ok _)) in E4.
      apply bind_inv in E4 as (q2 & s5 & E6 & E7). destruct (Hd u c1 u _ q2 s5 Fr E6) as (c2 & x2 & S2 & D2).
      rewrite (bind_run at_end) in E5.
      destruct q2 as [q2|]; cbn [okx] in D2.
      * apply bind_inv in E7 as (v & s6 & E7 & E8). injection E8 as <- <-. cbn [pos sc new_scanner] in E7.
        assert (S6 : stands u c2 u s6). { eapply marker_stands; [exact S2|exists []; auto|]. replace (slen u - slen u) with 0 by lia. exact E7. }
        rewrite (end_stands _ _ _ _ S6) in E5. injection E5 as <- <- <-. cbn [fst] in E3. injection E3 as <- <-.
        exists c2, b1. split; [eapply back_stands; eauto|]. rewrite Su. 
        pose proof (i_body_hit e k d r c u b c1 b1 false c2 x2 (no_text_false _ Nt) D1 D2) as X. cbn [andb] in X. rewrite andb_false_r in X. exact X.
      * injection E7 as <- <-. rewrite (end_stands _ _ _ _ S2) in E5. injection E5 as <- <- <-. cbn [fst snd] in E3.
        pose proof (i_body_hit e k d r c u b c1 b1 true c2 x2 (no_text_false _ Nt) D1 D2) as X. cbn [andb] in X. rewrite Su.
        pose proof (back_stands t c1 b1 s1 s5 u c2 x2 S1 S2) as Bk.
        destruct (no_text x2); cbn [negb] in E3; rewrite ?andb_true_r, ?andb_false_r in X.
        -- destruct k.
           ++ apply bind_inv in E3 as (v & s6 & E3 & E8). injection E8 as <- <-. exists c2, b. split; [|exact X].
              eapply marker_stands; [exact Bk|apply H|exact E3].
           ++ injection E3 as <- <-. exists c2, b1. split; auto.
        -- injection E3 as <- <-. exists c2, b1. split; auto.
Qed.

Lemma stop_sound i w t c b s (ok : bool) c' b' s1 x s' : stands t c b s -> stands t c' b' s1 ->
  (if ok then ret None else to_marker (pos (sc s)) ;; error_for w) s1 = Ok (x, s') ->
  eats e i c b ok c' b' -> okx x = ok /\ stands t c' (if ok then b' else b) s'.
Proof.
  intros H H1 E D. destruct ok.
  - injection E as <- <-. auto.
  - apply bind_inv in E as (u & s2 & E1 & E2). apply error_for_inv in E2 as [-> ->]. split; auto. rewrite (stands_pos _ _ _ _ H) in E1.
    eapply marker_stands; eauto. apply H.
Qed.
Lemma tokenize_sound n r t c b s tk x s' : doing (read n e r) (eats e (IR r)) -> stands t c b s -> tokenize_use (read n e r) s = Ok ((tk, x), s') ->
  exists c' b', stands t c' (if okx x then b' else b) s' /\ eats e (IR r) c b (okx x) c' b' /\ (okx x = true -> tk = make_token (slen t - slen b) (slen t - slen b')).
Proof.
  intros Hr H E. unfold tokenize_use in E. rewrite (bind_ok _ _ _ _ _ (mark_ok s)) in E.
  apply bind_inv in E as (y & s1 & E1 & E2). destruct (Hr t c b s y s1 H E1) as (c1 & b1 & S1 & D1). destruct y as [y|]; cbn [okx] in D1.
  - apply bind_inv in E2 as (u & s2 & E2 & E3). rewrite (bind_ok _ _ _ _ _ (mark_ok s2)) in E3. injection E3 as _ <- <-.
    exists c1, b1. cbn [okx]. split; [|split; [auto|discriminate]]. rewrite (stands_pos _ _ _ _ H) in E2. eapply marker_stands; eauto. apply H.
  - rewrite (bind_ok _ _ _ _ _ (mark_ok s1)) in E2. injection E2 as <- <- <-. exists c1, b1. cbn [okx]. split; auto. split; auto. intros _.
    rewrite (stands_pos _ _ _ _ H), (stands_pos _ _ _ _ S1). reflexivity.
Qed.

Theorem read_eats n : eall covered e -> forall r, rall covered r = true -> doing (read n e r) (eats e (IR r)).
Proof.
  intros He. induction n as [|n IH]; intros r Hr; [intros t c b s x s' _ E; discriminate|].
  assert (Sb : forall rs, forallb (rall covered) rs = true -> subs n rs).
  { intros rs Hs r' I. apply IH. rewrite forallb_forall in Hs. auto. }
  pose proof (rall_here _ _ Hr) as Pc.
  destruct r; cbn [covered] in Pc; try discriminate; cbn [rall] in Hr; apply andb_true_iff in Hr as [_ Hr];
    try (apply andb_true_iff in Hr as [Hr Hr2]); cbn [read].
  - (* Any *) intros t c b s x s' H E. rewrite (bind_ok _ _ _ _ _ (mark_ok s)), (stands_pos _ _ _ _ H) in E.
    destruct (any_sound n rs (Sb rs Hr) [] t c b s x s' b H) as (c' & b' & S & D); [apply H|exact E|]. exists c', (if okx x then b' else b). split; auto. apply e_any. auto.
  - (* AnyRune *) eapply d_test; [apply tests_any_rune|]. intros. apply e_test. reflexivity.
  - (* At *) intros t c b s x s' H E. rewrite (bind_ok _ _ _ _ _ (mark_ok s)) in E. apply bind_inv in E as (y & s1 & E1 & E2).
    destruct (IH r Hr t c b s y s1 H E1) as (c1 & b1 & S1 & D1). apply bind_inv in E2 as (u & s2 & E2 & E3). injection E3 as <- <-.
    exists c1, b. split; [|eapply e_at; eauto]. rewrite (stands_pos _ _ _ _ H) in E2. eapply marker_stands; eauto. apply H.
  - (* AtEnd *) intros t c b s x s' H E. rewrite (bind_ok _ _ _ _ _ (end_stands _ _ _ _ H)) in E. apply error_if_false_inv in E as [-> ->].
    exists c, b. split; auto. apply e_end.
  - (* Between *) eapply d_test; [apply tests_between|]. intros. apply e_test. reflexivity.
  - (* BetweenAny *) intros t c b s x s' H E. rewrite (bind_ok _ _ _ _ _ (mark_ok s)) in E.
    destruct (tests_ranges ranges t c b s H) as (s1 & F1 & S1). rewrite (bind_ok _ _ _ _ _ F1) in E.
    assert (T : (if test (fun v i => negb (Nat.eqb i 0) && existsb (fun q => in_range (fst q) v (snd q)) ranges) b then true
      else test (fun v i => existsb (Z.eqb v) (runes singles)) b) = okx x /\ stands t c (if okx x then after_rune b else b) s').
    { destruct (test _ b) in E, S1 |- *.
      - injection E as <- <-. auto.
      - destruct (tests_any_rune singles t c b s1 S1) as (s2 & F2 & S2). rewrite (bind_ok _ _ _ _ _ F2) in E.
        destruct (test _ b) in E, S2 |- *.
        + injection E as <- <-. auto.
        + apply bind_inv in E as (u & s3 & E1 & E2). apply error_for_inv in E2 as [-> ->]. split; auto.
          rewrite (stands_pos _ _ _ _ H) in E1. eapply marker_stands; eauto. apply H. }
    destruct T as (T & S). exists c, (if okx x then after_rune b else b). split; auto. rewrite <- T. exact (e_test e (RBetweenAny ranges singles) _ c b eq_refl).
  - (* Body *) intros t c b s x s' H E. rewrite (bind_ok _ _ _ _ _ (mark_ok s)) in E. apply bind_inv in E as (ok & s1 & E1 & E2).
    rewrite (stands_pos _ _ _ _ H) in E1. pose proof H as (_ & _ & Sz & _). destruct (body_sound n r1 r2 true b t (IH r2 Hr2) (IH r1 Hr) Sz n c b s ok s1 H (ex_intro _ [] eq_refl) E1) as (c' & b' & S & D).
    destruct (stop_sound _ _ t c b s ok c' b' s1 x s' H S E2 D) as [-> S']. eexists _, _. split; [exact S'|]. apply e_body. exact D.
  - (* BodyTail *) intros t c b s x s' H E. rewrite (bind_ok _ _ _ _ _ (mark_ok s)) in E. apply bind_inv in E as (ok & s1 & E1 & E2).
    rewrite (stands_pos _ _ _ _ H) in E1. pose proof H as (_ & _ & Sz & _). destruct (body_sound n r1 r2 false b t (IH r2 Hr2) (IH r1 Hr) Sz n c b s ok s1 H (ex_intro _ [] eq_refl) E1) as (c' & b' & S & D).
    destruct (stop_sound _ _ t c b s ok c' b' s1 x s' H S E2 D) as [-> S']. eexists _, _. split; [exact S'|]. apply e_body_tail. exact D.
  - (* Holey *) intros t c b s x s' H E. rewrite (bind_ok _ _ _ _ _ (tail_stands _ _ _ _ H)) in E.
    assert (T : test (fun v i => in_range mn v mx && negb (contains_rune holes v)) b = okx x /\ stands t c (if okx x then after_rune b else b) s').
    { unfold test. pose proof (move_rune t c b s H) as (s1 & F1 & S1). destruct (decode_rune b) as [v i]. cbn [fst snd] in *.
      destruct (in_range mn v mx && negb (contains_rune holes v)).
      - rewrite (bind_ok _ _ _ _ _ F1) in E. injection E as <- <-. auto.
      - apply error_for_inv in E as [-> ->]. auto. }
    destruct T as [T S]. exists c, (if okx x then after_rune b else b). split; auto. rewrite <- T. exact (e_test e (RHoley mn mx holes) _ c b eq_refl).
  - (* JanusBeg *) intros t c b s x s' H E. apply bind_inv in E as ([tk y] & s1 & E1 & E2). destruct (tokenize_sound n r t c b s tk y s1 (IH r Hr) H E1) as (c' & b' & S & D & T).
    cbn [fst snd] in E2. destruct y as [y|]; cbn [okx] in *.
    + injection E2 as <- <-. exists c', b. split; auto. eapply e_janus_no; eauto.
    + destruct (eats_suffix _ _ _ _ _ _ _ D) as [d Ed].
      assert (G : get_tok tk s1 = Ok (d, s1)).
      { rewrite T by auto. apply (tok_stands t c' b' s1 d b' b s1 c' b'); auto. apply H. }
      rewrite (bind_ok _ _ _ _ _ G) in E2. apply bind_inv in E2 as (u & s2 & E2 & E3). injection E3 as <- <-. injection E2 as _ <-.
      exists (put [] c' cell d), b'. split; [|rewrite Ed in *; apply e_janus_yes; exact D].
      eapply stands_cells; [exact S|]. unfold put_cell. cbn. destruct S as (_ & -> & _). reflexivity.
  - (* JanusEnd *) intros t c b s x s' H E. unfold gets in E. rewrite bind_run in E.
    assert (G : get_cell cell (hp s) = get [] c cell) by (unfold get_cell; destruct H as (_ & -> & _); reflexivity). rewrite G in E.
    destruct (if_str_stands (get [] c cell) t c b s H) as [(b' & s1 & -> & F & S)|[N F]]; rewrite (bind_ok _ _ _ _ _ F) in E.
    + cbn [error_if_false] in E. rewrite bind_run in E. cbn [ret] in E. apply bind_inv in E as (u & s2 & E2 & E3). injection E3 as <- <-. injection E2 as _ <-.
      exists (put [] c cell []), b'. split; [|apply e_end_yes]. eapply stands_cells; [exact S|]. unfold put_cell. cbn. destruct S as (_ & -> & _). reflexivity.
    + apply bind_inv in E as (y & s1 & E1 & E2). apply error_if_false_inv in E1 as [Y ->]. destruct y; [|discriminate]. injection E2 as <- <-.
      exists c, b. split; auto. apply e_end_no. auto.
  - (* Invalid *) intros t c b s x s' H E. injection E as <- <-. exists c, b. split; auto. apply e_invalid.
  - (* Lit *) intros t c b s x s' H E. destruct (if_str_stands str t c b s H) as [(b' & s1 & -> & F & S)|[N F]]; rewrite (bind_ok _ _ _ _ _ F) in E; apply error_if_false_inv in E as [-> ->].
    + exists c, b'. split; auto. apply e_lit_yes.
    + exists c, b. split; auto. apply e_lit_no. auto.
  - (* Many *) intros t c b s x s' H E. rewrite (bind_ok _ _ _ _ _ (mark_ok s)) in E. apply bind_inv in E as ([] & s1 & E1 & E2).
    destruct (rep_sound n r (IH r Hr) n t c b s s1 H E1) as (c' & b' & S & D). rewrite (bind_ok _ _ _ _ _ (mark_ok s1)) in E2.
    apply error_if_false_inv in E2 as [-> ->]. exists c', b'. split; auto. rewrite (stands_pos _ _ _ _ H), (stands_pos _ _ _ _ S).
    replace (slen t - slen b <? slen t - slen b') with (Nat.ltb (length b') (length b)) by (unfold slen; lia). apply e_many. exact D.
  - (* Map *) intros t c b s x s' H E. apply bind_inv in E as ([tk y] & s1 & E1 & E2). destruct (tokenize_sound n r t c b s tk y s1 (IH r Hr) H E1) as (c' & b' & S & D & T).
    cbn [fst snd] in E2. exists c', (if okx y then b' else b). destruct y as [y|]; cbn [okx] in *.
    + injection E2 as <- <-. split; auto. apply (e_map e id r c b false c' b'). auto.
    + apply bind_inv in E2 as (u & s2 & E2 & E3). injection E3 as <- <-. injection E2 as _ <-. split; [|apply (e_map e id r c b true c' b'); auto].
      eapply stands_cells; [exact S|]. apply S.
  - (* Match *) eapply d_test; [apply tests_match|]. intros. apply e_test. reflexivity.
  - (* Named *) intros t c b s x s' H E. destruct (IH r Hr t c b s x s' H E) as (c' & b' & S & D). exists c', b'. split; auto. apply e_named. auto.
  - (* Not *) intros t c b s x s' H E. rewrite (bind_ok _ _ _ _ _ (mark_ok s)) in E. apply bind_inv in E as (y & s1 & E1 & E2).
    destruct (IH r Hr t c b s y s1 H E1) as (c1 & b1 & S1 & D1). apply bind_inv in E2 as (u & s2 & E2 & E3).
    rewrite (stands_pos _ _ _ _ H) in E2. assert (S2 : stands t c1 b s2) by (eapply marker_stands; eauto; apply H).
    pose proof (e_not e r c b (okx y) c1 b1 D1) as X. destruct y as [y|]; cbn [okx negb] in X.
    + destruct (step_stands _ _ _ _ S2) as (s3 & F & S3). rewrite (bind_ok _ _ _ _ _ F) in E3. injection E3 as <- <-. eauto.
    + apply error_for_inv in E3 as [-> ->]. eauto.
  - (* Opt *) intros t c b s x s' H E. apply bind_inv in E as (y & s1 & E1 & E2). injection E2 as <- <-.
    destruct (IH r Hr t c b s y s1 H E1) as (c1 & b1 & S1 & D1). exists c1, b1. split; auto. eapply e_opt; eauto.
  - (* Past *) intros t c b s x s' H E. rewrite (bind_ok _ _ _ _ _ (mark_ok s)) in E. apply bind_inv in E as (ok & s1 & E1 & E2).
    destruct (past_sound n r (IH r Hr) n t c b s ok s1 H E1) as (c' & b' & S & D).
    destruct (stop_sound _ _ t c b s ok c' b' s1 x s' H S E2 D) as [-> S']. eexists _, _. split; [exact S'|]. apply e_past. exact D.
  - (* Rune *) eapply d_test; [apply tests_rune|]. intros. apply e_test. reflexivity.
  - (* Seq *) intros t c b s x s' H E. rewrite (bind_ok _ _ _ _ _ (mark_ok s)), (stands_pos _ _ _ _ H) in E.
    destruct (seq_sound n rs (Sb rs Hr) t c b s x s' b H) as (c' & b' & S & D); [apply H|exact E|]. exists c', (if okx x then b' else b). split; auto. apply e_seq. auto.
  - (* SkipSeq *) intros t c b s x s' H E.
    change (skip_seq (read n e r) (map (read n e) rs) s) with (read (S n) e (RSkipSeq r rs) s) in E. rewrite skip_seq_read in E. cbn [read] in E.
    rewrite (bind_ok _ _ _ _ _ (mark_ok s)), (stands_pos _ _ _ _ H) in E.
    assert (Si : subs n (interleave r rs)).
    { apply Sb. rewrite interleave_flat. cbn [forallb]. rewrite Hr. cbn [andb]. clear -Hr Hr2. induction rs as [|q rs IHr]; auto. cbn in *. apply andb_true_iff in Hr2 as [A B]. rewrite A, Hr. auto. }
    destruct (seq_sound n (interleave r rs) Si t c b s x s' b H) as (c' & b' & S & D); [apply H|exact E|].
    exists c', (if okx x then b' else b). split; auto. apply e_skip. auto.
  - (* Times *) intros t c b s x s' H E. destruct (times_sound n r (IH r Hr) _ t c b s x s' H E) as (c' & b' & S & D). exists c', b'. split; auto. apply e_times. auto.
  - (* To *) intros t c b s x s' H E. rewrite (bind_ok _ _ _ _ _ (mark_ok s)) in E. apply bind_inv in E as (ok & s1 & E1 & E2).
    destruct (to_sound n r (IH r Hr) n t c b s ok s1 H E1) as (c' & b' & S & D).
    destruct (stop_sound _ _ t c b s ok c' b' s1 x s' H S E2 D) as [-> S']. eexists _, _. split; [exact S'|]. apply e_to. exact D.
  - (* Zom *) intros t c b s x s' H E. apply bind_inv in E as ([] & s1 & E1 & E2). injection E2 as <- <-.
    destruct (rep_sound n r (IH r Hr) n t c b s s1 H E1) as (c' & b' & S & D). exists c', b'. split; auto. apply e_zom. auto.
  - (* Pick *) intros t c b s x s' H E. apply bind_inv in E as ([tk y] & s1 & E1 & E2). destruct (tokenize_sound n r t c b s tk y s1 (IH r Hr) H E1) as (c' & b' & S & D & T).
    cbn [fst snd] in E2. exists c', (if okx y then b' else b). destruct y as [y|]; cbn [okx] in *.
    + injection E2 as <- <-. split; auto. apply (e_pick e info basket r c b false c' b'). auto.
    + apply bind_inv in E2 as (u & s2 & E2 & E3). injection E3 as <- <-. injection E2 as _ <-. split; [|apply (e_pick e info basket r c b true c' b'); auto].
      eapply stands_cells; [exact S|]. apply S.
  - (* Monitor *) intros t c b s x s' H E. rewrite (bind_ok _ _ _ _ _ (mark_ok s)) in E. unfold gets in E. rewrite bind_run in E.
    apply bind_inv in E as (u & s1 & E1 & E2). injection E1 as _ <-. apply bind_inv in E2 as (y & s2 & E2 & E3).
    match type of E2 with read _ _ _ ?s0 = _ => assert (H0 : stands t c b s0) by exact H; destruct (IH r Hr t c b s0 y s2 H0 E2) as (c' & b' & S & D) end.
    rewrite (bind_ok _ _ _ _ _ (mark_ok s2)) in E3. apply bind_inv in E3 as (u3 & s3 & E3 & E4). injection E3 as _ <-. injection E4 as <- <-.
    exists c', b'. split; [exact S|apply e_monitor; auto].
  - (* Rule *) intros t c b s x s' H E. destruct (r_reader (get_rule e i)) as [q|] eqn:G; [|discriminate].
    destruct (IH q (He i q G) t c b s x s' H E) as (c' & b' & S & D). exists c', b'. split; auto. eapply e_rule; eauto.
  - (* RuleName *) intros t c b s x s' H E. apply bind_inv in E as (y & s1 & E1 & E2). destruct (IH r Hr t c b s y s1 H E1) as (c' & b' & S & D).
    apply error_if_false_inv in E2 as [X ->]. exists c', b'. split; auto. rewrite X. apply e_rule_name. destruct y; exact D.
  - (* Grammar *) intros t c b s x s' H E. destruct (r_reader (get_rule e i)) as [q|] eqn:G; [|discriminate].
    apply bind_inv in E as (y & s1 & E1 & E2).
    destruct (IH q (He i q G) t c b s y s1 H E1) as (c' & b' & S & D). exists c', b'. destruct y; injection E2 as <- <-; (split; [auto|]); eapply e_grammar; eauto.
Qed.
End Sound.

Lemma eats_det e i c b ok c' b' : eats e i c b ok c' b' -> forall ok2 c2 b2, eats e i c b ok2 c2 b2 -> ok = ok2 /\ c' = c2 /\ b' = b2.
Proof.
  induction 1; intros ok9 c9 b9 D; inversion D; subst; try discriminate;
  repeat match goal with
  | H1 : r_reader ?r = Some ?a, H2 : r_reader ?r = Some ?b |- _ => rewrite H1 in H2; injection H2 as H2; subst
  | H1 : rune_test ?r = Some ?a, H2 : rune_test ?r = Some ?b |- _ => rewrite H1 in H2; injection H2 as H2; subst
  | IH : forall _ _ _, eats e ?i ?c ?b _ _ _ -> _, H : eats e ?i ?c ?b _ _ _ |- _ => apply IH in H; destruct H as (? & ? & ?); subst; try discriminate
  | H : ?x ++ ?b = ?x ++ ?b' |- _ => apply app_inv_head in H; subst
  | H : ?x ++ ?b = ?x' ++ ?b |- _ => apply app_inv_tail in H; subst
  | H1 : step ?b = _, H2 : step ?b = _ |- _ => rewrite H1 in H2; injection H2; intros; subst
  | H : forall t, ?x ++ ?b <> ?x ++ t |- _ => elim (H b); reflexivity
  end; auto; try congruence.
  rewrite H5 in H8. apply IHeats in H8 as (_ & <- & <-). apply app_inv_tail in H5 as <-. auto.
Qed.

(* ------------------------------------------------ a derivation is a Read *)

Section Complete.
Context {L : GoLib} (e : env).
Definition holds (i : item) (c : cells) (b : bytes) (ok : bool) (c' : cells) (b' : bytes) : Prop := forall t s, stands t c b s ->
  match i with
  | IR r => exists x s', reads e r s x s' /\ okx x = ok /\ stands t c' b' s'
  | IAny rs => forall b0 errs, (exists a, t = a ++ b0) -> exists x s', ev (fun n => any_loop (map (read n e) rs) (slen t - slen b0) errs) s x s' /\
      okx x = ok /\ stands t c' (if ok then b' else b0) s'
  | ISeq rs => forall b0, (exists a, t = a ++ b0) -> exists x s', ev (fun n => seq_loop (map (read n e) rs) (slen t - slen b0)) s x s' /\
      okx x = ok /\ stands t c' (if ok then b' else b0) s'
  | IRep r => exists s', ev (fun n => rep_loop n (read n e r)) s tt s' /\ stands t c' b' s'
  | ITimes k r => exists x s', ev (fun n => times_loop k (read n e r)) s x s' /\ okx x = ok /\ stands t c' b' s'
  | IPast r => exists s', past_ev e r s ok s' /\ stands t c' b' s'
  | ITo r => exists s', to_ev e r s ok s' /\ stands t c' b' s'
  | IBody z k d r => (exists a, t = a ++ z) -> (exists u, z = u ++ b) -> exists s', body_ev e d r (slen t - slen z) k s ok s' /\ stands t c' b' s'
  end.

Lemma mono_any rs m errs : mono (fun n => any_loop (map (read n e) rs) m errs).
Proof. intros n1 n2 H. apply fle_any. apply mono_reads. auto. Qed.
Lemma mono_seq rs m : mono (fun n => seq_loop (map (read n e) rs) m).
Proof. intros n1 n2 H. apply fle_seq. apply mono_reads. auto. Qed.
Lemma mono_times k r : mono (fun n => times_loop k (read n e r)).
Proof. intros n1 n2 H. apply fle_times. apply read_fle. auto. Qed.
Lemma ev_first {A} r (g : option err -> nat -> M A) s x s1 y s' : (forall x, mono (g x)) -> reads e r s x s1 -> ev (g x) s1 y s' ->
  ev (fun n => bind (read n e r) (fun x => g x n)) s y s'.
Proof. intros Hg H1 H2. apply (ev_bind (fun n => read n e r) g); auto; [apply mono_read|]. exists x, s1. auto. Qed.
Lemma ev_marker {A} (x : A) t c b s b0 : stands t c b s -> (exists a, t = a ++ b0) ->
  exists s', ev (fun _ => to_marker (slen t - slen b0) ;; ret x) s x s' /\ stands t c b0 s'.
Proof.
  intros H [a E]. exists (moveto (slen t - slen b0) s). split; [|eapply stands_moveto; eauto]. apply ev_const.
  rewrite bind_run, to_marker_nonneg by (rewrite E, slen_app; pose proof (slen_nonneg a); lia). reflexivity.
Qed.

Lemma test_run r f t c b s : rune_test r = Some f -> stands t c b s -> exists x s', (forall n, read (S n) e r s = Ok (x, s')) /\ okx x = test f b /\ stands t c (if test f b then after_rune b else b) s'.
Proof.
  intros E H.
  assert (Pr : forall m w, tests m f -> (forall n, read (S n) e r = (let* ok := m in error_if_false ok w)) ->
    exists x s', (forall n, read (S n) e r s = Ok (x, s')) /\ okx x = test f b /\ stands t c (if test f b then after_rune b else b) s').
  { intros m w T U. destruct (T t c b s H) as (s1 & F & Sn). exists (if test f b then None else Some (EReadError (pos (sc s1)) w)), s1.
    split; [|split; [destruct (test f b); auto|auto]]. intros n. rewrite U, (bind_ok _ _ _ _ _ F). destruct (test f b); reflexivity. }
  destruct r; try discriminate; injection E as <-.
  - eapply Pr; [apply tests_any_rune|reflexivity].
  - eapply Pr; [apply tests_between|reflexivity].
  - destruct (tests_or _ _ _ _ (tests_ranges ranges) (tests_any_rune singles) t c b s H) as (s1 & F & Sn). clear Pr.
    match type of F with _ = Ok (?q, _) => set (v := q) in * end. destruct v eqn:V.
    + exists None, s1. split; [|split; auto]. intros n. cbn [read]. rewrite (bind_ok _ _ _ _ _ (mark_ok s)).
      apply bind_inv in F as (o & s2 & F1 & F2). rewrite (bind_ok _ _ _ _ _ F1). destruct o; [injection F2 as <-; reflexivity|].
      rewrite (bind_ok _ _ _ _ _ F2). reflexivity.
    + exists (Some (EReadError (pos (sc s)) (what e (RBetweenAny ranges singles)))), (moveto (pos (sc s)) s1). split; [|split; auto].
      * intros n. cbn [read]. rewrite (bind_ok _ _ _ _ _ (mark_ok s)).
        apply bind_inv in F as (o & s2 & F1 & F2). rewrite (bind_ok _ _ _ _ _ F1). destruct o; [discriminate|].
        rewrite (bind_ok _ _ _ _ _ F2). rewrite bind_run, to_marker_nonneg by (eapply stands_nonneg; eauto). reflexivity.
      * eapply stands_moveto; [exact Sn|apply H|apply H].
  - destruct (move_rune t c b s H) as (s1 & F & Sn).
    assert (U : forall n, read (S n) e (RHoley mn mx holes) s = if test (fun v i => in_range mn v mx && negb (contains_rune holes v)) b
      then Ok (None, s1) else Ok (Some (EReadError (pos (sc s)) (what e (RHoley mn mx holes))), s)).
    { intros n. cbn [read]. rewrite (bind_ok _ _ _ _ _ (tail_stands _ _ _ _ H)). unfold test. destruct (decode_rune b) as [v i]. cbn [fst snd] in *.
      destruct (in_range mn v mx && _); [|reflexivity]. rewrite (bind_ok _ _ _ _ _ F). reflexivity. }
    destruct (test _ b) in U |- *; eexists _, _; (split; [intros n; apply U|split; auto]).
  - eapply Pr; [apply tests_match|reflexivity].
  - eapply Pr; [apply tests_rune|reflexivity].
Qed.
Lemma test_reads r f t c b s : rune_test r = Some f -> stands t c b s -> exists x s', reads e r s x s' /\ okx x = test f b /\ stands t c (if test f b then after_rune b else b) s'.
Proof. intros E H. destruct (test_run r f t c b s E H) as (x & s' & F & G). exists x, s'. split; auto. exists 1%nat. apply F. Qed.
Lemma tokenize_run r t c b s x s1 c1 b1 : stands t c b s -> reads e r s x s1 -> stands t c1 b1 s1 ->
  exists n s2, tokenize_use (read n e r) s = Ok ((make_token (slen t - slen b) (slen t - slen (if okx x then b1 else b)), x), s2) /\ stands t c1 (if okx x then b1 else b) s2.
Proof.
  intros H [n R] Sn. exists n. unfold tokenize_use. rewrite (bind_ok _ _ _ _ _ (mark_ok s)), (bind_ok _ _ _ _ _ R). rewrite (stands_pos _ _ _ _ H).
  destruct x as [x|]; cbn [okx].
  - rewrite bind_run, to_marker_nonneg by (pose proof (stands_nonneg _ _ _ _ H); pose proof (stands_pos _ _ _ _ H); lia).
    eexists. split; [reflexivity|]. eapply stands_moveto; [exact Sn|apply H|reflexivity].
  - rewrite (bind_ok _ _ _ _ _ (mark_ok s1)), (stands_pos _ _ _ _ Sn). eexists. split; [reflexivity|auto].
Qed.
Lemma stop_reads t c b s (f : nat -> M bool) w ok s1 c1 b1 r : stands t c b s -> ev f s ok s1 -> stands t c1 b1 s1 ->
  (forall n, read (S n) e r = let* m := mark in let* ok := f n in if ok then ret None else to_marker m ;; error_for w) ->
  exists x s', reads e r s x s' /\ okx x = ok /\ stands t c1 (if ok then b1 else b) s'.
Proof.
  intros H [n F] Sn U. destruct ok.
  - exists None, s1. split; [|auto]. exists (S n). rewrite U, (bind_ok _ _ _ _ _ (mark_ok s)), (bind_ok _ _ _ _ _ F). reflexivity.
  - eexists _, (moveto (pos (sc s)) s1). split; [|split].
    + exists (S n). rewrite U, (bind_ok _ _ _ _ _ (mark_ok s)), (bind_ok _ _ _ _ _ F), bind_run, to_marker_nonneg by (eapply stands_nonneg; eauto). reflexivity.
    + reflexivity.
    + eapply stands_moveto; [exact Sn|apply H|apply H].
Qed.

Theorem eats_holds i c b ok c' b' : eats e i c b ok c' b' -> holds i c b ok c' b'.
Proof.
  induction 1; intros t0 s St.
  - eapply test_reads; eauto.
  - destruct (if_str_stands x t0 c (x ++ b) s St) as [(b2 & s1 & E & F & Sn)|[N _]]; [|elim (N b); auto]. apply app_inv_head in E as <-.
    exists None, s1. split; [|auto]. exists 1%nat. cbn [read]. rewrite (bind_ok _ _ _ _ _ F). reflexivity.
  - destruct (if_str_stands x t0 c b s St) as [(b2 & s1 & E & _)|[_ F]]; [elim (H b2); auto|].
    eexists _, s. split; [exists 1%nat; cbn [read]; rewrite (bind_ok _ _ _ _ _ F); reflexivity|]. auto.
  - exists (if no_text b then None else Some (EReadError (pos (sc s)) (what e RAtEnd))), s. split; [|destruct (no_text b); auto].
    exists 1%nat. cbn [read]. rewrite (bind_ok _ _ _ _ _ (end_stands _ _ _ _ St)). destruct (no_text b); reflexivity.
  - eexists _, s. split; [exists 1%nat; reflexivity|auto].
  - destruct (IHeats t0 s St) as (x & s' & R & Sn). exists x, s'. split; auto. apply (rule_reads e i r); auto.
  - destruct (IHeats t0 s St) as (x & s' & [n R] & X & Sn). eexists (match x with None => None | Some y => Some (EOther (p ++ err_text y)) end), s'.
    split; [|destruct x; auto]. exists (S n). cbn [read]. rewrite H, (bind_ok _ _ _ _ _ R). destruct x; reflexivity.
  - destruct (IHeats t0 s St) as (x & s' & R & Sn). exists x, s'. split; auto. apply named_reads. auto.
  - destruct (IHeats t0 s St) as (x & s' & [n R] & X & Sn). exists (if ok then None else Some (EReadError (pos (sc s')) (what e (RRuleName r)))), s'.
    split; [|destruct ok; auto]. exists (S n). cbn [read]. rewrite (bind_ok _ _ _ _ _ R). destruct x, ok; try discriminate; reflexivity.
  - assert (S0 : stands t0 c b (with_heap (put_log l (snd (log_enter w (pos (sc s)) (get_log l (hp s)))) (hp s)) s)) by exact St.
    destruct (IHeats t0 _ S0) as (x & s' & [n R] & X & Sn). eexists x, _. split; [exists (S n); cbn [read]|].
    + rewrite (bind_ok _ _ _ _ _ (mark_ok s)). unfold gets at 1. rewrite bind_run. unfold modh at 1, modify. rewrite bind_run. rewrite (bind_ok _ _ _ _ _ R).
      rewrite (bind_ok _ _ _ _ _ (mark_ok s')). reflexivity.
    + split; [exact X|exact Sn].
  - destruct (IHeats t0 s St) as (x & s1 & R & X & Sn). destruct (tokenize_run r t0 c b s x s1 c' b' St R Sn) as (n & s2 & T & S2). rewrite X in T, S2.
    destruct x as [x|]; rewrite <- X in *; cbn [okx] in *.
    + exists (Some x), s2. split; [|auto]. exists (S n). cbn [read]. rewrite (bind_ok _ _ _ _ _ T). reflexivity.
    + eexists None, _. split; [exists (S n); cbn [read]; rewrite (bind_ok _ _ _ _ _ T); reflexivity|]. split; [reflexivity|exact S2].
  - destruct (IHeats t0 s St) as (x & s1 & R & X & Sn). destruct (tokenize_run r t0 c b s x s1 c' b' St R Sn) as (n & s2 & T & S2). rewrite X in T, S2.
    destruct x as [x|]; rewrite <- X in *; cbn [okx] in *.
    + exists (Some x), s2. split; [|auto]. exists (S n). cbn [read]. rewrite (bind_ok _ _ _ _ _ T). reflexivity.
    + eexists None, _. split; [exists (S n); cbn [read]; rewrite (bind_ok _ _ _ _ _ T); reflexivity|]. split; [reflexivity|exact S2].
  - destruct (IHeats t0 s St) as (x & s1 & R & X & Sn). exists None, s1. split; [|auto]. apply opt_reads. eauto.
  - destruct (IHeats t0 s St) as (x & s1 & R & X & Sn). exists x, (moveto (pos (sc s)) s1). split; [|split; auto].
    + apply at_reads; [eapply stands_nonneg; eauto|]. eauto.
    + eapply stands_moveto; [exact Sn|apply St|apply St].
  - destruct (IHeats t0 s St) as (x & s1 & [n R] & X & Sn).
    assert (S2 : stands t0 c' b (moveto (pos (sc s)) s1)) by (eapply stands_moveto; [exact Sn|apply St|apply St]).
    destruct (step_stands _ _ _ _ S2) as (s3 & F & S3). pose proof (stands_nonneg _ _ _ _ St).
    assert (U : read (S n) e (RNot r) s = (match x with None => error_for (what e r) | Some _ => move_runes 1 ;; ret None end) (moveto (pos (sc s)) s1)).
    { cbn [read]. rewrite (bind_ok _ _ _ _ _ (mark_ok s)), (bind_ok _ _ _ _ _ R), bind_run, to_marker_nonneg by auto. reflexivity. }
    destruct x as [x|]; rewrite <- X; cbn [okx negb].
    + exists None, s3. split; [|auto]. exists (S n). rewrite U, (bind_ok _ _ _ _ _ F). reflexivity.
    + eexists (Some _), _. split; [exists (S n); rewrite U; reflexivity|]. auto.
  - destruct (IHeats t0 s St b [] ltac:(apply St)) as (x & s1 & [n R] & X & Sn). exists x, s1. split; [|auto]. exists (S n). cbn [read].
    rewrite (bind_ok _ _ _ _ _ (mark_ok s)), (stands_pos _ _ _ _ St). exact R.
  - destruct (IHeats t0 s St b ltac:(apply St)) as (x & s1 & [n R] & X & Sn). exists x, s1. split; [|auto]. exists (S n). cbn [read].
    rewrite (bind_ok _ _ _ _ _ (mark_ok s)), (stands_pos _ _ _ _ St). exact R.
  - destruct (IHeats t0 s St b ltac:(apply St)) as (x & s1 & [n R] & X & Sn). exists x, s1. split; [|auto]. apply skip_seq_reads. exists (S n). cbn [read].
    rewrite (bind_ok _ _ _ _ _ (mark_ok s)), (stands_pos _ _ _ _ St). exact R.
  - destruct (IHeats t0 s St) as (s1 & [n R] & Sn). exists None, s1. split; [|auto]. exists (S n). cbn [read]. rewrite (bind_ok _ _ _ _ _ R). reflexivity.
  - destruct (IHeats t0 s St) as (s1 & [n R] & Sn).
    exists (if Nat.ltb (length b') (length b) then None else Some (EReadError (pos (sc s1)) (what e (RMany r)))), s1. split; [|destruct (Nat.ltb _ _); auto].
    exists (S n). cbn [read]. rewrite (bind_ok _ _ _ _ _ (mark_ok s)), (bind_ok _ _ _ _ _ R), (bind_ok _ _ _ _ _ (mark_ok s1)).
    rewrite (stands_pos _ _ _ _ St), (stands_pos _ _ _ _ Sn) at 1.
    replace (slen t0 - slen b <? slen t0 - slen b') with (Nat.ltb (length b') (length b)) by (unfold slen; lia). destruct (Nat.ltb _ _); reflexivity.
  - destruct (IHeats t0 s St) as (x & s1 & [n R] & X & Sn). exists x, s1. split; [|auto]. exists (S n). exact R.
  - destruct (IHeats t0 s St) as (s1 & R & Sn). eapply stop_reads; [exact St|exact R|exact Sn|]. intros n. reflexivity.
  - destruct (IHeats t0 s St) as (s1 & R & Sn). eapply stop_reads; [exact St|exact R|exact Sn|]. intros n. reflexivity.
  - destruct (IHeats t0 s St ltac:(apply St) (ex_intro _ [] eq_refl)) as (s1 & R & Sn). rewrite <- (stands_pos _ _ _ _ St) in R.
    destruct ok.
    + exists None, s1. split; [exact (body_reads e true d t s true s1 (stands_nonneg _ _ _ _ St) R)|auto].
    + destruct (body_reads e true d t s false s1 (stands_nonneg _ _ _ _ St) R) as (x & R2). exists (Some x), (moveto (pos (sc s)) s1). split; [exact R2|].
      split; [reflexivity|]. eapply stands_moveto; [exact Sn|apply St|apply St].
  - destruct (IHeats t0 s St ltac:(apply St) (ex_intro _ [] eq_refl)) as (s1 & R & Sn). rewrite <- (stands_pos _ _ _ _ St) in R.
    destruct ok.
    + exists None, s1. split; [exact (body_reads e false d t s true s1 (stands_nonneg _ _ _ _ St) R)|auto].
    + destruct (body_reads e false d t s false s1 (stands_nonneg _ _ _ _ St) R) as (x & R2). exists (Some x), (moveto (pos (sc s)) s1). split; [exact R2|].
      split; [reflexivity|]. eapply stands_moveto; [exact Sn|apply St|apply St].
  - (* JanusBeg *) destruct (IHeats t0 s St) as (y & s1 & R & X & Sn). destruct y; [discriminate|].
    destruct (tokenize_run r t0 c (x ++ b) s None s1 c' b St R Sn) as (n & s2 & T & S2). cbn [okx] in *.
    assert (G : get_tok (make_token (slen t0 - slen (x ++ b)) (slen t0 - slen b)) s2 = Ok (x, s2)).
    { apply (tok_stands t0 c' b s2 x b (x ++ b) s2 c' b); auto. apply St. }
    eexists None, _. split; [exists (S n); cbn [read]; rewrite (bind_ok _ _ _ _ _ T); cbn [fst snd]; rewrite (bind_ok _ _ _ _ _ G); reflexivity|].
    split; [reflexivity|]. eapply stands_cells; [exact S2|]. unfold put_cell. cbn. destruct S2 as (_ & -> & _). reflexivity.
  - destruct (IHeats t0 s St) as (y & s1 & R & X & Sn). destruct y as [y|]; [|discriminate].
    destruct (tokenize_run r t0 c b s (Some y) s1 c' b' St R Sn) as (n & s2 & T & S2). cbn [okx] in *.
    exists (Some y), s2. split; [|auto]. exists (S n). cbn [read]. rewrite (bind_ok _ _ _ _ _ T). reflexivity.
  - (* JanusEnd *) assert (G : get_cell i (hp s) = get [] c i) by (unfold get_cell; destruct St as (_ & -> & _); reflexivity).
    destruct (if_str_stands (get [] c i) t0 c _ s St) as [(b2 & s1 & E & F & Sn)|[N _]]; [|elim (N b); auto]. apply app_inv_head in E as <-.
    eexists None, _. split; [exists 1%nat; cbn [read]; unfold gets; rewrite bind_run, G, (bind_ok _ _ _ _ _ F); reflexivity|].
    split; [reflexivity|]. eapply stands_cells; [exact Sn|]. unfold put_cell. cbn. destruct Sn as (_ & -> & _). reflexivity.
  - assert (G : get_cell i (hp s) = get [] c i) by (unfold get_cell; destruct St as (_ & -> & _); reflexivity).
    destruct (if_str_stands (get [] c i) t0 c _ s St) as [(b2 & s1 & E & _)|[_ F]]; [elim (H b2); auto|].
    eexists (Some _), s. split; [exists 1%nat; cbn [read]; unfold gets; rewrite bind_run, G, (bind_ok _ _ _ _ _ F); reflexivity|]. auto.
  - (* loops *) intros b0 errs Sf. destruct (ev_marker (Some (get_deepest errs)) t0 c b s b0 St Sf) as (s1 & E & Sn). exists (Some (get_deepest errs)), s1. auto.
  - intros b0 errs Sf. destruct (IHeats t0 s St) as (x & s1 & R & X & Sn). destruct x; [discriminate|]. exists None, s1. split; [|auto].
    destruct R as [n R]. exists n. cbn [map any_loop]. rewrite (bind_ok _ _ _ _ _ R). reflexivity.
  - intros b0 errs Sf. destruct (IHeats1 t0 s St) as (x & s1 & R & X & Sn). destruct x as [x|]; [|discriminate].
    destruct (IHeats2 t0 s1 Sn b0 (errs ++ [x]) Sf) as (y & s2 & R2 & Y & S2). exists y, s2. split; [|auto].
    apply (ev_first r (fun x n => match x with None => ret None | Some x => any_loop (map (read n e) rs) (slen t0 - slen b0) (errs ++ [x]) end) s (Some x) s1); auto.
    intros [q|]; [apply mono_any|apply mono_const].
  - intros b0 Sf. exists None, s. split; [exists 0%nat; reflexivity|auto].
  - intros b0 Sf. destruct (IHeats t0 s St) as (x & s1 & R & X & Sn). destruct x as [x|]; [|discriminate].
    destruct (ev_marker (Some x) t0 c' b' s1 b0 Sn Sf) as (s2 & E & S2). exists (Some x), s2. split; [|auto].
    apply (ev_first r (fun x n => match x with None => seq_loop (map (read n e) rs) (slen t0 - slen b0) | Some x => to_marker (slen t0 - slen b0) ;; ret (Some x) end) s (Some x) s1); auto.
    intros [q|]; [apply mono_const|apply mono_seq].
  - intros b0 Sf. destruct (IHeats1 t0 s St) as (x & s1 & R & X & Sn). destruct x; [discriminate|].
    destruct (IHeats2 t0 s1 Sn b0 Sf) as (y & s2 & R2 & Y & S2). exists y, s2. split; [|auto].
    apply (ev_first r (fun x n => match x with None => seq_loop (map (read n e) rs) (slen t0 - slen b0) | Some x => to_marker (slen t0 - slen b0) ;; ret (Some x) end) s None s1); auto.
    intros [q|]; [apply mono_const|apply mono_seq].
  - destruct (IHeats t0 s St) as (x & s1 & R & X & Sn). destruct x as [x|]; [|discriminate]. exists s1. split; auto.
    destruct R as [n R]. exists (S n). cbn [rep_loop]. rewrite (bind_ok _ _ _ _ _ (read_up e r n (S n) s _ ltac:(lia) R)). reflexivity.
  - destruct (IHeats1 t0 s St) as (x & s1 & [n R] & X & Sn). destruct x; [discriminate|]. destruct (IHeats2 t0 s1 Sn) as (s2 & [k R2] & S2).
    exists s2. split; auto. exists (S (n + k)). cbn [rep_loop]. rewrite (bind_ok _ _ _ _ _ (read_up e r n (S (n + k)) s _ ltac:(lia) R)).
    assert (F : fle (rep_loop k (read k e r)) (rep_loop (n + k) (read (S (n + k)) e r))) by (apply fle_rep; [lia|apply read_fle; lia]).
    destruct (F s1) as [Q|Q]; congruence.
  - exists None, s. split; [exists 0%nat; reflexivity|auto].
  - destruct (IHeats t0 s St) as (x & s1 & R & X & Sn). destruct x as [x|]; [|discriminate]. exists (Some x), s1. split; [|auto].
    destruct R as [n R]. exists n. cbn [times_loop]. rewrite (bind_ok _ _ _ _ _ R). reflexivity.
  - destruct (IHeats1 t0 s St) as (x & s1 & R & X & Sn). destruct x; [discriminate|]. destruct (IHeats2 t0 s1 Sn) as (y & s2 & R2 & Y & S2).
    exists y, s2. split; [|auto].
    apply (ev_first r (fun x n => match x with None => times_loop k (read n e r) | Some x => ret (Some x) end) s None s1); auto.
    intros [q|]; [apply mono_const|apply mono_times].
  - exists s. split; [apply past_stop|auto]. rewrite (stands_pos _ _ _ _ St). destruct St as (-> & _). unfold slen; cbn; lia.
  - destruct (IHeats t0 s St) as (x & s1 & R & X & Sn). destruct x; [discriminate|]. exists s1. split; auto. apply past_here; auto.
    rewrite (stands_pos _ _ _ _ St). destruct St as (-> & _). destruct b; [congruence|unfold slen; cbn; lia].
  - destruct (IHeats1 t0 s St) as (x & s1 & R & X & Sn). destruct x as [x|]; [|discriminate]. destruct (step_stands _ _ _ _ Sn) as (s2 & F & S2).
    destruct (IHeats2 t0 s2 S2) as (s3 & R3 & S3). exists s3. split; auto. eapply past_next; eauto.
    rewrite (stands_pos _ _ _ _ St). destruct St as (-> & _). destruct b; [congruence|unfold slen; cbn; lia].
  - destruct (IHeats t0 s St) as (x & s1 & R & X & Sn). destruct x; [discriminate|]. exists (moveto (pos (sc s)) s1). split; [apply to_here; auto; eapply stands_nonneg; eauto|].
    eapply stands_moveto; [exact Sn|apply St|apply St].
  - destruct (IHeats t0 s St) as (x & s1 & R & X & Sn). destruct x as [x|]; [|discriminate]. destruct (step_stands _ _ _ _ Sn) as (s2 & F & S2). rewrite H0 in *. cbn [fst snd] in *.
    exists s2. split; auto. eapply to_stop; eauto.
  - destruct (IHeats1 t0 s St) as (x & s1 & R & X & Sn). destruct x as [x|]; [|discriminate]. destruct (step_stands _ _ _ _ Sn) as (s2 & F & S2). rewrite H0 in *. cbn [fst snd] in *.
    destruct (IHeats2 t0 s2 S2) as (s3 & R3 & S3). exists s3. split; auto. eapply to_next; eauto.
  - intros Sz Su. exists s. split; [apply body_stop|auto]. rewrite (stands_pos _ _ _ _ St). destruct St as (-> & _). unfold slen; cbn; lia.
  - (* body hit *) intros Sz Su. destruct (IHeats1 t0 s St) as (y & s1 & [n R] & Y & Sn). destruct y; [discriminate|].
    assert (Ls : slen str < 2 ^ 63). { destruct St as (_ & _ & _ & _ & Lt). destruct Sz as [az Ez]. rewrite Ez, !slen_app in Lt. pose proof (slen_nonneg az). pose proof (slen_nonneg b). lia. }
    pose proof (fresh_stands t0 c1 b1 s1 str Sn Ls) as Fr. destruct (IHeats2 str _ Fr) as (q & s2 & [m R2] & Q & S2).
    pose proof (tok_stands t0 c b s str b (str ++ b) s1 c1 b1 St Sz eq_refl Sn eq_refl) as G.
    assert (S3 : exists s3, stands str c' (if ok then x else str) s3 /\ forall j, (m <= j)%nat -> on_sub str (read j e d) s1 = Ok ((q, no_text (if ok then x else str)), mkSt (sc s1) (hp s3))).
    { destruct q as [q|]; rewrite <- Q; cbn [okx].
      - assert (S3 : stands str c' str (moveto 0 s2)) by (eapply stands_moveto; [exact S2|exists []; auto|lia]).
        exists (moveto 0 s2). split; [exact S3|]. intros j Hj.
        assert (V : use (read j e d) (mkSt (new_scanner str) (hp s1)) = Ok (Some q, moveto 0 s2)).
        { unfold use. rewrite (bind_ok _ _ _ _ _ (mark_ok _)), (bind_ok _ _ _ _ _ (read_up e d m j _ _ Hj R2)). cbn [pos sc new_scanner].
          rewrite bind_run, to_marker_nonneg by lia. reflexivity. }
        unfold on_sub. rewrite (bind_ok _ _ _ _ _ V), (bind_ok _ _ _ _ _ (end_stands _ _ _ _ S3)). reflexivity.
      - exists s2. split; [exact S2|]. intros j Hj.
        assert (V : use (read j e d) (mkSt (new_scanner str) (hp s1)) = Ok (None, s2)).
        { unfold use. rewrite (bind_ok _ _ _ _ _ (mark_ok _)), (bind_ok _ _ _ _ _ (read_up e d m j _ _ Hj R2)). reflexivity. }
        unfold on_sub. rewrite (bind_ok _ _ _ _ _ V), (bind_ok _ _ _ _ _ (end_stands _ _ _ _ S2)). reflexivity. }
    destruct S3 as (s3 & S3 & O). pose proof (back_stands t0 c1 b1 s1 s3 str _ _ Sn S3) as Bk.
    assert (Ne : no_text b = false) by (destruct b; [congruence|auto]).
    assert (U : exists s', body_loop (S (n + m)) (slen t0 - slen (str ++ b)) (read (S (n + m)) e d) (read (S (n + m)) e t) k s = Ok (ok && no_text x, s')
      /\ stands t0 c' (if k && (ok && no_text x) then b else b1) s').
    { cbn [body_loop]. rewrite (bind_ok _ _ _ _ _ (end_stands _ _ _ _ St)), Ne, (bind_ok _ _ _ _ _ (mark_ok s)), (stands_pos _ _ _ _ St).
      rewrite (bind_ok _ _ _ _ _ (read_up e t n (S (n + m)) s _ ltac:(lia) R)), (bind_ok _ _ _ _ _ G), (bind_ok _ _ _ _ _ (O (S (n + m)) ltac:(lia))). cbn [fst snd].
      destruct q as [q|]; rewrite <- Q in *; cbn [okx andb] in *.
      - eexists. split; [reflexivity|]. rewrite andb_false_r. exact Bk.
      - destruct (no_text x); cbn [negb].
        + destruct k; cbn [andb].
          * rewrite bind_run, to_marker_nonneg. 2:{ pose proof (stands_len _ _ _ _ St). lia. } eexists. split; [reflexivity|].
            eapply stands_moveto; [exact Bk|apply St|reflexivity].
          * eexists. split; [reflexivity|exact Bk].
        + eexists. split; [reflexivity|]. rewrite andb_false_r. exact Bk. }
    destruct U as (s' & U & S'). exists s'. split; auto. exists (S (n + m)). exact U.
  - intros Sz [u Su]. destruct (IHeats1 t0 s St) as (x & s1 & R & X & Sn). destruct x as [x|]; [|discriminate]. destruct (step_stands _ _ _ _ Sn) as (s2 & F & S2).
    assert (Sx : exists v, z = v ++ snd (step b1)).
    { destruct (eats_suffix _ _ _ _ _ _ _ H0) as [d1 X1]. destruct (step_suffix b1) as [d2 X2]. exists (u ++ d1 ++ d2). rewrite Su, X1 at 1. rewrite X2 at 1. rewrite !app_assoc. reflexivity. }
    destruct (IHeats2 t0 s2 S2 Sz Sx) as (s3 & R3 & S3). exists s3. split; auto. eapply body_next; eauto.
    rewrite (stands_pos _ _ _ _ St). destruct St as (-> & _). destruct b; [congruence|unfold slen; cbn; lia].
Qed.

(** Read and derivations in the remaining-text semantics are the same. *)
Lemma eats_reads r c b ok c' b' t s : eats e (IR r) c b ok c' b' -> stands t c b s ->
  exists x s', reads e r s x s' /\ okx x = ok /\ stands t c' b' s'.
Proof. intros H. exact (eats_holds _ _ _ _ _ _ H t s). Qed.
Lemma reads_eats r t c b s x s' : eall covered e -> rall covered r = true -> stands t c b s -> reads e r s x s' ->
  exists c' b', stands t c' b' s' /\ eats e (IR r) c b (okx x) c' b'.
Proof. intros He Hr H [n R]. exact (read_eats e n He r Hr t c b s x s' H R). Qed.
Definition start_of (c : cells) (b : bytes) : st := mkSt (new_scanner b) (mkHeap [] c [] [] []).
Lemma stands_start c b : slen b < 2 ^ 63 -> stands b c b (start_of c b).
Proof. intros H. split; [reflexivity|]. split; [reflexivity|]. split; [exists []; auto|]. split; [cbn; lia|auto]. Qed.
Lemma stands_fun t c1 b1 c2 b2 s : stands t c1 b1 s -> stands t c2 b2 s -> c1 = c2 /\ b1 = b2.
Proof.
  intros (E & C1 & [a1 A1] & P1 & _) (_ & C2 & [a2 A2] & P2 & _). split; [congruence|].
  assert (X : slen b1 = slen b2) by lia. rewrite A1 in A2. apply app_inj_2 in A2; [tauto|unfold slen in X; lia].
Qed.
(** An outcome exists. *)
Definition returns (r : reader) (c : cells) (b : bytes) : Prop := exists ok c' b', eats e (IR r) c b ok c' b'.
Lemma hangs_eats r t c b s : eall covered e -> rall covered r = true -> eall (safe e) e -> rall (safe e) r = true -> stands t c b s ->
  (hangs e r s <-> ~ returns r c b).
Proof.
  intros He Hr Hs Hq H. rewrite reads_or_hangs. split.
  - intros [H1 _] (ok & c' & b' & D). destruct (eats_reads _ _ _ _ _ _ _ _ D H) as (x & s' & R & _). eapply H1; eauto.
  - intros N. split.
    + intros x s' R. destruct (reads_eats _ _ _ _ _ _ _ He Hr H R) as (c' & b' & _ & D). apply N. exists (okx x), c', b'. auto.
    + intros [n P]. revert P. apply read_no_panic; auto. eapply stands_in; eauto.
Qed.
End Complete.

(** PropMirror.v - backwards is forwards on the text written backwards (C161). *)
From Verif Require Import Mirror PropScanner ExKit.
From Coq Require Import Lia ZifyBool.

(* ------------------------------------------------------------------ C161 *)

(** C161.  Strings: [w] are the runes of the string. *)
Theorem C161_strings w : Forall is_scalar w -> mirrors (rev_if (utf8s w)) (if_str (utf8s (rev w))).
Proof.
  intros Vw s t M. pose proof M as (l & r & Hs & Ht). pose proof Hs as [Ss Vs]. pose proof Ht as [St Vt].
  assert (Sl : Forall is_scalar l) by (apply visible_scalars; apply Forall_app in Vs; apply Vs).
  assert (Vw' : Forall is_scalar (rev w)) by (apply Forall_rev; exact Vw).
  destruct (C05_rev_if s _ _ (utf8s w) Ss) as [Y1 N1]. destruct (C05_if t _ _ (utf8s (rev w)) St) as [Y2 N2].
  assert (X : (exists l1, l = l1 ++ w) \/ (forall l1, l <> l1 ++ w)).
  { destruct (list_eq_dec Z.eq_dec (skipn (length l - length w) l) w) as [Q|Q].
    - left. exists (firstn (length l - length w) l). rewrite <- Q at 2. symmetry. apply firstn_skipn.
    - right. intros l1 ->. apply Q. rewrite app_length. replace (length l1 + length w - length w)%nat with (length l1) by lia. rewrite skipn_app, skipn_all, Nat.sub_diag. reflexivity. }
  destruct X as [(l1 & ->)|X].
  - eapply (mirror_yes _ _ s t l1 w r); [exact Hs|exact Ht|apply (Y1 (utf8s l1)); apply utf8s_app| |reflexivity|reflexivity].
    rewrite <- (utf8s_rev_len w). apply (Y2 (utf8s (rev l1))). rewrite rev_app_distr. apply utf8s_app.
  - apply mirror_no; [exact M|apply N1|apply N2].
    + intros h Q. destruct w as [|x w]; [apply (X l); symmetry; apply app_nil_r|].
      destruct (utf8s_sync l h (x :: w) [] Sl Vw ltac:(discriminate) ltac:(rewrite app_nil_r; exact Q)) as (r1 & r3 & E & _ & E3).
      destruct r3 as [|y r3]; [rewrite app_nil_r in E; exact (X r1 E)|]. symmetry in E3. cbn in E3. apply app_eq_nil in E3 as [E3 _]. exact (utf8_nonnil y E3).
    + intros u Q. destruct (utf8s_prefix (rev w) (rev l) u Vw' ltac:(apply Forall_rev; exact Sl) Q) as (r3 & E & _).
      apply (X (rev r3)). rewrite <- (rev_involutive l), E, rev_app_distr, rev_involutive. reflexivity.
Qed.
Print Assumptions C161_strings.
Theorem C161_any_of_strings ws : Forall (Forall is_scalar) ws -> mirrors (rev_if_any (map utf8s ws)) (if_any (map (fun w => utf8s (rev w)) ws)).
Proof.
  induction 1 as [|w ws Hw F IH]; intros s t M; cbn [map rev_if_any if_any].
  - exists false, s, t. auto.
  - unfold alike. apply (mirrors_if _ _ _ _ _ _ (C161_strings w Hw) (mirrors_ret true) IH s t M).
Qed.
Print Assumptions C161_any_of_strings.

(** To(str) and RevTo(str) need a string that is not empty: RevTo of the empty string fails at the start. *)
Theorem C161_to_string w : Forall is_scalar w -> w <> [] -> mirrors (rev_to (utf8s w)) (to_str (utf8s (rev w))).
Proof.
  intros Vw Nw s t M. pose proof M as (l & r & Hs & Ht). pose proof Hs as [Ss Vs]. pose proof Ht as [St Vt].
  assert (Vl : Forall visible l) by (apply Forall_app in Vs; apply Vs). pose proof (visible_scalars l Vl) as Sl.
  assert (Vw' : Forall is_scalar (rev w)) by (apply Forall_rev; exact Vw). assert (Sl' : Forall is_scalar (rev l)) by (apply Forall_rev; exact Sl).
  assert (Nw' : rev w <> []) by (intros X; apply Nw; rewrite <- (rev_involutive w), X; reflexivity).
  destruct (C07_rev_to_partial s l _ w Ss Vl Vw Nw) as [Y1 N1]. destruct (C06_to_first_occurrence t _ _ (utf8s (rev w)) St) as [Y2 N2].
  destruct (last_place w l) as [(l1 & l2 & El & Mn)|N].
  - rewrite El in Hs, Ht. rewrite app_assoc in Hs, Ht. eapply (mirror_yes _ _ s t (l1 ++ w) l2 r); [exact Hs|exact Ht| | |reflexivity|reflexivity].
    + apply (Y1 (utf8s l1) (utf8s l2)); [rewrite El, !utf8s_app; reflexivity|]. intros c' d' X.
      destruct (utf8s_sync l c' w d' Sl Vw Nw X) as (r1 & r3 & E & _ & ->). apply (suffix_slen (l1 ++ w) (r1 ++ w)); [rewrite <- !app_assoc; congruence|exact (Mn _ _ E)].
    + rewrite <- (utf8s_rev_len l2). apply (Y2 (utf8s (rev l2)) (utf8s (rev l1))); [rewrite El, !rev_app_distr, !utf8s_app, <- app_assoc; reflexivity|]. intros c' d' X.
      destruct (utf8s_sync (rev l) c' (rev w) d' Sl' Vw' Nw' X) as (r1 & r3 & E & -> & _).
      assert (E' : l = rev r3 ++ w ++ rev r1) by (rewrite <- (rev_involutive l), E, !rev_app_distr, rev_involutive, <- app_assoc; reflexivity).
      rewrite <- (utf8s_rev_len (rev l2)), <- (utf8s_rev_len r1), rev_involutive.
      apply (suffix_slen (l1 ++ w) (rev r3 ++ w)); [rewrite <- !app_assoc; congruence|exact (Mn _ _ E')].
  - apply mirror_no; [exact M|apply N1|apply N2].
    + intros c d X. destruct (utf8s_sync l c w d Sl Vw Nw X) as (r1 & r3 & E & _). exact (N _ _ E).
    + intros c d X. destruct (utf8s_sync (rev l) c (rev w) d Sl' Vw' Nw' X) as (r1 & r3 & E & _).
      apply (N (rev r3) (rev r1)). rewrite <- (rev_involutive l), E, !rev_app_distr, rev_involutive, <- app_assoc. reflexivity.
Qed.
Print Assumptions C161_to_string.

(** Runes; [str] is any string. *)
Theorem C161_rune r : mirrors (rev_if_rune r) (if_rune r) /\ mirrors (rev_to_rune r) (to_rune r) /\ mirrors (rev_while_rune r) (while_rune r).
Proof.
  split; [|split].
  - apply (mirror_one (fun v => v = r) (fun x => Z.eq_dec x r)).
    + intros s a b H N. apply (C12_rev_if_rune_exact s a b r H). auto.
    + intros t a b l H C N. apply (C09_if_rune_partial t a b l r H C). auto.
    + destruct (Z.eq_dec r 0xFFFD) as [->|N].
      * right. split; [intros s b H; apply (C12_rev_if_rune_exact s [] b _ H); auto|intros t a H; exact (C09_if_rune_at_end t a H)].
      * left. split; [intros s b H; apply (C12_rev_if_rune_exact s [] b _ H); auto|intros t a H; exact (C09_if_rune_partial t a [] [] r H ck_nil (or_intror N))].
  - apply (mirror_to (fun v => v = r) (fun x => Z.eq_dec x r)); [intros s rs b H V; exact (C13_rev_to_rune s rs b r H V)|intros t a b l H C; exact (C10_to_rune t a b l r H C)].
  - apply (mirror_while (fun v => v = r) (fun x => Z.eq_dec x r)); [intros s rs b H V; exact (C13_rev_while_rune s rs b r H V)|intros t a b l l1 l2 H C; exact (C11_while_rune_exact t a b l r l1 l2 H C)].
Qed.
Print Assumptions C161_rune.
Theorem C161_any_rune str : mirrors (rev_if_any_rune str) (if_any_rune str) /\ mirrors (rev_to_any_rune str) (to_any_rune str).
Proof.
  destruct (chunked_exists str) as [ls C]. set (P := fun v => In v (map fst ls)). assert (D : forall x, {P x} + {~ P x}) by (intros x; apply in_dec, Z.eq_dec). split.
  - apply (mirror_one P D).
    + intros s a b H N. apply (C12_rev_if_any_rune_exact s a b str ls H C). auto.
    + intros t a b l H C2 N. apply (C09_if_any_rune_partial t a b l str ls H C2 C). auto.
    + destruct (D 0xFFFD) as [Y|N].
      * right. split; [intros s b H; apply (C12_rev_if_any_rune_exact s [] b str ls H C); auto|intros t a H; exact (C09_if_any_rune_at_end t a str ls H C Y)].
      * left. split; [intros s b H; apply (C12_rev_if_any_rune_exact s [] b str ls H C); auto|intros t a H; exact (C09_if_any_rune_partial t a [] [] str ls H ck_nil C (or_intror N))].
  - apply (mirror_to P D); [intros s rs b H V; exact (C13_rev_to_any_rune s rs b str ls H V C)|intros t a b l H C2; exact (C10_to_any_rune t a b l str ls H C2 C)].
Qed.
Print Assumptions C161_any_rune.
Theorem C161_between_and_match mn mx check : mirrors (rev_to_between mn mx) (to_between mn mx) /\ mirrors (rev_while_between mn mx) (while_between mn mx) /\
  mirrors (rev_to_match check) (to_match check).
Proof.
  assert (D : forall x, {mn <= x <= mx} + {~ (mn <= x <= mx)}) by (intros x; destruct (Z_le_dec mn x), (Z_le_dec x mx); [left|right|right|right]; lia).
  split; [|split].
  - apply (mirror_to _ D); [intros s rs b H V; exact (C13_rev_to_between s rs b mn mx H V)|intros t a b l H C; exact (C10_to_between t a b l mn mx H C)].
  - apply (mirror_while _ D); [intros s rs b H V; exact (C13_rev_while_between s rs b mn mx H V)|intros t a b l l1 l2 H C; exact (C11_while_between_exact t a b l mn mx l1 l2 H C)].
  - apply (mirror_to (fun v => check v = true) (fun v => bool_dec (check v) true)); [intros s rs b H V; exact (C13_rev_to_match s rs b check H V)|intros t a b l H C; exact (C10_to_match t a b l check H C)].
Qed.
Print Assumptions C161_between_and_match.
Theorem C161_move_runes n : mirrors (move_runes (- n)) (move_runes n).
Proof.
  assert (K : forall m, 0 < m -> forall s t l r, at_runes s l r -> at_runes t (rev r) (rev l) -> (slen l < m /\ no (move_runes (- m)) s /\ no (move_runes m) t) \/
    (exists l1 l2, l = l1 ++ l2 /\ yes_by (move_runes (- m)) s (- slen (utf8s l2)) /\ yes_by (move_runes m) t (slen (utf8s l2)))).
  { intros m Hm s t l r [Ss Vs] [St Vt]. assert (Vl : Forall visible l) by (apply Forall_app in Vs; apply Vs).
    assert (Sl : Forall is_scalar (rev l)) by (apply Forall_rev, visible_scalars; exact Vl). destruct (Z_lt_le_dec (slen l) m) as [Lt|Le].
    - left. split; auto. split; [exact (C14_move_runes_back_no s l _ m Ss Vl Lt)|apply (C14_move_runes_forward_no t _ (rev l) m St Sl); unfold slen in *; rewrite rev_length; exact Lt].
    - right. exists (firstn (length l - Z.to_nat m) l), (skipn (length l - Z.to_nat m) l). set (l1 := firstn _ l). set (l2 := skipn _ l).
      assert (El : l = l1 ++ l2) by (symmetry; apply firstn_skipn). assert (L2 : slen l2 = m) by (unfold slen in *; subst l2; rewrite skipn_length; lia).
      assert (N : l2 <> []) by (intros X; rewrite X in L2; cbn in L2; lia). rewrite El in Ss, Vl, St, Sl. rewrite rev_app_distr in St, Sl.
      split; auto. split; [rewrite <- L2; exact (C14_move_runes_back s l1 l2 _ Ss Vl N)|].
      rewrite <- (utf8s_rev_len l2). replace m with (slen (rev l2)) by (unfold slen in *; rewrite rev_length; exact L2). apply (C14_move_runes_forward t _ (rev l2) (rev l1) St Sl).
      intros X. apply N. rewrite <- (rev_involutive l2), X. reflexivity. }
  intros s t M. pose proof M as (l & r & Hs & Ht). destruct (Z_lt_le_dec 0 n) as [Pn|Nn]; [|destruct (Z.eq_dec n 0) as [->|Nz]].
  - destruct (K n Pn s t l r Hs Ht) as [(_ & A & B)|(l1 & l2 & -> & A & B)]; [apply mirror_no; auto|]. eapply mirror_yes; eauto.
  - exists true, s, t. auto.
  - assert (Hs' : at_runes s (rev (rev l)) (rev (rev r))) by (rewrite !rev_involutive; exact Hs).
    destruct (K (- n) ltac:(lia) t s (rev r) (rev l) Ht Hs') as [(_ & A & B)|(l1 & l2 & E & A & B)]; rewrite Z.opp_involutive in *; [apply mirror_no; auto|].
    rewrite E in Ht, Hs'. destruct (mirror_yes _ _ t s l1 l2 (rev l) _ _ Ht Hs' A B eq_refl eq_refl) as (ok & t' & s' & E1 & E2 & E3 & E4 & E5).
    exists ok, s', t'. auto using mirror_sym.
Qed.
Print Assumptions C161_move_runes.

(** The ends of the text. *)
Theorem C161_ends : mirrors to_start to_end /\ mirrors to_end to_start /\ mirrors at_start at_end /\ mirrors at_end at_start.
Proof.
  assert (Z1 : forall l, slen (utf8s l) = 0 -> l = []).
  { intros [|c l] H; auto. cbn in H. rewrite slen_app in H. pose proof (utf8_slen_pos c). pose proof (slen_nonneg (flat_map utf8 l)). lia. }
  assert (A : forall s t l r, at_runes s l r -> at_runes t (rev r) (rev l) -> at_start s = Ok (slen (utf8s l) =? 0, s) /\ at_end t = Ok (slen (utf8s l) =? 0, t)).
  { intros s t l r [(F & P & _) _] [(F' & P' & _) _]. unfold at_start, at_end, gets. rewrite P, P', F', slen_app, utf8s_rev_len. split; auto. do 2 f_equal. rewrite (utf8s_rev_len l). lia. }
  assert (B : forall s t l r, at_runes s l r -> at_runes t (rev r) (rev l) -> yes_by to_start s (- slen (utf8s l)) /\ yes_by to_end t (slen (utf8s l))).
  { intros s t l r [Ss _] [St _]. pose proof (in_text_split _ _ _ Ss) as I. pose proof (in_text_split _ _ _ St) as J. destruct Ss as (F & P & Ls). destruct St as (F' & P' & Lt).
    unfold yes_by, to_start, to_end, to_marker. split.
    - replace (pos (sc s) + - slen (utf8s l)) with 0 by lia. reflexivity.
    - rewrite F', slen_app, P', utf8s_rev_len, (utf8s_rev_len l). pose proof (slen_nonneg (utf8s l)). pose proof (slen_nonneg (utf8s r)).
      destruct (slen (utf8s r) + slen (utf8s l) <? 0) eqn:X; [lia|reflexivity]. }
  assert (M1 : mirrors to_start to_end).
  { intros s t (l & r & Hs & Ht). destruct (B s t l r Hs Ht) as [Y1 Y2]. eapply (mirror_yes _ _ s t [] l r); eauto. }
  assert (M2 : mirrors at_start at_end).
  { intros s t M. pose proof M as (l & r & Hs & Ht). destruct (A s t l r Hs Ht) as [Y1 Y2]. exists (slen (utf8s l) =? 0), s, t. auto. }
  auto using mirrors_sym.
Qed.
Print Assumptions C161_ends.

(** Programs of these calls, and the program for the text written backwards. *)
Inductive twin : M bool -> M bool -> Prop :=
| tw_if w : Forall is_scalar w -> twin (rev_if (utf8s w)) (if_str (utf8s (rev w)))
| tw_if_any ws : Forall (Forall is_scalar) ws -> twin (rev_if_any (map utf8s ws)) (if_any (map (fun w => utf8s (rev w)) ws))
| tw_to w : Forall is_scalar w -> w <> [] -> twin (rev_to (utf8s w)) (to_str (utf8s (rev w)))
| tw_if_rune r : twin (rev_if_rune r) (if_rune r)
| tw_to_rune r : twin (rev_to_rune r) (to_rune r)
| tw_while_rune r : twin (rev_while_rune r) (while_rune r)
| tw_if_any_rune str : twin (rev_if_any_rune str) (if_any_rune str)
| tw_to_any_rune str : twin (rev_to_any_rune str) (to_any_rune str)
| tw_to_between mn mx : twin (rev_to_between mn mx) (to_between mn mx)
| tw_while_between mn mx : twin (rev_while_between mn mx) (while_between mn mx)
| tw_to_match check : twin (rev_to_match check) (to_match check)
| tw_move_runes n : twin (move_runes (- n)) (move_runes n)
| tw_to_start : twin to_start to_end
| tw_at_start : twin at_start at_end
| tw_flip g f : twin g f -> twin f g
| tw_ret b : twin (ret b) (ret b)
| tw_branch g f g1 f1 g2 f2 : twin g f -> twin g1 f1 -> twin g2 f2 ->
    twin (let* ok := g in if ok then g1 else g2) (let* ok := f in if ok then f1 else f2)
| tw_scope g f : twin g f -> twin (scope g) (scope f).
Theorem C161_programs g f : twin g f -> mirrors g f.
Proof.
  induction 1.
  - apply C161_strings; auto.
  - apply C161_any_of_strings; auto.
  - apply C161_to_string; auto.
  - apply C161_rune.
  - apply C161_rune.
  - apply C161_rune.
  - apply C161_any_rune.
  - apply C161_any_rune.
  - apply (C161_between_and_match mn mx (fun _ => true)).
  - apply (C161_between_and_match mn mx (fun _ => true)).
  - apply (C161_between_and_match 0 0 check).
  - apply C161_move_runes.
  - apply C161_ends.
  - apply C161_ends.
  - apply mirrors_sym; auto.
  - apply mirrors_ret.
  - apply mirrors_if; auto.
  - apply mirrors_scope; auto.
Qed.
Print Assumptions C161_programs.
(** The other pairs are not alike: RevIfBetween and RevIfMatch take the runes that do not match; WhileAnyRune and
    WhileMatch do not go to the end of the text. *)
Theorem C161_not_alike : ~ mirrors (rev_if_between 0x61 0x7A) (if_between 0x61 0x7A) /\ ~ mirrors (rev_if_match (fun _ => true)) (if_match (fun _ => true)) /\
  ~ mirrors (rev_while_any_rune (lit "a")) (while_any_rune (lit "a")) /\ ~ mirrors (rev_while_match (fun _ => true)) (while_match (fun _ => true)) /\
  ~ mirrors (rev_to []) (to_str []).
Proof.
  assert (A : mirror (mk (lit "a") 1) (mk (lit "a") 0)).
  { exists [0x61], []. split; (split; [split_here|repeat constructor; try (unfold is_scalar; lia); try discriminate]). }
  assert (B : mirror (mk [] 0) (mk [] 0)) by (exists [], []; split; (split; [split_here|constructor])).
  assert (P : forall s t, mirror s t -> pos (sc s) + pos (sc t) = slen (full (sc s))) by apply mirror_pos.
  split; [|split; [|split; [|split]]]; intros H.
  - destruct (H _ _ A) as (ok & s' & t' & E1 & E2 & _). vm_compute in E1, E2. congruence.
  - destruct (H _ _ A) as (ok & s' & t' & E1 & E2 & _). vm_compute in E1, E2. congruence.
  - destruct (H _ _ A) as (ok & s' & t' & E1 & E2 & Q & _). vm_compute in E1, E2. injection E1 as <- <-. injection E2 as <-. apply P in Q. vm_compute in Q. discriminate.
  - destruct (H _ _ A) as (ok & s' & t' & E1 & E2 & _). vm_compute in E1, E2. congruence.
  - destruct (H _ _ B) as (ok & s' & t' & E1 & E2 & _). vm_compute in E1, E2. congruence.
Qed.
Print Assumptions C161_not_alike.

(** What If, IfRune and IfAnyRune took is given back by RevIf, RevIfRune and RevIfAnyRune, and the other way round. *)
Theorem C161_undo x r str :
  undoes (rev_if x) (if_str x) /\ undoes (if_str x) (rev_if x) /\
  undoes (rev_if_rune r) (if_rune r) /\ undoes (if_rune r) (rev_if_rune r) /\
  undoes (rev_if_any_rune str) (if_any_rune str) /\ undoes (if_any_rune str) (rev_if_any_rune str).
Proof.
  assert (A : undoes (rev_if x) (if_str x)).
  { intros s l q s' [Ss V] E Mv. destruct (C05_if s _ _ x Ss) as [Y N].
    destruct (has_prefix (utf8s q) x) eqn:Hp.
    - apply has_prefix_iff in Hp as [t Et]. pose proof (Y t Et) as Y1. unfold yes_by in Y1. rewrite E in Y1. injection Y1 as ->.
      assert (S1 : at_split (moveto (pos (sc s) + slen x) s) (utf8s l ++ x) t).
      { apply (moved_split s (utf8s l) (utf8s q)); [exact Ss|rewrite Et, <- app_assoc; reflexivity|]. destruct Ss as (_ & -> & _). rewrite slen_app. reflexivity. }
      destruct (C05_rev_if _ _ _ x S1) as [Y2 _]. specialize (Y2 _ eq_refl). eexists. split; [exact Y2|]. split; [cbn; lia|reflexivity].
    - exfalso. assert (X : no (if_str x) s). { apply N. intros t Et. assert (has_prefix (utf8s q) x = true) by (apply has_prefix_iff; eauto). congruence. }
      unfold no in X. rewrite E in X. discriminate. }
  assert (A' : undoes (if_str x) (rev_if x)).
  { intros s l q s' [Ss V] E Mv. destruct (C05_rev_if s _ _ x Ss) as [Y N].
    destruct (has_suffix (utf8s l) x) eqn:Hp.
    - apply has_suffix_iff in Hp as [t Et]. pose proof (Y t Et) as Y1. unfold yes_by in Y1. rewrite E in Y1. injection Y1 as ->.
      assert (S1 : at_split (moveto (pos (sc s) + - slen x) s) t (x ++ utf8s q)).
      { apply (moved_split s (utf8s l) (utf8s q)); [exact Ss|rewrite Et, <- app_assoc; reflexivity|]. destruct Ss as (_ & -> & _). rewrite Et, slen_app. lia. }
      destruct (C05_if _ _ _ x S1) as [Y2 _]. specialize (Y2 _ eq_refl). eexists. split; [exact Y2|]. split; [cbn; lia|reflexivity].
    - exfalso. assert (X : no (rev_if x) s). { apply N. intros t Et. assert (has_suffix (utf8s l) x = true) by (apply has_suffix_iff; eauto). congruence. }
      unfold no in X. rewrite E in X. discriminate. }
  assert (B : undoes (rev_if_rune r) (if_rune r)).
  { apply (undo_one (fun v => v = r) (fun x => Z.eq_dec x r)).
    - intros s a b H N. apply (C12_rev_if_rune_exact s a b r H). auto.
    - intros t a b l H C N. apply (C09_if_rune_partial t a b l r H C). auto.
    - intros t a H. destruct (Z.eq_dec r 0xFFFD) as [->|N]; [right; exact (C09_if_rune_at_end t a H)|left; exact (C09_if_rune_partial t a [] [] r H ck_nil (or_intror N))]. }
  assert (C : undoes (rev_if_any_rune str) (if_any_rune str)).
  { destruct (chunked_exists str) as [ls Cs]. assert (D : forall y, {In y (map fst ls)} + {~ In y (map fst ls)}) by (intros y; apply in_dec, Z.eq_dec).
    apply (undo_one (fun v => In v (map fst ls)) D).
    - intros s a b H N. apply (C12_rev_if_any_rune_exact s a b str ls H Cs). auto.
    - intros t a b l H C N. apply (C09_if_any_rune_partial t a b l str ls H C Cs). auto.
    - intros t a H. destruct (D 0xFFFD) as [Y|N]; [right; exact (C09_if_any_rune_at_end t a str ls H Cs Y)|left; exact (C09_if_any_rune_partial t a [] [] str ls H ck_nil Cs (or_intror N))]. }
  split; [exact A|]. split; [exact A'|]. split; [exact B|]. split; [apply undoes_mirror; [apply C161_rune|exact B]|]. split; [exact C|apply undoes_mirror; [apply C161_any_rune|exact C]].
Qed.
Print Assumptions C161_undo.
(** IfAny is not undone by RevIfAny with the same strings. *)
Example C161_any_not_undone : if_any [lit "ba"; lit "a"] (mk (lit "ba") 0) = Ok (true, mk (lit "ba") 2) /\
  rev_if_any [lit "a"; lit "ba"] (mk (lit "ba") 2) = Ok (true, mk (lit "ba") 1).
Proof. split; reflexivity. Qed.
(** RevTo(wé) then RevIfRune(é) on abwéx, and To(éw) then IfRune(é) on xéwba. *)
Example C161_case : let g := let* ok := rev_to (utf8s [0x77; 0xE9]) in if ok then rev_if_rune 0xE9 else ret false in
  let f := let* ok := to_str (utf8s (rev [0x77; 0xE9])) in if ok then if_rune 0xE9 else ret false in
  twin g f /\ mirror (mk (lit "abwéx") 6) (mk (lit "xéwba") 0) /\ g (mk (lit "abwéx") 6) = Ok (true, mk (lit "abwéx") 3) /\ f (mk (lit "xéwba") 0) = Ok (true, mk (lit "xéwba") 3).
Proof.
  split; [|split; [|split; reflexivity]].
  - apply tw_branch; [apply tw_to; [repeat constructor; unfold is_scalar; lia|discriminate]|apply tw_if_rune|apply tw_ret].
  - exists [0x61; 0x62; 0x77; 0xE9; 0x78], []. split; (split; [split_here|repeat constructor; try (unfold is_scalar; lia); try discriminate]).
Qed.

(** Mirror.v - the backward operations of the Scanner on a text and the forward ones on the text written backwards. *)
From Verif Require Export ScannerSafe ReadFacts ScannerRevFacts.
From Coq Require Import Lia ZifyBool.

(** The Scanner stands between the runes [l] and [r] of a text without U+FFFD. *)
Definition at_runes (s : st) (l r : list Z) : Prop := at_split s (utf8s l) (utf8s r) /\ Forall visible (l ++ r).
(** The text of [t] is that of [s] written backwards, and they stand at the same place. *)
Definition mirror (s t : st) : Prop := exists l r, at_runes s l r /\ at_runes t (rev r) (rev l).
(** [g] does on a text what [f] does on the text written backwards: the same answer, the same place after it. *)
Definition alike (g f : M bool) (s t : st) : Prop := exists ok s' t', g s = Ok (ok, s') /\ f t = Ok (ok, t') /\ mirror s' t' /\
  full (sc s') = full (sc s) /\ full (sc t') = full (sc t).
Definition mirrors (g f : M bool) : Prop := forall s t, mirror s t -> alike g f s t.

Lemma utf8s_rev_len l : slen (utf8s (rev l)) = slen (utf8s l).
Proof. induction l as [|c l IH]; [reflexivity|]. cbn [rev]. rewrite utf8s_app, slen_app, IH. change (utf8s (c :: l)) with (utf8 c ++ utf8s l). rewrite slen_app. unfold utf8s at 2. cbn [flat_map]. rewrite app_nil_r. lia. Qed.
Lemma visible_rev l : Forall visible l -> Forall visible (rev l).
Proof. intros H. apply Forall_rev. exact H. Qed.
Lemma moved_split s a b c a' b' : at_split s a b -> a' ++ b' = a ++ b -> c = slen a' -> at_split (moveto c s) a' b'.
Proof. intros (F & P & B) E ->. repeat split; try (cbn [moveto sc full pos]; congruence). Qed.
(** The ways in which an operation and its mirror image may end. *)
Lemma mirror_no g f s t : mirror s t -> no g s -> no f t -> alike g f s t.
Proof. intros M G F. exists false, s, t. auto. Qed.
Lemma mirror_yes g f s t l1 l2 r d d' : at_runes s (l1 ++ l2) r -> at_runes t (rev r) (rev (l1 ++ l2)) -> yes_by g s d -> yes_by f t d' ->
  d = - slen (utf8s l2) -> d' = slen (utf8s l2) -> alike g f s t.
Proof.
  intros [Ss Vs] [St Vt] G F -> ->. eexists true, _, _. split; [exact G|]. split; [exact F|]. split; [|split; reflexivity]. exists l1, (l2 ++ r). split; split.
  - eapply moved_split; [exact Ss|rewrite !utf8s_app, app_assoc; reflexivity|]. destruct Ss as (_ & -> & _). rewrite utf8s_app, slen_app. lia.
  - rewrite app_assoc. exact Vs.
  - eapply moved_split; [exact St|rewrite <- !utf8s_app, !rev_app_distr, <- app_assoc; reflexivity|]. destruct St as (_ & -> & _).
    rewrite rev_app_distr, utf8s_app, slen_app, (utf8s_rev_len l2). lia.
  - rewrite !rev_app_distr, <- !app_assoc in *. exact Vt.
Qed.

Lemma mirror_sym s t : mirror s t -> mirror t s.
Proof. intros (l & r & A & B). exists (rev r), (rev l). rewrite !rev_involutive. auto. Qed.
Lemma mirrors_sym g f : mirrors g f -> mirrors f g.
Proof. intros H s t M. destruct (H t s (mirror_sym _ _ M)) as (ok & t' & s' & A & B & C & D & E). exists ok, s', t'. auto using mirror_sym. Qed.
Lemma mirror_pos s t : mirror s t -> pos (sc s) + pos (sc t) = slen (full (sc s)).
Proof. intros (l & r & [(F & P & _) _] & [(F' & P' & _) _]). rewrite P, P', F, slen_app, utf8s_rev_len. lia. Qed.
Lemma runes_of (l r l' r' : list Z) : Forall visible (l ++ r) -> Forall visible (l' ++ r') -> utf8s l ++ utf8s r = utf8s l' ++ utf8s r' -> l ++ r = l' ++ r'.
Proof.
  intros V V' E. rewrite <- !utf8s_app in E. destruct (utf8s_prefix (l' ++ r') (l ++ r) [] (visible_scalars _ V') (visible_scalars _ V) ltac:(rewrite app_nil_r; exact E)) as (r3 & Q & X).
  rewrite Q. destruct r3 as [|c r3]; [apply app_nil_r|]. symmetry in X. cbn in X. apply app_eq_nil in X as [X _]. destruct (utf8_nonnil c X).
Qed.
(** Sequences, choices and Scope. *)
Lemma mirrors_ret b : mirrors (ret b) (ret b).
Proof. intros s t M. exists b, s, t. auto. Qed.
Lemma mirrors_if g f g1 f1 g2 f2 : mirrors g f -> mirrors g1 f1 -> mirrors g2 f2 ->
  mirrors (let* ok := g in if ok then g1 else g2) (let* ok := f in if ok then f1 else f2).
Proof.
  intros H H1 H2 s t M. destruct (H s t M) as (ok & s' & t' & A & B & C & D & E). unfold alike, bind. rewrite A, B.
  destruct ok; [destruct (H1 s' t' C) as (o & s2 & t2 & A2 & B2 & C2 & D2 & E2)|destruct (H2 s' t' C) as (o & s2 & t2 & A2 & B2 & C2 & D2 & E2)];
    exists o, s2, t2; repeat split; auto; congruence.
Qed.
Lemma back_there s s' a b : at_split s a b -> full (sc s') = full (sc s) -> at_split (moveto (pos (sc s)) s') a b.
Proof. intros (F & P & B) E. repeat split; auto. cbn [moveto sc full]. congruence. Qed.
Lemma mirrors_scope g f : mirrors g f -> mirrors (scope g) (scope f).
Proof.
  intros H s t M. destruct (H s t M) as (ok & s' & t' & A & B & C & D & E). pose proof M as (l & r & [Ss Vs] & [St Vt]).
  unfold alike, scope, bind, mark, gets. rewrite A, B. destruct ok; [exists true, s', t'; auto|].
  assert (K : forall u v a b, at_split u a b -> full (sc v) = full (sc u) -> to_marker (pos (sc u)) v = Ok (true, moveto (pos (sc u)) v)).
  { intros u v a b (F & P & _) _. unfold to_marker. rewrite P. pose proof (slen_nonneg a). destruct (slen a <? 0) eqn:X; [lia|reflexivity]. }
  rewrite (K s s' _ _ Ss D), (K t t' _ _ St E). exists false, (moveto (pos (sc s)) s'), (moveto (pos (sc t)) t'). repeat split; auto.
  exists l, r. split; (split; [apply back_there|]; assumption).
Qed.

Section Ways.
Context (P : Z -> Prop) (D : forall x, {P x} + {~ P x}).
(** The operations on one rune. *)
Lemma mirror_one g f : (forall s a b, at_split s a b -> a <> [] -> one_rune_back P g s a) ->
  (forall t a b l, at_split t a b -> chunked b l -> l <> [] -> one_rune P f t l) ->
  ((forall s b, at_split s [] b -> no g s) /\ (forall t a, at_split t a [] -> no f t) \/
   (forall s b, at_split s [] b -> yes_by g s 0) /\ (forall t a, at_split t a [] -> yes_by f t 0)) -> mirrors g f.
Proof.
  intros G F E s t M. pose proof M as (l & r & Hs & Ht). destruct l as [|c0 l0] using rev_ind; [|clear IHl0].
  - destruct Hs as [Ss Vs], Ht as [St Vt]. destruct E as [[E1 E2]|[E1 E2]].
    + apply mirror_no; [exact M|eapply E1; exact Ss|eapply E2; exact St].
    + apply (mirror_yes g f s t [] [] r 0 0); [split; auto|split; auto|eapply E1; exact Ss|eapply E2; exact St|reflexivity|reflexivity].
  - pose proof Hs as [Ss Vs]. pose proof Ht as [St Vt]. assert (Sc : is_scalar c0) by (apply Forall_app in Vs as [Vs _]; apply Forall_app in Vs as [_ Vs]; inversion_clear Vs as [|? ? Q _]; apply Q).
    assert (N : utf8s (l0 ++ [c0]) <> []).
    { rewrite utf8s_app. cbn. rewrite app_nil_r. intros X. apply app_eq_nil in X as [_ X]. exact (utf8_nonnil c0 X). }
    destruct (G s _ _ Ss N) as [_ G1]. specialize (G1 c0 (utf8 c0)). rewrite utf8s_snoc in G1. destruct (G1 (lc_rune _ _ Sc)) as [Y1 N1].
    rewrite rev_app_distr in St. cbn [rev app] in St. assert (Vl : Forall is_scalar (c0 :: rev l0)).
    { apply visible_scalars. apply Forall_app in Vt as [_ Vt]. rewrite rev_app_distr in Vt. exact Vt. }
    pose proof (F t _ _ _ St (chunked_utf8s _ Vl) ltac:(discriminate)) as [Y2 N2]. destruct (D c0) as [Y|Y].
    + eapply (mirror_yes g f s t l0 [c0] r); [exact Hs|exact Ht|exact (Y1 Y)|exact (Y2 Y)| |]; cbn; rewrite app_nil_r; reflexivity.
    + apply mirror_no; auto.
Qed.
(** The last rune with [P]. *)
Lemma last_hit l : (exists l1 c l2, l = l1 ++ c :: l2 /\ P c /\ Forall (fun x => ~ P x) l2) \/ Forall (fun x => ~ P x) l.
Proof.
  induction l as [|c l IH]; [right; constructor|]. destruct IH as [(l1 & x & l2 & -> & X & N)|N].
  - left. exists (c :: l1), x, l2. auto.
  - destruct (D c) as [X|X]; [left; exists [], c, l; auto|right; constructor; auto].
Qed.
Lemma pairs_none l : Forall (fun x => ~ P x) l -> Forall (fun x => ~ P (fst x)) (map (fun r => (r, utf8 r)) (rev l)).
Proof. intros H. apply Forall_rev in H. induction H; constructor; auto. Qed.
Lemma mirror_to g f : (forall s rs b, at_split s (utf8s rs) b -> Forall visible rs -> to_last P g s rs) ->
  (forall t a b l, at_split t a b -> chunked b l -> to_first P f t l) -> mirrors g f.
Proof.
  intros G F s t M. pose proof M as (l & r & Hs & Ht). pose proof Hs as [Ss Vs]. pose proof Ht as [St Vt].
  assert (Vl : Forall visible l) by (apply Forall_app in Vs; apply Vs). destruct (G s l _ Ss Vl) as [Y1 N1].
  destruct (F t _ _ _ St (chunked_utf8s _ (visible_scalars _ (visible_rev _ Vl)))) as [Y2 N2].
  destruct (last_hit l) as [(l1 & c & l2 & -> & C & N)|N].
  - eapply (mirror_yes g f s t (l1 ++ [c]) l2 r); [rewrite <- app_assoc; exact Hs|rewrite <- app_assoc; exact Ht|exact (Y1 l1 c l2 eq_refl N C)| |reflexivity|reflexivity].
    rewrite <- (utf8s_rev_len l2), <- (chunk_bytes_runes (rev l2)). apply (Y2 _ c (utf8 c) (map (fun r => (r, utf8 r)) (rev l1))); auto using pairs_none.
    rewrite rev_app_distr. cbn [rev]. rewrite !map_app, <- app_assoc. reflexivity.
  - apply mirror_no; [exact M|exact (N1 N)|apply N2, pairs_none; exact N].
Qed.
(** The longest run at the end. *)
Lemma last_run l : exists l1 l2, l = l1 ++ l2 /\ Forall P l2 /\ (l1 = [] \/ exists l3 v, l1 = l3 ++ [v] /\ ~ P v).
Proof.
  induction l as [|c l (l1 & l2 & -> & F & E)]; [exists [], []; auto|]. destruct E as [->|(l3 & v & -> & N)].
  - destruct (D c) as [X|X]; [exists [], (c :: l2); auto|]. exists [c], l2. repeat split; auto. right. exists [], c. auto.
  - exists (c :: l3 ++ [v]), l2. repeat split; auto. right. exists (c :: l3), v. auto.
Qed.
Lemma mirror_while g f : (forall s rs b, at_split s (utf8s rs) b -> Forall visible rs -> rev_run P g s rs) ->
  (forall t a b l l1 l2, at_split t a b -> chunked b l -> max_run P l l1 l2 -> (l = [] -> no f t) /\ (l <> [] -> yes_by f t (slen (chunk_bytes l1)))) -> mirrors g f.
Proof.
  intros G F s t M. pose proof M as (l & r & Hs & Ht). pose proof Hs as [Ss Vs]. pose proof Ht as [St Vt].
  assert (Vl : Forall visible l) by (apply Forall_app in Vs; apply Vs). destruct (last_run l) as (l1 & l2 & El & Fl & E).
  destruct (G s l _ Ss Vl l1 l2 El Fl E) as [N1 Y1].
  assert (R : max_run P (map (fun r => (r, utf8 r)) (rev l)) (map (fun r => (r, utf8 r)) (rev l2)) (map (fun r => (r, utf8 r)) (rev l1))).
  { split; [rewrite El, rev_app_distr, map_app; reflexivity|]. split.
    - apply Forall_rev in Fl. clear - Fl. induction Fl; constructor; auto.
    - destruct E as [->|(l3 & v & -> & N)]; [left; reflexivity|]. right. rewrite rev_app_distr. cbn. eauto. }
  destruct (F t _ _ _ _ _ St (chunked_utf8s _ (visible_scalars _ (visible_rev _ Vl))) R) as [N2 Y2].
  destruct l as [|c l].
  - apply mirror_no; [exact M|exact (N1 eq_refl)|exact (N2 eq_refl)].
  - rewrite chunk_bytes_runes, utf8s_rev_len in Y2. rewrite El in Hs, Ht. eapply (mirror_yes g f s t l1 l2 r); [exact Hs|exact Ht|apply Y1; discriminate|apply Y2|reflexivity|reflexivity].
    cbn [rev]. rewrite map_app. intros X. apply app_eq_nil in X as [_ X]. discriminate.
Qed.
End Ways.

(** The last occurrence of [w]. *)
Lemma last_place (w l : list Z) : (exists l1 l2, l = l1 ++ w ++ l2 /\ forall l1' l2', l = l1' ++ w ++ l2' -> (length l2 <= length l2')%nat) \/ (forall l1 l2, l <> l1 ++ w ++ l2).
Proof.
  induction l as [|c l IH].
  - destruct w as [|x w]; [left; exists [], []; split; [reflexivity|intros; cbn; lia]|]. right. intros [|] l2 X; discriminate.
  - destruct IH as [(l1 & l2 & E & Mn)|N].
    + left. exists (c :: l1), l2. split; [rewrite E; reflexivity|]. intros [|c' l1'] l2' X.
      * destruct w as [|x w]; cbn in X; [|injection X as _ X].
        -- subst l2'. rewrite E. cbn [app length]. rewrite !app_length. cbn. lia.
        -- apply (f_equal (@length Z)) in X, E. rewrite !app_length in *. cbn [length] in *. lia.
      * injection X as _ X. eauto.
    + destruct (list_eq_dec Z.eq_dec (firstn (length w) (c :: l)) w) as [Q|Q].
      * left. exists [], (skipn (length w) (c :: l)). split; [cbn [app]; transitivity (firstn (length w) (c :: l) ++ skipn (length w) (c :: l)); [symmetry; apply firstn_skipn|rewrite Q; reflexivity]|].
        intros [|c' l1'] l2' X; [cbn [app] in X; rewrite X, skipn_app, skipn_all, Nat.sub_diag; cbn; lia|]. injection X as _ X. exfalso. exact (N _ _ X).
      * right. intros [|c' l1'] l2 X; [|injection X as _ X; exact (N _ _ X)]. apply Q. cbn [app] in X. rewrite X, firstn_app, Nat.sub_diag, firstn_all, app_nil_r. reflexivity.
Qed.
Lemma suffix_slen (u v a b : list Z) : u ++ a = v ++ b -> (length a <= length b)%nat -> slen (utf8s a) <= slen (utf8s b).
Proof.
  intros E Ln. assert (X : exists m, b = m ++ a).
  { revert u E. induction v as [|c v IH]; intros u E; [exists u; auto|]. destruct u as [|d u]; [|injection E as _ E; eauto].
    cbn [app] in E. apply (f_equal (@length Z)) in E. cbn in E. rewrite app_length in E. lia. }
  destruct X as [m ->]. rewrite utf8s_app, slen_app. pose proof (slen_nonneg (utf8s m)). lia.
Qed.

(** [g] takes back what [f] did, where [f] moved. *)
Definition undoes (g f : M bool) : Prop := forall s l r s', at_runes s l r -> f s = Ok (true, s') -> pos (sc s') <> pos (sc s) ->
  exists s2, g s' = Ok (true, s2) /\ pos (sc s2) = pos (sc s) /\ full (sc s2) = full (sc s).
Lemma undo_one P (D : forall x, {P x} + {~ P x}) g f : (forall s a b, at_split s a b -> a <> [] -> one_rune_back P g s a) ->
  (forall t a b l, at_split t a b -> chunked b l -> l <> [] -> one_rune P f t l) ->
  (forall t a, at_split t a [] -> no f t \/ yes_by f t 0) -> undoes g f.
Proof.
  intros G F E s l r s' [Ss V] Ef Mv. destruct r as [|c r].
  - destruct (E s _ Ss) as [X|X]; unfold no, yes_by in X; rewrite Ef in X; [discriminate|]. injection X as ->. cbn in Mv. lia.
  - assert (Sc : Forall is_scalar (c :: r)) by (apply visible_scalars; apply Forall_app in V; apply V).
    pose proof (F s _ _ _ Ss (chunked_utf8s _ Sc) ltac:(discriminate)) as [Y1 N1]. destruct (D c) as [Y|Y]; [|specialize (N1 Y); unfold no in N1; rewrite Ef in N1; discriminate].
    specialize (Y1 Y). unfold yes_by in Y1. rewrite Ef in Y1. injection Y1 as ->.
    assert (S1 : at_split (moveto (pos (sc s) + slen (utf8 c)) s) (utf8s l ++ utf8 c) (utf8s r)).
    { apply (moved_split s (utf8s l) (utf8s (c :: r))); [exact Ss|rewrite <- app_assoc; reflexivity|]. destruct Ss as (_ & -> & _). rewrite slen_app. reflexivity. }
    destruct (G _ _ _ S1) as [_ G1]; [intros X; apply app_eq_nil in X as [_ X]; exact (utf8_nonnil c X)|].
    inversion_clear Sc as [|? ? Sc0 _]. destruct (G1 c (utf8 c) (lc_rune _ _ Sc0)) as [G2 _]. specialize (G2 Y). eexists. split; [exact G2|]. split; [cbn; lia|reflexivity].
Qed.
(** The mirror image. *)
Lemma undoes_mirror g f : mirrors g f -> undoes g f -> undoes f g.
Proof.
  intros M U s l r s' H Eg Mv. pose proof H as [(Fs & Ps & Ls) Vs].
  set (t := mkSt (mkSc (utf8s (rev r) ++ utf8s (rev l)) (slen (utf8s (rev r))) None) (hp s)).
  assert (Ht : at_runes t (rev r) (rev l)).
  { split; [repeat split; cbn; rewrite !slen_app, !utf8s_rev_len in *; lia|]. rewrite <- rev_app_distr. apply visible_rev. exact Vs. }
  assert (Mt : mirror s t) by (exists l, r; auto). destruct (M s t Mt) as (ok & s1 & t' & A & B & C & D & E). rewrite Eg in A. injection A as <- <-.
  pose proof (mirror_pos _ _ Mt) as P1. pose proof (mirror_pos _ _ C) as P2. rewrite D in P2.
  destruct (U t _ _ t' Ht B ltac:(lia)) as (t2 & B2 & P3 & F3). pose proof (mirrors_sym _ _ M) as M'.
  destruct (M _ _ (mirror_sym _ _ C)) as (ok2 & t3 & s2 & A2 & B3 & C3 & D3 & E3). rewrite B2 in A2. injection A2 as <- <-.
  exists s2. split; [exact B3|]. pose proof (mirror_pos _ _ (mirror_sym _ _ C3)) as P4. rewrite E3, D in P4. split; [lia|congruence].
Qed.

(** MxtFacts.v - what each rule of grammar/mxt.go reads of a well-formed text. *)
From Verif Require Export SpecMxt.
From Verif Require Import PegTotal PegBytes Mxt LuaFacts LuaLex Utf8Facts ReadFacts PropMxt.
From Coq Require Import Lia ZifyBool.

Definition solidb (x : byte) : bool := 0x20 <? bz x.
Lemma solidb_is x : solidb x = true <-> m_solid x. Proof. unfold solidb, m_solid. lia. Qed.
Lemma solidb_no x : solidb x = false <-> ~ m_solid x. Proof. unfold solidb, m_solid. lia. Qed.
Lemma word_is w : forallb solidb w = true <-> m_word w.
Proof. apply (all_bytes (P := m_solid)). apply solidb_is. Qed.
Lemma gap_is w : forallb (is 0x20) w = true <-> m_gap w.
Proof. apply (all_bytes (P := fun x => x = x20)). intros x. split; [intros H; apply is_byte in H; exact H|intros ->; reflexivity]. Qed.
Lemma span_prefix g (u : bytes) b0 m t : forallb g u = true -> u ++ b0 = m ++ t -> first g t = false -> exists m', m = u ++ m' /\ b0 = m' ++ t.
Proof.
  revert m. induction u as [|x u IH]; intros m G E F; [exists m; auto|]. cbn in G. apply andb_true_iff in G as [G1 G2]. destruct m as [|y m].
  - cbn [app] in E. subst t. cbn in F. congruence.
  - injection E as -> E. destruct (IH m G2 E F) as (m' & -> & E'). exists m'. auto.
Qed.
Lemma span_same g (m1 t1 m2 t2 : bytes) : m1 ++ t1 = m2 ++ t2 -> forallb g m1 = true -> first g t1 = false -> forallb g m2 = true -> first g t2 = false -> m1 = m2 /\ t1 = t2.
Proof.
  intros E G1 F1 G2 F2. destruct (span_prefix g m1 t1 m2 t2 G1 E F2) as (m' & E1 & E2). destruct m' as [|x m']; [rewrite app_nil_r in E1; auto|].
  exfalso. rewrite E1 in G2. rewrite forallb_app in G2. apply andb_true_iff in G2 as [_ G2]. cbn in G2. apply andb_true_iff in G2 as [G2 _]. rewrite E2 in F1. cbn in F1. congruence.
Qed.
Lemma utf8_solid r : is_scalar r -> forallb solidb (utf8 r) = (0x20 <? r).
Proof.
  intros Hr. destruct (Z_lt_ge_dec r 128) as [X|X].
  - assert (0 <= r) by (unfold is_scalar in Hr; lia). rewrite utf8_ascii by lia. cbn. unfold solidb. rewrite andb_true_r. rewrite bz_zb by lia. reflexivity.
  - transitivity true; [|lia]. apply word_is. pose proof (utf8_plain x20 r ltac:(vm_compute; reflexivity) Hr ltac:(lia)) as P. revert P. apply Forall_impl. intros a (P1 & P2 & _). unfold m_solid.
    assert (bz a <> 0x20); [|lia]. intros Q. apply P2. clear -Q. destruct a; first [reflexivity|exfalso; vm_compute in Q; discriminate].
Qed.
Lemma utf8_low r : is_scalar r -> r < 128 -> utf8 r = [zb r] /\ bz (zb r) = r.
Proof. intros Hr X. assert (0 <= r) by (unfold is_scalar in Hr; lia). split; [apply utf8_ascii; lia|apply bz_zb; lia]. Qed.

Section Mxt.
Context {L : GoLib}.
Notation E := mxt_env.
Definition wc : reader := RRule mWordChar.
Lemma wc_rune r t : is_scalar r -> out E (IR wc) (utf8 r ++ t) (0x20 <? r) (if 0x20 <? r then t else utf8 r ++ t).
Proof.
  intros Hr. apply (o_rule E mWordChar (RBetween 0x21 MaxRune)); [reflexivity|]. intros c. pose proof (e_test E (RBetween 0x21 MaxRune) _ c (utf8 r ++ t) eq_refl) as H.
  assert (T : test (fun v i => negb (Nat.eqb i 0) && in_range 0x21 v MaxRune) (utf8 r ++ t) = (0x20 <? r)).
  { unfold test. rewrite decode_utf8 by auto. cbn [fst snd]. pose proof (utf8_length_pos r). unfold is_scalar in Hr. unfold in_range, MaxRune.
    destruct (Nat.eqb_spec (length (utf8 r)) 0); [lia|]. cbn [negb andb]. lia. }
  rewrite T in H. rewrite after_rune_utf8 in H by auto. exact H.
Qed.
Lemma wc_end : out E (IR wc) [] false [].
Proof. apply (o_rule E mWordChar (RBetween 0x21 MaxRune)); [reflexivity|]. intros c. exact (e_test E (RBetween 0x21 MaxRune) _ c [] eq_refl). Qed.
Lemma words b m t : wf_text b -> b = m ++ t -> forallb solidb m = true -> first solidb t = false -> out E (IRep wc) b true t.
Proof.
  intros (rs & F & ->). revert m. induction F as [|r rs Hr F IH]; intros m Em G N.
  - destruct m; [|discriminate]. cbn in Em. subst t. apply or_stop, wc_end.
  - cbn [utf8s flat_map] in *. change (flat_map utf8 rs) with (utf8s rs) in *. pose proof (wc_rune r (utf8s rs) Hr) as W. pose proof (utf8_solid r Hr) as S. destruct (0x20 <? r) eqn:R.
    + destruct (span_prefix solidb _ _ _ _ S Em N) as (m' & -> & E2). rewrite forallb_app in G. apply andb_true_iff in G as [_ G].
      eapply or_next; [exact W|]. eapply IH; eauto.
    + destruct (utf8_low r Hr ltac:(lia)) as [U B]. rewrite U in *. destruct m as [|x m]; [cbn [app] in Em; subst t; apply or_stop; exact W|].
      exfalso. cbn in Em. injection Em as <- Em. cbn [forallb] in G, S. rewrite andb_true_r in S. rewrite S in G. discriminate.
Qed.
Lemma o_zom_words b m t : wf_text b -> b = m ++ t -> forallb solidb m = true -> first solidb t = false -> out E (IR (RZom wc)) b true t.
Proof. intros. eapply o_zom, words; eauto. Qed.
Lemma o_word b m t : wf_text b -> b = m ++ t -> forallb solidb m = true -> first solidb t = false -> out E (IR (RRule mWord)) b (negb (no_text m)) t.
Proof.
  intros W Em G N. apply (o_rule E mWord mxt_word); [reflexivity|]. pose proof (words b m t W Em G N) as H. apply o_many in H.
  replace (negb (no_text m)) with (Nat.ltb (length t) (length b)); [exact H|]. rewrite Em, app_length. destruct m; cbn [no_text negb length]; [apply Nat.ltb_irrefl|apply Nat.ltb_lt; lia].
Qed.
Lemma o_name b m t : wf_text b -> b = m ++ t -> forallb solidb m = true -> first solidb t = false -> out E (IR (RRule mName)) b (negb (no_text m)) t.
Proof. intros. apply (o_rule E mName mxt_name); [reflexivity|]. apply o_word; auto. Qed.
Lemma o_gaps g t : forallb (is 0x20) g = true -> first (is 0x20) t = false -> out E (IR (RMany blank)) (g ++ t) (negb (no_text g)) t.
Proof.
  intros G N. pose proof (o_rep_takes E blank (is 0x20) g t takes_blank G N) as H. apply o_many in H.
  replace (negb (no_text g)) with (Nat.ltb (length t) (length (g ++ t))); [exact H|]. rewrite app_length. destruct g; cbn [no_text negb length]; [apply Nat.ltb_irrefl|apply Nat.ltb_lt; lia].
Qed.
Lemma o_marker m t : wf_text (m ++ t) -> forallb solidb m = true -> first solidb t = false -> out E (IR (RRule mMarker)) (lit "//" ++ m ++ t) true t.
Proof.
  intros W G N. apply (o_rule E mMarker mxt_marker); [reflexivity|]. apply o_seq. eapply os_next; [apply (o_lit E (lit "//"))|]. eapply os_next; [|apply os_nil].
  eapply o_zom_words; eauto.
Qed.
Lemma o_marker_no b : (forall t, b <> lit "//" ++ t) -> out E (IR (RRule mMarker)) b false b.
Proof. intros N. apply (o_rule E mMarker mxt_marker); [reflexivity|]. eapply o_seq_no, os_stop, o_lit_no. auto. Qed.

(* ------------------------------------------------------------ the arrow *)

Definition tip : bytes := lit "-->".
(** No arrow ends before the end of [v] ++ tip. *)
Definition early (v : bytes) : Prop := occurs (v ++ lit "--") tip.
Lemma early_more u v : early v -> early (u ++ v).
Proof. intros (a & t & H). exists (u ++ a), t. rewrite <- !app_assoc, H. reflexivity. Qed.
Lemma first_early v t : first_at (v ++ tip ++ t) v tip -> ~ early v.
Proof.
  intros [_ F] (u & w & H).
  assert (X : v ++ tip ++ t = u ++ tip ++ (w ++ lit ">" ++ t)).
  { change (tip ++ t) with (lit "--" ++ lit ">" ++ t). rewrite (app_assoc v), H, <- !app_assoc. reflexivity. }
  specialize (F _ _ X). apply (f_equal (@length _)) in H. rewrite !app_length in H. change (length tip) with 3%nat in H. change (length (lit "--")) with 2%nat in H. lia.
Qed.
Lemma early_first v t : ~ early v -> first_at (v ++ tip ++ t) v tip.
Proof.
  intros N. split; [exists t; rewrite <- app_assoc; reflexivity|]. intros v' t' H.
  destruct (Nat.le_gt_cases (length v) (length v')) as [G|G]; auto. exfalso. apply N.
  destruct (app_split_le _ _ _ _ (eq_sym H) (Nat.lt_le_incl _ _ G)) as (m & Em & Em'). subst v. destruct m as [|m0 m]; [rewrite app_nil_r in G; lia|].
  exists v'. change (tip ++ t') with (x2d :: x2d :: x3e :: t') in Em'. destruct m as [|m1 m]; [discriminate|]. destruct m as [|m2 m]; [discriminate|].
  injection Em' as <- <- <- _. exists (m ++ lit "--"). rewrite <- app_assoc. reflexivity.
Qed.
Lemma not_yet v t q : v <> [] -> ~ early v -> v ++ tip ++ t <> tip ++ q.
Proof.
  intros V N H. destruct (early_first v t N) as [_ F]. specialize (F [] q). cbn [app] in F. specialize (F H). destruct v; [congruence|cbn in F; lia].
Qed.
Lemma body_find str v t : wf_text v -> wf_text (str ++ v) -> ~ early v ->
  exists b', out E (IBody (str ++ v ++ tip ++ t) false (RZom wc) (RLit tip)) (v ++ tip ++ t) (forallb solidb (str ++ v)) b' /\ (forallb solidb (str ++ v) = true -> b' = t).
Proof.
  intros (rs & F & ->). revert str. induction F as [|r rs Hr F IH]; intros str W N.
  - cbn [utf8s flat_map app] in *. rewrite app_nil_r in *. destruct (byte_span solidb str) as (m & x & Em & G & Nx). exists t. split; [|auto].
    assert (R : forallb solidb str = (true && no_text x)).
    { rewrite Em, forallb_app, G. destruct x as [|y x]; [reflexivity|]. cbn in Nx |- *. rewrite Nx. reflexivity. }
    rewrite R. intros c. apply (i_body_hit E false (RZom wc) (RLit tip) c str (tip ++ t) c t true c x); [discriminate|apply o_lit|]. eapply (o_zom_words str m x); eauto.
  - cbn [utf8s flat_map] in *. change (flat_map utf8 rs) with (utf8s rs) in *. rewrite <- app_assoc.
    destruct (IH (str ++ utf8 r)) as (b' & O & B); [rewrite <- app_assoc; auto|intros X; apply N, early_more; auto|].
    exists b'. rewrite <- app_assoc in O, B. split; [|exact B]. intros c. eapply i_body_next with (c1 := c) (b1 := utf8 r ++ utf8s rs ++ tip ++ t).
    + intros Q. pose proof (utf8_nonnil r). destruct (utf8 r); [congruence|discriminate].
    + apply o_lit_no. intros q Q. rewrite app_assoc in Q. revert Q. apply not_yet; auto. intros Q. pose proof (utf8_nonnil r). destruct (utf8 r); [congruence|discriminate].
    + rewrite step_utf8 by auto. cbn [snd]. rewrite <- app_assoc in O. apply O.
Qed.
Lemma o_arrow v t : wf_text v -> ~ early v -> out E (IR mxt_arrow) (v ++ tip ++ t) (forallb solidb v) (if forallb solidb v then t else v ++ tip ++ t).
Proof.
  intros W N. destruct (body_find [] v t W W N) as (b' & O & B). cbn [app] in O, B. intros c. specialize (O c). apply e_body_tail in O.
  destruct (forallb solidb v); [rewrite (B eq_refl) in O|]; exact O.
Qed.
Lemma body_none z v : wf_text v -> ~ occurs v tip -> out E (IBody z false (RZom wc) (RLit tip)) v false [].
Proof.
  intros (rs & F & ->). induction F as [|r rs Hr F IH]; intros N c; [apply i_body_end|].
  cbn [utf8s flat_map] in *. change (flat_map utf8 rs) with (utf8s rs) in *. eapply i_body_next.
  - intros Q. pose proof (utf8_nonnil r). destruct (utf8 r); [congruence|discriminate].
  - apply o_lit_no. intros q Q. apply N. exists [], q. exact Q.
  - rewrite step_utf8 by auto. apply IH. intros (a & t & Q). apply N. exists (utf8 r ++ a), t. rewrite Q, <- app_assoc. reflexivity.
Qed.
Lemma o_arrow_none v : wf_text v -> ~ occurs v tip -> out E (IR mxt_arrow) v false v.
Proof. intros W N c. apply (e_body_tail E (RZom wc) (RLit tip) c v false c []). apply body_none; auto. Qed.
Lemma o_named w r b ok b' : out E (IR r) b ok b' -> out E (IR (RNamed w r)) b ok b'.
Proof. intros H c. apply e_named, H. Qed.

(** [c] is empty or ends with a blank. *)
Definition closed (c : bytes) : Prop := c = [] \/ exists t y, c = t ++ [y] /\ ~ m_solid y.
Lemma closed_not c ar : c <> [] -> closed c -> forallb solidb (c ++ ar) = false.
Proof.
  intros N [->|(t & y & -> & Y)]; [congruence|]. rewrite <- app_assoc, forallb_app. cbn [app forallb]. rewrite (proj2 (solidb_no y) Y). cbn. apply andb_false_r.
Qed.
Lemma closed_tail u c : closed (u ++ c) -> closed c.
Proof.
  intros [H|(t & y & H & Y)]; [apply app_eq_nil in H as [_ ->]; left; auto|]. destruct c as [|x c]; [left; auto|]. right.
  destruct (exists_last (l := x :: c)) as (t' & y' & Q); [discriminate|]. rewrite Q, app_assoc in H. apply app_inj_tail in H as [_ ->]. exists t', y. auto.
Qed.
Lemma o_comment c ar t : wf_text c -> wf_text ar -> closed c -> m_word ar -> ~ early (c ++ ar) ->
  out E (IR (RRule mComment)) (c ++ ar ++ tip ++ t) true (ar ++ tip ++ t).
Proof.
  intros W Wa Cl Wd N. apply (o_rule E mComment mxt_comment); [reflexivity|]. intros k.
  apply (e_to E (RNamed (lit "arrow") mxt_arrow) k (c ++ ar ++ tip ++ t) true k). destruct W as (rs & F & ->).
  induction F as [|r rs Hr F IH]; cbn [utf8s flat_map app] in *.
  - eapply i_to_hit with (b' := t). apply o_named. pose proof (o_arrow ar t Wa N) as O. rewrite (proj2 (word_is ar) Wd) in O. exact O.
  - change (flat_map utf8 rs) with (utf8s rs) in *. assert (Ne : utf8 r ++ utf8s rs <> []) by (intros Q; pose proof (utf8_nonnil r); destruct (utf8 r); [congruence|discriminate]).
    eapply i_to_next with (c1 := k) (b1 := (utf8 r ++ utf8s rs) ++ ar ++ tip ++ t).
    + apply o_named. assert (W' : wf_text ((utf8 r ++ utf8s rs) ++ ar)) by (apply wf_app; auto; apply wf_app; [apply wf_rune; auto|exists rs; auto]).
      pose proof (o_arrow _ t W' N) as O. rewrite (closed_not _ ar Ne Cl) in O. rewrite <- !app_assoc in *. exact O.
    + rewrite <- app_assoc. apply step_utf8; auto.
    + apply IH; [eapply closed_tail; eauto|]. intros Q. apply N. rewrite <- app_assoc. apply early_more. exact Q.
Qed.
Lemma o_comment_none b : wf_text b -> ~ occurs b tip -> out E (IR (RRule mComment)) b false b.
Proof.
  intros W N. apply (o_rule E mComment mxt_comment); [reflexivity|]. intros k.
  apply (e_to E (RNamed (lit "arrow") mxt_arrow) k b false k []). destruct W as (rs & F & ->).
  induction F as [|r rs Hr F IH]; cbn [utf8s flat_map app] in *.
  - eapply i_to_stop; [apply o_named, o_arrow_none; auto; apply wf_nil|reflexivity].
  - change (flat_map utf8 rs) with (utf8s rs) in *. eapply i_to_next.
    + apply o_named, o_arrow_none; auto. apply wf_app; [apply wf_rune; auto|exists rs; auto].
    + apply step_utf8; auto.
    + apply IH. intros (a & t & Q). apply N. exists (utf8 r ++ a), t. rewrite Q, <- app_assoc. reflexivity.
Qed.
(** The text up to the first tip: a note and a word. *)
Lemma last_word (v : bytes) : exists c ar, v = c ++ ar /\ closed c /\ m_word ar.
Proof.
  induction v as [|x v (c & ar & -> & Cl & W)]; [exists [], []; split; [auto|]; split; [left; auto|constructor]|].
  destruct c as [|y c].
  - destruct (solidb x) eqn:S.
    + exists [], (x :: ar). split; [auto|]. split; [left; auto|]. constructor; [apply solidb_is; auto|auto].
    + exists [x], ar. split; [auto|]. split; [right; exists [], x; split; [auto|apply solidb_no; auto]|auto].
  - exists (x :: y :: c), ar. split; [auto|]. split; [|auto]. destruct Cl as [Cl|(t & z & Q & Z)]; [discriminate|]. right. exists (x :: t), z. rewrite Q. auto.
Qed.
Lemma wf_note c ar t : closed c -> wf_text (c ++ ar ++ tip ++ t) -> wf_text c /\ wf_text ar /\ wf_text t.
Proof.
  intros Cl W. assert (Wt : wf_text t).
  { apply (wf_behind (c ++ ar ++ lit "--") x3e); [rewrite <- !app_assoc; exact W|vm_compute; reflexivity]. }
  assert (Wv : wf_text (c ++ ar)) by (apply (wf_cut _ x2d (lit "->" ++ t)); [rewrite <- !app_assoc; exact W|vm_compute; reflexivity]).
  destruct Cl as [->|(u & y & -> & Y)]; [split; [apply wf_nil|]; auto|]. rewrite <- app_assoc in Wv. assert (Hy : bz y < 128) by (unfold m_solid in Y; lia).
  assert (Wa : wf_text ar) by (eapply wf_behind; eauto). split; [|auto]. eapply wf_begin; [exact Wa|]. rewrite <- app_assoc. exact Wv.
Qed.

(* ------------------------------------------------------------ header *)

Notation cell := mxt_cell.
Definition saltw : reader := RJanusBeg cell [] (ROpt (RRule mWord)).
Lemma salt_is : r_reader (get_rule E mSalt) = Some (RSeq [RMany blank; saltw; RZom blank]). Proof. reflexivity. Qed.
Lemma header_is : r_reader (get_rule E mHeader) = Some (RSeq [RRule mMarker; RMany blank; RRule mName; RRule mComment; RRule mArrow; ROpt (RRule mSalt)]). Proof. reflexivity. Qed.
Lemma salt_none c b : first (is 0x20) b = false -> eats E (IR (ROpt (RRule mSalt))) c b true c b.
Proof.
  intros N. apply (e_opt E _ c b false). apply (e_rule E _ _ c b false c b salt_is). apply (e_seq E _ c b false c b). apply i_seq_stop. pose proof (o_gaps [] b eq_refl N) as O. apply O.
Qed.
Lemma salt_some c g1 w g2 t : wf_text (w ++ g2 ++ t) -> g1 <> [] -> forallb (is 0x20) g1 = true -> first (is 0x20) (w ++ g2 ++ t) = false ->
  forallb solidb w = true -> first solidb (g2 ++ t) = false -> forallb (is 0x20) g2 = true -> first (is 0x20) t = false ->
  eats E (IR (ROpt (RRule mSalt))) c (g1 ++ w ++ g2 ++ t) true (put [] c cell w) t.
Proof.
  intros W G1 G2 N1 G3 N2 G4 N3. apply (e_opt E _ c _ true). apply (e_rule E _ _ c _ true _ _ salt_is). apply (e_seq E _ c _ true (put [] c cell w) t).
  apply (i_seq_next E _ _ c _ c (w ++ g2 ++ t)). { pose proof (o_gaps g1 _ G2 N1) as O. destruct g1; [congruence|]. apply O. }
  apply (i_seq_next E _ _ c _ (put [] c cell w) (g2 ++ t)). { apply e_janus_yes. apply (e_opt E _ c _ (negb (no_text w))). apply (o_word _ w (g2 ++ t)); auto. }
  apply (i_seq_next E _ _ _ _ (put [] c cell w) t); [|apply i_seq_nil]. apply e_zom. apply (o_rep_takes E blank (is 0x20)); auto. apply takes_blank.
Qed.
Lemma blank_solid x : is 0x20 x = true -> solidb x = false.
Proof. unfold is, solidb. lia. Qed.
Lemma first_blank_word w t : forallb solidb w = true -> first (is 0x20) t = false -> first (is 0x20) (w ++ t) = false.
Proof. destruct w as [|x w]; [auto|]. cbn. unfold is, solidb. intros H _. lia. Qed.
Lemma first_gap_solid g t : forallb (is 0x20) g = true -> first solidb t = false -> first solidb (g ++ t) = false.
Proof. destruct g as [|x g]; [auto|]. cbn. unfold is, solidb. intros H _. lia. Qed.
(** What Opt(Salt) does. *)
Lemma salt_sound c b c' t : wf_text b -> eats E (IR (ROpt (RRule mSalt))) c b true c' t ->
  exists z salt, b = z ++ t /\ wf_text t /\ ((z = [] /\ c' = c) \/ (c' = put [] c cell salt /\ m_salt salt z)).
Proof.
  intros W D. destruct (byte_span (is 0x20) b) as (g1 & b1 & E1 & G1 & N1).
  destruct g1 as [|x g1].
  { cbn in E1. subst b1. pose proof (salt_none c b N1) as D2. destruct (eats_det _ _ _ _ _ _ _ D _ _ _ D2) as (_ & -> & ->).
    exists [], []. split; [auto|]. split; auto. }
  assert (W1 : wf_text b1).
  { destruct (exists_last (l := x :: g1)) as (g0 & y & Q); [discriminate|]. rewrite E1, Q, <- app_assoc in W. apply wf_behind in W; auto.
    rewrite Q, forallb_app in G1. cbn in G1. unfold is in G1. lia. }
  destruct (byte_span solidb b1) as (w & b2 & E2 & G2 & N2). destruct (byte_span (is 0x20) b2) as (g2 & b3 & E3 & G3 & N3). subst b2 b1 b.
  pose proof (salt_some c (x :: g1) w g2 b3 W1 ltac:(discriminate) G1 N1 G2 N2 G3 N3) as D2. destruct (eats_det _ _ _ _ _ _ _ D _ _ _ D2) as (_ & -> & ->).
  exists ((x :: g1) ++ w ++ g2), w. split; [rewrite <- !app_assoc; auto|]. split.
  - destruct g2 as [|y g2] using rev_ind.
    + cbn [app] in *. destruct b3 as [|z b3]; [apply wf_nil|]. cbn in N2. unfold solidb in N2. assert (Z : bz z < 128) by lia. pose proof (wf_cut _ _ _ W1 Z) as Ww. eapply wf_rest; eauto.
    + rewrite <- app_assoc in W1. cbn [app] in W1. rewrite app_assoc in W1. apply wf_behind in W1; auto. rewrite forallb_app in G3. cbn in G3. unfold is in G3. lia.
  - right. split; auto. right. exists (x :: g1), g2. split; [auto|]. split; [discriminate|]. split; [apply gap_is; auto|]. split; [apply gap_is; auto|apply word_is; auto].
Qed.
Lemma rule_inv e i r c b ok c' b' : r_reader (get_rule e i) = Some r -> eats e (IR (RRule i)) c b ok c' b' -> eats e (IR r) c b ok c' b'.
Proof. intros R H. inversion H; subst; try discriminate. congruence. Qed.
Lemma seq_inv e rs c b c' b' : eats e (IR (RSeq rs)) c b true c' b' -> eats e (ISeq rs) c b true c' b'.
Proof. intros H. inversion H; subst; try discriminate. auto. Qed.
Lemma next_inv e r rs c b c' b' : eats e (ISeq (r :: rs)) c b true c' b' -> exists c1 b1, eats e (IR r) c b true c1 b1 /\ eats e (ISeq rs) c1 b1 true c' b'.
Proof. intros H. inversion H; subst; try discriminate. eauto. Qed.
Lemma nil_inv e c b ok c' b' : eats e (ISeq []) c b ok c' b' -> ok = true /\ c' = c /\ b' = b.
Proof. intros H. inversion H; subst; try discriminate. auto. Qed.
Lemma any_inv e rs c b c' b' : eats e (IR (RAny rs)) c b true c' b' -> eats e (IAny rs) c b true c' b'.
Proof. intros H. inversion H; subst; try discriminate. auto. Qed.
Lemma wf_word m t : wf_text (m ++ t) -> first solidb t = false -> wf_text m /\ wf_text t.
Proof.
  intros W N. destruct t as [|x t]; [rewrite app_nil_r in W; split; [auto|apply wf_nil]|]. cbn in N. unfold solidb in N. assert (X : bz x < 128) by lia.
  pose proof (wf_cut _ _ _ W X). split; auto. eapply wf_rest; eauto.
Qed.
Lemma wf_ascii g : Forall (fun x => bz x < 128) g -> wf_text g.
Proof.
  intros F. exists (map bz g). split.
  - induction F; cbn; constructor; auto. left. pose proof (bz_range x). lia.
  - induction F; [reflexivity|]. cbn [map utf8s flat_map]. change (flat_map utf8 (map bz l)) with (utf8s (map bz l)). rewrite <- IHF.
    pose proof (bz_range x). rewrite utf8_ascii by lia. rewrite zb_bz. reflexivity.
Qed.
Lemma wf_gap g : forallb (is 0x20) g = true -> wf_text g.
Proof. intros G. apply wf_ascii. apply gap_is in G. revert G. apply Forall_impl. intros a ->. vm_compute. reflexivity. Qed.
Lemma header_sound c b c' t : wf_text b -> get [] c cell = [] -> eats E (IR (RRule mHeader)) c b true c' t ->
  exists h salt, b = h ++ t /\ m_header salt h /\ get [] c' cell = salt /\ wf_text t.
Proof.
  intros W Ce D. apply (rule_inv _ _ _ _ _ _ _ _ header_is), seq_inv in D.
  apply next_inv in D as (c1 & b1 & D1 & D). destruct (lit_cases (lit "//") b) as [[b0 E0]|N]; [|destruct (out_eats _ _ _ _ _ _ _ _ _ (o_marker_no b N) D1) as [X _]; discriminate].
  subst b. assert (W0 : wf_text b0) by (apply (wf_rest (lit "//")); [apply wf_ascii; repeat constructor; vm_compute; auto|exact W]).
  destruct (byte_span solidb b0) as (m & b2 & -> & G1 & N1). destruct (out_eats _ _ _ _ _ _ _ _ _ (o_marker m b2 W0 G1 N1) D1) as (_ & -> & <-). clear D1. destruct (wf_word _ _ W0 N1) as [_ W2].
  apply next_inv in D as (c1 & b1 & D1 & D). destruct (byte_span (is 0x20) b2) as (g & b3 & -> & G2 & N2). destruct (out_eats _ _ _ _ _ _ _ _ _ (o_gaps g b3 G2 N2) D1) as (Og & -> & <-). clear D1.
  assert (W3 : wf_text b3) by (eapply wf_rest; [apply (wf_gap g); auto|auto]).
  apply next_inv in D as (c1 & b1 & D1 & D). destruct (byte_span solidb b3) as (n & b4 & -> & G3 & N3). destruct (out_eats _ _ _ _ _ _ _ _ _ (o_name _ n b4 W3 eq_refl G3 N3) D1) as (On & -> & <-). clear D1. destruct (wf_word _ _ W3 N3) as [_ W4].
  apply next_inv in D as (c1 & b1 & D1 & D). destruct (first_cases tip b4) as [(v & b5 & -> & F)|N]; [discriminate| |destruct (out_eats _ _ _ _ _ _ _ _ _ (o_comment_none b4 W4 N) D1) as [X _]; discriminate].
  apply first_early in F. destruct (last_word v) as (nt & ar & -> & Cl & Wd). rewrite <- app_assoc in *. destruct (wf_note _ _ _ Cl W4) as (Wn & Wa & W5).
  destruct (out_eats _ _ _ _ _ _ _ _ _ (o_comment nt ar b5 Wn Wa Cl Wd F) D1) as (_ & -> & <-). clear D1.
  apply next_inv in D as (c1 & b1 & D1 & D). assert (Fa : ~ early ar) by (intros X; apply F, early_more; auto).
  assert (Oa : out E (IR (RRule mArrow)) (ar ++ tip ++ b5) true b5).
  { apply (o_rule E mArrow mxt_arrow); [reflexivity|]. pose proof (o_arrow ar b5 Wa Fa) as O. rewrite (proj2 (word_is ar) Wd) in O. exact O. }
  destruct (out_eats _ _ _ _ _ _ _ _ _ Oa D1) as (_ & -> & <-). clear D1.
  apply next_inv in D as (c1 & b1 & D1 & D). apply nil_inv in D as (_ & -> & ->). destruct (salt_sound _ _ _ _ W5 D1) as (z & salt & -> & Wt & Sa).
  assert (Nt : m_note nt).
  { destruct nt as [|x nt].
    - exfalso. cbn [app] in N3. destruct ar as [|y ar]; [vm_compute in N3; discriminate|]. inversion Wd; subst. apply solidb_is in H1. cbn in N3. congruence.
    - split; [exists x, nt; split; [auto|]; apply solidb_no; exact N3|]. destruct Cl as [Cl|Cl]; [discriminate|exact Cl]. }
  exists (lit "//" ++ m ++ g ++ n ++ nt ++ ar ++ tip ++ z), (get [] c1 cell). split; [rewrite <- !app_assoc; reflexivity|]. split; [|auto].
  constructor; auto; try (apply word_is; auto; fail); try (apply gap_is; auto; fail).
  - intros ->. discriminate.
  - intros ->. discriminate.
  - unfold early in F. rewrite <- app_assoc in F. exact F.
  - destruct Sa as [[-> ->]|[-> Sa]]; [left; auto|]. rewrite get_put_same. exact Sa.
Qed.
Lemma header_complete c h salt t : wf_text (h ++ t) -> get [] c cell = [] -> m_header salt h -> first (fun x => 0x20 <=? bz x) t = false ->
  exists c', eats E (IR (RRule mHeader)) c (h ++ t) true c' t /\ get [] c' cell = salt.
Proof.
  intros W Ce H N. destruct H as [m g n nt ar z Wm Ng Gg Nn Wn Nt Wa F Sa]. rewrite <- !app_assoc in *. pose proof Nt as [(x & nt1 & Ex & X) Lst].
  assert (Cl : closed nt) by (right; auto).
  assert (Fst : first solidb (nt ++ ar ++ tip ++ z ++ t) = false) by (rewrite Ex; cbn; apply solidb_no; auto).
  assert (N1 : first solidb t = false) by (destruct t as [|y t]; [auto|]; cbn in *; unfold solidb; lia).
  assert (N2 : first (is 0x20) t = false) by (destruct t as [|y t]; [auto|]; cbn in *; unfold is; lia).
  apply word_is in Wm, Wn. apply gap_is in Gg.
  assert (Fg : first (is 0x20) (n ++ nt ++ ar ++ tip ++ z ++ t) = false) by (destruct n as [|y n]; [congruence|]; cbn in *; unfold solidb, is in *; lia).
  assert (Fm : first solidb (g ++ n ++ nt ++ ar ++ tip ++ z ++ t) = false) by (destruct g as [|y g]; [congruence|]; cbn in *; unfold solidb, is in *; lia).
  assert (W0 : wf_text (m ++ g ++ n ++ nt ++ ar ++ tip ++ z ++ t)) by (apply (wf_rest (lit "//")); [apply wf_ascii; repeat constructor; vm_compute; auto|exact W]).
  destruct (wf_word _ _ W0 Fm) as [_ W1]. assert (W2 := wf_rest _ _ (wf_gap g Gg) W1). destruct (wf_word _ _ W2 Fst) as [_ W3].
  destruct (wf_note _ _ _ Cl W3) as (Wnt & War & W4).
  assert (Fe : ~ early (nt ++ ar)) by (unfold early; rewrite <- app_assoc; exact F).
  assert (Fa : ~ early ar) by (intros Q; apply Fe, early_more; auto).
  assert (S : exists c', eats E (IR (ROpt (RRule mSalt))) c (z ++ t) true c' t /\ get [] c' cell = salt).
  { destruct Sa as [[-> ->]|(g1 & g2 & -> & Ng1 & Gg1 & Gg2 & Ws)]; [exists c; split; [apply salt_none; auto|auto]|].
    exists (put [] c cell salt). split; [|apply get_put_same]. rewrite <- !app_assoc in *. apply gap_is in Gg1, Gg2. apply word_is in Ws.
    destruct salt as [|y salt].
    - cbn [app] in *. rewrite app_assoc. change ((g1 ++ g2) ++ t) with ((g1 ++ g2) ++ [] ++ [] ++ t). apply salt_some; auto.
      + cbn [app]. eapply wf_rest; [|rewrite app_assoc in W4; exact W4]. apply wf_gap. rewrite forallb_app, Gg1, Gg2. reflexivity.
      + intros Q. apply app_eq_nil in Q. tauto.
      + rewrite forallb_app, Gg1, Gg2. reflexivity.
    - apply salt_some; auto.
      + eapply wf_rest; [apply (wf_gap g1); auto|exact W4].
      + cbn in Ws |- *. clear -Ws. unfold solidb, is in *. lia.
      + apply first_gap_solid; auto. }
  destruct S as (c' & S & Gc). exists c'. split; auto. apply (e_rule E _ _ c _ true _ _ header_is). apply (e_seq E _ c _ true c' t).
  apply (i_seq_next E _ _ c _ c (g ++ n ++ nt ++ ar ++ tip ++ z ++ t)); [apply o_marker; auto|].
  apply (i_seq_next E _ _ c _ c (n ++ nt ++ ar ++ tip ++ z ++ t)); [pose proof (o_gaps g _ Gg Fg) as O; destruct g; [congruence|]; apply O|].
  apply (i_seq_next E _ _ c _ c (nt ++ ar ++ tip ++ z ++ t)); [pose proof (o_name _ n _ W2 eq_refl Wn Fst) as O; destruct n; [congruence|]; apply O|].
  apply (i_seq_next E _ _ c _ c (ar ++ tip ++ z ++ t)); [apply o_comment; auto|].
  apply (i_seq_next E _ _ c _ c (z ++ t)).
  { apply (o_rule E mArrow mxt_arrow); [reflexivity|]. pose proof (o_arrow ar (z ++ t) War Fa) as O. rewrite (proj2 (word_is ar) Wa) in O. exact O. }
  apply (i_seq_next E _ _ c _ c' t); [exact S|]. apply i_seq_nil.
Qed.

(* ------------------------------------------------------------ chunks *)

Lemma nl_is : r_reader (get_rule E mNL) = Some (RAny [RLit [x0a]; RLit [x0d; x0a]]). Proof. reflexivity. Qed.
Lemma nm_is : r_reader (get_rule E mNextMarker) = Some (RSeq [RRule mNL; RLit (lit "//"); RJanusEnd cell []]). Proof. reflexivity. Qed.
Lemma empty_is : r_reader (get_rule E mEmptyContent) = Some (RAny [RAtEnd; RAt (RRule mNextMarker)]). Proof. reflexivity. Qed.
Lemma content_is : r_reader (get_rule E mContent) = Some (RTo (RAny [RRule mNextMarker; RAtEnd])). Proof. reflexivity. Qed.
Lemma chunk_is : r_reader (get_rule E mChunk) = Some (RSeq [RRule mHeader; RAny [RRule mEmptyContent; RSeq [RRule mNL; RRule mContent]]]). Proof. reflexivity. Qed.
Lemma chunks_is : r_reader (get_rule E mChunks) = Some (RSeq [RRule mChunk; RZom (RSeq [RRule mNL; RRule mChunk])]). Proof. reflexivity. Qed.

Lemma o_nl n b : m_newline n -> out E (IR (RRule mNL)) (n ++ b) true b.
Proof.
  intros H. apply (o_rule E _ _ _ _ _ nl_is). apply o_any. destruct H as [->| ->]; [apply oa_hit, (o_lit E [x0a])|].
  apply (oa_next E _ _ _ ([x0d; x0a] ++ b)); [apply o_lit_no; discriminate|]. apply oa_hit, (o_lit E [x0d; x0a]).
Qed.
Lemma nl_cases b : (exists n t, m_newline n /\ b = n ++ t) \/ (forall n t, m_newline n -> b <> n ++ t).
Proof.
  destruct (lit_cases [x0a] b) as [[t ->]|N1]; [left; exists [x0a], t; split; [left; auto|auto]|].
  destruct (lit_cases [x0d; x0a] b) as [[t ->]|N2]; [left; exists [x0d; x0a], t; split; [right; auto|auto]|].
  right. intros n t [->| ->]; auto.
Qed.
Lemma o_nl_no b : (forall n t, m_newline n -> b <> n ++ t) -> out E (IR (RRule mNL)) b false b.
Proof.
  intros H. apply (o_rule E _ _ _ _ _ nl_is). eapply o_any_no. eapply oa_next; [apply o_lit_no; intros t; apply H; left; auto|]. eapply oa_next; [apply o_lit_no; intros t; apply H; right; auto|apply oa_nil].
Qed.
Lemma nl_same n1 t1 n2 t2 : m_newline n1 -> m_newline n2 -> n1 ++ t1 = n2 ++ t2 -> n1 = n2 /\ t1 = t2.
Proof. intros [->| ->] [->| ->] H; try discriminate; injection H as ->; auto. Qed.
Lemma nl_first n t : m_newline n -> first (fun x => 0x20 <=? bz x) (n ++ t) = false.
Proof. intros [->| ->]; reflexivity. Qed.
Lemma next_first salt b : m_next salt b -> exists x t, b = x :: t /\ bz x < 0x20.
Proof. intros (n & [->| ->] & t & ->); cbn [app]; eexists _, _; (split; [reflexivity|vm_compute; reflexivity]). Qed.
Lemma nm_yes c n v salt : get [] c cell = salt -> m_newline n -> eats E (IR (RRule mNextMarker)) c (n ++ lit "//" ++ salt ++ v) true (put [] c cell []) v.
Proof.
  intros <- H. apply (e_rule E _ _ c _ true _ _ nm_is). apply (e_seq E _ c _ true (put [] c cell []) v). eapply i_seq_next; [apply o_nl; auto|].
  eapply i_seq_next; [apply (o_lit E (lit "//"))|]. eapply i_seq_next; [|apply i_seq_nil]. apply e_end_yes.
Qed.
Lemma next_cases salt b : (exists n v, m_newline n /\ b = n ++ lit "//" ++ salt ++ v) \/ ~ m_next salt b.
Proof.
  destruct (nl_cases b) as [(n & t & H & ->)|N].
  - destruct (lit_cases (lit "//" ++ salt) t) as [[v ->]|N]; [left; exists n, v; rewrite <- app_assoc; auto|]. right. intros (n2 & H2 & v & Q).
    rewrite <- app_assoc in Q. destruct (nl_same _ _ _ _ H H2 Q) as [_ ->]. apply (N v). reflexivity.
  - right. intros (n2 & H2 & v & Q). rewrite <- app_assoc in Q. exact (N _ _ H2 Q).
Qed.
Lemma nm_no c b salt : get [] c cell = salt -> ~ m_next salt b -> eats E (IR (RRule mNextMarker)) c b false c b.
Proof.
  intros G N. apply (e_rule E _ _ c _ false _ _ nm_is). destruct (nl_cases b) as [(n & t & H & ->)|M].
  - destruct (lit_cases (lit "//") t) as [[v ->]|M].
    + apply (e_seq E _ c _ false c v). eapply i_seq_next; [apply o_nl; auto|]. eapply i_seq_next; [apply o_lit|]. apply i_seq_stop. apply e_end_no. intros w Q.
      apply N. exists n. split; auto. exists w. rewrite Q, G, <- !app_assoc. reflexivity.
    + apply (e_seq E _ c _ false c t). eapply i_seq_next; [apply o_nl; auto|]. apply i_seq_stop. apply o_lit_no. auto.
  - apply (e_seq E _ c _ false c b). apply i_seq_stop. apply o_nl_no. auto.
Qed.
Lemma next_is salt n v : m_newline n -> m_next salt (n ++ lit "//" ++ salt ++ v).
Proof. intros H. exists n. split; auto. exists v. rewrite <- !app_assoc. reflexivity. Qed.
(** The end of a content. *)
Definition ends (salt : bytes) (b' : bytes) : Prop := b' = [] \/ m_next salt b'.
Definition unbroken (salt ct b' : bytes) : Prop := forall u v, ct = u ++ v -> v <> [] -> ~ m_next salt (v ++ b').
Lemma content_run c salt b : wf_text b -> get [] c cell = salt ->
  exists ct b' c', b = ct ++ b' /\ eats E (IR (RRule mContent)) c b true c' b' /\ (b' = [] \/ (m_next salt b' /\ get [] c' cell = [])) /\ unbroken salt ct b'.
Proof.
  intros W G. assert (H : exists ct b' c', b = ct ++ b' /\ eats E (ITo (RAny [RRule mNextMarker; RAtEnd])) c b true c' b' /\ (b' = [] \/ (m_next salt b' /\ get [] c' cell = [])) /\ unbroken salt ct b').
  { destruct W as (rs & F & ->). induction F as [|r rs Hr F IH].
    - exists [], [], c. split; [auto|]. split.
      { apply (i_to_hit E _ c [] c []). apply (e_any E _ c [] true c []). eapply i_any_next; [apply (nm_no c [] salt G); intros X; apply next_first in X as (x & t & X & _); discriminate|]. apply i_any_hit. exact (e_end E c []). }
      split; [auto|]. intros u v Q V. symmetry in Q. apply app_eq_nil in Q as [_ ->]. congruence.
    - cbn [utf8s flat_map]. change (flat_map utf8 rs) with (utf8s rs). set (b := utf8 r ++ utf8s rs) in *. destruct (next_cases salt b) as [(n & v & Hn & Eb)|N].
      + exists [], b, (put [] c cell []). split; [auto|]. split.
        { eapply i_to_hit. apply (e_any E _ c b true _ v). apply i_any_hit. rewrite Eb. apply nm_yes; auto. }
        split; [right; split; [rewrite Eb; apply next_is; auto|apply get_put_same]|]. intros u w Q V. symmetry in Q. apply app_eq_nil in Q as [_ ->]. congruence.
      + destruct IH as (ct & b' & c' & Q & D & Fin & U). exists (utf8 r ++ ct), b', c'. unfold b at 1. rewrite Q, app_assoc. split; [auto|].
        split; [|split; [exact Fin|]].
        * eapply i_to_next with (c1 := c) (b1 := b); [|apply step_utf8; auto|exact D]. apply (e_any E _ c b false c b). eapply i_any_next; [apply (nm_no c b salt); auto|].
          eapply i_any_next; [|apply i_any_nil]. pose proof (e_end E c b) as Z. replace (no_text b) with false in Z; [exact Z|].
          unfold b. pose proof (utf8_nonnil r). destruct (utf8 r); [congruence|reflexivity].
        * intros u v Qv V X. apply next_first in X as Y. destruct (Nat.le_gt_cases (length (utf8 r)) (length u)) as [Le|Gt].
          { destruct (app_split_le _ _ _ _ Qv Le) as (m & Em & Em'). apply (U m v); auto. }
          destruct (app_split_le _ _ _ _ (eq_sym Qv) (Nat.lt_le_incl _ _ Gt)) as (m & Em & Em'). destruct u as [|x u].
          { cbn [app] in Em'. apply N. unfold b. rewrite Q, app_assoc, Qv. exact X. }
          destruct m as [|y m]; [rewrite app_nil_r in Em; rewrite Em in Gt; lia|]. rewrite Em' in Y. destruct Y as (y0 & t0 & Y0 & Y1). injection Y0 as <- _.
          assert (Hi : 128 <= r). { destruct (Z_lt_ge_dec r 128) as [Lo|Hi]; [|lia]. exfalso. destruct (utf8_low r Hr Lo) as [Ul _]. rewrite Ul in Em. injection Em as _ Em. destruct u; discriminate. }
          pose proof (utf8_plain x5c r ltac:(vm_compute; reflexivity) Hr Hi) as Pl. rewrite Em in Pl. apply Forall_app in Pl as [_ Pl]. inversion_clear Pl as [|? ? [P1 _] _]. lia. }
  destruct H as (ct & b' & c' & Q & D & Fin & U). exists ct, b', c'. split; [auto|]. split; [|auto]. apply (e_rule E _ _ c _ true _ _ content_is). apply (e_to E _ c b true c' b' D).
Qed.
Lemma content_same salt ct b' ct2 b2 : ct ++ b' = ct2 ++ b2 -> ends salt b' -> unbroken salt ct b' -> ends salt b2 -> unbroken salt ct2 b2 -> ct = ct2 /\ b' = b2.
Proof.
  assert (H : forall ct b' ct2 b2, ct ++ b' = ct2 ++ b2 -> ends salt b' -> unbroken salt ct2 b2 -> (length ct <= length ct2)%nat -> ct = ct2 /\ b' = b2).
  { clear. intros ct b' ct2 b2 Q En U Le. destruct (app_split_le _ _ _ _ Q Le) as (m & -> & ->). destruct m as [|x m]; [rewrite app_nil_r; auto|].
    exfalso. destruct En as [En|En]; [discriminate|]. apply (U ct (x :: m)); auto. discriminate. }
  intros Q E1 U1 E2 U2. destruct (Nat.le_gt_cases (length ct) (length ct2)) as [Le|Gt]; [apply H; auto|]. destruct (H ct2 b2 ct b') as [-> ->]; auto. lia.
Qed.
Definition rest_reader : reader := RAny [RRule mEmptyContent; RSeq [RRule mNL; RRule mContent]].
Lemma rest_end c : eats E (IR rest_reader) c [] true c [].
Proof. apply (e_any E _ c [] true c []). apply i_any_hit. apply (e_rule E _ _ c _ true _ _ empty_is). apply (e_any E _ c [] true c []). apply i_any_hit. exact (e_end E c []). Qed.
Lemma rest_next c salt t : get [] c cell = salt -> m_next salt t -> exists c', eats E (IR rest_reader) c t true c' t /\ get [] c' cell = [].
Proof.
  intros G X. exists (put [] c cell []). split; [|apply get_put_same]. destruct (next_cases salt t) as [(n & v & Hn & Et)|N]; [|tauto].
  apply (e_any E _ c t true (put [] c cell []) t). apply i_any_hit. apply (e_rule E _ _ c _ true _ _ empty_is). apply (e_any E _ c t true (put [] c cell []) t).
  eapply i_any_next with (c1 := c) (b1 := t).
  - pose proof (e_end E c t) as Z. replace (no_text t) with false in Z; [exact Z|]. apply next_first in X as (x & q & -> & _). reflexivity.
  - apply i_any_hit. apply (e_at E _ c t true (put [] c cell []) v). rewrite Et. apply nm_yes; auto.
Qed.
Lemma empty_no c salt t : get [] c cell = salt -> t <> [] -> ~ m_next salt t -> eats E (IR (RRule mEmptyContent)) c t false c t.
Proof.
  intros G T N. apply (e_rule E _ _ c _ false _ _ empty_is). apply (e_any E _ c t false c t). eapply i_any_next with (c1 := c) (b1 := t).
  { pose proof (e_end E c t) as Z. destruct t; [congruence|exact Z]. }
  eapply i_any_next with (c1 := c) (b1 := t); [|apply i_any_nil]. apply (e_at E _ c t false c t). apply (nm_no c t salt); auto.
Qed.
Lemma rest_none c salt t : get [] c cell = salt -> t <> [] -> ~ m_next salt t -> (forall n q, m_newline n -> t <> n ++ q) -> eats E (IR rest_reader) c t false c t.
Proof.
  intros G T N M. apply (e_any E _ c t false c t). eapply i_any_next with (c1 := c) (b1 := t); [eapply empty_no; eauto|].
  eapply i_any_next with (c1 := c) (b1 := t); [|apply i_any_nil]. apply (e_seq E _ c t false c t). apply i_seq_stop. apply o_nl_no. auto.
Qed.
Lemma rest_content c salt n q c' b' : get [] c cell = salt -> m_newline n -> ~ m_next salt (n ++ q) -> eats E (IR (RRule mContent)) c q true c' b' -> eats E (IR rest_reader) c (n ++ q) true c' b'.
Proof.
  intros G Hn N D. apply (e_any E _ c (n ++ q) true c' b'). eapply i_any_next with (c1 := c) (b1 := n ++ q).
  { eapply empty_no; eauto. destruct Hn as [->| ->]; discriminate. }
  apply i_any_hit. apply (e_seq E _ c (n ++ q) true c' b'). eapply i_seq_next; [apply o_nl; auto|]. eapply i_seq_next; [exact D|]. apply i_seq_nil.
Qed.
Lemma wf_low u x t : wf_text (u ++ x :: t) -> bz x < 0x20 -> wf_text (x :: t).
Proof. intros W X. assert (H : bz x < 128) by lia. pose proof (wf_cut _ _ _ W H) as Wu. exact (wf_rest _ _ Wu W). Qed.
Lemma wf_next salt u b' : wf_text (u ++ b') -> ends salt b' -> wf_text b'.
Proof. intros W [->|X]; [apply wf_nil|]. apply next_first in X as (x & t & -> & X). eapply wf_low; eauto. Qed.
Lemma wf_nl n : m_newline n -> wf_text n.
Proof. intros [->| ->]; apply wf_ascii; repeat constructor; vm_compute; auto. Qed.
Lemma chunk_sound c b c' b' : wf_text b -> get [] c cell = [] -> eats E (IR (RRule mChunk)) c b true c' b' ->
  m_chunk b b' /\ (b' = [] \/ get [] c' cell = []) /\ wf_text b'.
Proof.
  intros W G D. apply (rule_inv _ _ _ _ _ _ _ _ chunk_is), seq_inv in D. apply next_inv in D as (c1 & t & D1 & D). apply next_inv in D as (c2 & b2 & D2 & D). apply nil_inv in D as (_ & -> & ->).
  fold rest_reader in D2. destruct (header_sound _ _ _ _ W G D1) as (h & salt & -> & H & G1 & Wt). clear D1.
  destruct t as [|x t].
  { destruct (eats_det _ _ _ _ _ _ _ D2 _ _ _ (rest_end c1)) as (_ & -> & ->). split; [|auto]. eapply mc_empty; eauto. }
  set (q := x :: t) in *. destruct (next_cases salt q) as [(n & v & Hn & Eq)|N].
  { assert (X : m_next salt q) by (rewrite Eq; apply next_is; auto). destruct (rest_next c1 salt q G1 X) as (c3 & D3 & G3). destruct (eats_det _ _ _ _ _ _ _ D2 _ _ _ D3) as (_ & -> & ->).
    split; [eapply mc_empty; eauto|auto]. }
  destruct (nl_cases q) as [(n & q1 & Hn & Eq)|M].
  2:{ pose proof (rest_none c1 salt q G1 ltac:(discriminate) N M) as D3. destruct (eats_det _ _ _ _ _ _ _ D2 _ _ _ D3) as (Z & _). discriminate. }
  assert (W1 : wf_text q1) by (rewrite Eq in Wt; eapply wf_rest; [apply wf_nl; eauto|exact Wt]).
  destruct (content_run c1 salt q1 W1 G1) as (ct & b3 & c3 & Q & D3 & Fin & U). rewrite Eq in N, D2. pose proof (rest_content c1 salt n q1 c3 b3 G1 Hn N D3) as D4.
  destruct (eats_det _ _ _ _ _ _ _ D2 _ _ _ D4) as (_ & -> & ->). assert (En : ends salt b3) by (destruct Fin as [Fin|[Fin _]]; [left|right]; auto).
  split; [|split; [tauto|rewrite Q in W1; eapply wf_next; eauto]]. rewrite Eq, Q. rewrite Q in N. eapply mc_content; eauto.
Qed.
Lemma chunk_complete c b b' : wf_text b -> get [] c cell = [] -> m_chunk b b' -> exists c', eats E (IR (RRule mChunk)) c b true c' b'.
Proof.
  intros W G H. assert (K : exists h salt t, b = h ++ t /\ m_header salt h /\ first (fun x => 0x20 <=? bz x) t = false /\
    forall c1, wf_text t -> get [] c1 cell = salt -> exists c', eats E (IR rest_reader) c1 t true c' b').
  { destruct H as [h salt b' H En|h salt n ct b' H Hn En N U].
    - exists h, salt, b'. split; [auto|]. split; [auto|]. destruct En as [->|X].
      + split; [auto|]. intros c1 _ _. exists c1. apply rest_end.
      + split; [apply next_first in X as (x & q & -> & X); cbn; lia|]. intros c1 _ G1. destruct (rest_next c1 salt b' G1 X) as (c2 & D & _). eauto.
    - exists h, salt, (n ++ ct ++ b'). split; [auto|]. split; [auto|]. split; [apply nl_first; auto|]. intros c1 Wt G1.
      assert (W1 : wf_text (ct ++ b')) by (eapply wf_rest; [apply wf_nl; eauto|exact Wt]).
      destruct (content_run c1 salt _ W1 G1) as (ct2 & b2 & c2 & Q & D & Fin & U2). exists c2. eapply rest_content; eauto.
      assert (En2 : ends salt b2) by (destruct Fin as [Fin|[Fin _]]; [left|right]; auto). destruct (content_same salt _ _ _ _ Q En U En2 U2) as [_ ->]. exact D. }
  destruct K as (h & salt & t & -> & Hh & F & K). destruct (header_complete c h salt t W G Hh F) as (c1 & D1 & G1).
  destruct (header_sound _ _ _ _ W G D1) as (_ & _ & _ & _ & _ & Wt). destruct (K c1 Wt G1) as (c' & D2). exists c'.
  apply (e_rule E _ _ c _ true _ _ chunk_is). apply (e_seq E _ c _ true c' b'). eapply i_seq_next; [exact D1|]. eapply i_seq_next; [exact D2|]. apply i_seq_nil.
Qed.
Lemma chunk_det b b1 b2 : wf_text b -> m_chunk b b1 -> m_chunk b b2 -> b1 = b2.
Proof.
  intros W H1 H2. destruct (chunk_complete [] b b1 W eq_refl H1) as (c1 & D1). destruct (chunk_complete [] b b2 W eq_refl H2) as (c2 & D2).
  destruct (eats_det _ _ _ _ _ _ _ D1 _ _ _ D2) as (_ & _ & ->). reflexivity.
Qed.
Lemma chunk_wf b b' : wf_text b -> m_chunk b b' -> wf_text b'.
Proof. intros W H. destruct (chunk_complete [] b b' W eq_refl H) as (c1 & D). destruct (chunk_sound [] b c1 b' W eq_refl D) as (_ & _ & X). exact X. Qed.
Lemma more_sound : forall k c b c' b', (length b <= k)%nat -> wf_text b -> b = [] \/ get [] c cell = [] -> eats E (IRep (RSeq [RRule mNL; RRule mChunk])) c b true c' b' -> m_more b b'.
Proof.
  assert (Rin : forall e r c b c' b', eats e (IRep r) c b true c' b' -> (eats e (IR r) c b false c' b') \/ (exists c1 b1, eats e (IR r) c b true c1 b1 /\ eats e (IRep r) c1 b1 true c' b')).
  { clear. intros e r c b c' b' D. inversion D; subst; eauto. }
  assert (Sno : forall e rs c b c' b', eats e (IR (RSeq rs)) c b false c' b' -> b' = b).
  { clear. intros e rs c b c' b' D. inversion D; subst; auto; discriminate. }
  induction k as [|k IH]; intros c b c' b' Le W G D.
  - assert (b = []) by (destruct b; [auto|cbn in Le; lia]). subst b. destruct (Rin _ _ _ _ _ _ D) as [X|(c1 & b1 & X & _)].
    + apply Sno in X. subst b'. apply mm_stop. intros n b1 b' [->| ->]; discriminate.
    + apply seq_inv, next_inv in X as (c2 & b2 & X & _). pose proof (o_nl_no [] ltac:(intros n t [->| ->]; discriminate)) as O. destruct (out_eats _ _ _ _ _ _ _ _ _ O X) as [Z _]. discriminate.
  - destruct (nl_cases b) as [(n & t & Hn & ->)|M].
    + assert (Wt : wf_text t) by (eapply wf_rest; [apply wf_nl; eauto|exact W]).
      assert (Gc : get [] c cell = []) by (destruct G as [G|G]; [destruct Hn as [->| ->]; discriminate|auto]).
      destruct (Rin _ _ _ _ _ _ D) as [X|(c1 & b1 & X & X2)].
      * assert (b' = n ++ t) by (eapply Sno; eauto). subst b'. apply mm_stop. intros n2 t2 b2 Hn2 Q Ch. destruct (nl_same _ _ _ _ Hn Hn2 Q) as [-> ->].
        destruct (chunk_complete c t2 b2 Wt Gc Ch) as (c2 & D2).
        assert (D3 : eats E (IR (RSeq [RRule mNL; RRule mChunk])) c (n2 ++ t2) true c2 b2).
        { apply (e_seq E _ c _ true c2 b2). eapply i_seq_next; [apply o_nl; auto|]. eapply i_seq_next; [exact D2|]. apply i_seq_nil. }
        destruct (eats_det _ _ _ _ _ _ _ X _ _ _ D3) as (Z & _). discriminate.
      * apply seq_inv, next_inv in X as (c2 & b2 & X & Y). destruct (out_eats _ _ _ _ _ _ _ _ _ (o_nl n t Hn) X) as (_ & -> & <-).
        apply next_inv in Y as (c3 & b3 & Y & Z). apply nil_inv in Z as (_ & -> & ->). destruct (chunk_sound _ _ _ _ Wt Gc Y) as (Ch & G3 & W3).
        eapply mm_next; eauto. eapply IH; eauto. apply eats_suffix in Y as [d Q]. apply (f_equal (@length _)) in Q. rewrite app_length in Q. rewrite app_length in Le.
        destruct Hn as [->| ->]; cbn in Le; lia.
    + pose proof (o_nl_no b M) as O. destruct (Rin _ _ _ _ _ _ D) as [X|(c1 & b1 & X & _)].
      * assert (b' = b) by (eapply Sno; eauto). subst b'. apply mm_stop. intros n t b2 Hn Q. elim (M n t Hn Q).
      * apply seq_inv, next_inv in X as (c2 & b2 & X & _). destruct (out_eats _ _ _ _ _ _ _ _ _ O X) as [Z _]. discriminate.
Qed.
Lemma more_det b b1 : m_more b b1 -> forall b2, wf_text b -> m_more b b2 -> b1 = b2.
Proof.
  induction 1 as [b N|n b q b1 Hn Ch M IH]; intros b2 W M2.
  - inversion M2 as [|n x y z Hn Ch M3]; subst; auto. elim (N n x y Hn eq_refl Ch).
  - assert (Wt : wf_text b) by (eapply wf_rest; [apply wf_nl; eauto|exact W]). inversion M2 as [x N|n2 x y z Hn2 Ch2 M3]; subst.
    + elim (N n b q Hn eq_refl Ch).
    + destruct (nl_same _ _ _ _ Hn2 Hn H) as [-> ->]. pose proof (chunk_det _ _ _ Wt Ch Ch2). subst y. apply IH; auto. eapply chunk_wf; eauto.
Qed.
Lemma chunks_det b b1 b2 : wf_text b -> m_chunks b b1 -> m_chunks b b2 -> b1 = b2.
Proof. intros W (x & C1 & M1) (y & C2 & M2). pose proof (chunk_det _ _ _ W C1 C2). subst y. eapply more_det; eauto. eapply chunk_wf; eauto. Qed.
Lemma mxt_sound c b ok c' b' : wf_text b -> get [] c cell = [] -> eats E (IR mxt) c b ok c' b' -> if ok then m_chunks b b' else forall b2, ~ m_chunks b b2.
Proof.
  intros W G D. apply grammar_is_rule in D. apply (rule_inv _ _ _ _ _ _ _ _ chunks_is) in D. destruct ok.
  - apply seq_inv, next_inv in D as (c1 & b1 & D1 & D). destruct (chunk_sound _ _ _ _ W G D1) as (Ch & G1 & W1). apply next_inv in D as (c2 & b2 & D2 & D).
    apply nil_inv in D as (_ & -> & ->). exists b1. split; auto. eapply more_sound; [apply Nat.le_refl|eauto..|].
    assert (Zin : forall e r c b c' b', eats e (IR (RZom r)) c b true c' b' -> eats e (IRep r) c b true c' b') by (clear; intros e r c b c' b' D; inversion D; subst; auto; discriminate).
    eapply Zin. exact D2.
  - intros b2 (b1 & Ch & _). destruct (chunk_complete c b b1 W G Ch) as (c1 & D1).
    assert (Sq : forall e r k c b c' b' c1 b1, eats e (IR (RSeq [r; RZom k])) c b false c' b' -> eats e (IR r) c b true c1 b1 -> False).
    { clear. intros e r k c b c' b' c1 b1 D D1. inversion D; subst; try discriminate. match goal with X : eats _ (ISeq _) _ _ false _ _ |- _ => inversion X; subst end.
      - match goal with X : eats _ (IR r) _ _ false _ _ |- _ => destruct (eats_det _ _ _ _ _ _ _ X _ _ _ D1) as (Z & _); discriminate end.
      - match goal with X : eats _ (ISeq _) _ _ false _ _ |- _ => inversion X; subst end.
        + match goal with X : eats _ (IR (RZom _)) _ _ false _ _ |- _ => inversion X; subst; discriminate end.
        + match goal with X : eats _ (ISeq []) _ _ false _ _ |- _ => inversion X end. }
    exact (Sq _ _ _ _ _ _ _ _ _ D D1).
Qed.
End Mxt.

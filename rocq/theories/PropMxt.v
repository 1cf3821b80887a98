(** PropMxt.v - C67: the MXT grammar; and grammars that always return. *)
From Verif Require Import PegTotal PegBytes UseFacts ExKit Mxt.
From Coq Require Import Lia ZifyBool.
From Verif Require Import ReaderSteps ReaderScan.

(** Rules that may succeed on the empty text, and how deep rules call each other before anything is consumed. *)
Definition mxt_nullable : list bool := [false; false; false; false; false; false; true; false; false; true; true; false; false; false].
Definition mxt_levels : list nat := [3; 2; 1; 0; 1; 2; 0; 0; 0; 2; 2; 1; 0; 0]%nat.
Lemma mxt_certified {L : GoLib} : certified true false (nullable mxt_nullable) (level mxt_levels) mxt_env.
Proof. apply certifies_ok. vm_compute. reflexivity. Qed.
Lemma mxt_fine {L : GoLib} : fine true false (nullable mxt_nullable) mxt_env mxt = true.
Proof. vm_compute. reflexivity. Qed.

Lemma mxt_covered {L : GoLib} : eall covered mxt_env. Proof. apply eall_check. vm_compute. reflexivity. Qed.
Lemma mxt_safe {L : GoLib} : eall (safe mxt_env) mxt_env. Proof. apply eall_check. vm_compute. reflexivity. Qed.
Lemma mxt_safe_itself {L : GoLib} : rall (safe mxt_env) mxt = true. Proof. vm_compute. reflexivity. Qed.
Definition mxt_case : bytes := lit "// a note --> end" ++ [x0a; xc3; xa9; x0a] ++ lit "//end b -->" ++ [x0a] ++ lit "x".

(** C67.  Use(MXT()) returns on every well-formed UTF-8 text (the salt of an earlier read, if any, being so too). *)
Theorem C67_mxt_returns {L : GoLib} s a b : at_split s a b -> wf_text b -> (forall i, wf_text (get [] (h_cells (hp s)) i)) ->
  exists x s', uses mxt_env mxt s x s'.
Proof.
  intros H W C. destruct (certified_reads _ _ _ _ _ _ _ _ _ mxt_certified mxt_fine H (fun _ => conj W C) ltac:(discriminate)) as (x & s' & R).
  eexists x, _. apply uses_reads; [destruct H as (_ & -> & _); apply slen_nonneg|]. exists s'. auto.
Qed.
Print Assumptions C67_mxt_returns.
Theorem C67_mxt_returns_fresh {L : GoLib} b : wf_text b -> slen b < 2 ^ 63 -> exists x s', uses mxt_env mxt (init_st b) x s'.
Proof. intros W Lt. apply (C67_mxt_returns _ [] b); auto; [repeat split; auto|]. intros i. destruct i; apply wf_nil. Qed.
Print Assumptions C67_mxt_returns_fresh.

(** It does not return on ill-formed text: here a name, then any well-formed text without an arrow, then a
    last byte that no character starts and ends with. *)
Lemma body_cut {L : GoLib} e z k d x y u c ok c' b' : wf_text u -> 128 <= bz y -> (forall v t, u ++ [y] <> v ++ x ++ t) -> ~ eats e (IBody z k d (RLit x)) c (u ++ [y]) ok c' b'.
Proof.
  intros W Y N D. remember (IBody z k d (RLit x)) as i eqn:Ei. remember (u ++ [y]) as b eqn:Eb. revert u W N Eb Ei.
  induction D; intros v W M Eb Ei; try discriminate; injection Ei; intros; subst.
  - destruct v; discriminate.
  - inversion D1; subst; try discriminate. match goal with Q : _ = v ++ [y] |- _ => symmetry in Q; apply (M [] _ Q) end.
  - assert (X : b1 = v ++ [y]) by (inversion D1; subst; try discriminate; auto). subst b1. clear D1 IHD1. destruct v as [|q v].
    + cbn [app] in *. assert (Z : snd (step [y]) = [y]) by (clear -Y; destruct y; first [reflexivity|exfalso; vm_compute in Y; apply Y; reflexivity]).
      rewrite Z in *. apply (IHD2 []); auto.
    + destruct (wf_first _ W) as (r & t & Hr & E & Wt); [discriminate|]. rewrite E in *. rewrite <- app_assoc in *. rewrite step_utf8 in * by auto. cbn [snd] in *. apply (IHD2 t); auto.
      intros v' t' Q. apply (M (utf8 r ++ v') t'). rewrite Q, <- app_assoc. auto.
Qed.

Lemma e_body_tail_inv {L : GoLib} e d t c b ok c' b' : eats e (IR (RBodyTail d t)) c b ok c' b' -> exists b2, eats e (IBody b false d t) c b ok c' b2.
Proof. intros H. inversion H; subst; try discriminate. eauto. Qed.
Lemma k_to {L : GoLib} e r b : stuck e (IR r) b -> stuck e (IR (RTo r)) b.
Proof. intros H c ok c' b' D. inversion D; subst; try discriminate. match goal with X : eats _ (ITo _) _ _ _ _ _ |- _ => inversion X; subst; eapply H; eauto end. Qed.
Lemma k_named {L : GoLib} e w r b : stuck e (IR r) b -> stuck e (IR (RNamed w r)) b.
Proof. intros H c ok c' b' D. inversion D; subst; try discriminate. eapply H; eauto. Qed.
Section Cut.
Context {L : GoLib}.
Lemma mxt_rule i r : r_reader (get_rule mxt_env i) = Some r -> forall b, stuck mxt_env (IR r) b -> stuck mxt_env (IR (RRule i)) b.
Proof. intros R b. apply (k_rule mxt_env i r b R). Qed.
Lemma wordchar_yes x b : 0x21 <= bz x < 128 -> out mxt_env (IR (RRule mWordChar)) (x :: b) true b.
Proof.
  intros X. apply (o_rule mxt_env mWordChar (RBetween 0x21 MaxRune)); [reflexivity|]. intros c. pose proof (e_test mxt_env (RBetween 0x21 MaxRune) _ c (x :: b) eq_refl) as E.
  assert (T : test (fun v i => negb (Nat.eqb i 0) && in_range 0x21 v MaxRune) (x :: b) = true) by (unfold test; rewrite decode_ascii by lia; unfold in_range, MaxRune; cbn [fst snd Nat.eqb negb andb]; lia).
  unfold after_rune in E. rewrite T, decode_ascii in E by lia. exact E.
Qed.
Lemma wordchar_no b : first (within 0x21 127) b = false -> first (fun x => bz x <? 128) b = true -> out mxt_env (IR (RRule mWordChar)) b false b.
Proof.
  intros X Y. apply (o_rule mxt_env mWordChar (RBetween 0x21 MaxRune)); [reflexivity|]. intros c. pose proof (e_test mxt_env (RBetween 0x21 MaxRune) _ c b eq_refl) as E.
  assert (T : test (fun v i => negb (Nat.eqb i 0) && in_range 0x21 v MaxRune) b = false).
  { destruct b as [|x b]; [discriminate|]. cbn [first] in *. unfold within in X. unfold test. rewrite decode_ascii by lia; unfold in_range, MaxRune; cbn [fst snd Nat.eqb negb andb]; lia. }
  rewrite T in E. exact E.
Qed.
Lemma arrow_cut u y : wf_text u -> 128 <= bz y -> (forall v t, u ++ [y] <> v ++ lit "-->" ++ t) -> stuck mxt_env (IR mxt_arrow) (u ++ [y]).
Proof. intros W Y N c ok c' b' D. apply e_body_tail_inv in D as [b2 D]. exact (body_cut _ _ _ _ _ _ _ _ _ _ _ W Y N D). Qed.
Lemma o_many_yes e r b b' : (length b' < length b)%nat -> out e (IRep r) b true b' -> out e (IR (RMany r)) b true b'.
Proof. intros Lt H. apply o_many in H. rewrite (proj2 (Nat.ltb_lt _ _) Lt) in H. exact H. Qed.
Definition blank : reader := RRune 0x20.
Lemma takes_blank : takes mxt_env blank (is 0x20).
Proof. apply takes_byte, rb_rune. lia. Qed.
Lemma header_cut u y : wf_text u -> 128 <= bz y -> (forall v t, u ++ [y] <> v ++ lit "-->" ++ t) ->
  stuck mxt_env (IR mxt) (lit "// a " ++ u ++ [y]).
Proof.
  intros W Y N. set (b := u ++ [y]).
  assert (W2 : wf_text (lit " " ++ u)) by (apply wf_app; auto; apply (wf_rune 0x20); left; lia).
  assert (N2 : forall v t, (lit " " ++ u) ++ [y] <> v ++ lit "-->" ++ t).
  { intros v t Q. destruct v as [|v0 v]; [discriminate|]. injection Q as _ Q. apply (N v t Q). }
  apply (k_grammar mxt_env _ _ mChunks mxt_chunks); [reflexivity|]. apply k_seq, ks_here.
  apply (k_rule mxt_env mChunk mxt_chunk); [reflexivity|]. apply k_seq, ks_here.
  apply (k_rule mxt_env mHeader mxt_header); [reflexivity|]. apply k_seq.
  apply ks_next with (b1 := lit " a " ++ b).
  { apply (o_rule mxt_env mMarker mxt_marker); [reflexivity|]. apply o_seq. eapply os_next; [apply (o_lit mxt_env (lit "//"))|]. eapply os_next; [|apply os_nil].
    apply o_zom, or_stop, wordchar_no; reflexivity. }
  apply ks_next with (b1 := lit "a " ++ b).
  { apply (o_many_yes mxt_env blank); [cbn; lia|]. apply (o_rep_takes mxt_env blank (is 0x20) (lit " ") (lit "a " ++ b) takes_blank); reflexivity. }
  apply ks_next with (b1 := lit " " ++ b).
  { apply (o_rule mxt_env mName mxt_name); [reflexivity|]. apply (o_rule mxt_env mWord mxt_word); [reflexivity|].
    apply (o_many_yes mxt_env (RRule mWordChar)); [cbn; lia|]. apply or_next with (b1 := lit " " ++ b); [apply wordchar_yes; cbn; lia|]. apply or_stop, wordchar_no; reflexivity. }
  apply ks_here. apply (k_rule mxt_env mComment mxt_comment); [reflexivity|]. apply k_to, k_named. unfold b. rewrite app_assoc. apply arrow_cut; auto.
Qed.
End Cut.
Theorem C67_mxt_hangs {L : GoLib} s a u y : at_split s a (lit "// a " ++ u ++ [y]) -> wf_text u -> 128 <= bz y ->
  (forall v t, u ++ [y] <> v ++ lit "-->" ++ t) -> use_hangs mxt_env mxt s.
Proof.
  intros H W Y N. apply use_hangs_is. pose proof (stands_split _ _ _ H) as S.
  apply (hangs_eats mxt_env mxt _ _ _ _ mxt_covered eq_refl mxt_safe mxt_safe_itself S). intros (ok & c' & b' & D). exact (header_cut u y W Y N _ _ _ _ D).
Qed.
Print Assumptions C67_mxt_hangs.
(** Cases: a text read well, one read with an error, and one that hangs. *)
Example C67_read_here {L : GoLib} : wf_text mxt_case /\ exists s', uses mxt_env mxt (init_st mxt_case) None s' /\ pos (sc s') = slen mxt_case.
Proof. split; [apply valid_wf; vm_compute; reflexivity|]. eexists. split; [run 300%nat|reflexivity]. Qed.
Example C67_hangs_here {L : GoLib} : use_hangs mxt_env mxt (init_st (lit "// a " ++ lit "-- >" ++ [xff])).
Proof.
  apply (C67_mxt_hangs _ [] (lit "-- >") xff); [repeat split; reflexivity|apply valid_wf; vm_compute; reflexivity|cbn; lia|].
  intros v t Q. cbv [lit] in Q. cbn in Q. do 6 (destruct v as [|? v]; cbn [app] in Q; [discriminate Q|]; try (injection Q as _ Q)); try discriminate Q.
Qed.

(** PropJson.v - C61 to C64, and the JSON part of C42: the JSON grammar. *)
From Verif Require Import JsonFacts ReaderSync UseFacts ExKit Mxt Lua.
From Coq Require Import Lia ZifyBool.
From Verif Require Import ReaderSteps ReaderScan.

Lemma json_reads_eats {L : GoLib} a b s x s' : at_split s a b -> reads json_env json s x s' ->
  exists c' b', stands (a ++ b) c' b' s' /\ eats json_env (IR json) (h_cells (hp s)) b (okx x) c' b'.
Proof. intros H R. exact (reads_eats json_env json _ _ _ _ _ _ json_covered eq_refl (stands_split _ _ _ H) R). Qed.

(** C61.  A successful Use has consumed a JSON element. *)
Theorem C61_json_sound {L : GoLib} s a b s' : at_split s a b -> uses json_env json s None s' ->
  exists w rest, b = w ++ rest /\ json_text Element w /\ at_split s' (a ++ w) rest.
Proof.
  intros H U. apply uses_reads in U as (s1 & R & ->); [|destruct H as (_ & -> & _); apply slen_nonneg].
  destruct (json_reads_eats a b s None s1 H R) as (c' & b' & S1 & D).
  destruct (json_run b) as [(w & b2 & -> & J & O)|[O|C]].
  - destruct (out_eats _ _ _ _ _ _ _ _ _ O D) as (_ & _ & <-). exists w, b2. split; auto. split; auto. eapply stands_at; [|exact S1]. rewrite <- app_assoc. auto.
  - destruct (out_eats _ _ _ _ _ _ _ _ _ O D) as (X & _). discriminate.
  - elim (json_stuck _ C _ _ _ _ D).
Qed.
Print Assumptions C61_json_sound.
Example C61_here {L : GoLib} : exists s', uses json_env json (mk (lit "x [1, true ]!") 1) None s' /\ pos (sc s') = 12.
Proof. eexists. split; [run 200%nat|reflexivity]. Qed.

(** C62.  Every JSON element is consumed, if the text behind it does not continue it:
    at the end of the text, or before a byte that is neither white space nor part of a number. *)
Definition stops (rest : bytes) : Prop := rest = [] \/ exists x t, rest = x :: t /\ ~ ws_byte x /\ ~ dig x /\ ~ In x (lit ".eE").
Lemma stops_follow rest : stops rest -> follow rest.
Proof.
  intros [->|(x & t & -> & N1 & N2 & N3)]; [repeat split; reflexivity|]. rewrite <- ws_is in N1. rewrite <- dig_is in N2. unfold follow, no_frac, no_exp. cbn [first].
  assert (A : b_e x = false) by (destruct (b_e x) eqn:Q; auto; elim N3; destruct x; try discriminate Q; cbn; auto).
  assert (B : is 0x2E x = false) by (destruct (is 0x2E x) eqn:Q; auto; elim N3; apply is_eq in Q as ->; cbn; auto).
  destruct (b_ws x), (b_dig x); repeat split; auto; congruence.
Qed.
Lemma json_use_word {L : GoLib} s a w rest : at_split s a (w ++ rest) -> json_text Element w -> follow rest ->
  exists s', uses json_env json s None s' /\ at_split s' (a ++ w) rest.
Proof.
  intros H J F. pose proof (stands_split _ _ _ H) as S. pose proof (words_read Element w J rest F (h_cells (hp s))) as O. apply json_eats in O.
  destruct (eats_reads _ _ _ _ _ _ _ _ _ O S) as (x & s' & R & X & S'). destruct x; [discriminate|]. exists s'. split.
  - apply uses_reads; [destruct H as (_ & -> & _); apply slen_nonneg|]. exists s'. auto.
  - eapply stands_at; [|exact S']. rewrite <- app_assoc. auto.
Qed.
Theorem C62_json_complete {L : GoLib} s a w : at_split s a w -> json_text Element w ->
  exists s', uses json_env json s None s' /\ at_split s' (a ++ w) [].
Proof. intros H J. apply json_use_word; auto; [rewrite app_nil_r; auto|apply stops_follow; left; auto]. Qed.
Print Assumptions C62_json_complete.
Theorem C62_json_complete_in_text {L : GoLib} s a w rest : at_split s a (w ++ rest) -> json_text Element w -> stops rest ->
  exists s', uses json_env json s None s' /\ at_split s' (a ++ w) rest.
Proof. intros H J F. apply json_use_word; auto. apply stops_follow; auto. Qed.
Print Assumptions C62_json_complete_in_text.
(** Recognition: a text is JSON if and only if Use succeeds and reaches the end. *)
Theorem C62_json_recognises {L : GoLib} t : slen t < 2 ^ 63 ->
  (json_text Element t <-> exists s', uses json_env json (init_st t) None s' /\ pos (sc s') = slen t).
Proof.
  intros Lt. assert (H : at_split (init_st t) [] t) by (split; [reflexivity|]; split; [reflexivity|exact Lt]). split.
  - intros J. destruct (C62_json_complete _ _ _ H J) as (s' & U & (_ & P & _)). exists s'. auto.
  - intros (s' & U & P). destruct (C61_json_sound _ _ _ _ H U) as (w & rest & -> & J & (_ & Q & _)). rewrite P, !slen_app in Q. cbn in Q.
    assert (R : rest = []) by (destruct rest; auto; unfold slen in Q; cbn in Q; lia). subst. rewrite app_nil_r. exact J.
Qed.
Print Assumptions C62_json_recognises.
Definition ex_json : bytes := lit "{ ""a"" : [ -1.50e+3 , ""\u00e9\n"" ,{}, [ ] ] }".
Example C62_word_here : json_text Element ex_json.
Proof.
  assert (S1 : j_string (lit """a""")) by (exists (lit "a"); split; [reflexivity|]; repeat constructor; try discriminate; cbn; lia).
  assert (S2 : j_string (lit """\u00e9\n""")).
  { exists (lit "\u00e9\n"). split; [reflexivity|]. apply jc_unicode; try (unfold hex_dig, dig; cbn; lia). apply jc_escape; [cbn; tauto|constructor]. }
  assert (N : j_number (lit "-1.50e+3")).
  { exists (lit "-1"), (lit ".50"), (lit "e+3"). split; [reflexivity|]. split; [|split].
    - exists (lit "-"), (lit "1"). split; [reflexivity|]. split; auto. right. exists x31, []. split; auto. split; [cbn; lia|constructor].
    - right. exists (lit "50"). split; [reflexivity|]. split; [discriminate|]. repeat constructor; cbn; lia.
    - right. exists x65, (lit "+"), (lit "3"). split; [reflexivity|]. split; auto. split; auto. split; [discriminate|]. repeat constructor; cbn; lia. }
  assert (W0 : j_ws []) by constructor. assert (W1 : j_ws (lit " ")) by (repeat constructor).
  assert (El : forall w1 v w2, j_ws w1 -> json_text Value v -> j_ws w2 -> json_text Element (w1 ++ v ++ w2)) by (intros; apply jt_element; auto).
  assert (A : json_text Elements (lit " -1.50e+3 , ""\u00e9\n"" ,{}, [ ] ")).
  { apply (jt_elements (lit " -1.50e+3 ") (lit " ""\u00e9\n"" ,{}, [ ] ")).
    - apply (El (lit " ") (lit "-1.50e+3") (lit " ")); auto. apply jt_number; auto.
    - apply (jt_elements (lit " ""\u00e9\n"" ") (lit "{}, [ ] ")); [apply (El (lit " ") (lit """\u00e9\n""") (lit " ")); auto; apply jt_string; auto|].
      apply (jt_elements (lit "{}") (lit " [ ] ")); [apply (El [] (lit "{}") []); auto; apply (jt_object0 []); auto|].
      apply jt_elements1. apply (El (lit " ") (lit "[ ]") (lit " ")); auto. apply (jt_array0 (lit " ")); auto. }
  apply (El [] ex_json []); auto. apply (jt_object (lit " ""a"" : [ -1.50e+3 , ""\u00e9\n"" ,{}, [ ] ] ")). apply jt_members1.
  apply (jt_member (lit " ") (lit """a""") (lit " ") (lit " [ -1.50e+3 , ""\u00e9\n"" ,{}, [ ] ] ")); auto.
  apply (El (lit " ") (lit "[ -1.50e+3 , ""\u00e9\n"" ,{}, [ ] ]") (lit " ")); auto. apply (jt_array _ A).
Qed.
Example C62_here {L : GoLib} : exists s', uses json_env json (init_st ex_json) None s' /\ pos (sc s') = slen ex_json.
Proof. eexists. split; [run 400%nat|reflexivity]. Qed.

(** C63.  False: an unterminated string is read forever. *)
Theorem C63_json_terminates_refuted {L : GoLib} : ~ (forall s, in_text s -> exists x s', uses json_env json s x s').
Proof.
  intros H. assert (A : at_split (init_st (lit """")) [] (lit """")) by (repeat split).
  destruct (H (init_st (lit """"))) as (x & s' & U); [in_here|]. apply uses_reads in U as (s1 & R & _); [|cbn; lia].
  destruct (json_reads_eats _ _ _ _ _ A R) as (c' & b' & _ & D).
  refine (json_stuck (lit """") _ _ _ _ _ D). apply (cut_element [] (lit """")); [constructor|]. apply cut_str. exists []. split; [reflexivity|constructor].
Qed.
Print Assumptions C63_json_terminates_refuted.
(** Exactly the texts that break off inside a string, everything before being JSON, are read forever. *)
Theorem C63_json_hangs_exact {L : GoLib} s a b : at_split s a b -> (use_hangs json_env json s <-> cut Element b).
Proof.
  intros H. pose proof (stands_split _ _ _ H) as S. eapply iff_trans; [apply use_hangs_is|]. eapply iff_trans; [exact (hangs_eats json_env json _ _ _ _ json_covered eq_refl json_safe json_safe_itself S)|]. split.
  - intros N. destruct (json_run b) as [(w & b2 & Q & J & O)|[O|C]]; [elim N; exists true, (h_cells (hp s)), b2; apply O|elim N; exists false, (h_cells (hp s)), b; apply O|auto].
  - intros C (ok & c' & b' & D). elim (json_stuck _ C _ _ _ _ D).
Qed.
Print Assumptions C63_json_hangs_exact.
(** On all other texts Use returns; it never panics. *)
Theorem C63_json_terminates_partial {L : GoLib} s a b : at_split s a b -> ~ cut Element b -> exists x s', uses json_env json s x s'.
Proof.
  intros H N. pose proof (stands_split _ _ _ H) as S. assert (P : 0 <= pos (sc s)) by (destruct H as (_ & -> & _); apply slen_nonneg).
  assert (D : exists ok b', eats json_env (IR json) (h_cells (hp s)) b ok (h_cells (hp s)) b').
  { destruct (json_run b) as [(w & b2 & Q & J & O)|[O|C]]; [exists true, b2; apply O|exists false, b; apply O|tauto]. }
  destruct D as (ok & b' & D). destruct (eats_reads _ _ _ _ _ _ _ _ _ D S) as (x & s' & R & _). eexists x, _. apply uses_reads; [auto|]. exists s'. auto.
Qed.
Print Assumptions C63_json_terminates_partial.
Theorem C63_json_no_panic {L : GoLib} s n : in_text s -> use (read n json_env json) s <> Panic.
Proof.
  intros I. pose proof (read_no_panic json_env n json s json_safe json_safe_itself I) as N. unfold use. rewrite (bind_ok _ _ _ _ _ (mark_ok s)), bind_run.
  destruct (read n json_env json s) as [[[x|] s1]| |]; try discriminate; [|congruence]. rewrite bind_run, to_marker_nonneg by apply I. discriminate.
Qed.
Print Assumptions C63_json_no_panic.
Example C63_cut_here : cut Element (lit "[1,""a").
Proof.
  apply (cut_element [] (lit "[1,""a")); [constructor|]. apply (cut_array (lit "1,""a")). apply (cut_elements (lit "1") (lit """a")).
  - apply (jt_element [] (lit "1") []); [constructor| |constructor]. apply jt_number. exists (lit "1"), [], []. split; [reflexivity|]. split; [|split; left; auto].
    exists [], (lit "1"). split; [reflexivity|]. split; auto. right. exists x31, []. split; auto. split; [cbn; lia|constructor].
  - apply cut_elements1. apply (cut_element [] (lit """a")); [constructor|]. apply cut_str. exists (lit "a"). split; [reflexivity|]. repeat constructor; try discriminate; cbn; lia.
Qed.
Example C63_fails_here {L : GoLib} : exists x s', uses json_env json (init_st (lit "[1,]")) (Some x) s' /\ pos (sc s') = 0.
Proof. eexists _, _. split; [run 200%nat|reflexivity]. Qed.

(** C42, last part: JSON() does not return on an unterminated string. *)
Theorem C42_json_unterminated_string {L : GoLib} s a w u : at_split s a (w ++ lit """" ++ u) -> j_ws w -> j_chars u -> hangs json_env json s.
Proof.
  intros H W J. apply use_hangs_is. apply (C63_json_hangs_exact s a _ H). apply (cut_element w (x22 :: u)); auto. apply cut_str. exists u. auto.
Qed.
Print Assumptions C42_json_unterminated_string.
Example C42_json_case {L : GoLib} : hangs json_env json (mk (lit " ""ab") 0).
Proof. apply (C42_json_unterminated_string _ [] (lit " ") (lit "ab")); [split_here|repeat constructor|repeat constructor; try discriminate; cbn; lia]. Qed.

(** C64.  True for JSON and Lua, and for every grammar in which each end of a Janus pair follows
    its beginning in the same sequence: neither earlier reads nor the tracker have an influence. *)
Lemma clean_check e : forallb (fun r => match r_reader r with Some x => clean [] x | None => true end) e = true -> clean_env e.
Proof.
  intros H i r R. unfold get_rule in R. rewrite forallb_forall in H. destruct (nth_in_or_default i e rule0) as [I|D].
  - specialize (H _ I). rewrite R in H. exact H.
  - rewrite D in R. discriminate.
Qed.
Theorem C64_clean_grammars_independent {L : GoLib} e r s1 s2 x s1' : clean_env e -> clean [] r = true -> in_text s1 ->
  full (sc s1) = full (sc s2) -> pos (sc s1) = pos (sc s2) -> uses e r s1 x s1' ->
  exists s2', uses e r s2 x s2' /\ full (sc s2') = full (sc s1') /\ pos (sc s2') = pos (sc s1').
Proof.
  intros He C I F P U. apply uses_reads in U as (t1 & R & ->); [|apply I].
  destruct (clean_reads e He r s1 s2 x t1 C I F P R) as (t2 & R2 & F2 & P2).
  exists (match x with None => t2 | Some _ => moveto (pos (sc s2)) t2 end). split; [apply uses_reads; [rewrite <- P; apply I|exists t2; auto]|].
  destruct x; [split; [exact (eq_sym F2)|exact (eq_sym P)]|auto].
Qed.
Print Assumptions C64_clean_grammars_independent.
Theorem C64_json_independent_partial {L : GoLib} s1 s2 x s1' : in_text s1 ->
  full (sc s1) = full (sc s2) -> pos (sc s1) = pos (sc s2) -> uses json_env json s1 x s1' ->
  exists s2', uses json_env json s2 x s2' /\ full (sc s2') = full (sc s1') /\ pos (sc s2') = pos (sc s1').
Proof. apply C64_clean_grammars_independent; [apply clean_check; vm_compute; reflexivity|reflexivity]. Qed.
Print Assumptions C64_json_independent_partial.
Theorem C64_lua_independent_partial {L : GoLib} s1 s2 x s1' : in_text s1 ->
  full (sc s1) = full (sc s2) -> pos (sc s1) = pos (sc s2) -> uses lua_env lua s1 x s1' ->
  exists s2', uses lua_env lua s2 x s2' /\ full (sc s2') = full (sc s1') /\ pos (sc s2') = pos (sc s1').
Proof. apply C64_clean_grammars_independent; [apply clean_check; vm_compute; reflexivity|reflexivity]. Qed.
Print Assumptions C64_lua_independent_partial.
(** Case: a stale string of an earlier read. *)
Example C64_here {L : GoLib} : exists s', uses lua_env (RRule lLiteralString) (mkSt (new_scanner (lit "[==[a]==] ")) (set_cells [lit "="] heap0)) None s' /\ pos (sc s') = 9.
Proof. eexists. split; [run 200%nat|reflexivity]. Qed.
(** False for MXT: the salt of an earlier text is looked for in the next one. *)
Definition mxt_first : bytes := lit "// a --> s".
Definition mxt_second : bytes := lit "// b -->" ++ [x0a] ++ lit "x" ++ [x0a] ++ lit "//".
Theorem C64_mxt_refuted {L : GoLib} : ~ (forall t1 t2 s1 x1 s2 x2 s3 x3,
  uses mxt_env mxt (init_st t1) x1 s1 -> uses mxt_env mxt (mkSt (new_scanner t2) (hp s1)) x2 s2 -> uses mxt_env mxt (init_st t2) x3 s3 ->
  x2 = x3 /\ pos (sc s2) = pos (sc s3)).
Proof.
  intros H.
  assert (A : exists s1 s2 s3, uses mxt_env mxt (init_st mxt_first) None s1 /\ uses mxt_env mxt (mkSt (new_scanner mxt_second) (hp s1)) None s2 /\
    uses mxt_env mxt (init_st mxt_second) None s3 /\ pos (sc s2) = 13 /\ pos (sc s3) = 10).
  { eexists _, _, _. split; [run 200%nat|]. split; [run 200%nat|]. split; [run 200%nat|]. split; reflexivity. }
  destruct A as (s1 & s2 & s3 & U1 & U2 & U3 & P2 & P3). destruct (H _ _ _ _ _ _ _ _ U1 U2 U3) as [_ Q]. congruence.
Qed.
Print Assumptions C64_mxt_refuted.

(** PropTotal.v - C68, C69: grammars that always return. *)
From Verif Require Import LuaComment PropJson Mxt PropMxt ReaderSync UseFacts ExKit.
From Coq Require Import Lia ZifyBool.
From Verif Require Import ReaderSteps ReaderScan.

(** C68.  [certifies u z nl rk e] is a check of finitely many rules: [nl] names rules that may succeed without
    consuming, [rk] bounds how deep rules call each other before anything is consumed; no repeated reader may
    succeed without consuming.  With [u] only well-formed texts are claimed, with [z] only texts that do not end in
    a character from U+0020 on.  Use then returns, whatever the grammar. *)
Theorem C68_certified_grammars_return {L : GoLib} u z nl rk e r s a b : certifies u z nl rk e = true -> fine u z (nullable nl) e r = true ->
  at_split s a b -> (u = true -> wf_text b /\ forall i, wf_text (get [] (h_cells (hp s)) i)) -> (z = true -> tailed b) ->
  exists x s', uses e r s x s'.
Proof.
  intros C F H U Z. destruct (certified_reads _ _ _ _ _ _ _ _ _ (certifies_ok _ _ _ _ _ C) F H U Z) as (x & s' & R).
  eexists x, _. apply uses_reads; [destruct H as (_ & -> & _); apply slen_nonneg|]. exists s'. auto.
Qed.
Print Assumptions C68_certified_grammars_return.
(** Without literals that are ill-formed and readers that step over runes, on every text whatever. *)
Theorem C68_on_every_text {L : GoLib} nl rk e r s : certifies false false nl rk e = true -> fine false false (nullable nl) e r = true ->
  in_text s -> exists x s', uses e r s x s'.
Proof.
  intros C F I. assert (H : exists a b, at_split s a b).
  { exists (firstn (Z.to_nat (pos (sc s))) (full (sc s))), (skipn (Z.to_nat (pos (sc s))) (full (sc s))). destruct I as [P T]. split; [symmetry; apply firstn_skipn|].
    split; [|rewrite firstn_skipn; exact T]. unfold slen in *. rewrite firstn_length. lia. }
  destruct H as (a & b & H). apply (C68_certified_grammars_return _ _ _ _ _ _ _ _ _ C F H); discriminate.
Qed.
Print Assumptions C68_on_every_text.
(** Case: nested brackets and digits, a grammar with recursion that is checked by computation. *)
Definition nest_env : env := [mkRule (lit "list") (Some (RSeq [RRune 0x5B; RZom (RRule 1); RRune 0x5D])); mkRule (lit "item") (Some (RAny [RRule 0; RMany digit]))].
Example C68_here {L : GoLib} s : in_text s -> exists x s', uses nest_env (RRule 0) s x s'.
Proof. apply (C68_on_every_text [false; false] [0; 1]%nat); vm_compute; reflexivity. Qed.
Example C68_nested_here {L : GoLib} : exists s', uses nest_env (RRule 0) (init_st (lit "[12[3][]]x")) None s' /\ pos (sc s') = 9.
Proof. eexists. split; [run 100%nat|reflexivity]. Qed.

(** C69.  Use(Lua()) returns on every well-formed text that ends in a control character, say a newline. *)
Definition lua_nullable : list bool := map (fun i => existsb (Nat.eqb i) [lAttrib; lBlock; lChunk; lScript]) (seq 0 44).
Definition lua_levels : list nat := [0; 0; 0; 0; 0; 0; 0; 0; 5; 6; 1; 2; 1; 0; 2; 2; 2; 3; 4; 5; 1; 3; 1; 2; 1; 0; 0; 0; 1; 0; 0; 0; 0; 0; 0; 0; 0; 0; 0; 0; 3; 4; 5; 5]%nat.
Lemma lua_certifies {L : GoLib} : certifies true true lua_nullable lua_levels lua_env = true. Proof. vm_compute. reflexivity. Qed.
Lemma lua_fine {L : GoLib} : fine true true (nullable lua_nullable) lua_env lua = true. Proof. vm_compute. reflexivity. Qed.
Lemma lua_clean {L : GoLib} : clean_env lua_env. Proof. apply clean_check. vm_compute. reflexivity. Qed.
Lemma lua_covered {L : GoLib} : eall covered lua_env. Proof. apply eall_check. vm_compute. reflexivity. Qed.
Lemma lua_safe {L : GoLib} : eall (safe lua_env) lua_env. Proof. apply eall_check. vm_compute. reflexivity. Qed.
Lemma lua_safe_itself {L : GoLib} : rall (safe lua_env) lua = true. Proof. vm_compute. reflexivity. Qed.
Theorem C69_lua_returns {L : GoLib} s a b : at_split s a b -> wf_text b -> (forall p y, b = p ++ [y] -> bz y < 0x20) -> exists x s', uses lua_env lua s x s'.
Proof.
  intros H W T. set (s0 := mkSt (sc s) heap0). assert (H0 : at_split s0 a b) by exact H.
  destruct (C68_certified_grammars_return _ _ _ _ _ _ s0 a b lua_certifies lua_fine H0) as (x & s' & U).
  - intros _. split; auto. intros [|i]; apply wf_nil.
  - intros _. exact T.
  - destruct (C64_clean_grammars_independent lua_env lua s0 s x s' lua_clean eq_refl) as (s2 & U2 & _); auto; [|eauto].
    destruct H as (F & P & Lt). split; [|cbn; rewrite F; exact Lt]. cbn. rewrite P, F, slen_app. pose proof (slen_nonneg a). pose proof (slen_nonneg b). lia.
Qed.
Print Assumptions C69_lua_returns.
(** It does not return when a string literal behind a name is not closed. *)
Theorem C69_lua_hangs {L : GoLib} s a w q u : at_split s a (w ++ q :: u) -> l_name w -> q = x22 \/ q = x27 -> l_chars q u -> use_hangs lua_env lua s.
Proof.
  intros H W Q J. apply use_hangs_is. pose proof (stands_split _ _ _ H) as S.
  apply (hangs_eats lua_env lua _ _ _ _ lua_covered eq_refl lua_safe lua_safe_itself S). intros (ok & c' & b' & D). exact (name_stuck w q u W Q J _ _ _ _ D).
Qed.
Print Assumptions C69_lua_hangs.
Theorem C69_lua_no_panic {L : GoLib} s n : in_text s -> use (read n lua_env lua) s <> Panic.
Proof.
  intros I. pose proof (read_no_panic lua_env n lua s lua_safe lua_safe_itself I) as N. unfold use. rewrite (bind_ok _ _ _ _ _ (mark_ok s)), bind_run.
  destruct (read n lua_env lua s) as [[[x|] s1]| |]; try discriminate; [|congruence]. rewrite bind_run, to_marker_nonneg by apply I. discriminate.
Qed.
Print Assumptions C69_lua_no_panic.
Definition lua_case : bytes := lit "local x = {1, 'a'} -- note" ++ [x0a] ++ lit "f""g"" return x" ++ [x0a].
Example C69_here {L : GoLib} : wf_text lua_case /\ (forall p y, lua_case = p ++ [y] -> bz y < 0x20) /\ exists x s', uses lua_env lua (init_st lua_case) x s'.
Proof.
  assert (W : wf_text lua_case) by (apply valid_wf; vm_compute; reflexivity).
  assert (T : forall p y, lua_case = p ++ [y] -> bz y < 0x20) by (intros p y Q; unfold lua_case in Q; rewrite !app_assoc in Q; apply app_inj_tail in Q as [_ <-]; reflexivity).
  split; auto. split; auto. apply (C69_lua_returns _ [] lua_case); auto. repeat split.
Qed.
Example C69_hangs_here {L : GoLib} : use_hangs lua_env lua (init_st (lit "print""a")).
Proof.
  apply (C69_lua_hangs _ [] (lit "print") x22 (lit "a")); [repeat split| |auto|].
  - exists x70, (lit "rint"). split; auto. split; [unfold l_letter; cbn; lia|repeat constructor; unfold l_letter; cbn; lia].
  - repeat constructor; discriminate || (cbn; lia).
Qed.

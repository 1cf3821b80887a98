(** PropLuaLex.v - C70 to C74: names, numerals, quoted strings and comments of the Lua grammar. *)
From Verif Require Import LuaComment PropLua PropTotal UseFacts ExKit.
From Coq Require Import Lia ZifyBool.
From Verif Require Import ReaderSteps ReaderScan.

(** What [reads] does with the outcome of a derivation. *)
Lemma out_to {L : GoLib} e r s a b w rest : at_split s a b -> b = w ++ rest -> out e (IR r) b true rest -> exists s', reads e r s None s' /\ at_split s' (a ++ w) rest.
Proof. intros H E O. eapply run_to; [exact H|reflexivity|exact E|apply O]. Qed.
Lemma out_fail {L : GoLib} e r s a b : at_split s a b -> out e (IR r) b false b -> exists x s', reads e r s (Some x) s' /\ at_split s' a b.
Proof. intros H O. eapply run_fail; [exact H|reflexivity|apply O]. Qed.

(** C70.  The rule Name reads the longest name standing there, and fails without moving if there is none. *)
Theorem C70_name_longest {L : GoLib} s a b : at_split s a b ->
  (exists w rest s', longest l_name b w rest /\ reads lua_env (RRule lName) s None s' /\ at_split s' (a ++ w) rest) \/
  ((forall w rest, b = w ++ rest -> ~ l_name w) /\ exists x s', reads lua_env (RRule lName) s (Some x) s' /\ at_split s' a b).
Proof.
  intros H. destruct (name_run lua_env b) as [(w & rest & Lw & O)|[N O]].
  - left. exists w, rest. destruct (out_to lua_env (RRule lName) s a b w rest H (proj1 Lw)) as (s' & R & S); [eapply o_rule; [apply env_Name|exact O]|]. exists s'. auto.
  - right. split; auto. apply out_fail; auto. eapply o_rule; [apply env_Name|exact O].
Qed.
Print Assumptions C70_name_longest.
(** In particular each name is read to its end; keywords are names to this rule. *)
Theorem C70_name_read {L : GoLib} s a w rest : at_split s a (w ++ rest) -> l_name w -> (forall x t, rest = x :: t -> ~ l_letter x /\ ~ l_digit x) ->
  exists s', reads lua_env (RRule lName) s None s' /\ at_split s' (a ++ w) rest.
Proof.
  intros H N F. assert (Q : longest l_name (w ++ rest) w rest).
  { split; auto. split; auto. intros w' rest' E (x & t & -> & X & T). apply (run_prefix d_word _ rest _ rest'); auto.
    - destruct rest as [|y rest]; auto. cbn. destruct (F y rest eq_refl) as [F1 F2]. destruct (d_word y) eqn:G; auto. apply d_word_is in G. tauto.
    - apply (all_bytes d_word_is). constructor; auto. }
  destruct (C70_name_longest s a _ H) as [(w' & rest' & s' & Q' & R & S)|[M _]]; [|elim (M w rest eq_refl N)].
  destruct (longest_fun _ _ _ _ _ _ Q Q') as [<- <-]. eauto.
Qed.
Print Assumptions C70_name_read.
Example C70_here {L : GoLib} : exists s', reads lua_env (RRule lName) (init_st (lit "_a9Z+b")) None s' /\ at_split s' (lit "_a9Z") (lit "+b").
Proof.
  apply (C70_name_read (init_st (lit "_a9Z+b")) [] (lit "_a9Z") (lit "+b")); [split_here| |].
  - exists x5f, (lit "a9Z"). split; auto. split; [right; right; auto|]. repeat constructor; unfold l_letter, l_digit; cbn; lia.
  - intros x t Q. injection Q as <- _. unfold l_letter, l_digit. cbn. split; [intros [A|[A|A]]; try discriminate; lia|lia].
Qed.

(** C71.  LuaNumeral reads the longest numeral standing there, fractions having digits on both sides of the dot. *)
Theorem C71_numeral_longest {L : GoLib} e s a b : at_split s a b ->
  (exists w rest s', longest l_numeral b w rest /\ reads e lua_numeral s None s' /\ at_split s' (a ++ w) rest) \/
  ((forall w rest, b = w ++ rest -> ~ l_numeral w) /\ exists x s', reads e lua_numeral s (Some x) s' /\ at_split s' a b).
Proof.
  intros H. destruct (numeral_run e b) as [(w & rest & Lw & O)|[N O]].
  - left. exists w, rest. destruct (out_to e lua_numeral s a b w rest H (proj1 Lw) O) as (s' & R & S). exists s'. auto.
  - right. split; auto. apply out_fail; auto.
Qed.
Print Assumptions C71_numeral_longest.
Example C71_here {L : GoLib} : exists s', reads [] lua_numeral (init_st (lit "0x1f.8P-3p")) None s' /\ pos (sc s') = 9.
Proof. eexists. split; [run 100%nat|reflexivity]. Qed.
Example C71_word_here : l_numeral (lit "0x1f.8P-3").
Proof.
  right. exists x78, (lit "1f"), (lit ".8"), (lit "P-3"). split; [reflexivity|]. split; [cbn; auto|]. split; [split; [discriminate|repeat constructor; unfold l_hex, l_digit; cbn; lia]|]. split.
  - right. exists (lit "8"). split; [reflexivity|]. split; [discriminate|repeat constructor; unfold l_hex, l_digit; cbn; lia].
  - right. exists x50, (lit "-"), (lit "3"). split; [reflexivity|]. split; [cbn; auto|]. split; [right; auto|]. split; [discriminate|repeat constructor; unfold l_digit; cbn; lia].
Qed.

(** C72.  False: Lua 5.4 has numerals that end or begin with the dot. *)
Theorem C72_lua54_numerals_refuted {L : GoLib} : ~ (forall e s a w, at_split s a w -> lua54_numeral w -> exists s', reads e lua_numeral s None s' /\ at_split s' (a ++ w) []).
Proof.
  intros H. destruct (H [] (init_st (lit ".5")) [] (lit ".5")) as (s' & R & _).
  - split_here.
  - left. exists (lit ".5"), []. split; [reflexivity|]. split; [|left; auto]. right. exists [], (lit "5"). split; [reflexivity|]. split; [constructor|]. split; [repeat constructor; unfold l_digit; cbn; lia|].
    right. discriminate.
  - assert (F : exists x s2, reads [] lua_numeral (init_st (lit ".5")) (Some x) s2) by (eexists _, _; run 100%nat). destruct F as (x & s2 & R2). destruct (reads_fun _ _ _ _ _ _ _ R R2). discriminate.
Qed.
Print Assumptions C72_lua54_numerals_refuted.
(** [3.] is read without its dot, [0x.8] by its first digit only. *)
Theorem C72_dots_refuted {L : GoLib} : (exists s', reads [] lua_numeral (init_st (lit "3.")) None s' /\ pos (sc s') = 1) /\ lua54_numeral (lit "3.") /\
  (exists s', reads [] lua_numeral (init_st (lit "0x.8")) None s' /\ pos (sc s') = 1) /\ lua54_numeral (lit "0x.8").
Proof.
  split; [eexists; split; [run 100%nat|reflexivity]|]. split; [|split; [eexists; split; [run 100%nat|reflexivity]|]].
  - left. exists (lit "3."), []. split; [reflexivity|]. split; [|left; auto]. right. exists (lit "3"), []. split; [reflexivity|]. split; [repeat constructor; unfold l_digit; cbn; lia|]. split; [constructor|left; discriminate].
  - right. exists x78, (lit ".8"), []. split; [reflexivity|]. split; [cbn; auto|]. split; [|left; auto]. right. exists [], (lit "8"). split; [reflexivity|]. split; [constructor|].
    split; [repeat constructor; unfold l_hex, l_digit; cbn; lia|right; discriminate].
Qed.
Print Assumptions C72_dots_refuted.
(** Exactly the numerals with digits on both sides of the dot are read completely; whatever is read is a numeral of Lua 5.4. *)
Theorem C72_lua54_numerals_exact {L : GoLib} e s a w : at_split s a w -> lua54_numeral w ->
  ((exists s', reads e lua_numeral s None s' /\ at_split s' (a ++ w) []) <-> l_numeral w).
Proof.
  intros H _. destruct (C71_numeral_longest e s a w H) as [(w' & rest & s' & Lw & R & S)|[M (x & s' & R & _)]].
  - split.
    + intros (s2 & R2 & (F & P & _)). destruct (reads_fun _ _ _ _ _ _ _ R R2) as [_ <-]. destruct S as (F' & P' & _). rewrite P', !slen_app in P. destruct Lw as (E & N & _).
      assert (Q : length w' = length w) by (unfold slen in P; lia). rewrite E, app_length in Q. destruct rest; [|cbn in Q; lia]. rewrite app_nil_r in E. congruence.
    + intros N. assert (Q : longest l_numeral w w []). { split; [rewrite app_nil_r; auto|]. split; auto. intros v r E _. rewrite E, app_length. lia. }
      destruct (longest_fun _ _ _ _ _ _ Q Lw) as [<- <-]. eauto.
  - split; [|intros N; elim (M w []); [rewrite app_nil_r; auto|auto]]. intros (s2 & R2 & _). destruct (reads_fun _ _ _ _ _ _ _ R R2). discriminate.
Qed.
Print Assumptions C72_lua54_numerals_exact.
Lemma frac_form (P : byte -> Prop) i f : some P i -> l_frac P f -> lua_frac_form P (i ++ f).
Proof.
  intros [Ni Fi] [->|(d & -> & (Nd & Fd))]; [rewrite app_nil_r; left; split; auto|]. right. exists i, d. auto.
Qed.
Theorem C72_lua54_numerals_partial {L : GoLib} e s a b s' : at_split s a b -> reads e lua_numeral s None s' ->
  exists w rest, b = w ++ rest /\ at_split s' (a ++ w) rest /\ lua54_numeral w.
Proof.
  intros H R. destruct (C71_numeral_longest e s a b H) as [(w & rest & s2 & (E & N & _) & R2 & S)|[_ (x & s2 & R2 & _)]].
  - destruct (reads_fun _ _ _ _ _ _ _ R R2) as [_ <-]. exists w, rest. split; auto. split; auto. destruct N as [(i & f & x & -> & Hi & Hf & Hx)|(m & i & f & x & -> & Hm & Hi & Hf & Hx)].
    + left. exists (i ++ f), x. split; [rewrite app_assoc; auto|]. split; auto. apply frac_form; auto.
    + right. exists m, (i ++ f), x. split; [rewrite app_assoc; auto|]. split; auto. split; auto. apply frac_form; auto.
  - destruct (reads_fun _ _ _ _ _ _ _ R R2). discriminate.
Qed.
Print Assumptions C72_lua54_numerals_partial.

(** C73.  A string in quotes [q]: read up to the first quote that is not escaped. *)
Theorem C73_quoted_string {L : GoLib} e s a q u rest : at_split s a (q :: u ++ q :: rest) -> q = x22 \/ q = x27 -> l_chars q u ->
  exists s', reads e lua_string s None s' /\ at_split s' (a ++ q :: u ++ [q]) rest.
Proof.
  intros H Q J. destruct (quote_ok q Q) as (Q1 & Q2 & _). eapply out_to; [exact H| |].
  - cbn [app]. rewrite <- app_assoc. reflexivity.
  - exact (string_quoted e q _ true _ Q (o_quoted e q Q1 Q2 u rest J)).
Qed.
Print Assumptions C73_quoted_string.
(** What is read is such a string; contents that are no such contents make it fail; contents up to the end of the text make it hang. *)
Lemma literal_safe {L : GoLib} : rall (safe lua_env) (RRule lLiteralString) = true. Proof. vm_compute. reflexivity. Qed.
Theorem C73_quoted_string_exact {L : GoLib} s a q b : at_split s a (q :: b) -> q = x22 \/ q = x27 ->
  (exists u rest s', b = u ++ q :: rest /\ l_chars q u /\ reads lua_env (RRule lLiteralString) s None s' /\ at_split s' (a ++ q :: u ++ [q]) rest) \/
  (l_chars q b /\ hangs lua_env (RRule lLiteralString) s) \/
  ((forall u rest, b = u ++ q :: rest -> ~ l_chars q u) /\ ~ l_chars q b /\ exists x s', reads lua_env (RRule lLiteralString) s (Some x) s' /\ at_split s' a (q :: b)).
Proof.
  intros H Q. destruct (quote_ok q Q) as (Q1 & Q2 & _). pose proof (stands_split _ _ _ H) as S. destruct (quoted_run lua_env q Q1 b) as [(u & rest & -> & J)|[J|O]].
  - left. exists u, rest. destruct (out_to lua_env (RRule lLiteralString) s a _ (q :: u ++ [q]) rest H) as (s' & R & S').
    + cbn [app]. rewrite <- app_assoc. reflexivity.
    + eapply o_rule; [apply env_LiteralString|]. exact (string_quoted lua_env q _ true _ Q (o_quoted lua_env q Q1 Q2 u rest J)).
    + exists s'. auto.
  - right. left. split; auto. apply (hangs_eats lua_env (RRule lLiteralString) _ _ _ _ lua_covered eq_refl lua_safe literal_safe S). intros (ok & c' & b' & D).
    refine (k_rule lua_env lLiteralString lua_string _ env_LiteralString _ _ _ _ _ D). exact (string_stuck lua_env q b Q (k_quoted lua_env q Q1 b J)).
  - right. right. split; [|split].
    + intros u rest -> J. destruct (out_det _ _ _ _ _ _ _ O (o_quoted lua_env q Q1 Q2 u rest J)). discriminate.
    + intros J. exact (k_quoted lua_env q Q1 b J _ _ _ _ (O [])).
    + apply out_fail; auto. eapply o_rule; [apply env_LiteralString|]. exact (string_quoted lua_env q _ false _ Q O).
Qed.
Print Assumptions C73_quoted_string_exact.
Definition ex_chars : bytes := lit "a\x4F\u{20AC}\065'\n" ++ [x5c; x22; xe9].
Example C73_here : l_chars x22 ex_chars.
Proof.
  change ex_chars with (lit "a" ++ lit "\x4F" ++ lit "\u{20AC}" ++ lit "\0" ++ lit "65'" ++ lit "\n" ++ [x5c; x22] ++ [xe9]).
  assert (P : forall x, 0x20 <= bz x -> x <> x22 -> x <> x5c -> l_plain x22 x) by (unfold l_plain; auto).
  apply lc_plain; [apply P; [cbn; lia|discriminate..]|]. apply lc_escape; [apply le_hex; unfold l_hex, l_digit; cbn; lia|].
  apply lc_escape; [apply (le_utf8 (lit "20AC")); split; [discriminate|repeat constructor; unfold l_hex, l_digit; cbn; lia]|].
  apply lc_escape; [apply le_digit; unfold l_digit; cbn; lia|]. cbn [app lit]. do 3 (apply lc_plain; [apply P; [cbn; lia|discriminate..]|]).
  apply (lc_escape x22 (lit "\n")); [apply le_char; cbn; tauto|]. apply (lc_escape x22 [x5c; x22]); [apply le_char; cbn; tauto|].
  apply lc_plain; [apply P; [cbn; lia|discriminate..]|constructor].
Qed.
Example C73_fails_here {L : GoLib} : exists x s', reads [] lua_string (init_st (lit """a\qb""")) (Some x) s' /\ pos (sc s') = 0.
Proof. eexists _, _. split; [run 100%nat|reflexivity]. Qed.

(** C74.  LuaComment on well-formed text: a long comment if its bracket ends as C65 says, else up to the next newline, which is needed. *)
Theorem C74_long_comment {L : GoLib} e s a k b rest : at_split s a (lit "--" ++ opening k ++ b) -> wf_text b -> long_ends k b rest ->
  exists w s', b = w ++ rest /\ reads e lua_comment s None s' /\ at_split s' (a ++ lit "--" ++ opening k ++ w) rest.
Proof.
  intros H W E. destruct (long_yes e lua_cmt_cell (RLit (lit "--[")) (lit "--[") k b rest (o_lit e _ _) W E (h_cells (hp s))) as (c' & D).
  assert (X : exists w, b = w ++ rest) by (destruct (past_true e 0 k b rest W E (put [] [] 0 (eqs k)) (level_put 0 k [])) as (c2 & _ & P); exact (eats_suffix _ _ _ _ _ _ _ P)).
  destruct X as [w Ew]. exists w. destruct (run_to e lua_comment (h_cells (hp s)) s a _ (lit "--" ++ opening k ++ w) rest c' H eq_refl) as (s' & R & S).
  - rewrite Ew, !app_assoc. reflexivity.
  - rewrite cmt_opening. apply comment_long. exact D.
  - exists s'. auto.
Qed.
Print Assumptions C74_long_comment.
Theorem C74_line_comment {L : GoLib} e s a v rest : at_split s a (lit "--" ++ v ++ x0a :: rest) -> wf_text (v ++ x0a :: rest) -> ~ In x0a v ->
  (forall k b2 r, v ++ x0a :: rest = opening k ++ b2 -> ~ long_ends k b2 r) ->
  exists s', reads e lua_comment s None s' /\ at_split s' (a ++ lit "--" ++ v) (x0a :: rest).
Proof.
  intros H W N NL. destruct (long_fails e (lit "--" ++ v ++ x0a :: rest)) with (c := h_cells (hp s)) as (c' & D).
  - apply wf_app; [|exact W]. apply valid_wf. vm_compute. reflexivity.
  - intros k b2 r E. apply (NL k b2 r). exact (app_inv_head _ _ _ E).
  - eapply run_to; [exact H|reflexivity|rewrite <- !app_assoc; reflexivity|]. apply (comment_line e _ _ c' true _ D). apply o_line; [eapply wf_cut; [exact W|reflexivity]|exact N].
Qed.
Print Assumptions C74_line_comment.
Theorem C74_no_comment {L : GoLib} e s a b : at_split s a b -> wf_text b -> (forall v, b = lit "--" ++ v -> ~ In x0a v /\ forall k b2 r, v = opening k ++ b2 -> ~ long_ends k b2 r) ->
  exists x s', reads e lua_comment s (Some x) s' /\ at_split s' a b.
Proof.
  intros H W N. destruct (lit_cases (lit "--") b) as [[v ->]|Q].
  - destruct (N v eq_refl) as [N1 N2]. destruct (long_fails e (lit "--" ++ v) W) with (c := h_cells (hp s)) as (c' & D).
    + intros k b2 r E. apply (N2 k b2 r). exact (app_inv_head _ _ _ E).
    + eapply run_fail; [exact H|reflexivity|]. apply (comment_line e _ _ c' false (lit "--" ++ v) D). apply o_line_none; auto. eapply (wf_behind (lit "-") x2d); [exact W|reflexivity].
  - apply out_fail; auto. apply o_comment_no. intros [t ->]. exact (Q t eq_refl).
Qed.
Print Assumptions C74_no_comment.
(** So a line comment cannot end the text. *)
Example C74_at_end {L : GoLib} : exists x s', reads [] lua_comment (init_st (lit "-- note")) (Some x) s' /\ pos (sc s') = 0.
Proof. eexists _, _. split; [run 100%nat|reflexivity]. Qed.
Example C74_here {L : GoLib} : exists s', reads [] lua_comment (init_st (lit "--[=[ a ]] b ]=] c")) None s' /\ pos (sc s') = 16.
Proof. eexists. split; [run 100%nat|reflexivity]. Qed.
(** An unclosed long comment is read as a line comment. *)
Example C74_unclosed_here {L : GoLib} : exists s', reads [] lua_comment (init_st (lit "--[[ a" ++ [x0a] ++ lit "b")) None s' /\ pos (sc s') = 6.
Proof. eexists. split; [run 100%nat|reflexivity]. Qed.

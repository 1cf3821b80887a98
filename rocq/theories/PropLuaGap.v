(** PropLuaGap.v - C129 and C130: comments in Lua programs. *)
From Verif Require Import LuaSyntax UseFacts ExKit LuaLens PropMxtText PropLua PropLuaSyntax PropLuaStyle LuaGap.
From Coq Require Import Lia.
Import SpecLuaSyntax.

(* ------------------------------------------------------------------ C129 *)

(** C129 (refuted).  In Lua a line comment may stand where a line may end.  For Lua() it may not: there are programs
    that are read to the end, and no longer when a comment is put before the end of a line. *)
Definition noted (a b : bytes) : bytes := a ++ lit "-- two words" ++ x0a :: b.
Theorem C129_comments_refuted {L : GoLib} : ~ forall a v b, ~ In x0a v -> ~ In x5b v -> read_whole (a ++ x0a :: b) -> read_whole (a ++ lit "--" ++ v ++ x0a :: b).
Proof.
  intros H. assert (X := H (lit "x=1 ") (lit " two words") (lit "y=2 ") ltac:(cbn; intuition discriminate) ltac:(cbn; intuition discriminate)
    ltac:(eexists; split; [run 4000%nat|reflexivity])). revert X. short 11.
Qed.
Print Assumptions C129_comments_refuted.
(** Behind a number, a name, a string or a keyword the comment is taken for two signs and a name. *)
Theorem C129_taken_for_minus_refuted {L : GoLib} v : In v (map lit ["1"; "a"; "'a'"; "nil"; "a.b - 1"]%string) ->
  read_whole (lit "x=" ++ v ++ lit " " ++ x0a :: lit "y=2") /\ ~ read_whole (noted (lit "x=" ++ v ++ lit " ") (lit "y=2")) /\
  (* it is, to the end of a name *) read_whole (lit "x=" ++ v ++ lit " -- two").
Proof.
  intros I. cbn [map In] in I. repeat match type of I with _ \/ _ => destruct I as [<-|I] end; try contradiction;
  (split; [eexists; split; [run 4000%nat|reflexivity]|split; [|eexists; split; [run 4000%nat|reflexivity] ] ]).
  - short 11.
  - short 11.
  - short 13.
  - short 13.
  - short 17.
Qed.
Print Assumptions C129_taken_for_minus_refuted.
(** Behind other statements it ends the program. *)
Theorem C129_ends_program_refuted {L : GoLib} s : In s (map lit ["do end "; "local x "; "break "; "a=1;"; "goto a "; "::a:: "]%string) ->
  read_whole (s ++ x0a :: lit "y=2") /\ ~ read_whole (noted s (lit "y=2")).
Proof.
  intros I. cbn [map In] in I. repeat match type of I with _ \/ _ => destruct I as [<-|I] end; try contradiction; (split; [eexists; split; [run 4000%nat|reflexivity]|]).
  - short 20.
  - short 21.
  - short 19.
  - short 17.
  - short 20.
  - short 19.
Qed.
Print Assumptions C129_ends_program_refuted.
(** Inside statements it stops the reading before the statement. *)
Theorem C129_inside_refuted {L : GoLib} p : In p (map (fun p => (lit (fst p), lit (snd p)))
    [("if ", "a then f() end"); ("if a ", "then f() end"); ("while a do b=1 ", "end"); ("f(a", ")"); ("x", "=1"); ("local", " x = 1")]%string) ->
  read_whole (fst p ++ x0a :: snd p) /\ exists s', uses lua_env lua (init_st (noted (fst p) (snd p))) None s' /\ pos (sc s') = 0.
Proof.
  intros I. cbn [map In] in I. repeat match type of I with _ \/ _ => destruct I as [<-|I] end; try contradiction; (split; [eexists; split; [run 4000%nat|reflexivity]|eexists; split; [run 4000%nat|reflexivity] ]).
Qed.
Print Assumptions C129_inside_refuted.
(** Here it does no harm. *)
Theorem C129_harmless_exact {L : GoLib} p : In p (map (fun p => (lit (fst p), lit (snd p)))
    [("x=a.b ", "y=2"); ("x=a[1] ", "y=2"); ("x=f() ", "y=2"); ("x={} ", "y=2"); ("x=function() end ", "y=2"); ("function f() end ", "y=2"); ("f() ", "y=2"); ("f'a' ", "y=2");
     ("if a then f() ", "end"); ("if a then ", "f() end"); ("f(", "a)"); ("f(a,", "b)"); ("x={", "b=2}"); ("x={a=1,", "b=2}"); ("x={a=1;", "}"); ("x=", "1"); ("return ", "1"); ("return f() ", ""); ("x=f() ", "+b")]%string) ->
  read_whole (noted (fst p) (snd p)).
Proof.
  intros I. cbn [map In] in I. repeat match type of I with _ \/ _ => destruct I as [<-|I] end; try contradiction; (eexists; split; [run 4000%nat|reflexivity]).
Qed.
Print Assumptions C129_harmless_exact.

(* ------------------------------------------------------------------ C130 *)

Lemma block_use {L : GoLib} s a b r : at_split s a b -> goes lua_env (RRule lBlock) b r -> exists m s', b = m ++ r /\ uses lua_env lua s None s' /\ at_split s' (a ++ m) r.
Proof.
  intros H G. assert (X : goes lua_env lua b r).
  { intros c. destruct (G c) as [c' D]. exists c'. eapply e_grammar; [rewrite lua_rule; reflexivity|exact D]. }
  destruct (X (h_cells (hp s))) as [c' D]. destruct (eats_suffix _ _ _ _ _ _ _ D) as [m E].
  destruct (run_to lua_env lua _ s a b m r c' H eq_refl E D) as (s' & R & S').
  exists m, s'. split; auto. split; auto. apply uses_reads; [destruct H as (_ & -> & _); apply slen_nonneg|]. exists s'. auto.
Qed.
(** C130.  White space and comments before a program in the style do not matter. *)
Theorem C130_before_program {L : GoLib} s a b t : at_split s a b -> wf_text b -> spaced b t -> lua_style t -> exists s', uses lua_env lua s None s' /\ at_split s' (a ++ b) [].
Proof.
  intros H W G St. destruct (style_sem lua_env lua_rule _ _ St []) as (h0 & q & E & H0 & Nq & B); [left; auto|auto|]. rewrite app_nil_r in E. subst t.
  assert (Sq : solid q) by (apply next_quiet; auto).
  assert (G2 : spaced b q).
  { clear -G H0. remember (h0 ++ q) as t eqn:E. induction G; subst; [|apply g_white; auto|apply g_line; auto|eapply g_long; eauto].
    induction H0 as [|x h0 X H0 IH]; [apply g_none|]. cbn [app]. apply g_white; auto. }
  destruct (block_use s a b [] H) as (m & s' & E & U & S').
  - eapply block_gap; [exact lua_rule|apply go_gap; [exact lua_rule|exact W|exact G2|exact Sq]|exact Sq|]. apply (B []). constructor.
  - exists s'. split; auto. rewrite app_nil_r in E. subst m. exact S'.
Qed.
Print Assumptions C130_before_program.
Corollary C130_file {L : GoLib} b t : wf_text b -> spaced b t -> lua_style t -> slen b < 2 ^ 63 -> read_whole b.
Proof.
  intros W G St Lt. destruct (C130_before_program (init_st b) [] b t) as (s' & U & S); auto; [repeat split; auto|]. exists s'. split; auto. apply S.
Qed.
Print Assumptions C130_file.
(** Behind a semicolon they end the program: Use stops right behind them, wherever that is. *)
Theorem C130_behind_semicolon {L : GoLib} s a l x t c r : at_split s a (t ++ lit ";--" ++ c) -> style (Stat l x) t -> wf_text (lit "--" ++ c) -> spaced (lit "--" ++ c) r -> no_gap r ->
  (forall u, r <> lit "(" ++ u) -> (forall u, r <> lit "return" ++ u) -> exists m s', t ++ lit ";--" ++ c = m ++ r /\ uses lua_env lua s None s' /\ at_split s' (a ++ m) r.
Proof.
  intros H St W G [S1 S2] N1 N2. assert (So : solid r) by (split; [destruct r as [|y r]; [intros []|apply (S1 y r eq_refl)]|intros [u E]; exact (S2 u E)]).
  apply block_use; auto. change (lit ";--" ++ c) with (x3b :: x2d :: x2d :: c). eapply block_semi; eauto.
  - exact lua_rule.
  - apply go_gap; auto. exact lua_rule.
  - intros I. destruct r as [|y r]; [exact I|]. destruct I as [<-|[]]. apply (N1 r). reflexivity.
  - intros [u E]. apply (N2 u). auto.
Qed.
Print Assumptions C130_behind_semicolon.
(** A program with two comments on top *)
Example C130_here {L : GoLib} : read_whole (lit "-- the greatest of some
--[==[ numbers ]==]
" ++ max_program).
Proof.
  apply (C130_file _ max_program); [apply MxtFacts.wf_ascii; repeat (constructor; [reflexivity|]); constructor| |exact C124_here|reflexivity].
  apply (g_line (lit " the greatest of some") (lit "--[==[ numbers ]==]
" ++ max_program)); [cbn; intuition discriminate|intros k u q E; discriminate E|].
  apply (g_long 2 (lit " numbers ]==]
" ++ max_program) (x0a :: max_program)).
  - apply le_close with (lit " numbers "); [reflexivity| |right].
    + split; [exists (x0a :: max_program); reflexivity|]. intros v' t E. do 9 (destruct v' as [|? v']; [discriminate E|injection E as _ E]). cbn. lia.
    + split; [eexists; reflexivity|]. intros v' t E. do 9 (destruct v' as [|? v']; [discriminate E|injection E as _ E]). cbn. lia.
  - apply g_white; [cbn; tauto|apply g_none].
Qed.
Example C130_semicolon_here : exists t c r, lit "a=1;-- one
f()" = t ++ lit ";--" ++ c /\ style (Stat true true) t /\ spaced (lit "--" ++ c) r /\ no_gap r /\ r = lit "f()".
Proof.
  exists (lit "a=1"), (lit " one
f()"), (lit "f()"). split; [reflexivity|]. split; [|split; [|split; [|reflexivity] ] ].
  - apply (s_assign true (lit "a") [] [] (lit "1")); [|blank_|blank_|one_]. apply s_var_one. apply (s_var (lit "a") None []); [tidy_|apply s_end|discriminate].
  - apply (g_line (lit " one") (lit "f()")); [cbn; intuition discriminate|intros k u q E; discriminate E|apply g_none].
  - split; [intros x u E; injection E as <- _; cbn; intuition discriminate|discriminate].
Qed.

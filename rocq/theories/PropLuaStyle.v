(** PropLuaStyle.v - C124 and C125: Lua programs that Lua() reads to the end, and rules of style that cannot be dropped. *)
From Verif Require Import LuaStyleStat LuaSyntax UseFacts ExKit LuaLens PropMxtText PropLua PropLuaSyntax.
From Coq Require Import Lia.
Import SpecLuaSyntax.

(* ------------------------------------------------------------------ C124 *)

(** C124.  A program in the style of SpecLuaStyle, at any position a scanner can be at, is read by Lua() to its end. *)
Theorem C124_style_is_read {L : GoLib} s a t : at_split s a t -> lua_style t -> exists s', uses lua_env lua s None s' /\ at_split s' (a ++ t) [].
Proof.
  intros H St. destruct (style_sem lua_env lua_rule _ _ St []) as (h0 & q & E & H0 & _ & B); [left; auto|auto|]. rewrite app_nil_r in E. subst t.
  assert (X : goes lua_env lua (h0 ++ q) []).
  { intros c. destruct (B h0 H0 c) as [c' D]. exists c'. eapply e_grammar; [rewrite lua_rule; reflexivity|exact D]. }
  destruct (X (h_cells (hp s))) as [c' D]. destruct (run_to lua_env lua _ s a (h0 ++ q) (h0 ++ q) [] c' H eq_refl) as (s' & R & S'); [rewrite app_nil_r; auto|exact D|].
  exists s'. split; auto. apply uses_reads; [destruct H as (_ & -> & _); apply slen_nonneg|]. exists s'. auto.
Qed.
Print Assumptions C124_style_is_read.
Corollary C124_style_file {L : GoLib} t : lua_style t -> slen t < 2 ^ 63 -> read_whole t.
Proof.
  intros St Lt. destruct (C124_style_is_read (init_st t) [] t) as (s' & U & S); auto; [repeat split; auto|]. exists s'. split; auto. apply S.
Qed.
Print Assumptions C124_style_file.
(** And it is a program of the manual. *)
Corollary C124_style_is_lua {L : GoLib} t : lua_style t -> wf_text t -> slen t < 2 ^ 63 -> phrase (N chunk) t.
Proof. intros St W Lt. destruct (C124_style_file t St Lt) as (s' & U & P). eapply C113_lua_file; eauto. Qed.
Print Assumptions C124_style_is_lua.

(** A program in the style, piece by piece *)
Ltac name_ := match goal with |- l_name ?w => let v := eval vm_compute in w in match v with ?x :: ?t => exists x, t; split; [reflexivity|split; [unfold l_letter; cbn; lia|repeat (apply Forall_cons; [unfold l_letter, l_digit; cbn; lia|]); apply Forall_nil] ] end end.
Ltac tidy_ := split; [name_|let k := fresh in let t := fresh in let I := fresh in let E := fresh in intros k t I E; cbn in I;
  repeat match type of I with _ \/ _ => destruct I as [I|I] end; try contradiction; subst k; discriminate E].
Ltac ident_ := split; [name_|cbn; intuition discriminate].
Ltac blank_ := unfold blank; repeat (apply Forall_cons; [cbn; tauto|]); apply Forall_nil.
Ltac space_ := split; [blank_|discriminate].
Ltac var_ w := apply (s_name (lit w) None []); [tidy_|apply s_end].
Ltac num_ w := apply s_number, digit_numeral; unfold l_digit; cbn; lia.
Definition max_program : bytes := lit "local function max(a,b,...)
  if a > b then return a elseif not b then return; end
  t.n = {1,x; k = -2}
  print(t)
  return b;
end
for i = 1, 9 do n, m = max(1, i), 's' end
break".
Lemma e_name w : tidy w -> style (Expr true) w.
Proof. intros T. apply s_operand. rewrite <- (app_nil_r w). apply (s_name w None []); [auto|apply s_end]. Qed.
Lemma e_digit x : l_digit x -> style (Expr true) [x].
Proof. intros D. apply s_operand, s_number, digit_numeral. auto. Qed.
Ltac one_ := apply s_one; first [apply e_name; tidy_|apply e_digit; unfold l_digit; cbn; lia].
Lemma max_if : style (Stat true true) (lit "if a > b then return a elseif not b then return; end").
Proof.
  apply (s_if true (lit " ") (lit "a > b") (lit " ") (lit " ") (lit "return a ") (lit "elseif not b then return; end")); [space_| |space_|space_| |].
  - apply (s_binary true (lit "a") (lit " ") (lit ">") (lit " ") (lit "b")); [var_ "a"%string|space_|cbn; tauto|space_|apply e_name; tidy_].
  - apply (s_block_return true [] true [] (lit "return a ")); [blank_|apply s_stop|]. apply (s_return true true (lit " ") (lit "a") (lit " ")); [space_|one_| |blank_|discriminate].
    intros (x & u & E & I). injection E as <- _. cbn in I. intuition discriminate.
  - apply (s_elseif true (lit " ") (lit "not b") (lit " ") (lit " ") (lit "return; ") (lit "end")); [space_| | |space_|space_| |apply s_endif].
    + apply (s_not true (lit " ") (lit "b")); [space_|apply e_name; tidy_].
    + intros (x & u & E & I). injection E as <- _. cbn in I. intuition discriminate.
    + apply (s_block_return true [] true [] (lit "return; ")); [blank_|apply s_stop|]. apply (s_return_none true [] (lit " ")); blank_.
Qed.
Lemma max_assign : style (Stat true true) (lit "t.n = {1,x; k = -2}").
Proof.
  apply (s_assign true (lit "t.n") (lit " ") (lit " ") (lit "{1,x; k = -2}")); [|blank_|blank_|].
  - apply s_var_one. apply (s_var (lit "t") (Some false) (lit ".n")); [tidy_| |discriminate]. apply (s_index None [] (lit ".n") []); [blank_|apply (s_dot (lit "n")); ident_|apply s_end].
  - apply s_one, s_operand, s_table. apply (s_fields false [] (lit "1,x; k = -2") []); [blank_| |blank_].
    apply (s_field_more false true (lit "1") (lit ",") [] false (lit "x; k = -2")); [apply s_value, e_digit; unfold l_digit; cbn; lia|auto|blank_|auto|].
    apply (s_field_more false true (lit "x") (lit ";") (lit " ") true (lit "k = -2")); [apply s_value, e_name; tidy_|auto|blank_|auto|]. apply (s_field true true).
    apply (s_named true (lit "k") (lit " ") (lit " ") (lit "-2")); [ident_|blank_|blank_|]. apply (s_unary true (lit "-") [] (lit "2")); [cbn; tauto|blank_|apply e_digit; unfold l_digit; cbn; lia|intros _ _ t; discriminate].
Qed.
Lemma max_print : style (Stat false true) (lit "print(t)").
Proof.
  apply (s_call_stat (lit "print") (lit "(t)")); [tidy_|]. apply (s_call None [] (lit "(t)") []); [blank_| |apply s_end]. apply s_plain. apply (s_args true [] (lit "t") []); [blank_|one_|blank_].
Qed.
Lemma max_function : style (Stat true true) (lit "local function max(a,b,...)
  if a > b then return a elseif not b then return; end
  t.n = {1,x; k = -2}
  print(t)
  return b;
end").
Proof.
  apply (s_local_fun (lit " ") (lit " ") (lit "max") [] (lit "(a,b,...)
  if a > b then return a elseif not b then return; end
  t.n = {1,x; k = -2}
  print(t)
  return b;
end")); [space_|space_|ident_|blank_|]. apply (s_body [] (lit "a,b,...") [] (lit "
  if a > b then return a elseif not b then return; end
  t.n = {1,x; k = -2}
  print(t)
  return b;
")); [blank_| |blank_|].
  - apply (s_params_dots (lit "a,b") [] []); [|blank_|blank_]. apply (s_name_more (lit "a") (lit "b")); [ident_|apply s_name_one; ident_].
  - apply (s_block_return true (lit "
  ") true (lit "if a > b then return a elseif not b then return; end
  t.n = {1,x; k = -2}
  print(t)
  ") (lit "return b;
")); [blank_| |].
    + apply (s_stat true true (lit "if a > b then return a elseif not b then return; end") (lit "
  ") true true (lit "t.n = {1,x; k = -2}
  print(t)
  ")); [exact max_if|blank_| |auto|left; discriminate]. apply (s_stat true true (lit "t.n = {1,x; k = -2}") (lit "
  ") false true (lit "print(t)
  ")); [exact max_assign|blank_| |auto|left; discriminate]. apply (s_stat false true (lit "print(t)") (lit "
  ") true true []); [exact max_print|blank_|apply s_stop|auto|left; discriminate].
    + apply (s_return_semi true true (lit " ") (lit "b") [] (lit "
")); [space_|one_| |blank_|blank_]. intros (x & u & E & I). injection E as <- _. cbn in I. intuition discriminate.
Qed.
Lemma max_for : style (Stat true true) (lit "for i = 1, 9 do n, m = max(1, i), 's' end").
Proof.
  apply (s_for true (lit " ") (lit "i") (lit " ") (lit " ") (lit "1") [] (lit " ") (lit "9") (lit " ") (lit " ") (lit "n, m = max(1, i), 's' "));
    [space_|ident_|blank_|blank_|apply e_digit; unfold l_digit; cbn; lia|blank_|blank_|apply e_digit; unfold l_digit; cbn; lia|space_|space_|].
  apply (s_block true [] true (lit "n, m = max(1, i), 's' ")); [blank_|]. apply (s_stat true true (lit "n, m = max(1, i), 's'") (lit " ") true true []); [|blank_|apply s_stop|auto|left; discriminate].
  apply (s_assign true (lit "n, m") (lit " ") (lit " ") (lit "max(1, i), 's'")); [|blank_|blank_|].
  - apply (s_var_more (lit "n") [] (lit " ") (lit "m")); [|blank_|blank_|apply s_var_one]; [apply (s_var (lit "n") None [])|apply (s_var (lit "m") None [])]; try tidy_; try apply s_end; discriminate.
  - apply (s_more true (lit "max(1, i)") [] (lit " ") (lit "'s'")); [|blank_|blank_|].
    + apply s_operand. apply (s_name (lit "max") (Some true) (lit "(1, i)")); [tidy_|]. apply (s_call None [] (lit "(1, i)") []); [blank_| |apply s_end]. apply s_plain. apply (s_args true [] (lit "1, i") []); [blank_| |blank_].
      apply (s_more true (lit "1") [] (lit " ") (lit "i")); [apply e_digit; unfold l_digit; cbn; lia|blank_|blank_|one_].
    + apply s_one, s_operand. apply (s_string x27 (lit "s")); [cbn; tauto|]. repeat constructor; discriminate.
Qed.
Example C124_here : lua_style max_program.
Proof.
  apply (s_block false [] true max_program); [blank_|]. apply (s_stat true true (lit "local function max(a,b,...)
  if a > b then return a elseif not b then return; end
  t.n = {1,x; k = -2}
  print(t)
  return b;
end") (lit "
") true false (lit "for i = 1, 9 do n, m = max(1, i), 's' end
break")); [exact max_function|blank_| |auto|left; discriminate]. apply (s_stat true true (lit "for i = 1, 9 do n, m = max(1, i), 's' end") (lit "
") false false (lit "break")); [exact max_for|blank_| |auto|left; discriminate].
  apply (s_stat false false (lit "break") [] true false []); [apply s_break|blank_|apply s_stop|auto|auto].
Qed.

(* ------------------------------------------------------------------ C125 *)

(** C125 (refuted).  The rules of the style are not matters of taste: each of them left out, Lua() no longer reads all
    the programs. *)
Lemma stops_short {L : GoLib} t p : (exists s1, uses lua_env lua (init_st t) None s1 /\ pos (sc s1) = p) -> p <> slen t -> ~ read_whole t.
Proof.
  intros (s1 & U1 & P1) Ne (s' & U & P). destruct (uses_fun _ _ (init_st t) _ _ _ _ ltac:(cbn; lia) U U1) as [_ ->]. congruence.
Qed.
Ltac short p := apply (stops_short _ p); [eexists; split; [run 4000%nat|reflexivity]|discriminate].
(** What is returned does not begin like arguments. *)
Theorem C125_return_refuted {L : GoLib} : ~ forall b x, style (Exprs b) x -> read_whole (lit "return " ++ x).
Proof.
  intros H. assert (S : style (Exprs true) (lit "(a) + 1")).
  { apply s_one. apply (s_binary true (lit "(a)") (lit " ") (lit "+") (lit " ") (lit "1")); [|space_|cbn; tauto|space_|apply e_digit; unfold l_digit; cbn; lia].
    apply (s_paren true [] (lit "a") [] None []); [blank_|apply e_name; tidy_|blank_|apply s_end]. }
  apply H in S. revert S. short 11.
Qed.
Print Assumptions C125_return_refuted.
(** Nor is the condition of an until or an elseif. *)
Lemma paren_style w : tidy w -> style (Expr true) (lit "(" ++ w ++ lit ")").
Proof. intros T. apply s_operand. apply (s_paren true [] w [] None []); [blank_|apply e_name; exact T|blank_|apply s_end]. Qed.
Theorem C125_until_refuted {L : GoLib} : ~ forall b x, style (Expr b) x -> read_whole (lit "repeat a=1 until " ++ x).
Proof. intros H. generalize (H true _ (paren_style (lit "x") ltac:(tidy_))). short 0. Qed.
Print Assumptions C125_until_refuted.
Theorem C125_elseif_refuted {L : GoLib} : ~ forall b x, style (Expr b) x -> read_whole (lit "if a then b=1 elseif " ++ x ++ lit " then d=1 end").
Proof. intros H. generalize (H true _ (paren_style (lit "c") ltac:(tidy_))). short 0. Qed.
Print Assumptions C125_elseif_refuted.
(** While the condition of a while or an if may begin so. *)
Example C125_while : style (Stat true true) (lit "while (a) do end").
Proof. apply (s_while true (lit " ") (lit "(a)") (lit " ") (lit " ") []); [space_|apply (paren_style (lit "a")); tidy_|space_|space_|]. apply (s_block true [] true []); [blank_|apply s_stop]. Qed.
(** No comma behind a function in a table. *)
Lemma empty_function : style (Expr false) (lit "function() end").
Proof.
  apply s_operand. apply (s_function [] (lit "() end")); [blank_|]. apply (s_body [] [] [] (lit " ")); [blank_|apply s_params_none|blank_|]. apply (s_block true (lit " ") true []); [blank_|apply s_stop].
Qed.
Theorem C125_function_field_refuted {L : GoLib} : ~ forall k b f l, style (Field k b) f -> style (Fields true) l -> read_whole (lit "x={" ++ f ++ lit "," ++ l ++ lit "}").
Proof.
  intros H. generalize (H true false (lit "f=function() end") (lit "g=1")
    ltac:(apply (s_named false (lit "f") [] [] (lit "function() end")); [ident_|blank_|blank_|exact empty_function])
    ltac:(apply (s_field true true), (s_named true (lit "g") [] [] (lit "1")); [ident_|blank_|blank_|apply e_digit; unfold l_digit; cbn; lia])). short 0.
Qed.
Print Assumptions C125_function_field_refuted.
(** A field without a key stands right behind the comma. *)
Theorem C125_field_room_refuted {L : GoLib} : ~ forall k f k2 l, style (Field k true) f -> style (Fields k2) l -> read_whole (lit "x={" ++ f ++ lit ", " ++ l ++ lit "}").
Proof.
  intros H. generalize (H false (lit "1") false (lit "2") ltac:(apply s_value, e_digit; unfold l_digit; cbn; lia) ltac:(apply (s_field false true), s_value, e_digit; unfold l_digit; cbn; lia)). short 0.
Qed.
Print Assumptions C125_field_room_refuted.
(** A return without a value inside a block ends with a semicolon. *)
Theorem C125_bare_return_refuted {L : GoLib} : ~ forall r, style (Return false) r -> read_whole (lit "if a then " ++ r ++ lit "end").
Proof. intros H. generalize (H (lit "return ") ltac:(apply (s_return_bare (lit " ")); blank_)). short 0. Qed.
Print Assumptions C125_bare_return_refuted.
(** No white space between a semicolon and a call, a break or a label. *)
Theorem C125_room_before_refuted {L : GoLib} : ~ forall s, style (Stat false true) s -> read_whole (lit "a=1; " ++ s).
Proof.
  intros H. assert (S : style (Stat false true) (lit "f(x)")).
  { apply (s_call_stat (lit "f") (lit "(x)")); [tidy_|]. apply (s_call None [] (lit "(x)") []); [blank_| |apply s_end]. apply s_plain. apply (s_args true [] (lit "x") []); [blank_|one_|blank_]. }
  generalize (H _ S). short 5.
Qed.
Print Assumptions C125_room_before_refuted.
Theorem C125_room_before_break_refuted {L : GoLib} : ~ forall s, style (Stat false false) s -> read_whole (lit "a=1; " ++ s).
Proof. intros H. generalize (H _ s_break). short 5. Qed.
Print Assumptions C125_room_before_break_refuted.
(** No white space between names. *)
Theorem C125_names_refuted {L : GoLib} : ~ forall w l, ident w -> style Names l -> read_whole (lit "for " ++ w ++ lit ", " ++ l ++ lit " in x do end").
Proof. intros H. generalize (H (lit "i") (lit "j") ltac:(ident_) ltac:(apply s_name_one; ident_)). short 0. Qed.
Print Assumptions C125_names_refuted.
(** No operator but those of the style. *)
Theorem C125_operators_refuted {L : GoLib} : ~ forall o, In o lua_binops -> read_whole (lit "x = a " ++ o ++ lit " b").
Proof. intros H. generalize (H (lit "//") ltac:(cbn; tauto)). short 6. Qed.
Print Assumptions C125_operators_refuted.
(** No variable that begins like a keyword. *)
Theorem C125_tidy_refuted {L : GoLib} : ~ forall w, ident w -> read_whole (lit "x = " ++ w).
Proof. intros H. generalize (H (lit "nilx") ltac:(ident_)). short 7. Qed.
Print Assumptions C125_tidy_refuted.
(** The operators of the style are the ones that are read. *)
Theorem C125_operators_exact {L : GoLib} o : In o lua_binops -> (read_whole (lit "x = a " ++ o ++ lit " b") <-> In o style_binops).
Proof.
  intros I. split.
  - intros R. assert (D : In o style_binops \/ In o (map lit ["//"; ">>"; "<<"]%string)) by (cbn in I |- *; intuition). destruct D as [D|D]; auto. exfalso. revert R.
    cbn [map In] in D. repeat match type of D with _ \/ _ => destruct D as [<-|D] end; [short 6|short 6|short 6|contradiction].
  - intros D. clear I. cbn [style_binops map In] in D. repeat match type of D with _ \/ _ => destruct D as [<-|D] end; try contradiction; (eexists; split; [run 4000%nat|reflexivity]).
Qed.
Print Assumptions C125_operators_exact.

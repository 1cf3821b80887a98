(** PropLuaSyntax.v - C113 to C115: what Lua() reads is Lua, and what it does not read. *)
From Verif Require Import LuaSyntax UseFacts ExKit LuaLens PropMxtText.
From Coq Require Import Lia.
Import SpecLuaSyntax.

(* ------------------------------------------------------------------ C113 *)

Lemma apt_rule {L : GoLib} i : (i < 44)%nat -> rallP apt (RRule i).
Proof. intros H. split; [split; [exact Logic.I|]|exact Logic.I]. do 44 (destruct i as [|i]; [vm_compute; reflexivity|]). lia. Qed.
(** C113.  What a rule of the Lua grammar reads of a well-formed text is a phrase of the corresponding part of the
    grammar in section 9 of the Lua 5.4 manual (SpecLuaSyntax.v): tokens that this part derives, with white space and
    comments between them. *)
Theorem C113_rules_read_lua {L : GoLib} i s a b s' : (i < 44)%nat -> at_split s a b -> wf_text b ->
  (forall j, wf_text (get [] (h_cells (hp s)) j)) -> reads lua_env (RRule i) s None s' ->
  exists w rest, b = w ++ rest /\ at_split s' (a ++ w) rest /\ lua_text i w.
Proof.
  intros Hi H W C R. destruct (reads_eats lua_env (RRule i) _ _ _ _ _ _ lua_covered eq_refl (stands_split _ _ _ H) R) as (c' & rest & S' & D).
  destruct (eats_suffix _ _ _ _ _ _ _ D) as [w ->]. exists w, rest. split; auto. split.
  { eapply stands_at; [|exact S']. rewrite app_assoc. auto. }
  exact (lua_eats (RRule i) _ _ _ _ w (apt_rule i Hi) (conj W C) D eq_refl).
Qed.
Print Assumptions C113_rules_read_lua.
(** Lua() reads chunks. *)
Theorem C113_lua_reads_chunks {L : GoLib} s a b s' : at_split s a b -> wf_text b -> (forall j, wf_text (get [] (h_cells (hp s)) j)) ->
  uses lua_env lua s None s' -> exists w rest, b = w ++ rest /\ at_split s' (a ++ w) rest /\ phrase (N chunk) w.
Proof.
  intros H W C U. apply uses_reads in U as (s1 & R & ->); [|destruct H as (_ & -> & _); apply slen_nonneg].
  destruct (reads_eats lua_env lua _ _ _ _ _ _ lua_covered eq_refl (stands_split _ _ _ H) R) as (c' & rest & S' & D).
  destruct (eats_suffix _ _ _ _ _ _ _ D) as [w ->]. exists w, rest. split; auto. split.
  { eapply stands_at; [|exact S']. rewrite app_assoc. auto. }
  refine (lua_eats lua _ _ _ _ w _ (conj W C) D eq_refl). split; [split; [exact Logic.I|vm_compute; reflexivity]|exact Logic.I].
Qed.
Print Assumptions C113_lua_reads_chunks.
(** A file Lua() reads to its end is a chunk. *)
Theorem C113_lua_file {L : GoLib} t s' : wf_text t -> slen t < 2 ^ 63 -> uses lua_env lua (init_st t) None s' -> pos (sc s') = slen t -> phrase (N chunk) t.
Proof.
  intros W Lt U P. destruct (C113_lua_reads_chunks (init_st t) [] t s') as (w & rest & -> & S & Ph); auto.
  - repeat split; auto.
  - intros [|j]; apply wf_nil.
  - assert (rest = []) as ->; [|rewrite app_nil_r; auto]. destruct S as (_ & S & _). cbn [app] in S. rewrite P in S. unfold slen in S. rewrite app_length in S. destruct rest; [auto|cbn in S; lia].
Qed.
Print Assumptions C113_lua_file.

(** Cases: a program with a comment, a call, a loop and a table is read to its end. *)
Definition program : bytes := lit "local t = {1,2; a = 'b'}
-- sum
for i,v in ipairs(t) do s = s + v * 2 end
return f(s)".
Example C113_here {L : GoLib} : (exists s', uses lua_env lua (init_st program) None s' /\ pos (sc s') = slen program) /\ phrase (N chunk) program.
Proof.
  assert (U : exists s', uses lua_env lua (init_st program) None s' /\ pos (sc s') = slen program) by (eexists; split; [run 2000%nat|reflexivity]). split; auto.
  destruct U as (s' & U & P). eapply C113_lua_file; eauto; [apply valid_wf; vm_compute; reflexivity|vm_compute; reflexivity].
Qed.
(** Not every text is a chunk. *)
Lemma writes_cons t x u : writes t (x :: u) -> t = Sign (x :: u) \/ (t = Ident /\ l_letter x) \/ (t = Number /\ l_digit x) \/ (t = Text /\ In x [x22; x27; x5b]).
Proof.
  destruct t; cbn [writes]; intros H.
  - destruct H as (y & t & E & Y & _). injection E as <- <-. auto.
  - right; right; left. split; auto. destruct H as [(i & f & y & E & [Ni Hi] & _)|(m & i & f & y & E & _)].
    + destruct i as [|z i]; [congruence|]. injection E as <- _. inversion Hi; auto.
    + injection E as -> _. unfold l_digit. cbn. lia.
  - right; right; right. split; auto. destruct H as [(q & v & Hq & E & _)|(k & v & E & _)].
    + injection E as -> _. cbn. intuition.
    + injection E as -> _. cbn. auto.
  - subst. auto.
Qed.
Lemma writes_nil t : writes t [] -> t = Sign [].
Proof.
  destruct t; cbn [writes]; intros H.
  - destruct H as (y & t & E & _). discriminate.
  - destruct H as [(i & f & y & E & [Ni Hi] & _)|(m & i & f & y & E & _)]; [destruct i; [congruence|discriminate]|discriminate].
  - destruct H as [(q & v & Hq & E & _)|(k & v & E & _)]; discriminate.
  - subst. auto.
Qed.
Lemma gap_cons x g : gap (x :: g) -> In x [x20; x0d; x0a; x09; x2d].
Proof. intros G. inversion G; subst; cbn in *; tauto. Qed.

Definition equals (t : lua_token) : bool := match t with Sign [] => true | Sign [x3d] => true | _ => false end.
Definition few (n : nonterm) : list nat := match n with chunk | block | attrib => [0%nat] | _ => [] end.
Example C113_no_chunk : ~ phrase (N chunk) (lit "=").
Proof.
  intros (ts & S & D). assert (O : forallb equals ts = true /\ ts <> []).
  { remember (lit "=") as w. assert (P : w = lit "=" \/ w = []) by auto. assert (Z : w = [] \/ ts <> []).
    { destruct S as [g G|]; [|right; discriminate]. subst. apply gap_cons in G. cbn in G. intuition discriminate. }
    split; [|destruct Z; [subst; discriminate|auto]]. clear Heqw D Z. induction S as [|g t ts u w G U S IH]; [auto|].
    assert (g = []) as ->.
    { destruct g as [|x g]; auto. apply gap_cons in G. exfalso. destruct P as [P|P]; [|discriminate]. injection P as -> _. cbn in G. intuition discriminate. }
    cbn [app] in P. destruct u as [|x u].
    - cbn [forallb]. rewrite IH by auto. rewrite (writes_nil _ U). reflexivity.
    - destruct P as [P|P]; [|discriminate]. injection P as -> P. apply app_eq_nil in P as [-> ->]. cbn [forallb]. rewrite IH by auto.
      apply writes_cons in U as [->|[[_ Y]|[[_ Y]|[_ Y]]]]; [reflexivity| | |]; exfalso; revert Y; unfold l_letter, l_digit; cbn; intuition (discriminate || lia). }
  destruct O as [O Z]. pose proof (derives_lens equals few ltac:(vm_compute; reflexivity) _ _ D O) as [H|[]]. destruct ts; [congruence|discriminate].
Qed.

(* ------------------------------------------------------------------ C114 *)

Definition gotox (t : lua_token) : bool := match t with Ident => true | Sign x => if list_eq_dec Byte.byte_eq_dec x (lit "gotox") then true else false | _ => false end.
Definition few_names (n : nonterm) : list nat :=
  match n with
  | chunk | block | attrib => [0%nat]
  | attnamelist | funcname | varlist | var | namelist | explist | exp | prefixexp | parlist | fieldlist | field => [1%nat]
  | _ => []
  end.
Lemma strictly_nil ts w : strictly ts w -> w = [] -> ts = [].
Proof. intros [|g t ts' u v G Nu _ _ _ _] E; auto. apply app_eq_nil in E as [_ E]. apply app_eq_nil in E as [E _]. congruence. Qed.
Lemma gotox_no_chunk : ~ strict_phrase (N chunk) (lit "gotox").
Proof.
  intros (ts & S & D). assert (O : forallb gotox ts = true /\ ts <> []).
  { inversion S as [g G E1 E|g t ts' u w G Nu U Kw A S' E1 E]; [subst; apply gap_cons in G; cbn in G; intuition discriminate|].
    assert (g = []) as ->.
    { destruct g as [|x g]; auto. apply gap_cons in G. exfalso. injection E as -> _. cbn in G. intuition discriminate. }
    assert (w = []) as ->.
    { destruct w as [|y w]; auto. exfalso. destruct (exists_last Nu) as (v & x & ->).
      assert (F : Forall wordy (lit "gotox")) by (change (lit "gotox") with [x67; x6f; x74; x6f; x78]; repeat (apply Forall_cons; [left; unfold l_letter; cbn; lia|]); apply Forall_nil).
      cbn [app] in E. rewrite <- E in F. apply Forall_app in F as [F1 F2]. apply Forall_app in F1 as [_ F1]. inversion F1; inversion F2; subst. eapply A; eauto. }
    rewrite app_nil_r in E. cbn [app] in E. subst u.
    assert (ts' = []) as ->.
    { exact (strictly_nil _ _ S' eq_refl). }
    split; [|discriminate]. apply writes_cons in U as [->|[[-> _]|[[_ Y]|[_ Y]]]]; [reflexivity|reflexivity| |]; exfalso; revert Y; unfold l_digit; cbn; intuition (discriminate || lia). }
  destruct O as [O Z]. pose proof (derives_lens gotox few_names ltac:(vm_compute; reflexivity) _ _ D O) as [H|[]]. destruct ts; [congruence|discriminate].
Qed.
(** C114 (refuted: goto and a name may stand together).  A file Lua() reads to its end is a chunk when names, keywords
    and numerals are as long as can be and no name is a keyword, as section 3.1 of the manual has it. *)
Theorem C114_lua_lexes_refuted {L : GoLib} : ~ forall t s', wf_text t -> slen t < 2 ^ 63 ->
  uses lua_env lua (init_st t) None s' -> pos (sc s') = slen t -> strict_phrase (N chunk) t.
Proof.
  intros H. assert (exists s', uses lua_env lua (init_st (lit "gotox")) None s' /\ pos (sc s') = slen (lit "gotox")) as (s' & U & P) by (eexists; split; [run 2000%nat|reflexivity]).
  apply gotox_no_chunk. eapply H; eauto; [apply valid_wf; vm_compute; reflexivity|vm_compute; reflexivity].
Qed.
Print Assumptions C114_lua_lexes_refuted.
(** What is left is C113_lua_file: without these two demands it is one. *)
Lemma strict_is_phrase x w : strict_phrase x w -> phrase x w.
Proof. intros (ts & S & D). exists ts. split; auto. clear D. induction S; constructor; auto. Qed.

(** Cases: so is a keyword as a name; keywords that need no room are strict. *)
Example C114_here {L : GoLib} : (exists s', uses lua_env lua (init_st (lit "end=1")) None s' /\ pos (sc s') = 5) /\ strict_phrase (N chunk) (lit "goto x").
Proof.
  split; [eexists; split; [run 2000%nat|reflexivity]|]. exists [Sign (lit "goto"); Ident]. split.
  - apply (xs_tok [] _ _ (lit "goto") (lit " x")); [constructor|discriminate|reflexivity|discriminate| |].
    + intros v x y t _ E _ [Y|Y]; injection E as <- _; revert Y; unfold l_letter, l_digit; cbn; intuition (discriminate || lia).
    + apply (xs_tok (lit " ") _ _ (lit "x") []); [constructor; [cbn; auto|constructor]|discriminate| | | |constructor; constructor].
      * exists x78, []. repeat split; auto. unfold l_letter. cbn. lia.
      * cbn. intuition discriminate.
      * intros v x y t _ E. discriminate.
  - apply d_rule. apply d_rule. cbn [manual]. apply (d_cat _ _ [Sign (lit "goto"); Ident] []).
    + apply (d_star _ [Sign (lit "goto"); Ident] []); [|constructor]. apply d_rule. eapply d_alt; [do 5 right; left; reflexivity|].
      apply (d_cat _ _ [Sign (lit "goto")] [Ident]); [constructor|]. apply (d_cat _ _ [Ident] []); constructor.
    + apply (d_cat _ _ [] []); constructor.
Qed.

(* ------------------------------------------------------------------ C115 *)

(** Two spellings of the same tokens *)
Definition table : list lua_token := [Ident; Sign (lit "="); Sign (lit "{"); Number; Sign (lit ","); Number; Sign (lit "}")].
Ltac gap_ := first [apply gap_nil|apply gap_space; [cbn; tauto|apply gap_nil]].
Ltac apart_ := intros v x y t Ev Et Wx Wy; first [discriminate Et|injection Et as <- _; destruct Wy as [Wy|Wy]; revert Wy; unfold l_letter, l_digit; cbn; intuition (discriminate || lia)|
  destruct v as [|z v]; [injection Ev as <-; destruct Wx as [Wx|Wx]; revert Wx; unfold l_letter, l_digit; cbn; intuition (discriminate || lia)|destruct v; discriminate Ev]].
Lemma digit_numeral x : l_digit x -> l_numeral [x].
Proof. intros H. left. exists [x], [], []. refine (conj eq_refl (conj (conj _ (Forall_cons _ H (Forall_nil _))) (conj (or_introl eq_refl) (or_introl eq_refl)))). discriminate. Qed.
Lemma letter_name x : l_letter x -> l_name [x].
Proof. intros H. exists x, []. auto. Qed.
Ltac toks l := match l with [] => constructor; constructor | (?g, ?u, ?w) :: ?l => apply (xs_tok (lit g) _ _ (lit u) (lit w)); [gap_|discriminate|try reflexivity|try discriminate|try apart_|toks l] end.
Ltac token_ := first [apply letter_name|apply digit_numeral|intros _; cbn; intuition discriminate]; unfold l_letter, l_digit; cbn; lia.
Lemma table_tight : strictly table (lit "x={1,2}").
Proof. unfold table. let l := constr:([("", "x", "={1,2}"); ("", "=", "{1,2}"); ("", "{", "1,2}"); ("", "1", ",2}"); ("", ",", "2}"); ("", "2", "}"); ("", "}", "")]%string) in toks l; token_. Qed.
Lemma table_wide : strictly table (lit "x={1, 2}").
Proof. unfold table. let l := constr:([("", "x", "={1, 2}"); ("", "=", "{1, 2}"); ("", "{", "1, 2}"); ("", "1", ", 2}"); ("", ",", " 2}"); (" ", "2", "}"); ("", "}", "")]%string) in toks l; token_. Qed.
Lemma table_chunk : derives (N chunk) table.
Proof.
  assert (V : derives (N exp) [Number]) by (apply d_rule; eapply d_alt; [do 3 right; left; reflexivity|constructor]).
  assert (F : derives (N field) [Number]) by (apply d_rule; eapply d_alt; [do 2 right; left; reflexivity|exact V]).
  assert (E : derives (N exp) [Sign (lit "{"); Number; Sign (lit ","); Number; Sign (lit "}")]).
  { apply d_rule. eapply d_alt; [do 8 right; left; reflexivity|]. apply d_rule. apply (d_cat _ _ [_] [_; _; _; _]); [constructor|].
    apply (d_cat _ _ [_; _; _] [_]); [|apply (d_cat _ _ [_] []); constructor]. apply d_some. apply d_rule. apply (d_cat _ _ [_] [_; _]); [exact F|].
    apply (d_cat _ _ [_; _] []); [|apply (d_cat _ _ [] []); constructor]. apply (d_star _ [_; _] []); [|constructor].
    apply (d_cat _ _ [_] [_]); [apply d_rule; eapply d_alt; [left; reflexivity|constructor]|]. apply (d_cat _ _ [_] []); [exact F|constructor]. }
  apply d_rule. apply d_rule. apply (d_cat _ _ table []); [|apply (d_cat _ _ [] []); constructor]. apply (d_star _ table []); [|constructor].
  apply d_rule. eapply d_alt; [do 1 right; left; reflexivity|]. apply (d_cat _ _ [_] [_; _; _; _; _; _]).
  - apply d_rule. apply (d_cat _ _ [_] []); [|apply (d_cat _ _ [] []); constructor]. apply d_rule. eapply d_alt; [left; reflexivity|constructor].
  - apply (d_cat _ _ [_] [_; _; _; _; _]); [constructor|]. apply (d_cat _ _ [_; _; _; _; _] []); [|constructor]. apply d_rule.
    apply (d_cat _ _ [_; _; _; _; _] []); [exact E|]. apply (d_cat _ _ [] []); constructor.
Qed.
(** Lua() reads the whole of [t]. *)
Definition read_whole {L : GoLib} (t : bytes) : Prop := exists s', uses lua_env lua (init_st t) None s' /\ pos (sc s') = slen t.
Lemma wide_not_read {L : GoLib} : ~ read_whole (lit "x={1, 2}").
Proof.
  intros (s' & U & P). assert (exists s1, uses lua_env lua (init_st (lit "x={1, 2}")) None s1 /\ pos (sc s1) = 0) as (s1 & U1 & P1) by (eexists; split; [run 2000%nat|reflexivity]).
  destruct (uses_fun _ _ (init_st (lit "x={1, 2}")) _ _ _ _ ltac:(cbn; lia) U U1) as [_ ->]. rewrite P1 in P. discriminate.
Qed.
(** C115 (refuted: a space behind a comma).  Lua() reads every chunk of the manual to its end. *)
Theorem C115_reads_every_chunk_refuted {L : GoLib} : ~ forall t, wf_text t -> slen t < 2 ^ 63 -> strict_phrase (N chunk) t -> read_whole t.
Proof.
  intros H. apply wide_not_read. apply H; [apply valid_wf; vm_compute; reflexivity|vm_compute; reflexivity|].
  exists table. split; [exact table_wide|exact table_chunk].
Qed.
Print Assumptions C115_reads_every_chunk_refuted.
(** Nor is it read or not whatever room is between the tokens. *)
Theorem C115_room_refuted {L : GoLib} : ~ forall ts t u, strictly ts t -> strictly ts u -> read_whole t -> read_whole u.
Proof.
  intros H. apply wide_not_read. apply (H table (lit "x={1,2}")); [exact table_tight|exact table_wide|]. eexists; split; [run 2000%nat|reflexivity].
Qed.
Print Assumptions C115_room_refuted.

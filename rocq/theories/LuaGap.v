(** LuaGap.v - the skipper of grammar/lua.go reads white space and comments. *)
From Verif Require Import LuaSyntax PegTotal MxtFacts.
From Verif Require Export LuaStyleStat SpecLuaGap.
From Coq Require Import Lia ZifyBool.
From Verif Require Import ReaderSteps ReaderScan.

Lemma long_wf k b rest : wf_text b -> long_ends k b rest -> wf_text rest.
Proof.
  intros W H. destruct H as [v rest E _ _|v w v2 rest K E F N E2 F2].
  - subst b. unfold closing in W. apply (wf_behind (v ++ near k) x5d); [|reflexivity]. unfold near. rewrite <- !app_assoc. cbn [app] in W |- *. rewrite <- app_assoc in W. exact W.
  - assert (Ww : wf_text (eqs k ++ w)). { subst b. apply (wf_behind v x5d); [exact W|reflexivity]. }
    rewrite E2 in Ww. apply (wf_behind (v2 ++ [x5d]) x5d); [|reflexivity]. rewrite <- app_assoc. exact Ww.
Qed.

Section Gap.
Context {L : GoLib} (e : env) (HE : forall i, r_reader (get_rule e i) = nth_error lua_readers i).
Notation goes := (goes e). Notation balks := (balks e). Notation rounds := (rounds e).
Notation W := (RZom ws). Notation C := lua_skiper.
Lemma go_line v b : wf_text (v ++ x0a :: b) -> ~ In x0a v -> (forall k u q, v ++ x0a :: b = opening k ++ u -> ~ long_ends k u q) -> goes (RRule lComment) (lit "--" ++ v ++ x0a :: b) (x0a :: b).
Proof.
  intros Wf N Nl. eapply go_rule; [apply is_Comment; auto|]. intros c. destruct (long_fails e (lit "--" ++ v ++ x0a :: b)) with (c := c) as [c' D].
  - apply (wf_app (lit "--")); auto. apply wf_ascii. repeat constructor.
  - intros k b2 rest E. change (lit "--" ++ opening k ++ b2) with (x2d :: x2d :: opening k ++ b2) in E. injection E as E. apply Nl. exact E.
  - exists c'. apply (comment_line e c _ c' true (x0a :: b) D). apply o_line; auto. eapply wf_cut; [exact Wf|reflexivity].
Qed.
Lemma go_long k b q : wf_text b -> long_ends k b q -> goes (RRule lComment) (lit "--" ++ opening k ++ b) q.
Proof.
  intros Wf Le. eapply go_rule; [apply is_Comment; auto|]. intros c. destruct (long_yes e lua_cmt_cell (RLit (lit "--[")) (lit "--[") k b q (o_lit e _ _) Wf Le c) as (c' & D).
  exists c'. apply comment_long. rewrite cmt_opening. exact D.
Qed.
Lemma white_no_comment x b : In x whites -> balks (RRule lComment) (x :: b).
Proof. intros X. eapply no_rule; [apply is_Comment; auto|]. apply no_out, o_comment_no. intros [t E]. injection E as -> _. cbn in X. intuition discriminate. Qed.
Lemma go_gap b r : wf_text b -> spaced b r -> solid r -> goes C b r.
Proof.
  intros Wf G S. apply go_zom. induction G as [r|x b r X G IH|v b r N Nl G IH|k b q r Le G IH].
  - apply r_stop. apply any_no; [|apply any_no; [|apply any_nil] ].
    + apply no_out. eapply o_takes_no; [apply tk_white|]. destruct (first (one_of whites) r) eqn:F; auto. apply first_head in F; [|reflexivity]. destruct S. contradiction.
    + eapply no_rule; [apply is_Comment; auto|]. apply no_out, o_comment_no. apply S.
  - eapply r_next; [|apply IH; auto]. 2:{ apply (wf_behind [] x b); [exact Wf|]. cbn in X. intuition (subst; reflexivity). }
    apply any_hit. apply go_out. eapply o_takes_yes; [apply tk_white|]. apply one_of_in. exact X.
  - assert (Wv : wf_text (v ++ x0a :: b)) by (apply (wf_behind [x2d] x2d); [exact Wf|reflexivity]).
    eapply r_next. { apply any_next; [|apply any_hit; apply go_line; auto]. apply no_out. eapply o_takes_no; [apply tk_white|reflexivity]. }
    eapply r_next; [|apply IH; auto]. 2:{ apply (wf_behind v x0a); [exact Wv|reflexivity]. }
    apply any_hit. apply go_out. eapply o_takes_yes; [apply tk_white|reflexivity].
  - assert (Wb : wf_text b). { apply (wf_behind (lit "--[" ++ eqs k) x5b); [|reflexivity]. rewrite cmt_opening in Wf. rewrite <- app_assoc. exact Wf. }
    eapply r_next; [|apply IH; auto; eapply long_wf; eauto]. apply any_next; [|apply any_hit; apply go_long; auto]. apply no_out. eapply o_takes_no; [apply tk_white|reflexivity].
Qed.

(** Before a block *)
Lemma skip_solid q : solid q -> out e (IR C) q true q.
Proof.
  intros S. apply (o_zom e (RAny [ws; RRule lComment])), or_stop. eapply o_any_no. eapply oa_next; [eapply o_takes_no; [apply tk_white|]|].
  - destruct (first (one_of whites) q) eqn:F; auto. apply first_head in F; [|reflexivity]. destruct S. contradiction.
  - eapply oa_next; [|apply oa_nil]. eapply o_rule; [apply is_Comment; auto|]. apply o_comment_no. apply S.
Qed.
Lemma block_gap b q r : goes C b q -> solid q -> goes (RRule lBlock) q r -> goes (RRule lBlock) b r.
Proof.
  intros X S B c. destruct (X c) as [c1 D1]. destruct (B c1) as [c2 D2]. exists c2. eapply e_rule; [apply is_Block; auto|].
  inversion D2; subst; try discriminate. match goal with H : r_reader (get_rule e lBlock) = Some ?x |- _ => rewrite is_Block in H by auto; injection H as <- end.
  match goal with H : eats e (IR (RSkipSeq _ _)) _ _ _ _ _ |- _ => inversion H; subst; try discriminate; clear H end.
  match goal with H : eats e (ISeq _) _ _ _ _ _ |- _ => inversion H; subst; try discriminate; clear H end.
  match goal with H : eats e (IR C) _ q _ _ _ |- _ => destruct (eats_det _ _ _ _ _ _ _ H _ _ _ (skip_solid q S c1)) as (? & ? & ?); subst end.
  eapply (e_skip e _ _ _ _ true). cbn [interleave]. eapply i_seq_next; [exact D1|]. assumption.
Qed.

(** No statement begins with a comment, but for those that begin with a parenthesis behind it. *)
Lemma skip_gap_no b q x rs : goes C b q -> ~ head_in [x] q -> bz x < 128 -> balks (RSkipSeq C (RRune (bz x) :: rs)) b.
Proof.
  intros X N Bx c. assert (H : halts e (interleave C (RRune (bz x) :: rs)) b).
  { rewrite interleave_behind. eapply halts_next; [exact X|]. apply halts_here. apply (no_rune e x); auto. }
  destruct (H c) as (c' & b' & D). exists c'. exact (e_skip e _ _ _ _ false _ _ D).
Qed.
Lemma dash_no_stat b q : goes C (x2d :: b) q -> ~ head_in [x28] q -> balks (RRule lStat) (x2d :: b).
Proof.
  intros X N. assert (P : forall rs, balks (RSkipSeq C (RRune 0x28 :: rs)) (x2d :: b)) by (intros rs; apply (skip_gap_no _ q x28); auto; reflexivity).
  assert (V : balks (RRule lVar) (x2d :: b)).
  { eapply no_rule; [apply is_Var; auto|]. apply no_seq, halts_here. apply any_no; [apply no_name; auto|]. apply any_no; [apply P|apply any_nil]. }
  assert (NL : forall y k, y <> x2d -> ~ begins (x2d :: b) (y :: k)) by (intros y k Ny [t E]; injection E as <- _; congruence).
  assert (NW : forall y k rs, y <> x2d -> balks (RSkipSeq W (RLit (y :: k) :: rs)) (x2d :: b)).
  { intros y k rs Ny c. assert (H : halts e (interleave W (RLit (y :: k) :: rs)) (x2d :: b)).
    { rewrite interleave_behind. eapply halts_next with (b1 := x2d :: b); [|apply halts_here, no_lit, NL; auto]. apply go_out, o_zom, or_stop. eapply o_takes_no; [apply tk_white|reflexivity]. }
    destruct (H c) as (c' & b' & D). exists c'. exact (e_skip e _ _ _ _ false _ _ D). }
  eapply no_rule; [apply is_Stat; auto|]. apply any_no; [apply (no_rune e x3b); [reflexivity|lia|cbn; intuition discriminate]|].
  apply any_no. { apply no_seq, halts_here. eapply no_rule; [apply is_VarList; auto|]. intros c. assert (H : halts e (interleave W [RRule lVar; RZom COMMA_VAR]) (x2d :: b)).
    { rewrite interleave_behind. eapply halts_next with (b1 := x2d :: b); [|apply halts_here; exact V]. apply go_out, o_zom, or_stop. eapply o_takes_no; [apply tk_white|reflexivity]. }
    destruct (H c) as (c' & b' & D). exists c'. exact (e_skip e _ _ _ _ false _ _ D). }
  apply any_no; [eapply no_rule; [apply is_Label; auto|]; apply no_seq, halts_here, no_lit, NL; discriminate|].
  apply any_no; [eapply no_rule; [apply is_Break; auto|]; apply no_lit, NL; discriminate|]. cbn [stat_words app].
  apply any_no; [eapply no_rule; [apply is_GoTo; auto|]; apply NW; discriminate|]. apply any_no; [eapply no_rule; [apply is_Do; auto|]; apply NW; discriminate|].
  apply any_no; [eapply no_rule; [apply is_While; auto|]; apply NW; discriminate|]. apply any_no; [eapply no_rule; [apply is_Repeat; auto|]; apply NW; discriminate|].
  apply any_no; [eapply no_rule; [apply is_IfElse; auto|]; apply NW; discriminate|]. apply any_no; [eapply no_rule; [apply is_For; auto|]; apply NW; discriminate|].
  apply any_no; [eapply no_rule; [apply is_ForEach; auto|]; apply NW; discriminate|]. apply any_no; [eapply no_rule; [apply is_Func; auto|]; apply NW; discriminate|].
  apply any_no; [eapply no_rule; [apply is_LocalFunc; auto|]; apply NW; discriminate|]. apply any_no; [eapply no_rule; [apply is_LocalAtt; auto|]; apply NW; discriminate|].
  apply any_no; [|apply any_nil]. eapply no_rule; [apply is_FuncCall; auto|]. apply no_seq, halts_here. apply any_no; [exact V|]. apply any_no; [apply P|apply any_nil].
Qed.
(** A statement, a semicolon, comments: that ends the block. *)
Lemma block_semi l x s b q : style (Stat l x) s -> goes C (x2d :: b) q -> solid q -> ~ head_in [x28] q -> ~ begins q (lit "return") -> goes (RRule lBlock) (s ++ x3b :: x2d :: b) q.
Proof.
  intros St X S N1 N2. assert (Sm := style_sem e HE _ _ St [] [] (x3b :: x2d :: b) ltac:(constructor) ltac:(auto) ltac:(right; left; left; auto)
    ltac:(split; [constructor|intros _; left; right; left; auto])). cbn [app] in Sm.
  assert (Sm2 : goes (RRule lStat) (s ++ x3b :: x2d :: b) (x3b :: x2d :: b)) by (destruct x; exact Sm).
  eapply go_rule; [apply is_Block; auto|]. destruct (style_heads _ _ St) as [Ns Xs]. specialize (Xs [] (x3b :: x2d :: b) ltac:(split; [constructor|intros _; left; right; left; auto])). cbn [app] in Xs.
  intros c. assert (H : seqs e (interleave C [RZom (RRule lStat); ROpt (RRule lRetStat)]) (s ++ x3b :: x2d :: b) q).
  { rewrite interleave_behind. eapply seqs_cons; [apply go_out, skip_solid; apply next_quiet; exact Xs|]. cbn [behind].
    eapply seqs_cons; [apply go_zom; eapply r_next; [exact Sm2|]; eapply r_next; [eapply go_rule; [apply is_Stat; auto|]; apply any_hit; apply (go_rune e x3b); [reflexivity|lia]|]; apply r_stop; apply (dash_no_stat b q); auto|].
    eapply seqs_cons; [exact X|]. eapply seqs_cons with (b1 := q); [|eapply seqs_cons; [apply go_out, skip_solid; exact S|apply seqs_nil] ].
    apply go_opt_no. eapply no_rule; [apply is_RetStat; auto|]. apply (no_skip_lit e W _ _ [] q); auto using skips_w. constructor. }
  destruct (H c) as [c' D]. exists c'. exact (e_skip e _ _ _ _ true _ _ D).
Qed.
End Gap.

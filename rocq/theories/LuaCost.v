(** LuaCost.v - how often Lua() reads nested tables. *)
From Verif Require Import LuaSyntax PropLua TrackFacts.
From Verif Require Export CostFacts LuaStyleStat.
From Coq Require Import Lia ZifyBool.

Local Open Scope nat_scope.
(** [n] tables around an empty one *)
Fixpoint nest (n : nat) : bytes := match n with O => lit "{}" | S n => lit "{" ++ nest n ++ lit "}" end.
Lemma nest_head n : exists u, nest n = x7b :: u. Proof. destruct n; eexists; reflexivity. Qed.
Lemma nest_length n : length (nest n) = 2 * n + 2.
Proof. induction n as [|n IH]; auto. cbn [nest]. rewrite !app_length, IH. cbn. lia. Qed.
Lemma nest_style n : style Table (nest n).
Proof.
  induction n as [|n IH]; [exact (s_empty [] blank_nil)|]. apply (s_fields false [] (nest n) []); try apply blank_nil.
  apply (s_field false true). apply s_value, s_operand, s_table. exact IH.
Qed.

Section Apart.
Context {L : GoLib} (e : env) (w : reader -> nat).
Notation goes := (goes e). Notation balks := (balks e).
(** Taking readings apart: where it is known what a reader does. *)
Lemma d_seq r rs b b1 c ok c' b' k : goes r b b1 -> works e w (ISeq (r :: rs)) c b ok c' b' k ->
  exists c1 n1 n2, works e w (IR r) c b true c1 b1 n1 /\ works e w (ISeq rs) c1 b1 ok c' b' n2 /\ k = n1 + n2.
Proof.
  intros G W. destruct (G c) as [c9 D]. apply seq_calls in W as [[-> W]|(c1 & b2 & n1 & n2 & W1 & W2 & ->)].
  - apply works_eats in W. destruct (eats_det _ _ _ _ _ _ _ W _ _ _ D) as [X _]. discriminate.
  - pose proof (works_eats _ _ _ _ _ _ _ _ _ W1) as E1. destruct (eats_det _ _ _ _ _ _ _ E1 _ _ _ D) as (_ & _ & ->). eauto 9.
Qed.
Lemma d_any r rs b c ok c' b' k : balks r b -> works e w (IAny (r :: rs)) c b ok c' b' k ->
  exists c1 n1 n2, works e w (IR r) c b false c1 b n1 /\ works e w (IAny rs) c1 b ok c' b' n2 /\ k = n1 + n2.
Proof.
  intros G W. destruct (G c) as [c9 D]. apply any_calls in W as [[-> W]|(c1 & b2 & n1 & n2 & W1 & W2 & ->)].
  - apply works_eats in W. destruct (eats_det _ _ _ _ _ _ _ W _ _ _ D) as [X _]. discriminate.
  - pose proof (works_eats _ _ _ _ _ _ _ _ _ W1) as E1. destruct (eats_det _ _ _ _ _ _ _ E1 _ _ _ D) as (_ & _ & ->). eauto 9.
Qed.
Lemma d_first_seq r rs b c ok c' b' k : works e w (ISeq (r :: rs)) c b ok c' b' k -> exists ok1 c1 b1 n1, works e w (IR r) c b ok1 c1 b1 n1 /\ n1 <= k.
Proof. intros W. apply seq_calls in W as [[-> W]|(c1 & b2 & n1 & n2 & W1 & W2 & ->)]; eexists _, _, _, _; (split; [eauto|lia]). Qed.
Lemma d_first_any r rs b c ok c' b' k : works e w (IAny (r :: rs)) c b ok c' b' k -> exists ok1 c1 b1 n1, works e w (IR r) c b ok1 c1 b1 n1 /\ n1 <= k.
Proof. intros W. apply any_calls in W as [[-> W]|(c1 & b2 & n1 & n2 & W1 & W2 & ->)]; eexists _, _, _, _; (split; [eauto|lia]). Qed.
Lemma d_rule i r b c ok c' b' k : r_reader (get_rule e i) = Some r -> works e w (IR (RRule i)) c b ok c' b' k -> exists n, works e w (IR r) c b ok c' b' n /\ k = w (RRule i) + n.
Proof. apply rule_calls_inv. Qed.
Lemma d_anys rs b c ok c' b' k : works e w (IR (RAny rs)) c b ok c' b' k -> exists b1 n, works e w (IAny rs) c b ok c' b1 n /\ n <= k.
Proof. inversion 1; subst; try discriminate. eexists _, _. split; [eauto|lia]. Qed.
Lemma d_seqs rs b c ok c' b' k : works e w (IR (RSeq rs)) c b ok c' b' k -> exists b1 n, works e w (ISeq rs) c b ok c' b1 n /\ n <= k.
Proof. inversion 1; subst; try discriminate. eexists _, _. split; [eauto|lia]. Qed.
Lemma d_skip sk rs b c ok c' b' k : skips e sk -> solid b -> works e w (IR (RSkipSeq sk rs)) c b ok c' b' k -> exists c1 b1 n, works e w (ISeq (behind sk rs)) c1 b ok c' b1 n /\ n <= k.
Proof.
  intros Sk So. inversion 1; subst; try discriminate. match goal with X : works _ _ (ISeq _) _ _ _ _ _ _ |- _ => rewrite interleave_behind in X; eapply d_seq in X as (c1 & n1 & n2 & X1 & X2 & ->); [|exact (Sk [] b blank_nil So)] end.
  eexists _, _, _. split; [eauto|lia].
Qed.
Lemma d_opt r b c ok c' b' k : works e w (IR (ROpt r)) c b ok c' b' k -> exists ok1 n, works e w (IR r) c b ok1 c' b' n /\ n <= k.
Proof. inversion 1; subst; try discriminate. eexists _, _. split; [eauto|lia]. Qed.
Lemma d_zom r b c ok c' b' k : works e w (IR (RZom r)) c b ok c' b' k -> exists ok1 c1 b1 n, works e w (IR r) c b ok1 c1 b1 n /\ n <= k.
Proof. inversion 1; subst; try discriminate. match goal with X : works _ _ (IRep _) _ _ _ _ _ _ |- _ => inversion X; subst; eexists _, _, _, _; (split; [eauto|lia]) end. Qed.
End Apart.

Section Lua.
Context {L : GoLib}.
Notation E := lua_env.
Notation goes := (goes lua_env). Notation balks := (balks lua_env).
Let HE := lua_rule.
Definition exps (r : reader) : nat := rule_calls (chosen [lExp]) r.
Notation costs i c b ok c' b' k := (works lua_env exps i c b ok c' b' k).
Let Sw : skips E (RZom ws) := skips_w E.
Let Sc : skips E lua_skiper := skips_c E HE.

Lemma end_ends r : r = [] \/ head_in [x7d] r -> ends true [] r.
Proof. intros [->|H]; [apply next_ends|apply closer_ends]; auto using blank_nil. left. auto. Qed.
Definition tail_ok (r : bytes) : Prop := r = [] \/ head_in [x7d] r.
Lemma tail_solid r : tail_ok r -> solid r.
Proof. intros [->|H]; [apply solid_nil|]. destruct r as [|x r]; [elim H|]. destruct H as [<-|[]]. so. Qed.
Lemma nest_solid n r : solid (nest n ++ r).
Proof. destruct (nest_head n) as [u ->]. so. Qed.
Lemma nest_goes n r : tail_ok r -> goes (RRule lFinalExp) (nest n ++ r) r.
Proof.
  intros T. pose proof (end_ends r T) as (F & NB & Nq & _). destruct (style_sem E HE _ _ (s_table _ (nest_style n)) [] r) as [X _]; [split; auto; discriminate|].
  destruct X as [X|X]; exact X.
Qed.
Lemma d_rune x n r : bz x = n -> (n < 128)%Z -> goes (RRune n) (x :: r) r. Proof. apply go_rune. Qed.
(** What FinalExp does before it comes to tables *)
Lemma before_table t : Forall (fun r => balks r (x7b :: t)) [RLit (lit "nil"); RLit (lit "false"); RLit (lit "true"); lua_numeral; RRule lLiteralString; RLit (lit "...");
  RRule lFuncDef; RSkipSeq lua_skiper [RRule lUnOp; RRule lExp]].
Proof.
  assert (NL : forall x k, x <> x7b -> ~ begins (x7b :: t) (x :: k)) by (intros x k N [u Eq]; injection Eq as Eq _; congruence).
  assert (So : solid (x7b :: t)) by so.
  repeat constructor.
  - apply no_lit, NL. discriminate.
  - apply no_lit, NL. discriminate.
  - apply no_lit, NL. discriminate.
  - apply no_numeral. reflexivity.
  - apply no_string; auto. noh.
  - apply no_lit, NL. discriminate.
  - eapply no_rule; [apply is_FuncDef; auto|]. apply (no_skip_lit E _ _ _ [] (x7b :: t)); auto using blank_nil. apply NL. discriminate.
  - apply (no_skip E lua_skiper _ [] (x7b :: t)); auto using blank_nil. apply broken_here. eapply no_rule; [apply is_UnOp; auto|]. cbn [map].
    repeat (apply any_no; [apply no_lit, NL; discriminate|]). apply any_nil.
Qed.
Lemma d_alts rs : forall rest b c ok c' b' k, Forall (fun r => balks r b) rs -> costs (IAny (rs ++ rest)) c b ok c' b' k -> exists c1 n, costs (IAny rest) c1 b ok c' b' n /\ n <= k.
Proof.
  induction rs as [|r rs IH]; intros rest b c ok c' b' k F W; [eauto|]. inversion F; subst. cbn [app] in W. eapply d_any in W as (c1 & n1 & n2 & _ & W2 & ->); [|eassumption].
  destruct (IH _ _ _ _ _ _ _ H2 W2) as (c2 & n & X & Y). exists c2, n. split; auto. lia.
Qed.
(** A FinalExp in front of nothing that continues it is read twice. *)
Lemma exp_twice F b r k c ok c' b' : solid b -> ends true [] r -> goes (RRule lFinalExp) b r ->
  (forall c ok c' b' k, costs (IR (RRule lFinalExp)) c b ok c' b' k -> F <= k) -> costs (IR (RRule lExp)) c b ok c' b' k -> 1 + 2 * F <= k.
Proof.
  intros So (Fo & NB & _) G Low W. assert (Sr : solid r) by (apply Fo). eapply d_rule in W as (n & W & ->); [|apply is_Exp; auto]. apply d_anys in W as (b1 & n1 & W & Le).
  assert (B : balks (RSkipSeq (RZom ws) [RRule lFinalExp; RRule lBinOp; RRule lExp]) b).
  { apply (no_skip E (RZom ws) _ [] b); auto using blank_nil. eapply (broken_next E (RZom ws) _ _ b [] r); auto using blank_nil. apply broken_here, no_binop; auto. }
  eapply d_any in W as (c1 & n2 & n3 & W1 & W2 & ->); [|exact B]. apply d_first_any in W2 as (? & ? & ? & n4 & W2 & L2). apply Low in W2.
  eapply d_skip in W1 as (c2 & b2 & n5 & W1 & L1); auto. cbn [behind] in W1. apply d_first_seq in W1 as (? & ? & ? & n6 & W1 & L3). apply Low in W1. change (exps (RRule lExp)) with 1. lia.
Qed.
Lemma nest_cost n : forall r c ok c' b' k, tail_ok r -> costs (IR (RRule lFinalExp)) c (nest n ++ r) ok c' b' k -> 2 ^ n - 1 <= k.
Proof.
  induction n as [|n IH]; intros r c ok c' b' k T W; [cbn; lia|]. cbn [nest] in W. rewrite <- !app_assoc in W. set (in_ := nest n ++ lit "}" ++ r) in *.
  change (lit "{" ++ in_) with (x7b :: in_) in W. assert (Si : solid in_) by apply nest_solid. assert (Ti : tail_ok (lit "}" ++ r)) by (right; cbn; auto).
  eapply d_rule in W as (n1 & W & ->); [|apply is_FinalExp; auto]. apply d_anys in W as (b1 & n2 & W & L1).
  apply (d_alts [RLit (lit "nil"); RLit (lit "false"); RLit (lit "true"); lua_numeral; RRule lLiteralString; RLit (lit "..."); RRule lFuncDef; RSkipSeq lua_skiper [RRule lUnOp; RRule lExp]]) in W as (c1 & n3 & W & L2); [|apply before_table].
  apply d_first_any in W as (? & ? & ? & n4 & W & L3). eapply d_rule in W as (n5 & W & ->); [|apply is_Table; auto]. eapply d_skip in W as (c2 & b2 & n6 & W & L4); auto; [|so]. cbn [behind] in W.
  eapply d_seq in W as (c3 & n7 & n8 & _ & W & ->); [|apply (go_rune E x7b); [reflexivity|lia]]. eapply d_seq in W as (c4 & n9 & n10 & _ & W & ->); [|exact (Sc [] in_ blank_nil Si)].
  apply d_first_seq in W as (? & ? & ? & n11 & W & L5). apply d_opt in W as (? & n12 & W & L6). eapply d_rule in W as (n13 & W & ->); [|apply is_FieldList; auto].
  eapply d_skip in W as (c5 & b5 & n14 & W & L7); auto. cbn [behind] in W. apply d_first_seq in W as (? & ? & ? & n15 & W & L8). eapply d_rule in W as (n16 & W & ->); [|apply is_Field; auto].
  apply d_anys in W as (b6 & n17 & W & L9). destruct (nest_head n) as [u Eu]. assert (Ei : in_ = x7b :: u ++ lit "}" ++ r) by (unfold in_; rewrite Eu; reflexivity).
  eapply d_any in W as (c6 & n18 & n19 & _ & W & ->).
  2:{ rewrite Ei in *. apply (no_skip_rune E lua_skiper x5b 0x5b _ [] (x7b :: u ++ lit "}" ++ r)); auto using blank_nil; [lia|noh]. }
  eapply d_any in W as (c7 & n20 & n21 & _ & W & ->).
  2:{ apply (no_skip E lua_skiper _ [] in_); auto using blank_nil. apply broken_here, no_name; auto. rewrite Ei. reflexivity. }
  apply d_first_any in W as (? & ? & ? & n22 & W & L10).
  apply (exp_twice (2 ^ n - 1) in_ (lit "}" ++ r)) in W; auto; [|apply end_ends; auto|apply nest_goes; auto|intros; eapply IH; eauto].
  cbn [Nat.pow]. lia.
Qed.
Lemma chunk_cost n c ok c' b' k : costs (IR lua) c (lit "x=" ++ nest n) ok c' b' k -> 2 ^ (S n) - 1 <= k.
Proof.
  intros W. apply grammar_calls_inv in W as (n1 & W & ->). eapply d_rule in W as (n2 & W & Eq); [|apply is_Chunk; auto]. eapply d_rule in W as (n3 & W & ->); [|apply is_Block; auto].
  assert (So : solid (lit "x=" ++ nest n)) by so. eapply d_skip in W as (c2 & b2 & n4 & W & L1); auto. cbn [behind] in W. apply d_first_seq in W as (? & ? & ? & n5 & W & L2). apply d_zom in W as (? & ? & ? & n6 & W & L3).
  eapply d_rule in W as (n7 & W & ->); [|apply is_Stat; auto]. apply d_anys in W as (b3 & n8 & W & L4). eapply d_any in W as (c3 & n9 & n10 & _ & W & ->); [|apply (no_rune E x3b); [reflexivity|lia|noh]].
  apply d_first_any in W as (? & ? & ? & n11 & W & L5). apply d_seqs in W as (b4 & n12 & W & L6).
  assert (Tx : tidy (lit "x")) by (split; [exists x78, []; split; [reflexivity|split; [unfold l_letter; cbn; lia|constructor]]|intros q t I X; cbn in I; repeat match type of I with _ \/ _ => destruct I as [I|I] end; try contradiction; subst q; discriminate X]).
  assert (Sv : style Vars (lit "x")) by (apply s_var_one; apply (s_var (lit "x") None []); [exact Tx|apply s_end|discriminate]).
  eapply d_seq in W as (c5 & n13 & n14 & _ & W & ->).
  2:{ apply (go_vars E HE [] (lit "x") [] (lit "=" ++ nest n)); auto using blank_nil; [apply (style_sem E HE _ _ Sv)|apply fol_byte; [apply blank_nil|cbn; tauto]|noh]. }
  eapply d_seq in W as (c6 & n15 & n16 & _ & W & ->); [|apply (go_rune E x3d); [reflexivity|lia]].
  apply d_first_seq in W as (? & ? & ? & n17 & W & L7). eapply d_rule in W as (n18 & W & ->); [|apply is_ExpList; auto]. change (([] : bytes) ++ nest n) with (nest n) in W.
  assert (Sn : solid (nest n)) by (rewrite <- (app_nil_r (nest n)); apply nest_solid). eapply d_skip in W as (c7 & b7 & n19 & W & L8); auto. cbn [behind] in W. apply d_first_seq in W as (? & ? & ? & n20 & W & L9).
  assert (T : tail_ok []) by (left; auto). rewrite <- (app_nil_r (nest n)) in W.
  apply (exp_twice (2 ^ n - 1) (nest n ++ []) []) in W; auto; [|apply nest_solid|apply end_ends; auto|apply nest_goes; auto|intros; eapply nest_cost; eauto].
  cbn [Nat.pow]. change (exps (RGrammar _ _ _)) with 0 in *. change (exps (RRule lChunk)) with 0 in *. lia.
Qed.
End Lua.

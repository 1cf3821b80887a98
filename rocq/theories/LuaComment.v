(** LuaComment.v - comments, quoted strings and a whole chunk of grammar/lua.go. *)
From Verif Require Export LuaLex.
From Coq Require Import Lia ZifyBool.
From Verif Require Import ReaderSteps ReaderScan.

(** Comments behind [--]: how they end, in well-formed text. *)
Definition no_nl (v : bytes) : Prop := ~ In x0a v.
Definition line_comment : reader := RSeq [RLit (lit "--"); RTo (RRune 0x0A)].
Definition long_comment : reader := long lua_cmt_cell (RLit (lit "--[")).

Section Comment.
Context {L : GoLib} (e : env).
Lemma comment_is : lua_comment = RAny [long_comment; line_comment]. Proof. reflexivity. Qed.
Lemma tk_nl : takes e (RRune 0x0A) (is 0x0A). Proof. apply tk_rune; lia. Qed.
Lemma no_nl_first b : no_nl b -> first (is 0x0A) b = false.
Proof. destruct b as [|x b]; auto. intros N. cbn [first]. destruct (is 0x0A x) eqn:Q; auto. apply is_byte in Q. elim N. left. auto. Qed.
Lemma no_nl_app u v : no_nl (u ++ v) -> no_nl u /\ no_nl v.
Proof. unfold no_nl. rewrite in_app_iff. tauto. Qed.
Lemma first_app g (u v : bytes) : u <> [] -> first g (u ++ v) = first g u. Proof. destruct u; [congruence|reflexivity]. Qed.
Lemma to_nl v t : wf_text v -> no_nl v -> out e (ITo (RRune 0x0A)) (v ++ x0a :: t) true (x0a :: t).
Proof.
  intros (rs & F & ->). induction F as [|r rs Hr F IH]; intros N c.
  - cbn [utf8s flat_map app]. eapply i_to_hit. eapply takes_yes; [apply tk_nl|reflexivity].
  - cbn [utf8s flat_map] in *. change (flat_map utf8 rs) with (utf8s rs) in *. apply no_nl_app in N as [N1 N2]. rewrite <- app_assoc. eapply i_to_next.
    + eapply takes_no; [apply tk_nl|]. rewrite first_app by apply utf8_nonnil. apply no_nl_first; auto.
    + apply step_utf8; auto.
    + apply IH; auto.
Qed.
Lemma to_none v : wf_text v -> no_nl v -> out e (ITo (RRune 0x0A)) v false [].
Proof.
  intros (rs & F & ->). induction F as [|r rs Hr F IH]; intros N c.
  - eapply i_to_stop; [eapply takes_no; [apply tk_nl|reflexivity]|reflexivity].
  - cbn [utf8s flat_map] in *. change (flat_map utf8 rs) with (utf8s rs) in *. apply no_nl_app in N as [N1 N2]. eapply i_to_next.
    + eapply takes_no; [apply tk_nl|]. rewrite first_app by apply utf8_nonnil. apply no_nl_first; auto.
    + apply step_utf8; auto.
    + apply IH; auto.
Qed.
Lemma o_line v t : wf_text v -> no_nl v -> out e (IR line_comment) (lit "--" ++ v ++ x0a :: t) true (x0a :: t).
Proof. intros W N. apply o_seq. eapply os_next; [apply o_lit|]. eapply os_next; [|apply os_nil]. intros c. apply (e_to e _ c _ true c (x0a :: t)). apply to_nl; auto. Qed.
Lemma o_line_none v : wf_text v -> no_nl v -> out e (IR line_comment) (lit "--" ++ v) false (lit "--" ++ v).
Proof. intros W N. eapply o_seq_no. eapply os_next; [apply o_lit|]. apply os_stop. intros c. apply (e_to e _ c _ false c []). apply to_none; auto. Qed.
Lemma nl_split b : no_nl b \/ exists v t, b = v ++ x0a :: t /\ no_nl v.
Proof.
  induction b as [|x b IH]; [left; intros []|]. destruct (byte_eq_dec x x0a) as [->|N]; [right; exists [], b; split; auto; intros []|].
  destruct IH as [H|(v & t & -> & H)]; [left; intros [Q|Q]; [congruence|auto]|]. right. exists (x :: v), t. split; auto. intros [Q|Q]; [congruence|auto].
Qed.
Lemma cmt_opening k b : lit "--" ++ opening k ++ b = lit "--[" ++ eqs k ++ x5b :: b.
Proof. unfold opening. cbn [app lit]. rewrite <- app_assoc. reflexivity. Qed.
Lemma o_long_lit b : ~ begins b (lit "--[") -> out e (IR long_comment) b false b.
Proof.
  intros N. eapply o_seq_no, os_stop. eapply o_seq_no, os_stop, o_lit_no. intros t ->. apply N. exists t. reflexivity.
Qed.
(** The long form fails unless an opening bracket and its end stand there. *)
Lemma long_fails b : wf_text b -> (forall k b2 rest, b = lit "--" ++ opening k ++ b2 -> ~ long_ends k b2 rest) ->
  forall c, exists c', eats e (IR long_comment) c b false c' b.
Proof.
  intros W N c. destruct (lit_cases (lit "--[") b) as [[t ->]|Q].
  2:{ exists c. apply o_long_lit. intros [t ->]. exact (Q t eq_refl). }
  destruct (eqs_span t) as (k & t2 & -> & N1). destruct (lit_cases [x5b] t2) as [[b2 ->]|Q].
  - apply (long_no e lua_cmt_cell (RLit (lit "--[")) (lit "--[") k b2); [apply o_lit| |].
    + rewrite app_assoc in W. cbn [app] in W. eapply wf_behind; [exact W|reflexivity].
    + intros rest. apply (N k b2 rest). rewrite cmt_opening. reflexivity.
  - apply (long_open e lua_cmt_cell (RLit (lit "--[")) (lit "--[") k t2); [apply o_lit|exact N1|]. intros [q ->]. exact (Q q eq_refl).
Qed.
Lemma comment_long c b c' rest : eats e (IR long_comment) c b true c' rest -> eats e (IR lua_comment) c b true c' rest.
Proof. intros D. rewrite comment_is. apply (e_any e _ c b true c' rest). apply i_any_hit. exact D. Qed.
Lemma comment_line c b c' ok rest : eats e (IR long_comment) c b false c' b -> eats e (IR line_comment) c' b ok c' rest -> eats e (IR lua_comment) c b ok c' (if ok then rest else b).
Proof.
  intros D1 D2. rewrite comment_is. apply (e_any e _ c b ok c' rest). eapply i_any_next; [exact D1|]. destruct ok; [apply i_any_hit; exact D2|]. eapply i_any_next; [exact D2|apply i_any_nil].
Qed.
Lemma o_comment_no b : ~ begins b (lit "--") -> out e (IR lua_comment) b false b.
Proof.
  intros N c. apply (comment_line c b c false b).
  - apply o_long_lit. intros [t ->]. apply N. exists (x5b :: t). reflexivity.
  - revert c. eapply o_seq_no, os_stop, o_lit_no. intros t ->. apply N. exists t. reflexivity.
Qed.

(** Quoted strings as alternatives of LuaString *)
Lemma string_is : lua_string = RAny [lua_quoted x22; lua_quoted x27; long lua_str_cell (RRune 0x5b)]. Proof. reflexivity. Qed.
Lemma o_other q b : bz q < 128 -> ~ begins b [q] -> out e (IR (lua_quoted q)) b false b.
Proof. intros Q N. eapply o_seq_no. apply os_stop. apply (rune_no e q); auto. Qed.
Lemma o_no_bracket b : ~ begins b [x5b] -> out e (IR (long lua_str_cell (RRune 0x5b))) b false b.
Proof. intros N. eapply o_seq_no, os_stop. eapply o_seq_no, os_stop. apply (rune_no e x5b); [reflexivity|auto]. Qed.
Definition quote (q : byte) : Prop := q = x22 \/ q = x27.
Lemma quote_ok q : quote q -> bz q < 128 /\ q <> x5c /\ q <> x5b.
Proof. intros [->| ->]; (split; [reflexivity|split; discriminate]). Qed.
Lemma string_quoted q b ok b' : quote q -> out e (IR (lua_quoted q)) (q :: b) ok b' -> out e (IR lua_string) (q :: b) ok (if ok then b' else q :: b).
Proof.
  intros [->| ->] O; rewrite string_is; destruct ok.
  - apply o_any, oa_hit. exact O.
  - eapply o_any_no. eapply oa_next; [exact O|]. assert (b' = x22 :: b) as ->.
    { pose proof (O []) as D. inversion D; subst; try discriminate. reflexivity. }
    eapply oa_next; [apply (o_other x27); [reflexivity|intros [t Q]; discriminate]|]. eapply oa_next; [apply o_no_bracket; intros [t Q]; discriminate|apply oa_nil].
  - apply o_any. eapply oa_next; [apply (o_other x22); [reflexivity|intros [t Q]; discriminate]|]. apply oa_hit. exact O.
  - eapply o_any_no. eapply oa_next; [apply (o_other x22); [reflexivity|intros [t Q]; discriminate]|]. eapply oa_next; [exact O|]. assert (b' = x27 :: b) as ->.
    { pose proof (O []) as D. inversion D; subst; try discriminate. reflexivity. }
    eapply oa_next; [apply o_no_bracket; intros [t Q]; discriminate|apply oa_nil].
Qed.
Lemma string_stuck q b : quote q -> stuck e (IR (lua_quoted q)) (q :: b) -> stuck e (IR lua_string) (q :: b).
Proof.
  intros [->| ->] K; rewrite string_is; apply k_any; [apply ka_here; exact K|]. eapply ka_next; [apply (o_other x22); [reflexivity|intros [t Q]; discriminate]|]. apply ka_here. exact K.
Qed.
Lemma k_skip sk rs b : stuck e (ISeq (interleave sk rs)) b -> stuck e (IR (RSkipSeq sk rs)) b.
Proof. intros H c ok c' b' D. inversion D; subst; try discriminate. eapply H; eauto. Qed.
Lemma o_skip_no sk rs b b' : out e (ISeq (interleave sk rs)) b false b' -> out e (IR (RSkipSeq sk rs)) b false b.
Proof. intros H c. apply (e_skip e sk rs c b false c b'). apply H. Qed.
End Comment.

(** A name followed by a string that does not end. *)
Section Chunk.
Context {L : GoLib}.
Notation E := lua_env.
Lemma env_Chunk : r_reader (get_rule E lChunk) = Some (RRule lBlock). Proof. vm_compute. reflexivity. Qed.
Lemma env_Block : r_reader (get_rule E lBlock) = Some (RSkipSeq lua_skiper [RZom (RRule lStat); ROpt (RRule lRetStat)]). Proof. vm_compute. reflexivity. Qed.
Lemma env_Stat : exists rs, r_reader (get_rule E lStat) = Some (RAny (RRune 0x3B :: RSeq [RRule lVarList; RRune 0x3D; RRule lExpList] :: rs)). Proof. eexists. vm_compute. reflexivity. Qed.
Lemma env_VarList : exists rs, r_reader (get_rule E lVarList) = Some (RSkipSeq (RZom ws) (RRule lVar :: rs)). Proof. eexists. vm_compute. reflexivity. Qed.
Lemma env_Var : exists rs, r_reader (get_rule E lVar) = Some (RSeq [RAny (RRule lName :: rs); RZom (RRule lVarSuffix)]). Proof. eexists. vm_compute. reflexivity. Qed.
Lemma env_Name : r_reader (get_rule E lName) = Some name_reader. Proof. vm_compute. reflexivity. Qed.
Definition args_reader : reader := RSkipSeq lua_skiper [ROpt (RSeq [RRune 0x3A; RRule lName]); RRule lFuncArgs].
Lemma env_VarSuffix : exists rs, r_reader (get_rule E lVarSuffix) = Some (RSkipSeq lua_skiper (RZom args_reader :: rs)). Proof. eexists. vm_compute. reflexivity. Qed.
Lemma env_FuncArgs : exists rs, r_reader (get_rule E lFuncArgs) = Some (RAny [RSkipSeq lua_skiper (RRune 0x28 :: rs); RRule lTableConstructor; RRule lLiteralString]). Proof. eexists. vm_compute. reflexivity. Qed.
Lemma env_Table : exists rs, r_reader (get_rule E lTableConstructor) = Some (RSkipSeq lua_skiper (RRune 0x7B :: rs)). Proof. eexists. vm_compute. reflexivity. Qed.
Lemma env_LiteralString : r_reader (get_rule E lLiteralString) = Some lua_string. Proof. vm_compute. reflexivity. Qed.
Lemma env_Comment : r_reader (get_rule E lComment) = Some lua_comment. Proof. vm_compute. reflexivity. Qed.
Lemma tk_ws : takes E ws (one_of [x20; x0d; x0a; x09]). Proof. apply takes_byte, rb_any. reflexivity. Qed.
Definition starts (x : byte) : bool := negb (one_of [x20; x0d; x0a; x09; x2d] x).
Lemma o_wss x b : starts x = true -> out E (IR (RZom ws)) (x :: b) true (x :: b).
Proof. intros S. apply o_zom, or_stop. eapply o_takes_no; [apply tk_ws|]. cbn [first]. destruct x; try discriminate S; reflexivity. Qed.
Lemma o_skiper x b : starts x = true -> out E (IR lua_skiper) (x :: b) true (x :: b).
Proof.
  intros S. apply (o_zom E (RAny [ws; RRule lComment])), or_stop. eapply o_any_no. eapply oa_next; [eapply o_takes_no; [apply tk_ws|cbn [first]; destruct x; try discriminate S; reflexivity]|].
  eapply oa_next; [|apply oa_nil]. eapply o_rule; [apply env_Comment|]. apply o_comment_no. intros [t Q]. injection Q as -> _. discriminate S.
Qed.
Lemma o_rune_no n x b : 0 <= n < 128 -> is n x = false -> out E (IR (RRune n)) (x :: b) false (x :: b).
Proof. intros N H. eapply o_takes_no; [apply tk_rune; auto|]. exact H. Qed.
Lemma name_stuck w q u : l_name w -> quote q -> l_chars q u -> stuck E (IR lua) (w ++ q :: u).
Proof.
  intros Nw Q J. destruct (quote_ok q Q) as (Q1 & Q2 & Q3).
  assert (Qs : starts q = true) by (destruct Q as [->| ->]; reflexivity).
  assert (O : out E (IR (RRule lName)) (w ++ q :: u) true (q :: u)).
  { eapply o_rule; [apply env_Name|]. destruct Nw as (x & t & -> & X & T). apply o_seq. cbn [app]. eapply os_next; [eapply o_takes_yes; [apply tk_head|apply d_let_is; auto]|].
    eapply os_next; [|apply os_nil]. apply o_zom. eapply o_rep_takes; [apply tk_more|apply (all_bytes d_word_is); auto|]. destruct Q as [->| ->]; reflexivity. }
  destruct Nw as (x & t & -> & X & T). cbn [app] in *. assert (Xs : starts x = true) by (clear -X; unfold l_letter in X; destruct x; try reflexivity; cbn in X; destruct X as [X|[X|X]]; (discriminate X || lia)).
  assert (Xsemi : is 0x3B x = false) by (clear -X; unfold l_letter in X; destruct x; try reflexivity; cbn in X; destruct X as [X|[X|X]]; (discriminate X || lia)).
  eapply k_grammar; [apply env_Chunk|]. eapply k_rule; [apply env_Block|]. apply k_skip. cbn [interleave]. eapply ks_next; [apply o_skiper; exact Xs|]. apply ks_here, k_zom, kr_here.
  destruct env_Stat as [rs1 R1]. eapply k_rule; [exact R1|]. apply k_any. eapply ka_next; [apply o_rune_no; [lia|exact Xsemi]|]. apply ka_here, k_seq, ks_here.
  destruct env_VarList as [rs2 R2]. eapply k_rule; [exact R2|]. apply k_skip. cbn [interleave]. eapply ks_next; [apply o_wss; exact Xs|]. apply ks_here.
  destruct env_Var as [rs3 R3]. eapply k_rule; [exact R3|]. apply k_seq. eapply ks_next; [apply o_any, oa_hit; exact O|]. apply ks_here, k_zom, kr_here.
  destruct env_VarSuffix as [rs4 R4]. eapply k_rule; [exact R4|]. apply k_skip. cbn [interleave]. eapply ks_next; [apply o_skiper; exact Qs|]. apply ks_here, k_zom, kr_here.
  apply k_skip. cbn [interleave]. eapply ks_next; [apply o_skiper; exact Qs|].
  eapply ks_next; [eapply o_opt_no, o_seq_no, os_stop, o_rune_no; [lia|destruct Q as [->| ->]; reflexivity]|]. eapply ks_next; [apply o_skiper; exact Qs|]. apply ks_here.
  destruct env_FuncArgs as [rs5 R5]. eapply k_rule; [exact R5|]. apply k_any.
  eapply ka_next; [eapply o_skip_no; cbn [interleave]; eapply os_next; [apply o_skiper; exact Qs|]; apply os_stop, o_rune_no; [lia|destruct Q as [->| ->]; reflexivity]|].
  destruct env_Table as [rs6 R6]. eapply ka_next.
  { eapply o_rule; [exact R6|]. eapply o_skip_no; cbn [interleave]; eapply os_next; [apply o_skiper; exact Qs|]; apply os_stop, o_rune_no; [lia|destruct Q as [->| ->]; reflexivity]. }
  apply ka_here. eapply k_rule; [apply env_LiteralString|]. apply string_stuck; auto. apply k_quoted; auto.
Qed.
End Chunk.

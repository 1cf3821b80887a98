(** LuaStyleRules.v - the rules of the Lua grammar on texts of the style: tokens, and where a rule balks. *)
From Verif Require Export LuaStyleKit.
From Coq Require Import Lia ZifyBool.
From Verif Require Import ReaderSteps ReaderScan.

(** What may follow an operand and an expression *)
Definition opf (b : bool) (g r : bytes) : Prop := fol g r /\ (b = false -> ~ head_in [x2c; x3d] r).
Definition ends (b : bool) (g r : bytes) : Prop := fol g r /\ (forall o, In o lua_binops -> ~ begins r o) /\ ~ head_in [x3d] r /\ (b = false -> ~ head_in [x2c] r).
(** What ends a block *)
Definition shut (r : bytes) : Prop := r = [] \/ exists k g q, In k (map lit ["end"; "else"; "elseif"; "until"]%string) /\ r = k ++ g ++ q /\ fol g q /\ ~ head_in [x2c; x3d] q.

Lemma next_fol g r : blank g -> next r -> (g = [] -> r = [] \/ head_in [x3b] r) -> fol g r.
Proof. intros G N T. split; auto. split; [apply next_quiet; auto|]. intros E. destruct (T E) as [->|H]; [left; auto|right]. destruct r; cbn in *; tauto. Qed.
Lemma next_ends b g r : blank g -> next r -> (g = [] -> r = [] \/ head_in [x3b] r) -> ends b g r.
Proof.
  intros G N T. split; [apply next_fol; auto|]. split; [apply next_no_binop; auto|]. split; [apply next_not; auto|]. intros _. apply next_not; auto.
Qed.
Lemma ends_opf b g r : ends b g r -> opf b g r.
Proof. intros (F & _ & N & C). split; auto. intros ->. specialize (C eq_refl). destruct r; cbn in *; tauto. Qed.
Lemma word_kw w r : In w lua_keywords -> word_end r -> w <> lit "and" -> w <> lit "or" -> next (w ++ r).
Proof.
  intros I W A O. right; right; right. split; [apply name_first, kw_name; auto|].
  cbn in I. repeat match type of I with _ \/ _ => destruct I as [I|I] end; try contradiction; subst; try (elim (A eq_refl)); try (elim (O eq_refl)); split; intros [t E]; discriminate E.
Qed.
Lemma shut_next r : shut r -> next r.
Proof.
  intros [->|(k & g & q & I & -> & F & _)]; [left; auto|]. apply word_kw; [|apply fol_word; auto| |]; cbn in I;
    repeat match type of I with _ \/ _ => destruct I as [I|I] end; try contradiction; subst; try discriminate; cbn; tauto.
Qed.

Section Rules.
Context {L : GoLib} (e : env) (HE : forall i, r_reader (get_rule e i) = nth_error lua_readers i).
Notation goes := (goes e). Notation balks := (balks e). Notation rounds := (rounds e). Notation chain := (chain e). Notation broken := (broken e).
Notation W := (RZom ws). Notation C := lua_skiper.
(** The parts of rules that are no rules *)
Definition NA : reader := RSkipSeq C [ROpt (RSeq [RRune 0x3a; RRule lName]); RRule lFuncArgs].
Definition PAREN : reader := RSkipSeq C [RRune 0x28; RRule lExp; RRune 0x29].
Definition VAREXP : reader := RAny [RRule lVar; PAREN].
Definition IDX : reader := RAny [RSkipSeq C [RRune 0x5b; RRule lExp; RRune 0x5d]; RSeq [RRune 0x2e; RRule lName]].
Definition ASSIGN : reader := RSeq [RRule lVarList; RRune 0x3d; RRule lExpList].
Definition COMMA_EXP : reader := RSkipSeq C [RRune 0x2c; RRule lExp].
Definition COMMA_VAR : reader := RSkipSeq W [RRune 0x2c; RRule lVar].
Definition COMMA_NAME : reader := RSeq [RRune 0x2c; RRule lName].
Definition SEP_FIELD : reader := RSeq [RRule lFieldSep; RRule lField].
Definition COMMA_ATT : reader := RSkipSeq W [RRune 0x2c; RRule lName; RRule lAttrib].
Definition DOT_NAME : reader := RSkipSeq W [RRune 0x2e; RRule lName].
Definition COLON_NAME : reader := RSkipSeq W [RRune 0x3a; RRule lName].
Definition ELSEIF : reader := RSkipSeq W [RLit (lit "elseif"); RRule lExp; RLit (lit "then"); RRule lBlock].
Definition ELSE : reader := RSkipSeq W [RLit (lit "else"); RRule lBlock].
Ltac is_rule := rewrite HE; reflexivity.
Lemma is_Name : r_reader (get_rule e lName) = Some name_reader. Proof. is_rule. Qed.
Lemma is_String : r_reader (get_rule e lLiteralString) = Some lua_string. Proof. is_rule. Qed.
Lemma is_Comment : r_reader (get_rule e lComment) = Some lua_comment. Proof. is_rule. Qed.
Lemma is_UnOp : r_reader (get_rule e lUnOp) = Some (RAny (map (fun x => RLit (lit x)) ["-"; "not"; "#"; "~"]%string)). Proof. is_rule. Qed.
Definition binops_tried : list bytes := map lit [".."; "<="; "<"; ">="; ">"; "=="; "~="; "and"; "or"; "+"; "-"; "*"; "/"; "//"; "^"; "%"; "&"; "~"; "|"; ">>"; "<<"]%string.
Lemma is_BinOp : r_reader (get_rule e lBinOp) = Some (RAny (map RLit binops_tried)). Proof. is_rule. Qed.
Lemma is_FieldSep : r_reader (get_rule e lFieldSep) = Some (RAnyRune (lit ",;")). Proof. is_rule. Qed.
Lemma is_Field : r_reader (get_rule e lField) = Some (RAny [RSkipSeq C [RRune 0x5b; RRule lExp; RRune 0x5d; RRune 0x3d; RRule lExp];
  RSkipSeq C [RRule lName; RRune 0x3d; RRule lExp]; RRule lExp]). Proof. is_rule. Qed.
Lemma is_FieldList : r_reader (get_rule e lFieldList) = Some (RSkipSeq C [RRule lField; RZom SEP_FIELD; ROpt (RRule lFieldSep)]). Proof. is_rule. Qed.
Lemma is_Table : r_reader (get_rule e lTableConstructor) = Some (RSkipSeq C [RRune 0x7b; ROpt (RRule lFieldList); RRune 0x7d]). Proof. is_rule. Qed.
Lemma is_Params : r_reader (get_rule e lFuncParams) = Some (RAny [RSkipSeq C [RRule lNameList; ROpt (RSkipSeq C [RRune 0x2c; RLit (lit "...")])]; RLit (lit "...")]). Proof. is_rule. Qed.
Lemma is_Body : r_reader (get_rule e lFuncBody) = Some (RSkipSeq C [RRune 0x28; ROpt (RRule lFuncParams); RRune 0x29; RRule lBlock; RLit (lit "end")]). Proof. is_rule. Qed.
Lemma is_FuncDef : r_reader (get_rule e lFuncDef) = Some (RSkipSeq W [RLit (lit "function"); RRule lFuncBody]). Proof. is_rule. Qed.
Lemma is_Args : r_reader (get_rule e lFuncArgs) = Some (RAny [RSkipSeq C [RRune 0x28; ROpt (RRule lExpList); RRune 0x29]; RRule lTableConstructor; RRule lLiteralString]). Proof. is_rule. Qed.
Lemma is_FuncCall : r_reader (get_rule e lFuncCall) = Some (RSeq [VAREXP; RMany NA]). Proof. is_rule. Qed.
Lemma is_PrefixExp : r_reader (get_rule e lPrefixExp) = Some (RSeq [VAREXP; RZom NA]). Proof. is_rule. Qed.
Lemma is_FinalExp : r_reader (get_rule e lFinalExp) = Some (RAny [RLit (lit "nil"); RLit (lit "false"); RLit (lit "true"); lua_numeral; RRule lLiteralString; RLit (lit "...");
  RRule lFuncDef; RSkipSeq C [RRule lUnOp; RRule lExp]; RRule lTableConstructor; RRule lPrefixExp]). Proof. is_rule. Qed.
Lemma is_Exp : r_reader (get_rule e lExp) = Some (RAny [RSkipSeq W [RRule lFinalExp; RRule lBinOp; RRule lExp]; RRule lFinalExp]). Proof. is_rule. Qed.
Lemma is_ExpList : r_reader (get_rule e lExpList) = Some (RSkipSeq C [RRule lExp; RZom COMMA_EXP]). Proof. is_rule. Qed.
Lemma is_NameList : r_reader (get_rule e lNameList) = Some (RSkipSeq W [RRule lName; RZom COMMA_NAME]). Proof. is_rule. Qed.
Lemma is_VarSuffix : r_reader (get_rule e lVarSuffix) = Some (RSkipSeq C [RZom NA; IDX]). Proof. is_rule. Qed.
Lemma is_Var : r_reader (get_rule e lVar) = Some (RSeq [RAny [RRule lName; RSkipSeq C [RRune 0x28; RRule lExp; RRune 0x29; RRule lVarSuffix]]; RZom (RRule lVarSuffix)]). Proof. is_rule. Qed.
Lemma is_VarList : r_reader (get_rule e lVarList) = Some (RSkipSeq W [RRule lVar; RZom COMMA_VAR]). Proof. is_rule. Qed.
Lemma is_FuncName : r_reader (get_rule e lFuncName) = Some (RSkipSeq W [RRule lName; RZom DOT_NAME; ROpt COLON_NAME]). Proof. is_rule. Qed.
Lemma is_Label : r_reader (get_rule e lLabel) = Some (RSeq [RLit (lit "::"); RRule lName; RLit (lit "::")]). Proof. is_rule. Qed.
Lemma is_RetStat : r_reader (get_rule e lRetStat) = Some (RSkipSeq W [RLit (lit "return"); ROpt (RRule lExpList); ROpt (RRune 0x3b)]). Proof. is_rule. Qed.
Lemma is_Attrib : r_reader (get_rule e lAttrib) = Some (ROpt (RSeq [RRune 0x3c; RRule lName; RRune 0x3e])). Proof. is_rule. Qed.
Lemma is_AttNameList : r_reader (get_rule e lAttNameList) = Some (RSkipSeq W [RRule lName; RRule lAttrib; RZom COMMA_ATT]). Proof. is_rule. Qed.
Lemma is_Break : r_reader (get_rule e lBreak) = Some (RLit (lit "break")). Proof. is_rule. Qed.
Lemma is_GoTo : r_reader (get_rule e lGoTo) = Some (RSkipSeq W [RLit (lit "goto"); RRule lName]). Proof. is_rule. Qed.
Lemma is_Do : r_reader (get_rule e lDo) = Some (RSkipSeq W [RLit (lit "do"); RRule lBlock; RLit (lit "end")]). Proof. is_rule. Qed.
Lemma is_While : r_reader (get_rule e lWhile) = Some (RSkipSeq W [RLit (lit "while"); RRule lExp; RLit (lit "do"); RRule lBlock; RLit (lit "end")]). Proof. is_rule. Qed.
Lemma is_Repeat : r_reader (get_rule e lRepeat) = Some (RSkipSeq W [RLit (lit "repeat"); RRule lBlock; RLit (lit "until"); RRule lExp]). Proof. is_rule. Qed.
Lemma is_IfElse : r_reader (get_rule e lIfElse) = Some (RSkipSeq W [RLit (lit "if"); RRule lExp; RLit (lit "then"); RRule lBlock; RZom ELSEIF; ROpt ELSE; RLit (lit "end")]). Proof. is_rule. Qed.
Lemma is_For : r_reader (get_rule e lFor) = Some (RSkipSeq W [RLit (lit "for"); RRule lName; RRune 0x3d; RRule lExp; RRune 0x2c; RRule lExp; ROpt (RSkipSeq W [RRune 0x2c; RRule lExp]);
  RLit (lit "do"); RRule lBlock; RLit (lit "end")]). Proof. is_rule. Qed.
Lemma is_ForEach : r_reader (get_rule e lForEach) = Some (RSkipSeq W [RLit (lit "for"); RRule lNameList; RLit (lit "in"); RRule lExpList; RLit (lit "do"); RRule lBlock; RLit (lit "end")]). Proof. is_rule. Qed.
Lemma is_Func : r_reader (get_rule e lFunc) = Some (RSkipSeq W [RLit (lit "function"); RRule lFuncName; RRule lFuncBody]). Proof. is_rule. Qed.
Lemma is_LocalFunc : r_reader (get_rule e lLocalFunc) = Some (RSkipSeq W [RLit (lit "local"); RLit (lit "function"); RRule lName; RRule lFuncBody]). Proof. is_rule. Qed.
Lemma is_LocalAtt : r_reader (get_rule e lLocalAtt) = Some (RSkipSeq W [RLit (lit "local"); RRule lAttNameList; ROpt (RSkipSeq W [RRune 0x3d; RRule lExpList])]). Proof. is_rule. Qed.
Definition stat_words : list reader := [RRule lGoTo; RRule lDo; RRule lWhile; RRule lRepeat; RRule lIfElse; RRule lFor; RRule lForEach; RRule lFunc; RRule lLocalFunc; RRule lLocalAtt].
Lemma is_Stat : r_reader (get_rule e lStat) = Some (RAny (RRune 0x3b :: ASSIGN :: RRule lLabel :: RRule lBreak :: stat_words ++ [RRule lFuncCall])). Proof. is_rule. Qed.
Lemma is_Block : r_reader (get_rule e lBlock) = Some (RSkipSeq C [RZom (RRule lStat); ROpt (RRule lRetStat)]). Proof. is_rule. Qed.
Lemma is_Chunk : r_reader (get_rule e lChunk) = Some (RRule lBlock). Proof. is_rule. Qed.

(* ---------------------------------------------------------------- skipping *)

Lemma skips_w : skips e W. Proof. apply skips_ws. Qed.
Lemma skips_c : skips e C.
Proof.
  intros g r G [N D]. apply go_zom. induction G as [|x g X G IH].
  - apply r_stop. apply any_no; [|apply any_no; [|apply any_nil]].
    + apply no_out. eapply o_takes_no; [apply tk_white|]. destruct (first (one_of whites) r) eqn:F; auto. apply first_head in F; [contradiction|reflexivity].
    + eapply no_rule; [apply is_Comment|]. apply no_out, o_comment_no. auto.
  - cbn [app]. eapply r_next; [|exact IH]. apply any_hit. apply go_out. eapply o_takes_yes; [apply tk_white|]. apply one_of_in. exact X.
Qed.
Hint Resolve skips_w skips_c : core.

(* ---------------------------------------------------------------- tokens *)

Lemma go_name w r : l_name w -> word_end r -> goes (RRule lName) (w ++ r) r.
Proof.
  intros N E. eapply go_rule; [apply is_Name|]. apply go_out. destruct N as (x & t & -> & X & F). cbn [app]. apply o_seq.
  eapply os_next; [eapply o_takes_yes; [apply tk_head|apply d_let_is; auto]|]. eapply os_next; [|apply os_nil]. apply o_zom.
  eapply o_rep_takes; [apply tk_more|apply (all_bytes d_word_is); auto|exact E].
Qed.
Lemma no_name r : first d_let r = false -> balks (RRule lName) r.
Proof. intros F. eapply no_rule; [apply is_Name|]. apply no_out. eapply o_seq_no, os_stop, o_takes_no; [apply tk_head|auto]. Qed.
Lemma no_numeral r : first d_dig r = false -> balks lua_numeral r.
Proof.
  intros F. apply no_out. destruct (numeral_run e r) as [(w & t & (-> & P & _) & _)|[_ O]]; [|exact O]. exfalso.
  destruct P as [(i & f & x & -> & S & _)|(m & i & f & x & -> & _)]; [|discriminate F]. rewrite <- app_assoc in F. eapply first_some; [exact d_dig_is|exact F|reflexivity|exact S].
Qed.
Definition num_char (x : byte) : bool := d_word x || is 0x2e x || is 0x2b x || is 0x2d x.
Lemma num_some g (P : byte -> Prop) w : (forall x, g x = true <-> P x) -> (forall x, g x = true -> num_char x = true) -> some P w -> forallb num_char w = true.
Proof. intros H K [_ F]. apply forallb_forall. intros x I. apply K, H. rewrite Forall_forall in F. auto. Qed.
Lemma dig_num x : d_dig x = true -> num_char x = true. Proof. unfold num_char, d_word. intros ->. rewrite !orb_true_r. reflexivity. Qed.
Lemma hex_num x : d_hex x = true -> num_char x = true. Proof. destruct x; intros H; try discriminate H; reflexivity. Qed.
Lemma num_exp m x : forallb num_char m = true -> l_exp m x -> forallb num_char x = true.
Proof.
  intros M [->|(y & s & d & -> & Y & S & D)]; [reflexivity|]. cbn. rewrite forallb_app. rewrite forallb_forall in M. rewrite (M y Y). rewrite (num_some d_dig l_digit d d_dig_is dig_num D).
  destruct S as [->|[-> | ->] ]; reflexivity.
Qed.
Lemma num_frac g (P : byte -> Prop) f : (forall x, g x = true <-> P x) -> (forall x, g x = true -> num_char x = true) -> l_frac P f -> forallb num_char f = true.
Proof. intros H K [->|(d & -> & D)]; [reflexivity|]. cbn. eapply num_some; eauto. Qed.
Lemma num_chars w : l_numeral w -> forallb num_char w = true.
Proof.
  intros [(i & f & x & -> & I & F & X)|(m & i & f & x & -> & M & I & F & X)]; cbn; rewrite ?forallb_app.
  - rewrite (num_some _ _ _ d_dig_is dig_num I), (num_frac _ _ _ d_dig_is dig_num F), (num_exp (lit "eE") _ eq_refl X). reflexivity.
  - rewrite (num_some _ _ _ d_hex_is hex_num I), (num_frac _ _ _ d_hex_is hex_num F), (num_exp (lit "pP") _ eq_refl X). cbn in M. intuition (subst; reflexivity).
Qed.
Lemma fol_num g r : fol g r -> first num_char (g ++ r) = false.
Proof.
  intros (G & _ & S). destruct G as [|x g X G].
  - cbn [app]. destruct (S eq_refl) as [->|H]; [reflexivity|]. destruct r as [|x t]; [reflexivity|]. cbn in H. intuition (subst; reflexivity).
  - cbn. cbn in X. intuition (subst; reflexivity).
Qed.
Lemma go_numeral w g r : l_numeral w -> fol g r -> goes lua_numeral (w ++ g ++ r) (g ++ r).
Proof.
  intros N F. apply go_out. destruct (numeral_run e (w ++ g ++ r)) as [(w' & t & (E & P & M) & O)|[X _]]; [|elim (X w (g ++ r) eq_refl N)].
  assert (Lw := M w (g ++ r) eq_refl N). assert (Lw' : (length w' <= length w)%nat) by (eapply run_prefix; [exact E|apply fol_num; exact F|apply num_chars; exact P]).
  assert (w' = w /\ t = g ++ r) as [-> ->]; auto. apply same_split; [auto|lia].
Qed.
Definition quote_ (q : byte) := In q [x22; x27].
Lemma quote_is_quote q : quote_ q -> quote q. Proof. cbn. unfold quote. intuition. Qed.
Lemma go_string q u r : quote_ q -> l_chars q u -> goes (RRule lLiteralString) (q :: u ++ q :: r) r.
Proof.
  intros Q U. eapply go_rule; [apply is_String|]. apply go_out. pose proof (quote_ok q (quote_is_quote q Q)) as (A & B & _).
  exact (string_quoted e q _ true r (quote_is_quote q Q) (o_quoted e q A B u r U)).
Qed.
Lemma no_long b : ~ head_in [x5b] b -> balks (long lua_str_cell (RRune 0x5b)) b.
Proof. intros N. apply no_out, o_no_bracket. intros [t ->]. apply N. cbn. auto. Qed.
Lemma no_string b : ~ head_in [x22; x27; x5b] b -> balks (RRule lLiteralString) b.
Proof.
  intros N. eapply no_rule; [apply is_String|]. rewrite string_is. apply any_no; [|apply any_no; [|apply any_no; [|apply any_nil]]].
  - apply no_out, o_other; [reflexivity|]. intros [t ->]. apply N. cbn. auto.
  - apply no_out, o_other; [reflexivity|]. intros [t ->]. apply N. cbn. auto.
  - apply no_long. intros H. apply N. destruct b; cbn in *; tauto.
Qed.
(** A bracket that opens no long string *)
Lemma no_string_key b : ~ head_in [x3d; x5b] b -> balks (RRule lLiteralString) (x5b :: b).
Proof.
  intros N. eapply no_rule; [apply is_String|]. rewrite string_is. apply any_no; [|apply any_no; [|apply any_no; [|apply any_nil]]].
  - apply no_out, o_other; [reflexivity|]. intros [t E]. discriminate.
  - apply no_out, o_other; [reflexivity|]. intros [t E]. discriminate.
  - intros c. apply (long_open e lua_str_cell (RRune 0x5b) [x5b] 0 b); [apply (rune_yes e x5b); reflexivity| |]; intros [t ->]; apply N; cbn; auto.
Qed.

(* ---------------------------------------------------------------- balking *)

Lemma head_sub l m b : ~ head_in l b -> forallb (fun x => one_of l x) m = true -> ~ head_in m b.
Proof. intros N F H. apply N. destruct b as [|x b]; [auto|]. cbn in *. rewrite forallb_forall in F. apply one_of_in. apply F. auto. Qed.
Lemma no_skip_lit sk k rs g b : skips e sk -> blank g -> solid b -> ~ begins b k -> balks (RSkipSeq sk (RLit k :: rs)) (g ++ b).
Proof. intros K G S N. apply no_skip; auto. apply broken_here, no_lit. auto. Qed.
Lemma no_skip_rune sk x n rs g b : bz x = n -> n < 128 -> skips e sk -> blank g -> solid b -> ~ head_in [x] b -> balks (RSkipSeq sk (RRune n :: rs)) (g ++ b).
Proof. intros E H K G S N. apply no_skip; auto. apply broken_here. eapply no_rune; eauto. Qed.
Lemma no_table g b : blank g -> solid b -> ~ head_in [x7b] b -> balks (RRule lTableConstructor) (g ++ b).
Proof. intros G S N. eapply no_rule; [apply is_Table|]. apply (no_skip_rune _ x7b); auto. lia. Qed.
Lemma no_args0 b : solid b -> ~ head_in [x28; x7b; x22; x27] b -> (forall t, b = x5b :: t -> ~ head_in [x3d; x5b] t) -> balks (RRule lFuncArgs) b.
Proof.
  intros S N K. eapply no_rule; [apply is_Args|]. apply any_no; [|apply any_no; [|apply any_no; [|apply any_nil]]].
  - apply (no_skip_rune C x28 0x28 _ [] b); auto; [lia|apply blank_nil|]. eapply head_sub; [exact N|reflexivity].
  - apply (no_table []); auto; [apply blank_nil|]. eapply head_sub; [exact N|reflexivity].
  - destruct b as [|x t]; [apply no_string; cbn; auto|]. destruct (Byte.byte_eq_dec x x5b) as [->|X]; [apply no_string_key; auto|].
    apply no_string. cbn in *. intuition.
Qed.
(** No arguments follow. *)
Definition no_call (b : bytes) : Prop := solid b /\ ~ head_in [x28; x7b; x22; x27] b /\ (forall t, b = x5b :: t -> ~ head_in [x3d; x5b] t) /\ (forall t, b = x3a :: t -> first d_let t = false).
Lemma quiet_no_call b : quiet b -> no_call b.
Proof.
  intros (S & N & Q & _). split; auto. split; [eapply head_sub; [exact N|reflexivity]|]. split.
  - intros t ->. elim N. cbn. tauto.
  - intros t E. destruct (Q t E) as [u ->]. reflexivity.
Qed.
Lemma no_na g b : blank g -> no_call b -> balks NA (g ++ b).
Proof.
  intros G (S & N & K & Q). apply no_skip; auto. eapply broken_next with (g := []) (b1 := b); auto; [|apply blank_nil|apply broken_here, no_args0; auto].
  cbn [app]. apply go_opt_no. apply no_seq. destruct b as [|x t]; [apply halts_here; eapply (no_rune e x3a); [reflexivity|lia|cbn; auto]|].
  destruct (Byte.byte_eq_dec x x3a) as [->|X]; [|apply halts_here; eapply (no_rune e x3a); [reflexivity|lia|cbn; intuition congruence]].
  eapply halts_next; [apply (go_rune e x3a); [reflexivity|lia]|]. apply halts_here. apply no_name. auto.
Qed.
(** Nor an index *)
Lemma no_idx b : quiet b -> balks IDX b.
Proof.
  intros (S & N & _ & Q). apply any_no; [|apply any_no; [|apply any_nil]].
  - apply (no_skip_rune C x5b 0x5b _ [] b); auto; [lia|apply blank_nil|]. eapply head_sub; [exact N|reflexivity].
  - apply no_seq. destruct b as [|x t]; [apply halts_here; eapply (no_rune e x2e); [reflexivity|lia|cbn; auto]|].
    destruct (Byte.byte_eq_dec x x2e) as [->|X]; [|apply halts_here; eapply (no_rune e x2e); [reflexivity|lia|cbn; intuition congruence]].
    eapply halts_next; [apply (go_rune e x2e); [reflexivity|lia]|]. apply halts_here. apply no_name. destruct (Q t eq_refl) as [u ->]. reflexivity.
Qed.
Lemma no_suffix g b : blank g -> quiet b -> balks (RRule lVarSuffix) (g ++ b).
Proof.
  intros G Q. eapply no_rule; [apply is_VarSuffix|]. apply no_skip; auto; [apply Q|].
  eapply broken_next with (g := []) (b1 := b); auto; [|apply blank_nil|apply Q|apply broken_here, no_idx; auto].
  cbn [app]. apply go_zom, r_stop. apply (no_na []); [apply blank_nil|apply quiet_no_call; auto].
Qed.
(** No expression begins with these. *)
Definition no_exps : list byte := [x3d; x29; x5d; x7d; x2c; x3b].
Lemma no_var g b : blank g -> solid b -> ~ head_in [x28] b -> first d_let b = false -> balks (RRule lVar) (g ++ b).
Proof.
  intros G S N F. eapply no_rule; [apply is_Var|]. apply no_seq, halts_here. apply any_no; [|apply any_no; [|apply any_nil]].
  - apply no_name. destruct G as [|x g X G]; [exact F|]. cbn. cbn in X. intuition (subst; reflexivity).
  - apply (no_skip_rune C x28); auto. lia.
Qed.
Lemma no_varexp g b : blank g -> solid b -> ~ head_in [x28] b -> first d_let b = false -> balks VAREXP (g ++ b).
Proof. intros G S N F. apply any_no; [apply no_var; auto|]. apply any_no; [|apply any_nil]. apply (no_skip_rune C x28); auto. lia. Qed.
Lemma no_final b : b = [] \/ head_in no_exps b -> balks (RRule lFinalExp) b.
Proof.
  intros H. assert (S : solid b) by (destruct H as [->|H]; [apply solid_nil|destruct b as [|x t]; [elim H|]; apply solid_cons; cbn in *; intuition (subst; discriminate)]).
  assert (NL : forall x k, ~ In x no_exps -> ~ begins b (x :: k)) by (intros x k N [t ->]; destruct H as [H|H]; [discriminate|auto]).
  assert (F1 : first d_let b = false) by (destruct H as [->|H]; [reflexivity|]; destruct b; cbn in *; intuition (subst; reflexivity)).
  assert (F2 : first d_dig b = false) by (destruct H as [->|H]; [reflexivity|]; destruct b; cbn in *; intuition (subst; reflexivity)).
  assert (NH : forall l, forallb (fun x => negb (one_of no_exps x)) l = true -> ~ head_in l b).
  { intros l Fl I. destruct H as [->|H]; [auto|]. destruct b as [|x t]; [auto|]. cbn [head_in] in *. rewrite forallb_forall in Fl. specialize (Fl x I). apply one_of_in in H. rewrite H in Fl. discriminate. }
  eapply no_rule; [apply is_FinalExp|]. pose proof (blank_nil) as B0.
  assert (LN : forall k, match k with [] => False | x :: _ => ~ In x no_exps end -> balks (RLit k) b) by (intros [|x k] Q; [elim Q|apply no_lit, NL; auto]).
  assert (Q : forall x l, forallb (fun y => negb (Byte.eqb x y)) l = true -> ~ In x l).
  { intros x l Fl I. rewrite forallb_forall in Fl. specialize (Fl x I). rewrite byte_eqb_refl in Fl. discriminate. }
  do 3 (apply any_no; [apply LN, Q; reflexivity|]). apply any_no; [apply no_numeral; auto|]. apply any_no; [apply no_string, NH; reflexivity|]. apply any_no; [apply LN, Q; reflexivity|].
  apply any_no; [|apply any_no; [|apply any_no; [|apply any_no; [|apply any_nil]]]].
  - eapply no_rule; [apply is_FuncDef|]. apply (no_skip_lit _ _ _ []); auto. apply NL, Q. reflexivity.
  - apply (no_skip e C _ [] b); auto. apply broken_here. eapply no_rule; [apply is_UnOp|]. cbn [map]. repeat (apply any_no; [apply LN, Q; reflexivity|]). apply any_nil.
  - apply (no_table []); auto.
  - eapply no_rule; [apply is_PrefixExp|]. apply no_seq, halts_here. apply (no_varexp []); auto.
Qed.
Lemma no_exp b : b = [] \/ head_in no_exps b -> balks (RRule lExp) b.
Proof.
  intros H. assert (S : solid b) by (destruct H as [->|H]; [apply solid_nil|destruct b as [|x t]; [elim H|]; apply solid_cons; cbn in *; intuition (subst; discriminate)]).
  eapply no_rule; [apply is_Exp|]. apply any_no; [|apply any_no; [apply no_final; auto|apply any_nil]].
  apply (no_skip e W _ [] b); auto; [apply blank_nil|]. apply broken_here, no_final. auto.
Qed.
Lemma no_exps_list g b : blank g -> b = [] \/ head_in no_exps b -> balks (RRule lExpList) (g ++ b).
Proof.
  intros G H. assert (S : solid b) by (destruct H as [->|H]; [apply solid_nil|destruct b as [|x t]; [elim H|]; apply solid_cons; cbn in *; intuition (subst; discriminate)]).
  eapply no_rule; [apply is_ExpList|]. apply no_skip; auto. apply broken_here, no_exp. auto.
Qed.

(* ---------------------------------------------------------------- operators *)

Lemma go_binop o g b : In o style_binops -> space g -> goes (RRule lBinOp) (o ++ g ++ b) (g ++ b).
Proof.
  intros I [G N]. eapply go_rule; [apply is_BinOp|]. apply go_out. pose proof (any_lits e binops_tried (o ++ g ++ b)) as H.
  assert (E : first_lit binops_tried (o ++ g ++ b) = Some o).
  { destruct G as [|x g X G]; [congruence|]. cbn [app]. generalize (g ++ b). intros t. unfold style_binops in I. cbn [map In] in I. cbn in X.
    repeat match type of I with _ \/ _ => destruct I as [I|I] end; try contradiction; subst o; repeat (destruct X as [<-|X]; [vm_compute; reflexivity|]); contradiction. }
  rewrite E in H. destruct H as (t & Et & O). apply app_inv_head in Et. subst t. exact O.
Qed.
Lemma no_binop b : (forall o, In o lua_binops -> ~ begins b o) -> balks (RRule lBinOp) b.
Proof.
  intros N. eapply no_rule; [apply is_BinOp|]. apply no_out. pose proof (any_lits e binops_tried b) as H. assert (E : first_lit binops_tried b = None).
  { apply first_lit_none. intros x I. apply N. cbn in *. tauto. }
  rewrite E in H. exact H.
Qed.
Lemma go_unop u b : In u (map lit ["-"; "#"; "~"]%string) -> goes (RRule lUnOp) (u ++ b) b.
Proof.
  intros I. eapply go_rule; [apply is_UnOp|]. cbn in I. destruct I as [<-|[<-|[<-|[]]]].
  - apply any_hit, go_lit.
  - apply any_next; [apply no_lit; intros [t E]; discriminate|]. apply any_next; [apply no_lit; intros [t E]; discriminate|]. apply any_hit, go_lit.
  - apply any_next; [apply no_lit; intros [t E]; discriminate|]. apply any_next; [apply no_lit; intros [t E]; discriminate|].
    apply any_next; [apply no_lit; intros [t E]; discriminate|]. apply any_hit, go_lit.
Qed.
Lemma go_not b : goes (RRule lUnOp) (lit "not" ++ b) b.
Proof. eapply go_rule; [apply is_UnOp|]. apply any_next; [apply no_lit; intros [t E]; discriminate|]. apply any_hit, go_lit. Qed.
Lemma binop_quiet o g b : In o style_binops -> space g -> quiet (o ++ g ++ b).
Proof.
  intros I [G N]. destruct G as [|x g X G]; [congruence|]. cbn [app]. cbn in I.
  repeat match type of I with _ \/ _ => destruct I as [I|I] end; try contradiction; subst o; (split; [split; [cbn; intuition discriminate|intros [t E]; try discriminate E; injection E as -> _; cbn in X; intuition discriminate]|]); (split; [cbn; intuition discriminate|]);
    (split; intros t E; try discriminate E; injection E as <-; eexists; reflexivity).
Qed.
Lemma binop_eq o g b : In o style_binops -> head_in [x3d] (o ++ g ++ b) -> exists t, o ++ g ++ b = x3d :: x3d :: t.
Proof.
  intros I H. cbn in I. repeat match type of I with _ \/ _ => destruct I as [I|I] end; try contradiction; subst o; cbn in H; try (intuition discriminate). eexists. reflexivity.
Qed.
Lemma binop_no_comma o g b : In o style_binops -> ~ head_in [x2c] (o ++ g ++ b).
Proof. intros I H. cbn in I. repeat match type of I with _ \/ _ => destruct I as [I|I] end; try contradiction; subst o; cbn in H; intuition discriminate. Qed.
End Rules.

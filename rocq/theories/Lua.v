(** Lua.v - grammar/lua.go. *)
From Verif Require Export Grammar.

(** grammar/lua.go:52-102 (type LuaReader) *)
Definition lua_fields : gstruct :=
  [rule_field "SheBang" "SheBang";
   rule_field "Name" "Name";
   rule_field "Numeral" "Numeral";
   rule_field "LiteralString" "LiteralString";
   rule_field "Comment" "Comment";
   rule_field "UnOp" "unop";
   rule_field "BinOp" "binop";
   rule_field "FieldSep" "fieldsep";
   rule_field "Field" "field";
   rule_field "FieldList" "fieldlist";
   rule_field "TableConstructor" "tableconstructor";
   rule_field "FuncParams" "funcparams";
   rule_field "FuncBody" "funcbody";
   rule_field "FuncDef" "funcdef";
   rule_field "FuncArgs" "funcargs";
   rule_field "FuncCall" "funccall";
   rule_field "PrefixExp" "prefixexp";
   rule_field "FinalExp" "finalexp";
   rule_field "Exp" "exp";
   rule_field "ExpList" "explist";
   rule_field "NameList" "namelist";
   rule_field "VarSuffix" "varsuffix";
   rule_field "Var" "var";
   rule_field "VarList" "varlist";
   rule_field "FuncName" "funcname";
   rule_field "Label" "label";
   rule_field "RetStat" "retstat";
   rule_field "Attrib" "attrib";
   rule_field "AttNameList" "attnamelist";
   rule_field "Break" "break";
   rule_field "GoTo" "goto";
   rule_field "Do" "do";
   rule_field "While" "while";
   rule_field "Repeat" "repeat";
   rule_field "IfElse" "ifelse";
   rule_field "For" "for";
   rule_field "ForEach" "foreach";
   rule_field "Func" "func";
   rule_field "LocalFunc" "localfunc";
   rule_field "LocalAtt" "localatt";
   rule_field "Stat" "stat";
   rule_field "Block" "block";
   rule_field "Chunk" "chunk";
   rule_field "Script" "script"].

(** Field positions: &g.X is [RRule lX]. *)
Definition lSheBang := 0%nat.
Definition lName := 1%nat.
Definition lNumeral := 2%nat.
Definition lLiteralString := 3%nat.
Definition lComment := 4%nat.
Definition lUnOp := 5%nat.
Definition lBinOp := 6%nat.
Definition lFieldSep := 7%nat.
Definition lField := 8%nat.
Definition lFieldList := 9%nat.
Definition lTableConstructor := 10%nat.
Definition lFuncParams := 11%nat.
Definition lFuncBody := 12%nat.
Definition lFuncDef := 13%nat.
Definition lFuncArgs := 14%nat.
Definition lFuncCall := 15%nat.
Definition lPrefixExp := 16%nat.
Definition lFinalExp := 17%nat.
Definition lExp := 18%nat.
Definition lExpList := 19%nat.
Definition lNameList := 20%nat.
Definition lVarSuffix := 21%nat.
Definition lVar := 22%nat.
Definition lVarList := 23%nat.
Definition lFuncName := 24%nat.
Definition lLabel := 25%nat.
Definition lRetStat := 26%nat.
Definition lAttrib := 27%nat.
Definition lAttNameList := 28%nat.
Definition lBreak := 29%nat.
Definition lGoTo := 30%nat.
Definition lDo := 31%nat.
Definition lWhile := 32%nat.
Definition lRepeat := 33%nat.
Definition lIfElse := 34%nat.
Definition lFor := 35%nat.
Definition lForEach := 36%nat.
Definition lFunc := 37%nat.
Definition lLocalFunc := 38%nat.
Definition lLocalAtt := 39%nat.
Definition lStat := 40%nat.
Definition lBlock := 41%nat.
Definition lChunk := 42%nat.
Definition lScript := 43%nat.

Definition lr (i : nat) : arg := AReader (RRule i).
(** string and rune literals *)
Definition st_ (s : string) : arg := AStr (lit s).
Arguments st_ s%string.
Definition ch_ (b : byte) : arg := ARune (bz b).
Arguments ch_ b%byte.
Definition rd_ (r : reader) : arg := AReader r.
(** cells of the two Janus pairs *)
Definition lua_str_cell := 0%nat.
Definition lua_cmt_cell := 1%nat.

(** grammar/lua.go:10-18 (LuaNumeral) *)
Definition lua_numeral : reader :=
  let digits := mk_many (rd_ digit) in
  let hexes := mk_many (rd_ hex_digit_reader) in
  let sign := rd_ (mk_opt (rd_ (RAnyRune (lit "+-")))) in
  let hexExponent := mk_seq [rd_ (RAnyRune (lit "pP")); sign; rd_ digits] in
  let hexFloat := mk_seq [ch_ "0"; rd_ (RAnyRune (lit "xX")); rd_ hexes;
                          rd_ (mk_opt (rd_ (mk_seq [ch_ "."; rd_ hexes])));
                          rd_ (mk_opt (rd_ hexExponent))] in
  let exponent := mk_seq [rd_ (RAnyRune (lit "eE")); sign; rd_ digits] in
  let floatValue := mk_seq [rd_ digits; rd_ (mk_opt (rd_ (mk_seq [ch_ "."; rd_ digits])));
                            rd_ (mk_opt (rd_ exponent))] in
  let hexValue := mk_seq [ch_ "0"; rd_ (RAnyRune (lit "xX")); rd_ hexes] in
  mk_any [rd_ hexFloat; rd_ hexValue; rd_ floatValue; rd_ digits].

(** grammar/lua.go:21-33: escape sequences of LuaString *)
Definition lua_escape : reader :=
  let utfEscape := mk_seq [AStr (x5c :: lit "u{"); rd_ (mk_many (rd_ hex_digit_reader)); st_ "}"] in
  let hexEscape := mk_seq [AStr (x5c :: lit "x"); rd_ (RTimes 2 hex_digit_reader)] in
  let decimalEscape := mk_any [
    rd_ (mk_seq [ch_ x5c; rd_ digit]);
    rd_ (mk_seq [ch_ x5c; rd_ (RTimes 2 digit)]);
    rd_ (mk_seq [ch_ x5c; rd_ (RBetween 0x30 0x32); rd_ (RTimes 2 digit)])] in
  mk_any [rd_ (mk_seq [ch_ x5c; rd_ (RAnyRune (lit "abfnrtvz" ++ [x22; x27; x5c]))]);
          rd_ decimalEscape; rd_ hexEscape; rd_ utfEscape].
(** grammar/lua.go:34-40 (LuaString) *)
Definition lua_quoted (q : byte) : reader :=
  mk_seq [ch_ q; rd_ (mk_zom (rd_ (mk_any [rd_ (RHoley 0x20 MaxRune [q; x5c]); rd_ lua_escape]))); ch_ q].
Definition lua_long (c : nat) (opener : arg) : reader :=
  let hd := fst (janus c [] (mk_zom (st_ "="))) in
  let tl := snd (janus c [] (mk_zom (st_ "="))) in
  let longBeg := mk_seq [opener; rd_ hd; ch_ "["] in
  let longEnd := mk_seq [ch_ "]"; rd_ tl; ch_ "]"] in
  mk_seq [rd_ longBeg; rd_ (mk_past (rd_ longEnd))].
Definition lua_string : reader :=
  mk_any [rd_ (lua_quoted x22); rd_ (lua_quoted x27); rd_ (lua_long lua_str_cell (ch_ "["))].
(** grammar/lua.go:43-50 (LuaComment) *)
Definition lua_comment : reader :=
  let line := mk_seq [st_ "--"; rd_ (mk_to (ARune 0x0A))] in
  mk_any [rd_ (lua_long lua_cmt_cell (st_ "--[")); rd_ line].

(** grammar/lua.go:123-126 (skiper, skipSeq) *)
Definition lua_skiper : reader := mk_zom (rd_ (mk_any [rd_ ws; lr lComment])).
Definition skip_seq_ (l : list arg) : arg := rd_ (mk_skip_seq lua_skiper l).
Definition ws_seq_ (l : list arg) : arg := rd_ (skip_ws_seq l).
Definition seq_ (l : list arg) : arg := rd_ (mk_seq l).
Definition any_ (l : list arg) : arg := rd_ (mk_any l).
Definition zom_ (a : arg) : arg := rd_ (mk_zom a).
Definition many_ (a : arg) : arg := rd_ (mk_many a).
Definition opt_ (a : arg) : arg := rd_ (mk_opt a).
Definition to_ (a : arg) : arg := rd_ (mk_to a).
Definition set_ {L : GoLib} (r s : string) : arg := rd_ (set_reader (lit r) (lit s)).
Definition anyrune_ (s : string) : arg := rd_ (RAnyRune (lit s)).
(** the reader an argument stands for (a *Rule or Reader used as Reader) *)
Definition un_ (a : arg) : reader := match a with AReader r => r | _ => RInvalid [] end.
(** grammar/lua.go:137-138 (nameAndArgs, varOrExp) *)
Definition nameAndArgs_ : arg := skip_seq_ [opt_ (seq_ [ch_ ":"; lr lName]); lr lFuncArgs].
Definition varOrExp_ : arg := any_ [lr lVar; skip_seq_ [ch_ "("; lr lExp; ch_ ")"]].

(** grammar/lua.go:110-214: one entry per assignment g.X.Reader = ... *)

(** lua.go:110 *)
Definition lua_SheBang_r {L : GoLib} : reader := un_ (seq_ [(st_ "#!"); (to_ (any_ [(ch_ x0d); (ch_
  x0a)]))]).
(** lua.go:111 *)
Definition lua_Name_r {L : GoLib} : reader := un_ (seq_ [(set_ "a-zA-Z" "_"); (zom_ (set_
  "a-zA-Z0-9" "_"))]).
(** lua.go:113 *)
Definition lua_Numeral_r {L : GoLib} : reader := un_ (rd_ lua_numeral).
(** lua.go:114 *)
Definition lua_LiteralString_r {L : GoLib} : reader := un_ (rd_ lua_string).
(** lua.go:115 *)
Definition lua_Comment_r {L : GoLib} : reader := un_ (rd_ lua_comment).
(** lua.go:117 *)
Definition lua_UnOp_r {L : GoLib} : reader := un_ (any_ [(st_ "-"); (st_ "not"); (st_ "#"); (st_
  "~")]).
(** lua.go:118 *)
Definition lua_BinOp_r {L : GoLib} : reader := un_ (any_ [(st_ ".."); (st_ "<="); (st_ "<"); (st_
  ">="); (st_ ">"); (st_ "=="); (st_ "~="); (st_ "and"); (st_ "or"); (st_ "+"); (st_ "-"); (st_
  "*"); (st_ "/"); (st_ "//"); (st_ "^"); (st_ "%"); (st_ "&"); (st_ "~"); (st_ "|"); (st_ ">>");
  (st_ "<<")]).
(** lua.go:128 *)
Definition lua_FieldSep_r {L : GoLib} : reader := un_ (anyrune_ ",;").
(** lua.go:129 *)
Definition lua_Field_r {L : GoLib} : reader := un_ (any_ [(skip_seq_ [(ch_ "["); (lr lExp); (ch_
  "]"); (ch_ "="); (lr lExp)]); (skip_seq_ [(lr lName); (ch_ "="); (lr lExp)]); (lr lExp)]).
(** lua.go:134 *)
Definition lua_FieldList_r {L : GoLib} : reader := un_ (skip_seq_ [(lr lField); (zom_ (seq_ [(lr
  lFieldSep); (lr lField)])); (opt_ (lr lFieldSep))]).
(** lua.go:135 *)
Definition lua_TableConstructor_r {L : GoLib} : reader := un_ (skip_seq_ [(ch_ "{"); (opt_ (lr
  lFieldList)); (ch_ "}")]).
(** lua.go:140 *)
Definition lua_FuncParams_r {L : GoLib} : reader := un_ (any_ [(skip_seq_ [(lr lNameList); (opt_
  (skip_seq_ [(ch_ ","); (st_ "...")]))]); (st_ "...")]).
(** lua.go:141 *)
Definition lua_FuncBody_r {L : GoLib} : reader := un_ (skip_seq_ [(ch_ "("); (opt_ (lr
  lFuncParams)); (ch_ ")"); (lr lBlock); (st_ "end")]).
(** lua.go:142 *)
Definition lua_FuncDef_r {L : GoLib} : reader := un_ (ws_seq_ [(rd_ (RLit (lit "function"))); (lr
  lFuncBody)]).
(** lua.go:143 *)
Definition lua_FuncArgs_r {L : GoLib} : reader := un_ (any_ [(skip_seq_ [(ch_ "("); (opt_ (lr
  lExpList)); (ch_ ")")]); (lr lTableConstructor); (lr lLiteralString)]).
(** lua.go:148 *)
Definition lua_FuncCall_r {L : GoLib} : reader := un_ (seq_ [varOrExp_; (many_ nameAndArgs_)]).
(** lua.go:150 *)
Definition lua_PrefixExp_r {L : GoLib} : reader := un_ (seq_ [varOrExp_; (zom_ nameAndArgs_)]).
(** lua.go:151 *)
Definition lua_FinalExp_r {L : GoLib} : reader := un_ (any_ [(st_ "nil"); (st_ "false"); (st_
  "true"); (rd_ lua_numeral); (lr lLiteralString); (st_ "..."); (lr lFuncDef); (skip_seq_ [(lr
  lUnOp); (lr lExp)]); (lr lTableConstructor); (lr lPrefixExp)]).
(** lua.go:159 *)
Definition lua_Exp_r {L : GoLib} : reader := un_ (any_ [(ws_seq_ [(lr lFinalExp); (lr lBinOp); (lr
  lExp)]); (lr lFinalExp)]).
(** lua.go:163 *)
Definition lua_ExpList_r {L : GoLib} : reader := un_ (skip_seq_ [(lr lExp); (zom_ (skip_seq_ [(ch_
  ","); (lr lExp)]))]).
(** lua.go:112 *)
Definition lua_NameList_r {L : GoLib} : reader := un_ (ws_seq_ [(lr lName); (zom_ (seq_ [(ch_ ",");
  (lr lName)]))]).
(** lua.go:164 *)
Definition lua_VarSuffix_r {L : GoLib} : reader := un_ (skip_seq_ [(zom_ nameAndArgs_); (any_
  [(skip_seq_ [(ch_ "["); (lr lExp); (ch_ "]")]); (seq_ [(ch_ "."); (lr lName)])])]).
(** lua.go:168 *)
Definition lua_Var_r {L : GoLib} : reader := un_ (seq_ [(any_ [(lr lName); (skip_seq_ [(ch_ "(");
  (lr lExp); (ch_ ")"); (lr lVarSuffix)])]); (zom_ (lr lVarSuffix))]).
(** lua.go:172 *)
Definition lua_VarList_r {L : GoLib} : reader := un_ (ws_seq_ [(lr lVar); (zom_ (ws_seq_ [(ch_ ",");
  (lr lVar)]))]).
(** lua.go:174 *)
Definition lua_FuncName_r {L : GoLib} : reader := un_ (ws_seq_ [(lr lName); (zom_ (ws_seq_ [(ch_
  "."); (lr lName)])); (opt_ (ws_seq_ [(ch_ ":"); (lr lName)]))]).
(** lua.go:175 *)
Definition lua_Label_r {L : GoLib} : reader := un_ (seq_ [(rd_ (RLit (lit "::"))); (lr lName); (rd_
  (RLit (lit "::")))]).
(** lua.go:176 *)
Definition lua_RetStat_r {L : GoLib} : reader := un_ (ws_seq_ [(rd_ (RLit (lit "return"))); (opt_
  (lr lExpList)); (opt_ (ch_ ";"))]).
(** lua.go:177 *)
Definition lua_Attrib_r {L : GoLib} : reader := un_ (opt_ (seq_ [(ch_ "<"); (lr lName); (ch_
  ">")])).
(** lua.go:178 *)
Definition lua_AttNameList_r {L : GoLib} : reader := un_ (ws_seq_ [(lr lName); (lr lAttrib); (zom_
  (ws_seq_ [(ch_ ","); (lr lName); (lr lAttrib)]))]).
(** lua.go:179 *)
Definition lua_Break_r {L : GoLib} : reader := un_ (rd_ (RLit (lit "break"))).
(** lua.go:180 *)
Definition lua_GoTo_r {L : GoLib} : reader := un_ (ws_seq_ [(st_ "goto"); (lr lName)]).
(** lua.go:181 *)
Definition lua_Do_r {L : GoLib} : reader := un_ (ws_seq_ [(st_ "do"); (lr lBlock); (st_ "end")]).
(** lua.go:182 *)
Definition lua_While_r {L : GoLib} : reader := un_ (ws_seq_ [(st_ "while"); (lr lExp); (st_ "do");
  (lr lBlock); (st_ "end")]).
(** lua.go:183 *)
Definition lua_Repeat_r {L : GoLib} : reader := un_ (ws_seq_ [(st_ "repeat"); (lr lBlock); (st_
  "until"); (lr lExp)]).
(** lua.go:184 *)
Definition lua_IfElse_r {L : GoLib} : reader := un_ (ws_seq_ [(st_ "if"); (lr lExp); (st_ "then");
  (lr lBlock); (zom_ (ws_seq_ [(st_ "elseif"); (lr lExp); (st_ "then"); (lr lBlock)])); (opt_
  (ws_seq_ [(st_ "else"); (lr lBlock)])); (st_ "end")]).
(** lua.go:190 *)
Definition lua_For_r {L : GoLib} : reader := un_ (ws_seq_ [(st_ "for"); (lr lName); (ch_ "="); (lr
  lExp); (ch_ ","); (lr lExp); (opt_ (ws_seq_ [(ch_ ","); (lr lExp)])); (st_ "do"); (lr lBlock);
  (st_ "end")]).
(** lua.go:191 *)
Definition lua_ForEach_r {L : GoLib} : reader := un_ (ws_seq_ [(st_ "for"); (lr lNameList); (st_
  "in"); (lr lExpList); (st_ "do"); (lr lBlock); (st_ "end")]).
(** lua.go:192 *)
Definition lua_Func_r {L : GoLib} : reader := un_ (ws_seq_ [(st_ "function"); (lr lFuncName); (lr
  lFuncBody)]).
(** lua.go:193 *)
Definition lua_LocalFunc_r {L : GoLib} : reader := un_ (ws_seq_ [(st_ "local"); (st_ "function");
  (lr lName); (lr lFuncBody)]).
(** lua.go:194 *)
Definition lua_LocalAtt_r {L : GoLib} : reader := un_ (ws_seq_ [(st_ "local"); (lr lAttNameList);
  (opt_ (ws_seq_ [(ch_ "="); (lr lExpList)]))]).
(** lua.go:195 *)
Definition lua_Stat_r {L : GoLib} : reader := un_ (any_ [(ch_ ";"); (seq_ [(lr lVarList); (ch_ "=");
  (lr lExpList)]); (lr lLabel); (lr lBreak); (lr lGoTo); (lr lDo); (lr lWhile); (lr lRepeat); (lr
  lIfElse); (lr lFor); (lr lForEach); (lr lFunc); (lr lLocalFunc); (lr lLocalAtt); (lr lFuncCall)]).
(** lua.go:212 *)
Definition lua_Block_r {L : GoLib} : reader := un_ (skip_seq_ [(zom_ (lr lStat)); (opt_ (lr
  lRetStat))]).
(** lua.go:213 *)
Definition lua_Chunk_r {L : GoLib} : reader := un_ (lr lBlock).
(** lua.go:214 *)
Definition lua_Script_r {L : GoLib} : reader := un_ (seq_ [(opt_ (lr lSheBang)); (lr lBlock)]).

Definition lua_readers {L : GoLib} : list reader :=
  [lua_SheBang_r;
   lua_Name_r;
   lua_Numeral_r;
   lua_LiteralString_r;
   lua_Comment_r;
   lua_UnOp_r;
   lua_BinOp_r;
   lua_FieldSep_r;
   lua_Field_r;
   lua_FieldList_r;
   lua_TableConstructor_r;
   lua_FuncParams_r;
   lua_FuncBody_r;
   lua_FuncDef_r;
   lua_FuncArgs_r;
   lua_FuncCall_r;
   lua_PrefixExp_r;
   lua_FinalExp_r;
   lua_Exp_r;
   lua_ExpList_r;
   lua_NameList_r;
   lua_VarSuffix_r;
   lua_Var_r;
   lua_VarList_r;
   lua_FuncName_r;
   lua_Label_r;
   lua_RetStat_r;
   lua_Attrib_r;
   lua_AttNameList_r;
   lua_Break_r;
   lua_GoTo_r;
   lua_Do_r;
   lua_While_r;
   lua_Repeat_r;
   lua_IfElse_r;
   lua_For_r;
   lua_ForEach_r;
   lua_Func_r;
   lua_LocalFunc_r;
   lua_LocalAtt_r;
   lua_Stat_r;
   lua_Block_r;
   lua_Chunk_r;
   lua_Script_r].
(** grammar/lua.go:106-218 (Lua); MustSetRuleNames and MustCheckRules panic on an error. *)
Definition lua_env {L : GoLib} : env := build_grammar lua_fields lua_readers.
(** grammar/lua.go:220-230 (LuaReader.Read, What): it reads with Chunk. *)
Definition lua : reader := RGrammar (lit "lua") (lit "lua parse error: ") lChunk.

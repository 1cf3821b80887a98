MUTS=[]
def m(id,f,defn,old,new,claim,*more):
    MUTS.append(dict(id=id,definition=f'{f}.v {defn}',edits=[(f,old,new)]+list(more),claim=claim,edit=f'{old}  =>  {new}'))
def l(id,defn,old,new,claim): m(id,'Lua','lua_%s_r'%defn,old,new,claim)
# Lua rules: alternatives dropped, order changed, separators changed
l('lu1','SheBang','(st_ "#!")','(st_ "#")','C117: SheBang lines begin with #!')
l('lu2','Name','(set_ "a-zA-Z" "_")','(set_ "a-zA-Z0-9" "_")','C70: names do not begin with digits')
l('lu3','Name','(zom_ (set_\n  "a-zA-Z0-9" "_"))','(zom_ (set_\n  "a-zA-Z" "_"))','C70: digits in names')
l('lu4','UnOp','(st_ "#"); (st_\n  "~")','(st_ "#")','C124: the unary operator ~')
l('lu5','UnOp','(st_ "not"); ','','C124: not')
l('lu6','FieldSep','anyrune_ ",;"','anyrune_ ","','C124: ; between fields')
l('lu7','Field','(skip_seq_ [(lr lName); (ch_ "="); (lr lExp)]); (lr lExp)','(lr lExp); (skip_seq_ [(lr lName); (ch_ "="); (lr lExp)])','C124: fields with names')
l('lu8','Field','(skip_seq_ [(ch_ "["); (lr lExp); (ch_\n  "]"); (ch_ "="); (lr lExp)]); ','','C124: fields with keys')
l('lu9','FieldList','; (opt_ (lr lFieldSep))','','C124: a separator at the end')
l('lu10','TableConstructor','(opt_ (lr\n  lFieldList))','(lr\n  lFieldList)','C124: the empty table')
l('lu11','FuncParams','; (st_ "...")]).',']).','C124: (...)')
l('lu12','FuncBody','(opt_ (lr\n  lFuncParams))','(lr\n  lFuncParams)','C124: functions without parameters')
l('lu13','FuncArgs','; (lr lTableConstructor); (lr lLiteralString)','; (lr lTableConstructor)','C124: f"x"')
l('lu14','FuncArgs','(opt_ (lr\n  lExpList))','(lr\n  lExpList)','C124: f()')
l('lu15','FuncCall','(many_ nameAndArgs_)','nameAndArgs_','C124: f(x)(y)')
l('lu16','FuncCall','(many_ nameAndArgs_)','(zom_ nameAndArgs_)','C113: an expression is no statement')
l('lu17','FinalExp','(rd_ lua_numeral); ','','C124: numerals')
l('lu18','FinalExp','(st_ "..."); ','','C124: ... as expression')
l('lu19','FinalExp','(lr lTableConstructor); (lr lPrefixExp)','(lr lPrefixExp)','C124: tables as expressions')
l('lu20','FinalExp','(st_ "nil"); (st_ "false"); (st_\n  "true"); ','(st_ "nil"); (st_ "false"); ','C124 or C113: true (it is read as a name); survivor allowed')
l('lu21','Exp','(lr lBinOp); (lr\n  lExp)','(lr lBinOp); (lr\n  lFinalExp)','C124: a + b + c')
l('lu22','ExpList','(zom_ (skip_seq_ [(ch_\n  ","); (lr lExp)]))','(opt_ (skip_seq_ [(ch_\n  ","); (lr lExp)]))','C124: three expressions')
l('lu23','NameList','(zom_ (seq_ [(ch_ ",");\n  (lr lName)]))','(zom_ (seq_ [(ch_ ";");\n  (lr lName)]))','C113: commas between names')
l('lu24','VarSuffix','(zom_ nameAndArgs_); ','','C124: f(x).y = 1')
l('lu25','VarSuffix','(seq_ [(ch_ "."); (lr lName)])','(seq_ [(ch_ ":"); (lr lName)])','C124: a.b = 1')
l('lu26','Var','(zom_ (lr lVarSuffix))','(opt_ (lr lVarSuffix))','C124: a.b.c = 1')
l('lu27','VarList','(zom_ (ws_seq_ [(ch_ ",");\n  (lr lVar)]))','(opt_ (ws_seq_ [(ch_ ",");\n  (lr lVar)]))','C124: three variables')
l('lu28','FuncName','; (opt_ (ws_seq_ [(ch_ ":"); (lr lName)]))','','C124: function a:b()')
l('lu29','Label','(lr lName); (rd_\n  (RLit (lit "::")))','(lr lName); (rd_\n  (RLit (lit ":")))','C113: labels end with ::')
l('lu30','RetStat','; (opt_ (ch_ ";"))','','C124: return;')
l('lu31','Attrib','(ch_ "<"); (lr lName); (ch_\n  ">")','(ch_ "<"); (lr lName); (ch_\n  "<")','C113: attributes')
l('lu32','GoTo','(ws_seq_ [(st_ "goto"); (lr lName)])','(seq_ [(st_ "goto"); (lr lName)])','C124: goto x')
l('lu33','Do','(st_ "do"); (lr lBlock); (st_ "end")]).\n(** lua.go:182','(st_ "do"); (lr lBlock); (opt_ (st_ "end"))]).\n(** lua.go:182','C113: do ends with end')
l('lu34','Repeat','(st_\n  "until"); (lr lExp)','(st_\n  "until"); (opt_ (lr lExp))','C113: until has a condition')
l('lu35','IfElse','(zom_ (ws_seq_ [(st_ "elseif")','(opt_ (ws_seq_ [(st_ "elseif")','C124: more than one elseif')
l('lu36','IfElse','(opt_\n  (ws_seq_ [(st_ "else"); (lr lBlock)]))','(zom_\n  (ws_seq_ [(st_ "else"); (lr lBlock)]))','C113: one else')
l('lu37','For','(opt_ (ws_seq_ [(ch_ ","); (lr lExp)])); ','','C124: the step of a for')
l('lu38','ForEach','(lr lExpList); (st_ "do")','(lr lExp); (st_ "do")','C124: for in with a list')
l('lu39','LocalFunc','(lr lName); (lr lFuncBody)','(lr lFuncName); (lr lFuncBody)','C113: local function a.b')
l('lu40','LocalAtt','(opt_ (ws_seq_ [(ch_ "="); (lr lExpList)]))','(ws_seq_ [(ch_ "="); (lr lExpList)])','C124: local a')
l('lu41','Stat','(lr lLocalFunc); (lr lLocalAtt)','(lr lLocalAtt); (lr lLocalFunc)','C124: local function (read as a local called function)')
l('lu42','Stat','(lr lFor); (lr lForEach)','(lr lForEach); (lr lFor)','C117/C124: order of For and ForEach; equivalent, survivor allowed')
l('lu43','Stat','(ch_ ";"); (seq_','(seq_','C124: ;')
l('lu44','Stat','; (lr lFuncCall)])','])','C124: calls')
l('lu45','Block','(opt_ (lr\n  lRetStat))','(zom_ (lr\n  lRetStat))','C113: one return')
l('lu46','Script','(opt_ (lr lSheBang))','(lr lSheBang)','C117 or none: Script is unused by Lua(); a Basket holds words of it')
l('lu47','Chunk','un_ (lr lBlock)','un_ (lr lScript)','C113: a chunk is a block')
m('lu48','Lua','lua','RGrammar (lit "lua") (lit "lua parse error: ") lChunk','RGrammar (lit "lua") (lit "lua parse error: ") lStat','C113/C124: Lua() reads with Chunk')
m('lu49','Lua','nameAndArgs_','opt_ (seq_ [ch_ ":"; lr lName]); lr lFuncArgs','opt_ (seq_ [ch_ "."; lr lName]); lr lFuncArgs','C113: methods are called with :')
m('lu50','Lua','lua_skiper','mk_zom (rd_ (mk_any [rd_ ws; lr lComment]))','mk_zom (rd_ ws)','C74: comments are skipped')
m('lu51','Lua','lua_escape','(RTimes 2 hex_digit_reader)','(RTimes 1 hex_digit_reader)','C73: hex escapes have two digits')
m('lu52','Lua','lua_quoted','(RHoley 0x20 MaxRune [q; x5c])','(RHoley 0x20 MaxRune [q])','C73: backslash is no character')
m('lu53','Lua','lua_comment','(st_ "--"); rd_ (mk_to (ARune 0x0A))'.replace('(st_ "--")','st_ "--"'),'st_ "--"; rd_ (mk_past (ARune 0x0A))','C74: a line comment stops in front of the line end')
m('lu54','Lua','lua_fields','rule_field "FuncArgs" "funcargs"','rule_field "FuncArgs" "FuncArgs"','C118: names of the rules')
# JSON
def j(id,defn,old,new,claim): m(id,'Json',defn,old,new,claim)
j('js1','json_ws','mk_zom (AReader ws)','mk_many (AReader ws)','C62: values without white space around')
j('js2','json_null','RLit (lit "null")','RFold (lit "null")','C61: null in lower case')
j('js3','json_bool','AStr (lit "true"); AStr (lit "false")','AStr (lit "true"); AStr (lit "False")','C61: false')
j('js4','json_sign','(RAnyRune (lit "+-"))','(RAnyRune (lit "-"))','C62: 1e+5')
j('js5','json_onenine','RBetween 0x31 0x39','RBetween 0x30 0x39','C61: no leading zeros; read order makes 0 alone first: 01 stays unread; survivor possible')
j('js6','json_exponent','(RAnyRune (lit "eE"))','(RAnyRune (lit "e"))','C62: 1E5')
j('js7','json_fraction','ARune 0x2E; ar jDigits','ARune 0x2E; ar jDigit','C62: 1.25')
j('js8','json_integer','AReader (mk_opt (AReader (RRune 0x2D)))','AReader (mk_zom (AReader (RRune 0x2D)))','C61: one minus sign')
j('js9','json_number','ar jInteger; ar jFraction; ar jExponent','ar jInteger; ar jExponent; ar jFraction','C61/C62: fraction before exponent')
j('js10','json_escape','RTimes 4 (RRule jHex)','RTimes 2 (RRule jHex)','C61: \\u has four digits')
j('js11','json_escape','(x22 :: lit "\\/bfnrt")','(x22 :: lit "\\/bfnrtv")','C61: no \\v')
j('js12','json_character','RHoley 0x20 MaxRune quote_backslash','RHoley 0x1f MaxRune quote_backslash','C61: no control characters')
j('js13','json_elements','mk_zom (AReader (mk_seq [AReader (RRune 0x2C); ar jElement]))','mk_opt (AReader (mk_seq [AReader (RRune 0x2C); ar jElement]))','C62: three elements')
j('js14','json_array','mk_any [ar jElements; ar jWS]); ARune 0x5D','mk_any [ar jElements]); ARune 0x5D','C62: []')
j('js15','json_member','ar jWS; ARune 0x3A; ar jElement','ARune 0x3A; ar jElement','C62: white space before the colon')
j('js16','json_members','ARune 0x2C; ar jMember','ARune 0x3B; ar jMember','C61: commas between members')
j('js17','json_value','ar jNumber; ar jBool; ar jNull','ar jNumber; ar jBool','C62: null')
j('js18','json','(lit "json parse error: ") jElement','(lit "json parse error: ") jValue','C62: white space around the text')
j('js19','json_fields','rule_field "Key" "key"','rule_field "Key" "string"','C108: the names of the segments')
j('js20','json_key','json_key := json_string','json_key := json_value','C61: keys are strings')
# MXT
def x(id,defn,old,new,claim): m(id,'Mxt',defn,old,new,claim)
x('mx1','mxt_wordchar','RBetween 0x21 MaxRune','RBetween 0x20 MaxRune','C105: no blanks in words')
x('mx2','mxt_marker','AReader (mk_zom (mar mWordChar))]','AReader (mk_many (mar mWordChar))]','C105: the marker may be // alone')
x('mx3','mxt_comment','mk_to (AReader (RNamed','mk_past (AReader (RNamed','C105: the arrow is read by the rule Arrow')
x('mx4','mxt_arrow','(RLit (lit "-->"))','(RLit (lit "->"))','C105: the arrow')
x('mx5','mxt_salt','AReader mxt_salt_head; AReader (mk_zom (ARune 0x20))','AReader mxt_salt_head','C105: blanks behind the salt')
x('mx6b','mxt_header','AReader (mk_opt (mar mSalt))','mar mSalt','C105: no salt')
x('mx7','mxt_nextmarker','AStr (lit "//"); AReader mxt_salt_tail','AStr (lit "//")','C105: the next marker has the salt')
x('mx8','mxt_emptycontent','AReader RAtEnd; AReader (RAt (RRule mNextMarker))','AReader (RAt (RRule mNextMarker))','C105: an empty chunk at the end')
x('mx9','mxt_content','mk_any [mar mNextMarker; AReader RAtEnd]','mk_any [mar mNextMarker]','C105: content up to the end')
x('mx10','mxt_chunk','mk_any [mar mEmptyContent; AReader (mk_seq [mar mNL; mar mContent])]','mk_any [AReader (mk_seq [mar mNL; mar mContent]); mar mEmptyContent]','C105: empty content is tried first')
x('mx11','mxt_chunks','mk_seq [mar mNL; mar mChunk]','mk_seq [mar mChunk]','C105: chunks are on lines of their own')
x('mx12','mxt','"mxt parse error: ") mChunks','"mxt parse error: ") mChunk','C105: all chunks')
x('mx13','mxt_fields','rule_field "NextMarker" "next-marker"','rule_field "NextMarker" "nextmarker"','C104/C111: the names of the segments')

# Grammar, Log, Segment, Graph
def g(id,defn,old,new,claim): m(id,'Grammar',defn,old,new,claim)
g('gr1','rule_map','Definition rule_map (e : env) (id : nat) (r : rule) : rule :=\n  mkRule (r_name r) (Some (RMap id (rule_sub e r))).','Definition rule_map (e : env) (id : nat) (r : rule) : rule :=\n  mkRule (r_name r) (Some (rule_sub e r)).','C50/C55: Rule.Map adds the function')
g('gr2','rule_pick','Some (RPick (r_name r) b (rule_sub e r))','Some (RPick [] b (rule_sub e r))','C108/C117: segments carry the name of the rule')
g('gr3','rule_monitor','Some (RMonitor (r_name r) lg (rule_sub e r))','Some (RMonitor [] lg (rule_sub e r))','C100: entries carry the name of the rule')
g('gr4','pick_with','pick_rules b (seq 0 (length e)) e','pick_rules b (seq 1 (length e)) e','C99/C108: all rules are picked')
g('gr5','monitor_all','monitor_rules lg (seq 0 (length e)) e','monitor_rules lg (seq 0 (pred (length e))) e','C100: all rules are monitored')
g('gr6','new_basket','(put_basket b [] (hp s))','(hp s)','C101/C102: a new basket is empty')
g('gr7','new_basket','mkSc (full (sc s)) (pos (sc s)) (Some b)','mkSc (full (sc s)) 0 (Some b)','C99: NewBasket does not move the scanner')
g('gr8','rule_line','lit ": " ++ what e x','lit " = " ++ what e x','none: text of GrammarLines')
g('gr9','entry_string','itoa (e_level e) ++ concat','concat','C110: lines of the log')
g('gr10','entry_string','itoa (e_enter e) ++ lit " "','itoa (e_exit e) ++ lit " "','C110: lines of the log')
g('gr11','log_lines','map entry_string (log_entries l)','map entry_string (rev (log_entries l))','C110: lines of the log in order')
g('gr12','preview_lines','sub_string_from str (e_enter e) n','sub_string_from str (e_enter e) (n + 1)','C98: n runes')
g('gr13','set_rule_names','if negb (f_isrule f) then cont f\n','if f_isrule f then cont f\n','C60')
g('gr14','set_rule_names','else if bytes_eqb (f_tag f) [] then cont f\n','','C60: fields without tag')
g('gr15','check_rules','| None => Ok (Some (EOther (lit "the Reader of " ++ r_name r ++ lit " is a nil value")))\n','| None => check_rules t\n','C60: nil readers')
g('gr16','assign','mkRule (r_name (f_rule f)) (Some r) :: assign','mkRule (f_name f) (Some r) :: assign','C108: names of the rules are the tags')
g('gr17','rule_name_reader','(RAnyRune (lit "+-._"))','(RAnyRune (lit "+-_"))','C59/C92: dots in names')
g('gr18','must_check_rules','| Ok (Some _) => Panic\n  | Panic => Panic\n  | Fuel => Fuel\n  end.\n\n','| Ok (Some _) => Ok tt\n  | Panic => Panic\n  | Fuel => Fuel\n  end.\n\n','C60: MustCheckRules panics')
g('gr19','must_set_rule_names','| Ok (_, Some _) => Panic','| Ok (g, Some _) => Ok g','C60: MustSetRuleNames panics')
m('lg1','LogModel','log_enter','let level := l_level l + 1 in','let level := l_level l in','C56/C91: levels')
m('lg2','LogModel','log_exit','(l_level l - 1)','(l_level l)','C56/C91: levels')
m('lg3','LogModel','log_exit','mkEntry (e_enter x) (e_info x) (e_level x) pos e','mkEntry (e_enter x) (e_info x) (e_level x) pos None','C91: the error of the entry')
m('lg4','LogModel','log_reset','mkLog (l_arrs l ++ [[]]) (length (l_arrs l)) 0 0 0','mkLog (l_arrs l) (l_cur l) (l_len l) (l_cap l) 0','C56: Reset')
def sg(id,defn,old,new,claim): m(id,'Segment',defn,old,new,claim)
sg('sg1','seg_known','negb (bytes_eqb (s_info s) [])','bytes_eqb (s_info s) []','C28: Known')
sg('sg2','seg_string','s_info v ++ tok_string (s_tok v)','tok_string (s_tok v) ++ s_info v','C36: lines of FlameStack')
sg('sg3','tok_eqb','(t_from a =? t_from b) && (t_to a =? t_to b)','(t_from a =? t_from b)','C31/C36')
sg('sg4','segmentate','make_token 0 (slen (full s))','make_token 1 (slen (full s))','C28: tiles from 0')
def gp(id,defn,old,new,claim): m(id,'Graph',defn,old,new,claim)
gp('gp1','new_graph','Node (mkSeg name (mkTok 0 0)) []','Node (mkSeg [] (mkTok 0 0)) []','C34/C36: the root carries the name')
gp('gp2','append_all','| Some (root\', _) => append_all root\' t','| Some (root\', ok) => if ok then append_all root\' t else Some root\'','C34: BuildGraph goes on after a refused segment')
gp('gp3','seg_eqb','bytes_eqb (s_info a) (s_info b) && tok_eqb','tok_eqb','C36: Equal compares the infos')
gp('gp4','stack_lines','itoa (tok_len (s_tok s)) ++ [x0a]','itoa (t_from (s_tok s)) ++ [x0a]','C36: the widths of FlameStack')
gp('gp5','flame_stack','stack_lines [] 1 root','stack_lines [] 0 root','C36: counting from 1')
gp('gp6','set_tok','(n_kids n)','[]','C32/C34: widening the root keeps the nodes')
gp('gp7','graph_append','| [] => set_tok (s_tok seg) root','| [] => set_tok (tok_merge (n_tok root) (s_tok seg)) root','C34: the first segment sets the range')
gp('gp8','graph_append','if ok then root2 else set_tok bkp root2','root2','C33: a refused segment leaves the range')
gp('gp9','rank','go_stable node_less (nodes ++ [b])','nodes ++ [b]','C34: children are in order')
# Scanner
def s(id,defn,old,new,claim): m(id,'Scanner',defn,old,new,claim)
s('sd1','to_end','to_marker (slen (full (sc s))) s.','to_marker (slen (full (sc s)) - 1) s.','C11/C79: ToEnd')
s('sd2','to_start','Definition to_start : M bool := to_marker 0.','Definition to_start : M bool := to_marker 1.','C75: ToStart')
s('sd3','at_start','pos (sc s) =? 0)','pos (sc s) <=? 1)','C75: AtStart')
s('sd4','sub_string_from','fst (get_prefix (mid_sub_string str from) n)','fst (get_prefix str n)','C98')
s('sd5','if_any_rune_loop','| r :: rs\' => let* ok := if_rune r in if ok then ret true else if_any_rune_loop rs\'','| r :: rs\' => if_rune r','C09/C78: every rune is tried')
s('sd6','if_between','if slen t =? 0 then ret false\n  else let \'(v, i) := decode_rune t in\n       if negb (in_range mn v mx) then ret false else move (Z.of_nat i).\n(** scanner.go:225','let \'(v, i) := decode_rune t in\n       if negb (in_range mn v mx) then ret false else move (Z.of_nat i).\n(** scanner.go:225','C09: IfBetween at the end')
s('sd7','rev_to_rune','find_rev (fun _ v => v =? r)','find_rev (fun _ v => negb (v =? r))','C13: RevToRune')
s('sd8','rev_while_rune','rev_while (fun v => v =? r)','rev_while (fun v => negb (v =? r))','C13: RevWhileRune')
s('sd9','rev_while_any_rune','rev_while (contains_rune str)','rev_while (fun v => negb (contains_rune str v))','C13: RevWhileAnyRune')
s('sd10','rev_while_between','rev_while (fun v => in_range mn v mx)','rev_while (fun v => in_range mn v mn)','C13: RevWhileBetween')
s('sd11','rev_while_match','M bool := rev_while check','M bool := rev_while (fun v => negb (check v))','C13: RevWhileMatch')
s('sd12','tok_after','t_to oth <=? t_from t','t_to oth <? t_from t','C25: After')
# What, errors
def w(id,defn,old,new,claim): m(id,'Reader',defn,old,new,claim)
w('wh1','what','RMany sub => lit "+"','RMany sub => lit "*"','C126: What of Many')
w('wh2','what','RZom sub => lit "*"','RZom sub => lit "+"','C126: What of Zom')
w('wh3','what','ROpt sub => lit "?"','ROpt sub => lit "!"','C126: What of Opt')
w('wh4','what','RFold str => lit "~" ++ quote_str str','RFold str => quote_str str','C126: What of Fold')
w('wh5','what','RTo sub => lit "->"','RTo sub => lit "-->"','C126: What of To')
w('wh6','what','itoa n ++ lit "*"','itoa (n + 1) ++ lit "*"','C126: What of Times')
w('wh7','what','RPick _ _ sub => what e sub','RPick info _ sub => info','C126: What of Pick')
w('wh8','what','RSeq rs => join (whats rs) (lit " ")','RSeq rs => join (whats rs) (lit "")','C126: What of Seq')
w('wh9','err_text','lit "not able to read " ++ w','lit "not able to read "','C126: text of a ReadError')
# Baskets in memory, number of Reads
def b(id,defn,old,new,claim): m(id,'BasketMem',defn,old,new,claim)
b('bm1','mem_add','if Nat.ltb (sl_len p) (sl_cap p) then','if Nat.leb (sl_len p) (sl_cap p) then','C131: append grows when the capacity is used up')
b('bm2','mem_add','mkMem (m_arrs m ++ [view m p ++ [g]]) (mkRef (length (m_arrs m))','mkMem (m_arrs m ++ [[g]]) (mkRef (length (m_arrs m))','C131: append copies')
b('bm3','mem_update','| None => mkMem (m_arrs m ++ [[]]) (mkRef (length (m_arrs m)) 0 0)','| None => mkMem (m_arrs m) (mkRef (sl_arr p) 0 (sl_cap p))','C131: emptying detaches')
b('bm4','keep','if t_to (s_tok g) <=? mk then','if t_to (s_tok g) <? mk then','C131/C132: segments that end by the marker are kept')
b('bm5','mem_update','mkMem (m_arrs m) (mkRef (sl_arr p) i (sl_cap p))','mkMem (m_arrs m) (mkRef (sl_arr p) i i)','C131: Update keeps the capacity')
b('bm6','mem_sort','sort_segments (view m p) ++ skipn (sl_len p) (nth (sl_arr p) (m_arrs m) [])','sort_segments (nth (sl_arr p) (m_arrs m) [])','C133: what lies behind the slice stays')
b('bm7','mem_picked','mem_picked (m : bmem) : sref := m_segs m.','mem_picked (m : bmem) : sref := mkRef (length (m_arrs m)) 0 0.','C131/C132: Picked returns the segments')
b('bm8','poke','firstn i arr ++ g :: skipn (S i) arr','firstn i arr ++ g :: skipn i arr','C131: writing replaces')
b('bm9','mem_add','(Nat.max (S (sl_len p)) (lib_grow (sl_cap p)))','(S (sl_len p))','none: the capacity is free; the edit is an instance of lib_grow')
l('co1','Exp','(any_ [(ws_seq_ [(lr lFinalExp); (lr lBinOp); (lr\n  lExp)]); (lr lFinalExp)])','(ws_seq_ [(lr lFinalExp); (opt_ (ws_seq_ [(lr lBinOp); (lr\n  lExp)]))])','C134: FinalExp is read twice (this edit is the repair of the code)')
j('co2','json_value','ar jNumber; ar jBool; ar jNull','ar jNumber; ar jBool; ar jNull; AReader (mk_seq [ar jArray; ar jArray]); ar jArray','C135: arrays are read once')

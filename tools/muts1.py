MUTS=[]
def m(id,f,defn,old,new,claim,*more):
    MUTS.append(dict(id=id,definition=f'{f}.v {defn}',edits=[(f,old,new)]+list(more),claim=claim,edit=f'{old}  =>  {new}'))
S='Scanner';R='Reader';V='ReadVal'
# --- Segment / Graph / sorting
m('seg1','Segment','segmentate_loop','let res := if 0 <? tok_len (s_tok lft) then res ++ [lft] else res in','let res := res ++ [lft] in','C28: fillers are non-empty')
m('seg2','Segment','segmentate_loop','((if 0 <? tok_len (s_tok rest) then res ++ [rest] else res), None)','(res, None)','C28: the result tiles the whole range')
m('seg3','Segment','segmentate_loop','segmentate_loop t (res ++ [seg]) rest\'','segmentate_loop t (res ++ [seg]) rest','C28: Segmentate accepts only ordered non overlapping segments')
m('seg4','Segment','seg_split','(mkSeg (s_info v) l, mkSeg (s_info v) r)','(mkSeg (s_info v) l, mkSeg (s_info sep) r)','C28: fillers carry the info of the whole')
m('seg5','Segment','seg_less','tok_covers (s_tok a) (s_tok b) || tok_before (s_tok a) (s_tok b).\n(** segment.go:50-58','tok_covers (s_tok b) (s_tok a) || tok_before (s_tok a) (s_tok b).\n(** segment.go:50-58','C29: covering segments come first')
m('seg6','Segment','seg_less','tok_covers (s_tok a) (s_tok b) || tok_before (s_tok a) (s_tok b).\n(** segment.go:50-58','tok_covers (s_tok a) (s_tok b).\n(** segment.go:50-58','C29: segments before come first')
m('seg7','Segment','seg_less_order','    ai <? bi.','    ai <=? bi.','C31: complete ties keep their relative order')
m('seg8','Segment','seg_less_order','    ai <? bi.','    bi <? ai.','C31: equal tokens are ordered by the index of their info')
m('seg9','Segment','segmentate','mkSeg [] (make_token 0 (slen (full s)))','mkSeg [] (make_token (pos s) (slen (full s)))','C28: on a scanner the pieces make up the full text')
m('seg10','Segment','sort_segments_by_order','go_stable (seg_less_order order) values','go_stable (seg_less_order (rev order)) values','C31: the order is the given one')
m('seg11','Segment','order_loop','else if negb (ai =? -1) && negb (bi =? -1) then (ai, bi)','else if negb (ai =? -1) || negb (bi =? -1) then (ai, bi)','C31: equal tokens are ordered by the index of both infos in order')
m('seg12','Segment','segmentate_loop','if negb (tok_covers (s_tok rest) (s_tok seg)) then','if tok_clashes (s_tok rest) (s_tok seg) then','C28: segments outside of the range are refused')
m('sort1','GoSort','go_stable','(blocks (length l) 20 l)','(blocks (length l) 0 l)','none: a different block size gives the same stable sort (expected survivor for strict orders; only SortSegments with equal tokens can tell)')
m('sort2','GoSort','sift','if less x y then y :: sift x t else x :: rl','if negb (less y x) then y :: sift x t else x :: rl','C31: stability')
m('sort3','GoSort','sym_merge','firstn i u ++ v ++ skipn i u','firstn i u ++ skipn i u ++ v','C29: sortedness with more than 20 segments')
m('sort4','GoSort','merge_pass','| _ => bl\n  end.\nFixpoint merge_all','| _ => []\n  end.\nFixpoint merge_all','C29: the result is a permutation')
m('sort5','GoSort','sym_merge','if Nat.ltb mid m then ((n - b)%nat, mid) else (0%nat, m)','if Nat.ltb m mid then ((n - b)%nat, mid) else (0%nat, m)','C29: symMerge sorts')
m('graph1','Graph','rank','Some (true, Node (n_seg a) (go_stable node_less (nodes ++ [b])), b)','Some (true, Node (n_seg a) (nodes ++ [b]), b)','C34: children are sorted by position')
m('graph2','Graph','rank','if tok_clashes (n_tok a) (n_tok b) then Some (false, a, b)\n    else','','C32: Append refuses clashing segments')
m('graph3','Graph','graph_append','set_tok (tok_merge (n_tok root) (s_tok seg)) root','set_tok (s_tok seg) root','C34: the root token covers everything')
m('graph4','Graph','graph_append','| [] => set_tok (s_tok seg) root','| [] => set_tok (tok_merge (n_tok root) (s_tok seg)) root','C34: the root token is the smallest covering token')
m('graph5','Graph','graph_append','(if ok then root2 else set_tok bkp root2, ok)','(root2, ok)','C33: a refused Append leaves the graph unchanged')
m('graph6','Graph','rank','''else if tok_clashes (n_tok b) (n_tok c) then
             Some (false, Node (n_seg a) (seen ++ c :: rest'), b)
           ''','','C32: Append refuses a segment that clashes with an accepted one')
m('graph7','Graph','rank','loop rest\' (seen ++ [c\']) nodes b\'','loop rest\' (seen ++ [c\']) (nodes ++ [c\']) b\'','C34: the nodes are the accepted segments, each once')
m('graph8','Graph','leafs','| Node s k => flat_map leafs k','| Node s k => s :: flat_map leafs k','C36: Leafs returns only childless nodes')
m('graph9','Graph','node_equal','seg_eqb s s\' &&','tok_eqb (s_tok s) (s_tok s\') &&','C36: Equal decides structural equality')
m('graph10','Graph','node_equal','| [], [] => true','| [], _ => true','C36: Equal decides structural equality')
m('graph11','Graph','stack_lines','c ++ kids (j + 1) k\'','c ++ kids j k\'','C36: FlameStack numbers the children')
m('graph12','Graph','rank','if tok_covers (n_tok b) (n_tok c) then','if tok_covers (n_tok b) (n_tok c) && negb (tok_covers (n_tok c) (n_tok b)) then','C35/C34: an equal later segment takes over the earlier node (nesting order of equal tokens; may be unspecified)')
m('graph13','Graph','node_less','tok_before (n_tok a) (n_tok b)','tok_before (n_tok b) (n_tok a)','C34: children are sorted by position')
# --- Grammar
m('gram1','Grammar','rule_name_reader','(lit "a-zA-Z0-9")','(lit "a-zA-Z")','C59 (names with digits): survivor possible, CheckRuleName looks at a prefix only')
m('gram2','Grammar','rule_name_reader','[AReader (between_any (lit "a-zA-Z"));','[AReader (between_any (lit "a-zA-Z0-9"));','C59: names start with a letter')
m('gram3','Grammar','set_rule_names','else if bytes_eqb (f_tag f) [] then cont f','','C60: fields without tag are left alone')
m('gram4','Grammar','set_rule_names','if negb (f_isrule f) then cont f\n    else','','C60: only Rule fields are treated')
m('gram5','Grammar','set_rule_names','Ok (g, Some (EOther (lit "invalid name for "','Ok ([], Some (EOther (lit "invalid name for "','C60: fields behind an invalid tag are unchanged')
m('gram6','Grammar','collect_rules','Ok (if f_isrule f then f_rule f :: rs else rs)','Ok (if f_isrule f then rs ++ [f_rule f] else rs)','C60: CollectRules keeps the field order')
m('gram7','Grammar','check_rules','| None => Ok (Some (EOther (lit "the Reader of " ++ r_name r ++ lit " is a nil value")))','| None => check_rules t','C60: CheckRules refuses a nil Reader')
m('gram8','Grammar','set_name','mkRule nm (r_reader (f_rule f))','mkRule nm None','C60: SetRuleNames only changes names')
m('gram9','Grammar','must_check_rules','| Ok (Some _) => Panic\n  | Panic => Panic\n  | Fuel => Fuel\n  end.\n\n','| Ok (Some _) => Ok tt\n  | Panic => Panic\n  | Fuel => Fuel\n  end.\n\n','C60: MustCheckRules panics')
m('gram10','Grammar','rule_monitor','(RMonitor (r_name r) lg (rule_sub e r))','(RMonitor [] lg (rule_sub e r))','C56: entries carry the rule name')
m('gram11','Grammar','rule_pick','(RPick (r_name r) b (rule_sub e r))','(RPick (r_name r) 0%nat (rule_sub e r))','C51: PickWith picks into the given basket')
# --- Json
def j(id,old,new,claim): m(id,'Json','json_*',old,new,claim)
j('json1','RHoley 0x20 MaxRune quote_backslash','RHoley 0x1F MaxRune quote_backslash','C61: control characters are not allowed in strings')
j('json2','RTimes 4 (RRule jHex)','RTimes 3 (RRule jHex)','C61: \\u needs four digits')
j('json3','(x22 :: lit "\\/bfnrt")','(x22 :: lit "\\/bfnrtv")','C61: only the listed escapes')
j('json4','mk_opt (AReader (RAnyRune (lit "+-")))','mk_opt (AReader (RAnyRune (lit "-")))','C62: exponent sign +')
j('json5','AReader (mk_seq [ar jOneNine; AReader (mk_opt (ar jDigits))])','AReader (mk_seq [ar jDigits])','C61/C62: leading zeros (Any takes the 0 first, so may be equivalent)')
j('json6','mk_any [ar jElements; ar jWS]','mk_any [ar jWS; ar jElements]','C62: arrays with elements')
j('json7','mk_any [ar jMembers; ar jWS]','mk_any [ar jMembers]','C62: empty object')
j('json8','(RRule jHex))])].','(RRule jDigit))])].','C62: hex digits in \\u')
j('json9','json_element := mk_seq [ar jWS; ar jValue; ar jWS]','json_element := mk_seq [ar jWS; ar jValue]','C62: trailing white space')
j('json10','mk_any [ar jObject; ar jArray; ar jString; ar jNumber; ar jBool; ar jNull]','mk_any [ar jObject; ar jArray; ar jString; ar jNumber; ar jBool]','C62: null')
j('json11','json_fraction := mk_opt (AReader (mk_seq [ARune 0x2E; ar jDigits]))','json_fraction := mk_opt (AReader (mk_seq [ARune 0x2E; AReader (mk_opt (ar jDigits))]))','C61: a fraction has digits')
j('json12','(lit "json parse error: ") jElement','(lit "json parse error: ") jValue','C62: leading white space of the whole')
j('json13','json_digits := mk_many (AReader digit)','json_digits := mk_zom (AReader digit)','C61: digits is non-empty')
j('json14','mk_any [AStr (lit "true"); AStr (lit "false")]','mk_any [AStr (lit "true"); AStr (lit "fals")]','C61/C62: false')
j('json15','AReader (mk_zom (AReader (mk_seq [ARune 0x2C; ar jMember])))','AReader (mk_opt (AReader (mk_seq [ARune 0x2C; ar jMember])))','C62: more than two members')
# --- Mxt
m('mxt1','Mxt','mxt_salt','AReader (mk_many (ARune 0x20)); AReader mxt_salt_head','AReader (mk_zom (ARune 0x20)); AReader mxt_salt_head','C64/C67 (language of MXT itself is not a property; survivor possible)')
m('mxt2','Mxt','mxt_content','mk_to (AReader (mk_any [mar mNextMarker; AReader RAtEnd]))','mk_zom (AReader (RBetween 0 MaxRune))','C67 (terminates as well; survivor possible)')
m('mxt3','Mxt','mxt_word','mk_many (mar mWordChar).','mk_many (AReader (mk_opt (mar mWordChar))).','C67: MXT terminates')
m('mxt4','Mxt','mxt_chunks','(mk_seq [mar mNL; mar mChunk])','(mk_seq [AReader (mk_opt (mar mNL)); AReader (mk_opt (mar mChunk))])','C67: MXT terminates')
m('mxt5','Mxt','mxt_content','AReader RAtEnd]))','AReader (mk_to (AReader RAtEnd))]))','C67 (survivor possible)')
m('mxt6','Mxt','mxt_cell','mxt_cell := 0%nat','mxt_cell := 1%nat','none: the identity of the cell does not matter')
m('mxt7','Mxt','mxt_nextmarker','AReader mxt_salt_tail]','AReader (mk_opt (AReader mxt_salt_tail))]','C64: stale salt changes later reads')
# --- Lua
m('lua1','Lua','lua_long','mk_seq [rd_ longBeg; rd_ (mk_past (rd_ longEnd))]','mk_seq [rd_ longBeg; rd_ (mk_to (rd_ longEnd))]','C65: reads up to and including the closing bracket')
m('lua2','Lua','lua_long','let longEnd := mk_seq [ch_ "]"; rd_ tl; ch_ "]"] in','let longEnd := mk_seq [ch_ "]"; rd_ (mk_zom (st_ "=")); ch_ "]"] in','C65: same level')
m('lua3','Lua','lua_BinOp_r','(st_ "/"); (st_ "//")','(st_ "//"); (st_ "/")','C66 refutation: // is not read')
m('lua4','Lua','lua_BinOp_r','(st_ "<="); (st_ "<")','(st_ "<"); (st_ "<=")','C66: <= is read')
m('lua5','Lua','lua_BinOp_r','(st_ "~="); (st_ "and")','(st_ "and")','C66: ~= is read completely')
m('lua6','Lua','lua_skiper','mk_zom (rd_ (mk_any [rd_ ws; lr lComment]))','mk_many (rd_ (mk_any [rd_ ws; lr lComment]))','language of Lua (not a property; survivor possible)')
m('lua7','Lua','lua_string','rd_ (lua_long lua_str_cell (ch_ "["))','rd_ (lua_long lua_str_cell (st_ "[["))','C65: long brackets start with [')
m('lua8','Lua','lua_numeral','mk_any [rd_ hexFloat; rd_ hexValue; rd_ floatValue; rd_ digits]','mk_any [rd_ floatValue; rd_ hexFloat; rd_ hexValue; rd_ digits]','language of LuaNumeral: hex numerals (not a property yet)')

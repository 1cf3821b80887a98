MUTS=[]
def m(id,f,defn,old,new,claim,*more):
    MUTS.append(dict(id=id,definition=f'{f}.v {defn}',edits=[(f,old,new)]+list(more),claim=claim,edit=f'{old}  =>  {new}'))
G='GoStr'; R='Reader'; S='Scanner'; ST='State'; B='Base'
# constructors of readers
m('cn1',R,'as_reader','| ARune r => Some (RRune r)','| ARune r => Some (RLit (encode_rune r))','C122: a rune argument reads the rune')
m('cn2',R,'as_reader','| ABad _ => None','| ABad _ => Some (RLit [])','C57: other arguments give invalid readers')
m('cn3',R,'as_readers','(acc ++ [r])','(r :: acc)','C39: the order of the arguments is kept')
m('cn4',R,'mk_any','inl rs => RAny rs','inl rs => RSeq rs','C39: Any makes a choice')
m('cn5',R,'mk_many','Definition mk_many := mk_one (lit "Many") RMany','Definition mk_many := mk_one (lit "Many") RZom','C41: Many reads at least one')
m('cn6',R,'mk_opt','Definition mk_opt := mk_one (lit "Opt") ROpt','Definition mk_opt := mk_one (lit "Opt") RMany','C48: Opt never fails')
m('cn7',R,'mk_past','(lit "Past") RPast','(lit "Past") RTo','C45: Past ends behind the match')
m('cn8',R,'mk_to','(lit "To") RTo','(lit "To") RPast','C45: To ends before the match')
m('cn9',R,'any_fold','RAny (map RFold l)','RAny (map RLit l)','C123: AnyFold ignores case')
m('cn10',R,'ranges3','if sep =? 0x2D then','if true then','C58: the separator is a minus')
m('cn11',R,'ranges2','Some ((mn, mx) :: l) | None => None end\n  | _ => None\n  end.\nDefinition build_between_any','Some ((mx, mn) :: l) | None => None end\n  | _ => None\n  end.\nDefinition build_between_any','C58: min before max')
m('cn12',R,'set_reader','| RBetweenAny l _ => RBetweenAny l singles','| RBetweenAny l _ => RBetweenAny l []','C58: Set reads the single runes')
m('cn13',R,'hex_digit_reader','[0x30; 0x39; 0x61; 0x66; 0x41; 0x46]','[0x30; 0x39; 0x61; 0x67; 0x41; 0x46]','C123: g is no hex digit')
m('cn14',R,'skip_ws_seq','mk_skip_seq (mk_zom (AReader ws)) l','mk_skip_seq (mk_many (AReader ws)) l','C40: spaces are optional')
m('cn15',R,'janus','RJanusEnd cell name).','RJanusEnd (S cell) name).','C47: both ends share the string')
m('cn16',R,'nl','[AStr [x0a]; AStr [x0d; x0a]]','[AStr [x0a]; AStr [x0d]]','C123: NL reads CRLF')
m('cn17',R,'get_deepest','deepest_loop errs 0 [].','deepest_loop errs 1 [].','C144: which error is returned')
m('cn18',R,'err_later','oth <=? m.','oth <? m.','C144: the last among equals wins')
m('cn19',R,'arg_type','ARune _ => lit "int32"','ARune _ => lit "rune"','none: a rune argument is never an unknown type')
# text functions of Go
m('gs1',G,'decode_rune','if bz b0 <? 0x80 then (bz b0, 1%nat)','if bz b0 <=? 0x80 then (bz b0, 1%nat)','C16: 0x80 does not begin a rune')
m('gs2',G,'decode_rune','(bz b0 - 0xC0) * 64','(bz b0 - 0xC0) * 32','C16: runes of two bytes')
m('gs3',G,'lead_info','if s0 <? 0xC2 then None','if s0 <? 0xC0 then None','C16: overlong encodings')
m('gs4',G,'lead_info','if s0 =? 0xED then Some (3%nat, 0x80, 0x9F)','if s0 =? 0xED then Some (3%nat, 0x80, 0xBF)','C16: surrogates')
m('gs5',G,'last_start','if start <? lim then start','if start <=? lim then start','C16: runes of four bytes read backwards')
m('gs6',G,'decode_last_rune','if start + Z.of_nat size =? en then (r, size) else (RuneError, 1%nat)','(r, size)','C12: ill-formed bytes at the end')
m('gs7',G,'rune_len','else if r <=? 0x7FF then 2','else if r <=? 0x7FF then 3','C14: runes of two bytes')
m('gs8',G,'range_from','(i, r) :: range_from t (Nat.pred w) (i + 1)','(i, r) :: range_from t w (i + 1)','C10: the indices of range')
m('gs9',G,'has_prefix','| _ :: _, [] => false','| _ :: _, [] => true','C05: the text may end inside of the literal')
m('gs10',G,'has_suffix','(slen p <=? slen s) && bytes_eqb','bytes_eqb','C05: literals longer than Head')
m('gs11',G,'index','Some i => Some (i + 1)','Some i => Some i','C06: the index of the occurrence')
m('gs12',G,'contains_rune','else if negb (valid_rune r) then false','else if false then false','C78: runes that are not valid')
m('gs13',G,'contains_rune','existsb (fun ir => snd ir =? RuneError) (range_str s)','false','C78: U+FFFD in the set')
m('gs14',G,'fold_eq1','(0x41 <=? lo) && (lo <=? 0x5A) && (hi =? lo + 32)','(hi =? lo + 32)','C77: only letters are folded')
m('gs15',G,'equal_fold_loop','| [], _ | _, [] => bytes_eqb s t','| [], _ | _, [] => true','C77: both end together')
m('gs16',G,'replace_crlf','then x0a :: replace_crlf t\'','then replace_crlf t\'','C17: CRLF is a line end')
m('gs17',G,'split_nl','if Byte.eqb b x0a then [] :: split_nl t','if Byte.eqb b x0d then [] :: split_nl t','C17: LF ends a line')
m('gs18',G,'count_byte','slen (filter (Byte.eqb b) s)','slen s','C17: tabs count more')
m('gs19',G,'join','x ++ sep ++ join t sep','x ++ join t sep','C126: the parts of What')
m('gs20',G,'escape_rune','if (r =? quote) || (r =? 0x5C) then','if (r =? quote) then','C126: backslashes are escaped')
m('gs21',G,'escape_rune','else if r =? 9 then lit "\\t"','else if r =? 9 then lit "\\n"','C126: tabs and newlines look different')
m('gs22',G,'hex_digit','zb (0x61 + (z - 10))','zb (0x61 + z)','C126: hex digits')
m('gs23',G,'encode_rune','let r := if valid_rune r then r else RuneError in\n  if r <=? 0x7F','let r := r in\n  if r <=? 0x7F','C78: runes that are not valid')
m('gs24',G,'valid_rune','(0xDFFF <? r) && (r <=? MaxRune)','(0xDFFF <=? r) && (r <=? MaxRune)','C78: surrogates are not valid')
m('gs25',G,'index_any_loop','if contains_rune chars c then Some i else','if negb (contains_rune chars c) then Some i else','C10: IndexAny finds a rune of the set')
m('gs26',G,'MaxRune','Definition MaxRune : Z := 0x10FFFF.','Definition MaxRune : Z := 0xFFFF.','C14: runes of four bytes')
# state
m('st1',ST,'new_scanner','mkSc str 0 None.','mkSc str 0 (Some 0%nat).','C155: a new Scanner has no Tracker')
m('st2',ST,'basket_update','rev (drop_behind m (rev segs))','drop_behind m segs','C53: segments are dropped from the end')
m('st3',ST,'drop_behind','if t_to (s_tok seg) <=? m then rl','if t_to (s_tok seg) <? m then rl','C53: segments that end at the position stay')
m('st4',ST,'track','put_basket b (basket_update p (get_basket b h)) h\n','h\n','C53: moves update the Basket')
m('st5',S,'s_tail','then Ok (skipn (Z.to_nat (pos (sc s))) (full (sc s)), s) else Panic','then Ok (skipn (Z.to_nat (pos (sc s))) (full (sc s)), s) else Ok ([], s)','C155: Tail panics outside of the text')
m('st6',S,'at_start','gets (fun s => pos (sc s) =? 0)','gets (fun s => pos (sc s) <=? 0)','C155: AtStart is false outside of the text')
m('st7',S,'at_end','gets (fun s => slen (full (sc s)) =? pos (sc s))','gets (fun s => slen (full (sc s)) <=? pos (sc s))','C155: AtEnd is false outside of the text')
m('st8',S,'to_end','to_marker (slen (full (sc s))) s','to_marker (slen (full (sc s)) - 1) s','C155: ToEnd')
m('st9',S,'new_rev_scanner','mkSc str (slen str) None','mkSc str 0 None','C155: NewRevScanner stands at the end')
m('st10',S,'since','let* p := mark in get_tok (make_token m p)','let* p := mark in get_tok (mkTok m p)','C155: Since accepts later marks')
m('st11',S,'while_f','ret (a <? b)','ret (b <? a)','C156: While tells whether it ended right of the start')
m('st12',S,'while_loop','if r then while_loop n\' f else ret tt','if r then ret tt else while_loop n\' f','C156: While repeats f while it answers yes')
m('st13',S,'get_prefix_loop','get_prefix_loop str n t (count + 1)','get_prefix_loop str n t count','C82: ScanString counts runes')
m('st14',S,'mid_loop','mid_loop str from t (c + 1)','mid_loop str from t c','C110: the preview begins at the position')
m('st15',S,'get_tok','&& (t_to t <=? slen (full (sc s)))','','C155: Get panics outside of the text')
m('st16',B,'slice','firstn (Z.to_nat (j - i))','firstn (Z.to_nat j)','C155: Get returns the marked part')
m('st17',B,'wrap64','(z + 2 ^ 63) mod 2 ^ 64 - 2 ^ 63','z mod 2 ^ 64','C03: sums of Move wrap around')
# grammar set up
gr='Grammar'
m('gm1',gr,'must_set_rule_names','| Ok (_, Some _) => Panic\n  | Panic => Panic\n  | Fuel => Fuel\n  end.\nDefinition must_check','| Ok (g\', Some _) => Ok g\'\n  | Panic => Panic\n  | Fuel => Fuel\n  end.\nDefinition must_check','C154: MustSetRuleNames panics on an error')
m('gm2',gr,'grammar_lines','Ok l, Ok ls => Ok (l :: ls)','Ok l, Ok ls => Ok (ls ++ [l])','C154: the lines are in the order of the rules')
m('gm3',gr,'rule_line','(r_name r ++ lit ": " ++ what e x)','(what e x ++ lit ": " ++ r_name r)','C154: name before what')
m('gm4',gr,'assign','mkRule (r_name (f_rule f)) (Some r)','mkRule (f_name f) (Some r)','C154: the rules have the tags as names')
m('gm5',gr,'rule_pick','Some (RPick (r_name r) b (rule_sub e r))','Some (RPick [] b (rule_sub e r))','C51: segments carry the names of their rules')
m('gm6',gr,'pick_rules','fold_left (fun e i => put rule0 e i (rule_pick e b (get_rule e i))) ids e','fold_left (fun e i => put rule0 e i (rule_pick e b (get_rule e i))) (tl ids) e','C102: all rules are picked')
m('gm7',gr,'monitor_all','monitor_rules lg (seq 0 (length e)) e','monitor_rules lg (seq 1 (length e)) e','C100: all rules are monitored')
m('gm8',gr,'nil_reader','RRule (length e)','RLit []','C57: a nil Reader panics')
# Trackers
W='Watch'
m('wt1',W,'moveto','up p (hp s, w_x s)','up (pos (sc s)) (hp s, w_x s)','C152: the Tracker is told the new position')
m('wt2',W,'on_sub','(mkW (mkSt (new_scanner str) (hp s)) (w_x s))','(mkW (mkSt (mkSc str 0 (trk (sc s))) (hp s)) (w_x s))','C152: scanners of bodies tell nothing')
m('wt3',W,'moveto','match trk (sc s) with\n  | None => mkW (mkSt c (hp s)) (w_x s)\n  | Some _ =>','match (if p <? pos (sc s) then None else trk (sc s)) with\n  | None => mkW (mkSt c (hp s)) (w_x s)\n  | Some _ =>','C152: the Tracker is told when the Scanner goes back')

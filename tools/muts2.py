MUTS=[]
def m(id,f,defn,old,new,claim,*more):
    MUTS.append(dict(id=id,definition=f'{f}.v {defn}',edits=[(f,old,new)]+list(more),claim=claim,edit=f'{old}  =>  {new}'))
S='Scanner';R='Reader';V='ReadVal'
# --- Reader
def r(id,defn,old,new,claim): m(id,R,defn,old,new,claim)
r('rd1','deepest_loop','if err_later m\' m then deepest_loop t m\' w\' else','if err_later m m\' then deepest_loop t m w else','C39: the deepest error wins, the last among equals')
r('rd2','err_later','oth <=? m','oth <? m','C39: the last among equally deep errors')
r('rd3','any_loop','| [] => to_marker m ;; ret (Some (get_deepest errs))','| [] => ret (Some (get_deepest errs))','C39: a failing Any restores (readers that do not restore themselves)')
r('rd4','seq_loop','| Some x => to_marker m ;; ret (Some x)\n    end\n  end.\n(** reader.go:843','| Some x => ret (Some x)\n    end\n  end.\n(** reader.go:843','C40: a failing Seq restores')
r('rd5','skip_loop','| None => let* e2 := skip in skip_loop skip t e2','| None => skip_loop skip t None','C40: SkipSeq skips behind every reader')
r('rd6','skip_seq','let* e := skip in\n  let* e := skip_loop skip rds e in','let* e := skip_loop skip rds None in','C40: SkipSeq skips before the first reader')
r('rd7','times_loop','| Some x => ret (Some x)\n    end\n  end.\n(** reader.go:754','| Some x => ret None\n    end\n  end.\n(** reader.go:754','Times(n,r) reads exactly n times')
r('rd8','past_loop','| Some _ => move_runes 1 ;; past_loop n\' rd','| Some _ => move_runes 2 ;; past_loop n\' rd','C45: Past finds the leftmost match')
r('rd9','past_loop','let* fin := at_end in\n    if fin then ret false\n    else\n      let* e := rd in','let fin := false in\n    if fin then ret false\n    else\n      let* e := rd in','C43/C45: Past terminates')
r('rd10','to_loop','| None => to_marker subm ;; ret true','| None => ret true','C45: To stops before the match')
r('rd11','to_loop','if ok then to_loop n\' rd else ret false','if ok then to_loop n\' rd else ret true','C45: To fails if there is no match')
r('rd12','body_loop','if negb (snd r) then ret false','if false then ret false','C46: the body is read completely')
r('rd13','body_loop','else if back then to_marker t ;; ret true else ret true','else if back then ret true else ret true','C46: Body stops before the tail')
r('rd14','body_loop','let* str := get_tok (make_token m t) in','let* str := get_tok (make_token 0 t) in','C46: the body is the text in between')
r('rd15','on_sub','| Ok (x, s\') => Ok (x, mkSt (sc s) (hp s\'))','| Ok (x, s\') => Ok (x, mkSt (sc s) (hp s))','effects of readers inside a Body are kept (picks, values)')
r('rd16','read RAt','let* m := mark in let* x := rd sub in to_marker m ;; ret x','let* x := rd sub in ret x','C44: At never moves')
r('rd17','read RAtEnd','let* ok := at_end in error_if_false ok (what e r)','let* ok := at_start in error_if_false ok (what e r)','AtEnd succeeds exactly at the end')
r('rd18','read RNot','| Some _ => move_runes 1 ;; ret None\n        end\n    | ROpt','| Some _ => ret None\n        end\n    | ROpt','C44: Not moves one rune')
r('rd19','read ROpt','ROpt sub => rd sub ;; ret None','ROpt sub => rd sub','C48: Opt never fails')
r('rd20','read RMany','error_if_false (a <? b) (what e r)','error_if_false (a <=? b) (what e r)','C41: Many fails if nothing was consumed')
r('rd21','read RJanusBeg','modh (put_cell cell str) ;; ret None\n        | Some x','modh (put_cell cell []) ;; ret None\n        | Some x','C47: the end reader expects what begin read')
r('rd22','read RJanusEnd','modh (put_cell cell []) ;; ret None\n        | Some y','ret None\n        | Some y','C47/C64: the end reader forgets after success')
r('rd23','read RMap','modh (add_event id (fst te)) ;; ret None','ret None','C55: Map reports')
r('rd24','read RMap','| Some x => ret (Some x)\n        end\n    | RMatch','| Some x => modh (add_event id (fst te)) ;; ret (Some x)\n        end\n    | RMatch','C55: Map reports only successful reads')
r('rd25','read RPick','modh (basket_add b (mkSeg info (fst te)))','modh (basket_add b (mkSeg [] (fst te)))','C54: picked segments carry the info')
r('rd26','basket_add','put_basket b (get_basket b h ++ [seg]) h','put_basket b (seg :: get_basket b h) h','C51: picks are ordered by their end')
r('rd27','read RMonitor','let* q := mark in\n        modh','let* q := ret p in\n        modh','C56: ExitAt is the end position')
r('rd28','read RHoley','in_range mn v mx && negb (contains_rune holes v)','in_range mn v mx','C58-like: Holey excludes the holes')
r('rd29','between_any_loop','if ok then ret true else between_any_loop t','if ok then ret true else ret false','C58: every range counts')
r('rd30','read RBetweenAny','let* ok := if_any_rune singles in\n          if ok then ret None','let* ok := ret false in\n          if ok then ret None','C58: the singles count')
r('rd31','ranges3','if sep =? 0x2D then match','if true then match','C57: invalid range strings are invalid')
r('rd32','build_between_any','| None => RInvalid (lit "odd number','| None => RBetweenAny [] [] | Some _ => RInvalid (lit "odd number','C57: odd number of values is invalid')
MUTS.pop()
r('rd33','set_reader','| RBetweenAny l _ => RBetweenAny l singles','| RBetweenAny l _ => RBetweenAny l []','C58: the singles count')
r('rd34','as_readers','| Some r => as_readers fname (i + 1) t (acc ++ [r])','| Some r => as_readers fname (i + 1) t (r :: acc)','C39/C40 through the constructors: argument order')
r('rd35','mk_one','| None => RInvalid (lit "invalid " ++ fname ++ lit " parameter: unknown type " ++ arg_type a)','| None => k (RInvalid [])','C57: unsupported argument gives an invalid reader (Zom(invalid) never fails)')
r('rd36','read RInvalid','RInvalid msg => ret (Some (EOther (lit "INVALID-READER: " ++ msg)))','RInvalid msg => ret None','C57: invalid readers fail')
r('rd37','what RMany','RMany sub => lit "+" ++ what e sub','RMany sub => lit "+"','C57: marker is visible in the What of the whole')
r('rd38','what RNamed','RNamed name _ => name','RNamed name s => what e s','C48: Named changes What')
r('rd39','read RRuleName','error_if_false (match x with None => true | Some _ => false end) (what e r)','ret x','C59: the error names the rule name (message only)')
r('rd40','read RGrammar','| Some y => ret (Some (EOther (pfx ++ err_text y)))','| Some y => ret (Some y)','message of the grammar readers (not a property; survivor possible)')
r('rd41','read RBool','modh (put_val id (VBool (fst ve)))','modh (put_val id (VBool (negb (fst ve))))','BoolReader stores the value read')
r('rd42','read RInt','modh (put_val id (VInt (fst ve)))','modh (put_val id (VInt 0))','IntReader stores the value read')
r('rd43','read RTimes','times_loop (Z.to_nat k) (rd sub)','times_loop (S (Z.to_nat k)) (rd sub)','Times(n,r) reads exactly n times')
r('rd44','any_fold','RAny (map RFold l)','RAny (map RLit l)','AnyFold folds')
r('rd45','ws','RAnyRune [x20; x0d; x0a; x09]','RAnyRune [x20; x0d; x0a]','WS contains the tab (C62)')
r('rd46','digit','digit : reader := RBetween 0x30 0x39','digit : reader := RBetween 0x31 0x39','Digit (C62)')
r('rd47','rep_loop','| Some _ => ret tt\n    end\n  end.\n(** reader.go:898','| Some _ => move_runes 1 ;; ret tt\n    end\n  end.\n(** reader.go:898','C41: Zom stands where r fails')
r('rd48','read RUint','RUint id base bits =>                                                       (* 956-960 *)\n        let* ve := read_uint base bits in','RUint id base bits =>                                                       (* 956-960 *)\n        let* ve := read_int base bits in','UintReader reads with ReadUint')
r('rd49','read RWrap','do_moves (fst me) ;; ret (snd me)','do_moves (rev (fst me)) ;; ret (snd me)','Wrap calls the function')
r('rd50','read RFold','let* ok := if_fold str in error_if_false','let* ok := if_str str in error_if_false','Fold matches up to case')
r('rd51','nl','[AStr [x0a]; AStr [x0d; x0a]]','[AStr [x0a]; AStr [x0d]]','NL reads CRLF')
r('rd52','read RMatch','RMatch w f => let* ok := if_match f in error_if_false ok w','RMatch w f => let* ok := if_match (fun v => negb (f v)) in error_if_false ok w','Match reads one rune that satisfies f')
r('rd53','read RBetween','RBetween mn mx => let* ok := if_between mn mx in','RBetween mn mx => let* ok := if_between mx mn in','Between reads one rune in the range')
r('rd54','read RMonitor','modh (fun h => put_log lg (log_exit ptr q x (get_log lg h)) h)','modh (fun h => put_log lg (log_exit ptr q None (get_log lg h)) h)','C56: Error is the error of the call')
# --- LogModel, State
m('log1','LogModel','log_enter','let level := l_level l + 1 in','let level := l_level l in','C56: nesting level')
m('log2','LogModel','log_exit','(l_cur l) (l_len l) (l_cap l) (l_level l - 1)','(l_cur l) (l_len l) (l_cap l) (l_level l)','C56: the level is back at its old value')
m('log3','LogModel','log_enter','(Nat.max (S (l_len l)) (lib_grow (l_cap l)))','(S (l_len l))','none: a possible growth function (the code leaves it open)')
m('log4','LogModel','log_exit','upd (l_arrs l) (fst p)','upd (l_arrs l) (l_cur l)','C56 refutation: Exit after reallocation is lost')
m('log5','LogModel','log_reset','(length (l_arrs l)) 0 0 0','(length (l_arrs l)) 0 0 (l_level l)','Reset resets the level')
m('st1','State','drop_behind','if t_to (s_tok seg) <=? m then rl else','if t_to (s_tok seg) <? m then rl else','C53: keeps segments that end at m')
m('st2','State','drop_behind','if t_to (s_tok seg) <=? m then rl else','if t_from (s_tok seg) <=? m then rl else','C53: forgets segments that end behind m')
m('st3','State','basket_update','rev (drop_behind m (rev segs))','drop_behind m segs','C53: looks from the end')
m('st4','State','moveto','(track (trk (sc s)) p (hp s))','(hp s)','C52: a failed read leaves nothing in the basket')
m('gofix','GoStr','?','zzz','zzz','')
MUTS.pop()
# --- ReadVal
def v(id,defn,old,new,claim): m(id,V,defn,old,new,claim)
v('rv1','read_rune','let* ok := move (Z.of_nat i) in\n       let* e := error_if_false ok (lit "rune") in ret (r, e).\n(** read.go:19','let* ok := move 1 in\n       let* e := error_if_false ok (lit "rune") in ret (r, e).\n(** read.go:19','C16: ReadRune moves past the rune')
v('rv2','rev_read_rune','let* ok := move (- Z.of_nat i) in','let* ok := move (Z.of_nat i) in','C16: RevReadRune moves back')
v('rv3','read_bool','[lit "true"; lit "True"; lit "TRUE"]','[lit "true"; lit "TRUE"]','C23: format * knows True')
v('rv4','read_bool','read_bool_strs (lit "TRUE") (lit "FALSE")','read_bool_strs (lit "FALSE") (lit "TRUE")','C23: format U')
v('rv5','read_bool','bytes_eqb format (lit "Cc")','bytes_eqb format (lit "cc")','C23: format Cc')
v('rv6','hex_value','in_range 0x61 r 0x66 then','in_range 0x61 r 0x67 then','C18/C19: hex digits')
v('rv7','oct_value','in_range 0x30 r 0x37','in_range 0x30 r 0x38','C18/C19: octal digits')
v('rv8','int_bounds','Some (-128, 127)','Some (-127, 127)','C18/C21: -128')
v('rv9','uint_max','Some 65535','Some 65536','C19/C22: uint16 range')
v('rv10','read_int_loop','let tmp := wrap64 (wrap64 (i64 * base) - v) in','let tmp := wrap64 (wrap64 (i64 * base) + v) in','C18: negative values')
v('rv11','read_int_loop','if (tmp <? i64) || (mx <? tmp) then (i64, n)\n      else read_int_loop','if (mx <? tmp) then (i64, n)\n      else read_int_loop','C20 exact form / C22: the overflow test at 64 bit')
v('rv12','read_int','to_marker marker ;;\n        let* e := error_for (lit "integer") in ret (0, e)','let* e := error_for (lit "integer") in ret (0, e)','C18/C22: a failing ReadInt does not move')
v('rv13','read_int','(if neg then ret true else if_rune 0x2B) ;;','ret true ;;','C18: the sign +')
v('rv14','read_uint_loop','if (tmp <? u64) || (mx <? tmp) then (u64, n)','if (tmp <=? u64) || (mx <? tmp) then (u64, n)','C19: leading zeros')
v('rv15','read_uint','else move (n + 1) ;; ret (u64, None)','else move n ;; ret (u64, None)','C19: consumes the digits')
v('rv16','char_func','else if base =? 16 then Some hex_value','else if base =? 16 then Some dec_value','C18/C19: base 16')
v('rv17','int_bounds','else if bits =? 64 then Some (-9223372036854775808, 9223372036854775807)\n  else None','else Some (-9223372036854775808, 9223372036854775807)','C22: unsupported bit size is an error')
v('rv18','read_int_loop','if (i64 <? tmp) || (tmp <? mn) then (i64, n)','if (i64 <? tmp) || (tmp <=? mn) then (i64, n)','C18/C21: the minimum')

MUTS=[]
def m(id,f,defn,old,new,claim,*more):
    MUTS.append(dict(id=id,definition=f'{f}.v {defn}',edits=[(f,old,new)]+list(more),claim=claim,edit=f'{old}  =>  {new}'))
def s(id,defn,old,new,claim): m(id,'Scanner',defn,old,new,claim)
s('sc1','move','(npos <? 0) || (slen (full (sc s)) <? npos)','(npos <? 0) || (slen (full (sc s)) <=? npos)','C03: Move to the end')
s('sc2','move','let npos := wrap64 (pos (sc s) + n) in','let npos := pos (sc s) + n in','none for real sizes: int64 wrap-around of Move is invisible (|text| < 2^63); survivor allowed')
s('sc3','to_marker','if (m <? 0) && (slen (full (sc s)) <=? m) then','if (m <? 0) || (slen (full (sc s)) <? m) then','C02 refutation: ToMarker accepts everything')
s('sc4','line_col','let n := (slen lst - tabs) + tabs * tab in','let n := slen lst + tabs * tab in','C17: tabs count as tab')
s('sc5','line_col','ret (slen lines, n + 1)','ret (slen lines, n)','C17: 1-based column')
s('sc6','at_end','slen (full (sc s)) =? pos (sc s)','slen (full (sc s)) <=? pos (sc s) + 1','C43/C45: AtEnd')
s('sc7','rev_iter','if v =? RuneError then ([], str)','if Nat.eqb vi 0 then ([], str)','exact behaviour of revItr at U+FFFD (C13/C07 refutations)')
s('sc8','get_prefix_loop','if count =? n then','if count =? n + 1 then','C15')
s('sc9','mid_loop','if c =? from then','if c =? from + 1 then','midSubString')
s('sc10','if_str','if has_prefix t str then move (slen str) else ret false','if has_prefix t str then ret true else ret false','C05: If moves')
s('sc11','if_any','if ok then ret true else if_any xs','if ok then if_any xs else if_any xs','C05: IfAny stops at the first match')
s('sc12','to_str','| Some i => move i\n  | None => ret false\n  end.\n(** scanner.go:61','| Some i => move (i + slen str)\n  | None => ret false\n  end.\n(** scanner.go:61','C06: To stands at the start of the match')
s('sc13','scan_string','if ok then let* ok\' := move (slen sub) in ret (sub, ok\') else ret (sub, false)','if ok then let* ok\' := move n in ret (sub, ok\') else ret (sub, false)','C15: moves past the runes')
s('sc14','if_fold','if slen t <? i then panic','if slen t <? i then ret false','C08 refutation: IfFold panics')
s('sc15','to_fold_loop','if equal_fold (slice sub n (n + slen str)) str then Some n','if equal_fold (slice sub n (n + slen str)) str then Some (n + slen str)','C08: ToFold stops at the start')
s('sc16','to_fold_loop','if slen sub <? slen str + n then None','if slen sub <=? slen str + n then None','C08: ToFold finds a match at the end')
s('sc17','if_rune','if negb (first =? r) then ret false else move (Z.of_nat i).\n\n','if negb (first =? r) || Nat.eqb i 0 then ret false else move (Z.of_nat i).\n\n','C09 refutation: IfRune(U+FFFD) at the end')
s('sc18','find_rune','if p v then Some i else find_rune p t','if p v then find_rune p t else find_rune p t','C10: To* find')
s('sc19','to_rune','find_rune (fun v => v =? r)','find_rune (fun v => negb (v =? r))','C10: ToRune')
s('sc20','while_rune','| None => to_end\n       end.\n\n(* ---------------------------------------------------------------- anyrune','| None => ret false\n       end.\n\n(* ---------------------------------------------------------------- anyrune','C11: WhileRune at the end')
s('sc21','while_any_rune','| None => ret true','| None => to_end','C11 refutation: WhileAnyRune does not move at the end')
s('sc22','while_match','| None => ret false\n       end.\n\n(* -------------------------------------------------------------- MoveRunes','| None => to_end\n       end.\n\n(* -------------------------------------------------------------- MoveRunes','C11 refutation: WhileMatch does not move at the end')
s('sc23','in_range','(mn <=? v) && (v <=? mx)','(mn <=? v) && (v <? mx)','C09: IfBetween includes max')
s('sc24','if_match','negb (Nat.eqb i 0) && check first','check first','C09: IfMatch needs a rune')
s('sc25','to_match','match find_rune check (range_str t) with\n  | Some i => move i\n  | None => ret false','match find_rune check (range_str t) with\n  | Some i => move i\n  | None => to_end','C10: ToMatch does not move without match')
s('sc26','move_runes_fwd','Some (i + rune_len r)','Some (i + 1)','C14: passes whole runes')
s('sc27','move_runes_rev','if n =? c - 1 then','if n =? c then','C14: counts backwards')
s('sc28','move_runes','else ret true.\n\n(* ---------------------------------------------------------------- reverse','else ret false.\n\n(* ---------------------------------------------------------------- reverse','C14: MoveRunes(0)')
s('sc29','rev_if','if has_suffix h str then move (- slen str) else','if has_suffix h str then move (slen str) else','C05: RevIf moves back')
s('sc30','rev_to','find_rev (fun s _ => has_suffix s str)','find_rev (fun s _ => has_prefix s str)','C07')
s('sc31','find_rev','Some (init - slen str) else','Some (init - slen str + 1) else','C13')
s('sc32','rev_if_fold','if slen h <? slen str then panic','if slen h <? slen str then ret false','C08 refutation: RevIfFold panics')
s('sc33','rev_to_fold_loop','if slen s <? slen str then panic','if slen s <? slen str then ret false','C08 refutation: RevToFold panics')
s('sc34','rev_if_rune','if negb (lst =? r) then ret false else move (- Z.of_nat i)','if negb (lst =? r) then ret false else move (- 1)','C12: moves to the start of the rune')
s('sc35','rev_while','| Some q => if q =? slen h then ret false else move (- q)','| Some q => move (- q)','none: q equals the length of the head only for an empty Str, which the iterator never shows')
s('sc36','rev_while','| None => move (- (slen h - slen (snd (rev_items h))))','| None => to_start','C13 exact behaviour at U+FFFD')
s('sc37','rev_if_any_rune','if contains_rune str lst then move','if negb (contains_rune str lst) then move','C12: RevIfAnyRune')
s('sc38','rev_if_between','if in_range mn lst mx then ret false else move (- Z.of_nat i)','if in_range mn lst mx then move (- Z.of_nat i) else ret false','C12 refutation: inverted test')
s('sc39','rev_if_match','if check lst then ret false else move (- Z.of_nat i)','if check lst then move (- Z.of_nat i) else ret false','C12 refutation: inverted test')
s('sc40','rev_to_match','find_rev (fun _ v => check v)','find_rev (fun _ v => negb (check v))','C13: RevToMatch')
s('sc41','make_token','if b <? a then mkTok b a else mkTok a b','mkTok a b','C24: from <= to')
s('sc42','tok_before','t_to t <=? t_from oth','t_to t <? t_from oth','C25')
s('sc43','tok_len','wrap64 (t_to t - t_from t)','wrap64 (t_from t - t_to t)','C24: Len')
s('sc44','tok_covers','(t_from t <=? t_from sub) && (t_to sub <=? t_to t)','(t_from t <=? t_from sub) && (t_to sub <? t_to t)','C25: Covers is reflexive')
s('sc45','tok_merge','let e := if t_to t <? t_to oth then t_to oth else t_to t in','let e := t_to oth in','C26')
s('sc46','tok_clashes','&& negb (tok_covers t oth) && negb (tok_covers oth t)','&& negb (tok_covers t oth)','C25: Clashes is symmetric')
s('sc47','tok_split','(make_token (t_from t) (t_from sep), make_token (t_to sep) (t_to t))','(make_token (t_from t) (t_to sep), make_token (t_to sep) (t_to t))','C27')
s('sc48','get_tok','(t_from t <=? t_to t) && (t_to t <=? slen (full (sc s)))','(t_from t <=? t_to t)','Get panics outside of the text (out of range tokens)')
s('sc49','scope','if r then ret true else (to_marker m ;; ret false)','if r then ret true else ret false','C04: Scope')
s('sc50','trace','if r then ret (str, true) else (to_marker m ;; ret (str, false))','if r then ret (str, true) else ret (str, false)','C04: Trace')
s('sc51','while_f','ret (a <? b)','ret (b <? a)','While reports whether it moved')
s('sc52','tokenize','else (to_marker a ;; ret (make_token a b, false))','else (to_marker b ;; ret (make_token a b, false))','C04: Tokenize')
s('sc53','capture','let* str := get_tok (fst tr) in ret (str, true)','ret ([], true)','C04: Capture')
s('sc54','use','| Some x => to_marker m ;; ret (Some x)\n  end.\n(** reader.go:56','| Some x => ret (Some x)\n  end.\n(** reader.go:56','C04: Use')
s('sc55','trace_use','| None => let* str := since m in ret (str, None)','| None => ret ([], None)','C04: TraceUse')
s('sc56','tokenize_use','| Some x => to_marker a ;; let* b := mark in ret (make_token a b, Some x)','| Some x => let* b := mark in ret (make_token a b, Some x)','C04: TokenizeUse')
s('sc57','capture_use','| None => let* str := get_tok (fst te) in ret (str, None)','| None => let* str := since 0 in ret (str, None)','C04: CaptureUse')
s('sc58','error_for','let* m := mark in ret (Some (EReadError m name))','ret (Some (EReadError 0 name))','C39: errors carry the position')
s('sc59','error_if_false','if ok then ret None else error_for name','if ok then error_for name else ret None','every reader')
s('sc60','s_head','firstn (Z.to_nat (pos (sc s)))','firstn (S (Z.to_nat (pos (sc s))))','C01: Head()+Tail()')
s('sc61','rev_to_fold_loop','then move (- (init - slen s))','then move (- (init - slen s) - slen str)','RevToFold stands behind the match')
s('sc62','new_rev_scanner','mkSc str (slen str) None','mkSc str (slen str + 1) None','C01: NewRevScanner stands at the end')
s('sc63','to_any_rune','match index_any t str with','match index_any str t with','C10: ToAnyRune')
s('sc64','while_between','find_rune (fun v => negb (in_range mn v mx)) (range_str t) with\n       | Some i => move i\n       | None => to_end','find_rune (fun v => negb (in_range mn v mx)) (range_str t) with\n       | Some i => move i\n       | None => ret true','C11: WhileBetween at the end')
s('sc65','rev_to_any_rune','find_rev (fun _ v => contains_rune str v)','find_rev (fun _ v => negb (contains_rune str v))','C13')
s('sc66','rev_to_between','find_rev (fun _ v => in_range mn v mx)','find_rev (fun _ v => in_range mx v mn)','C13')
s('sc67','tok_string','itoa (t_from t) ++ lit "-" ++ itoa (t_to t)','itoa (t_to t) ++ lit "-" ++ itoa (t_from t)','text of a token (not a property; survivor possible)')
s('sc68','to_between','match find_rune (fun v => in_range mn v mx) (range_str t) with\n       | Some i => move i\n       | None => ret false','match find_rune (fun v => in_range mn v mx) (range_str t) with\n       | Some i => move i\n       | None => ret true','C10: ToBetween returns false without match')
s('sc69','rev_if_any','if ok then ret true else rev_if_any xs','if ok then ret true else ret false','C05: RevIfAny')

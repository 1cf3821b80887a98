MUTS=[]
def m(id,f,defn,old,new,claim,*more):
    MUTS.append(dict(id=id,definition=f'{f}.v {defn}',edits=[(f,old,new)]+list(more),claim=claim,edit=f'{old}  =>  {new}'))
S='Scanner'; R='Reader'; G='LogModel'; C='LogCalls'
m('lv1',G,'log_enter','let level := l_level l + 1 in','let level := l_level l in','C169: an entry is one level below its parent')
m('lv2',G,'log_exit','(l_cur l) (l_len l) (l_cap l) (l_level l - 1)','(l_cur l) (l_len l) (l_cap l) (l_level l)','C169: after a Read the level is what it was')
m('lv3',G,'log_reset','(length (l_arrs l)) 0 0 0','(length (l_arrs l)) 0 0 (l_level l)','C169: Reset starts again at level 0')
m('lv4',G,'log_exit','mkEntry (e_enter x) (e_info x) (e_level x) pos e','mkEntry (e_enter x) (e_info x) (e_level x - 1) pos e','C169: Exit leaves the level of the entry')
m('lv5',G,'log_reset','mkLog (l_arrs l ++ [[]]) (length (l_arrs l)) 0 0 0','mkLog (l_arrs l) (l_cur l) (l_len l) (l_cap l) 0','C169: Reset removes the entries')
m('lv6',R,'read (Monitor)','modh (fun h => put_log lg (log_exit ptr q x (get_log lg h)) h) ;;\n        ret x','(match x with None => modh (fun h => put_log lg (log_exit ptr q x (get_log lg h)) h) | Some _ => ret tt end) ;;\n        ret x','C169: also a failed Read goes back to the level before')
m('lv7',C,'entry_text','if e_level e <? 0 then Panic','if e_level e <? 1 then Panic','C169: level 0 can be printed')
m('lv8',C,'entry_text','if e_level e <? 0 then Panic','if e_level e <? -1 then Panic','C169: level -1 can not be printed')
m('lv9',G,'log_exit','mkEntry (e_enter x) (e_info x) (e_level x) pos e','mkEntry pos (e_info x) (e_level x) pos e','C169: Exit leaves the start of the entry')
m('li1',S,'line_col','let n := wrap64 ((slen lst - tabs) + wrap64 (tabs * tab)) in','let n := wrap64 (slen lst + wrap64 (tabs * tab)) in','C168: a tab is as wide as tab says')
m('li3',S,'line_col','ret (slen lines, wrap64 (n + 1))','ret (slen lines, wrap64 n)','C17: columns count from 1')
m('li4',S,'line_col','let lst := last lines [] in','let lst := hd [] lines in','C168: the column counts from the last newline')
m('li5',S,'line_col','let n := wrap64 ((slen lst - tabs) + wrap64 (tabs * tab)) in','let n := (slen lst - tabs) + tabs * tab in','C17: the column is an int',('Scanner','wrap64 (n + 1)','(n + 1)'))
m('ed1',R,'read (Not)','| Some _ => move_runes 1 ;; ret None','| Some _ => move 1 ;; ret None','C170: Not steps over a whole rune')
m('ed2',R,'past_loop','| Some _ => move_runes 1 ;; past_loop n\' rd','| Some _ => move 1 ;; past_loop n\' rd','C170: Past steps over whole runes')
m('ed3',R,'to_loop','let* ok := move_runes 1 in','let* ok := move 1 in','C170: To steps over whole runes')
m('ed4',R,'body_loop','| Some _ => move_runes 1 ;; body_loop','| Some _ => move 1 ;; body_loop','C170: Body steps over whole runes')
m('ed5',S,'if_rune','if negb (first =? r) then ret false else move (Z.of_nat i)','if negb (first =? r) then ret false else move 1','C170: Rune reads a whole rune')

MUTS=[]
def m(id,f,defn,old,new,claim,*more):
    MUTS.append(dict(id=id,definition=f'{f}.v {defn}',edits=[(f,old,new)]+list(more),claim=claim,edit=f'{old}  =>  {new}'))
S='Scanner'; R='Reader'; G='LogModel'
m('sh1',S,'to_rune','find_rune (fun v => v =? r) (range_str t) with\n  | Some i => move i','find_rune (fun v => v =? r) (range_str t) with\n  | Some i => to_marker i','C164: what stands before the position does not matter to ToRune')
m('sh4',S,'rev_if','let* h := s_head in\n  if has_suffix h str','let* h := gets (fun s => full (sc s)) in\n  if has_suffix h str','C165: what stands behind the position does not matter to RevIf')
m('sh5',S,'rev_to','let* h := s_head in\n  match find_rev (fun s _ => has_suffix s str)','let* h := gets (fun s => full (sc s)) in\n  match find_rev (fun s _ => has_suffix s str)','C165: what stands behind the position does not matter to RevTo')
m('sh7',S,'line_col','let* h := s_head in\n  let lines','let* h := gets (fun s => full (sc s)) in\n  let lines','C165: what stands behind the position does not matter to LineCol')
m('sh8',R,'any_loop','| [] => to_marker m ;; ret (Some (get_deepest errs))','| [] => to_marker 0 ;; ret (Some (get_deepest errs))','C163: Any goes back to where it began')
m('sh11',R,'body_loop','get_tok (make_token m t)','get_tok (make_token 0 t)','C163: the body begins where Body began')
m('sh12',R,'read (Map)','modh (add_event id (fst te))','modh (add_event id (make_token 0 (t_to (fst te))))','C163: functions are told what was read')
m('sh13',R,'read (Many)','error_if_false (a <? b) (what e r)','error_if_false (0 <? b) (what e r)','C163: Many needs one Read wherever it stands')
m('sh14',R,'read (Pick)','modh (basket_add b (mkSeg info (fst te)))','modh (basket_add b (mkSeg info (make_token 0 (t_to (fst te)))))','C166: segments begin where the Read began')
m('sh15',R,'read (Monitor)','log_exit ptr q x','log_exit ptr 1 x','C166: entries end where the Read ended')
m('sh16',G,'log_enter','mkEntry pos info level 0 None','mkEntry 0 info level 0 None','C166: entries begin where the Read began')
m('sh17',R,'get_deepest','deepest_loop errs 0 []','deepest_loop errs 5 []','C163: errors name places as far behind any beginning')
m('sh18',R,'past_loop','let* fin := at_end in\n    if fin then ret false\n    else\n      let* e := rd in\n      match e with\n      | None => ret true','let* fin := gets (fun s => slen (full (sc s)) <=? 2 * pos (sc s)) in\n    if fin then ret false\n    else\n      let* e := rd in\n      match e with\n      | None => ret true','C163: Past looks at all that is left')
m('wi1',R,'what','| RRule i => r_name (get_rule e i)','| RRule i => itoa (Z.of_nat i)','C167: where rules are kept does not show in What')
m('wi2',R,'read (Grammar)','EOther (pfx ++ err_text y)','EOther (pfx ++ itoa (Z.of_nat (length e)) ++ err_text y)','C167: other rules do not show in errors')
m('wi3',R,'read (Rule)','| RRule i =>                                                                  (* grammar.go:116-118 *)\n        match r_reader (get_rule e i) with','| RRule i =>                                                                  (* grammar.go:116-118 *)\n        match r_reader (get_rule e (length e - 1 - i)) with','C167: other rules do not matter')
m('wi4',R,'read (Rule)','| Some sub => rd sub\n        | None => panic\n        end\n    | RRuleName','| Some sub => rd sub\n        | None => ret None\n        end\n    | RRuleName','C100: a rule without a Reader panics')
m('wi5','Grammar','pick_with','pick_rules b (seq 0 (length e)) e','pick_rules b (seq 1 (length e - 1)) e','C99: NewBasketFor reaches every rule')
m('wi6','Grammar','rule_monitor','Some (RMonitor (r_name r) lg (rule_sub e r))','Some (RMonitor [] lg (rule_sub e r))','C100: entries carry the name of the rule')
m('wi7','Grammar','rule_pick','mkRule (r_name r) (Some (RPick','mkRule [] (Some (RPick','C100: rules keep their names')

#!/usr/bin/env python3
"""Writes seeded/LOG.jsonl from the outputs of mut.py:  gen_log.py muts1.py:out1.jsonl ..."""
import json,sys,importlib.util
seen={};order=[]
for a in sys.argv[1:]:
    mf,of=a.split(':')
    spec=importlib.util.spec_from_file_location('muts',mf);mm=importlib.util.module_from_spec(spec);spec.loader.exec_module(mm)
    M={m['id']:m for m in mm.MUTS}
    for l in open(of):
        r=json.loads(l);m=M.get(r['id'])
        if m is None or 'error' in r: print('skip',a,r['id'],r.get('error'));continue
        e=dict(id=m['id'],definition=m['definition'],edit=m['edit'],claim=m['claim'],
          failed=r['failed'],lemmas_failed=r['lemmas'],examples_failed=r['examples'],
          theorems_not_buildable=r['unbuilt'],all_theorems_tried=r.get('exhaustive',True),tightened=[])
        if m['id'] in seen:
            if not r['failed']: continue
            e['tightened']=r['failed']
            e['note']='second attempt with the theorems as tightened'
        elif not r['failed'] and not r['unbuilt']:
            e['note']='survived' if m['claim'].startswith('none') else 'survived at first; theorems tightened, see the next attempt'
        seen[m['id']]=e;order.append(e)
open('/verif/seeded/LOG.jsonl','w').write(''.join(json.dumps(e,ensure_ascii=False)+'\n' for e in order))
print(len(order),'attempts;',[k for k,e in seen.items() if not e['failed'] and not e['theorems_not_buildable']])

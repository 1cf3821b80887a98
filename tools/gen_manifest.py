#!/usr/bin/env python3
"""Writes MANIFEST.json from the theorem names Cnn_* in rocq/theories/Prop*.v and
the notes in tools/notes.json ({"C02": "..."}).  A property with a _refuted or
_partial theorem is partial, unless notes.json overrides the status."""
import glob, json, os, re
root = os.path.dirname(os.path.dirname(os.path.abspath(__file__)))
ids = [json.loads(l)['id'] for l in open(root + '/properties.jsonl') if l.strip()]
notes = json.load(open(root + '/tools/notes.json'))
thms = {}
for f in sorted(glob.glob(root + '/rocq/theories/Prop*.v')):
    for m in re.finditer(r'^(?:Theorem|Corollary) ((C\d+)_\w+)', open(f).read(), re.M):
        thms.setdefault(m.group(2), []).append(m.group(1))
claims = []
for i in ids:
    n = notes.get(i, '')
    st, extra = None, []
    if isinstance(n, dict):
        st, extra, n = n.get('status'), n.get('theorems', []), n.get('note', '')
    t = thms.get(i, []) + extra
    if not t and not st:
        continue
    if not st:
        st = 'partial' if any(x.endswith(('_refuted', '_partial')) for x in t) else 'proved'
    claims.append({'property': i, 'status': st, 'theorems': t, 'note': n})
json.dump({'claims': claims}, open(root + '/MANIFEST.json', 'w'), indent=1)
print(len(claims), 'claims;', sum(c['status'] == 'proved' for c in claims), 'proved; missing:',
      [i for i in ids if i not in [c['property'] for c in claims]])
unknown = [i for i in thms if i not in ids]
if unknown: print('theorems without property:', unknown)

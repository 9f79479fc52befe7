#!/usr/bin/env python3
"""Generates MANIFEST.json from the theorem names found in rocq/theories/*Props.v and the notes below."""
import re, json, glob, os
base = os.path.dirname(os.path.dirname(os.path.abspath(__file__)))
props = [json.loads(l)['id'] for l in open(base + '/properties.jsonl')]
names = {}
for f in sorted(glob.glob(base + '/rocq/theories/*.v')):
    for m in re.finditer(r'^Theorem (C\d\d\w*)', open(f).read(), re.M):
        names.setdefault(m.group(1)[:3], []).append(m.group(1))
notes = json.load(open(base + '/tools/notes.json'))
claims = []
for p in props:
    th = names.get(p, [])
    n = notes.get(p, {})
    st = n.get('status')
    if st is None:
        if not th: continue
        st = 'proved'
    claims.append({"property": p, "status": st, "theorems": th, "note": n.get('note', '')})
json.dump({"claims": claims}, open(base + '/MANIFEST.json', 'w'), indent=1)
for c in claims: print(c['property'], c['status'], len(c['theorems']))
print('unclaimed:', [p for p in props if p not in [c['property'] for c in claims]])

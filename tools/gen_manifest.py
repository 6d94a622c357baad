#!/usr/bin/env python3
"""Builds MANIFEST.json from the theorem names in rocq/theories/Prop_*.v and the notes below."""
import json, re, glob, sys
props=[json.loads(l) for l in open('properties.jsonl')]
thms={}
for f in sorted(glob.glob('rocq/theories/Prop_*.v')):
    for m in re.finditer(r'^Theorem\s+((C\d+)_\w+)', open(f).read(), re.M):
        thms.setdefault(m.group(2),[]).append(m.group(1))
exec(open('tools/notes.py').read())
claims=[]
missing=[]
for p in props:
    i=p['id']
    if i in thms:
        st='partial' if (any(t.endswith('_partial') for t in thms[i]) or i in PARTIAL) else 'proved'
        claims.append(dict(property=i,status=st,theorems=thms[i],note=NOTES.get(i,'')))
    elif i in NA:
        claims.append(dict(property=i,status='not_applicable',theorems=[],note=NA[i]))
    else: missing.append(i)
unknown=set(thms)-{p['id'] for p in props}
json.dump({'claims':claims},open('MANIFEST.json','w'),indent=1)
print(len(claims),'claims; missing:',missing,'unknown:',unknown)

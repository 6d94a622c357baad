#!/usr/bin/env python3
"""collect.py OUT IN...: cleaned mutation records to OUT (later records of the same definition and edit replace earlier ones)."""
import sys, json
FIX = {"do a' <- distribute_dimension a (S ax) c;  ==>  do a' <- distribute_dimension a ax c;": 'C03 data and weights are distributed along the same axis'}
recs = {}
for fn in sys.argv[2:]:
    for l in open(fn):
        r = json.loads(l)
        c = FIX.get(r['edit'], r['claim_broken'])
        hit = any(t.startswith(c.split()[0] + '_') for t in r['theorems_failed'])
        recs[(r['definition'], r['edit'])] = dict(definition=r['definition'], edit=r['edit'], claim_broken=c,
            theorems_failed=r['theorems_failed'], lemmas_failed=r.get('lemmas_failed', []), theorems_tightened=r.get('theorems_tightened', []), detected=hit,
            **({'note': r['note']} if 'note' in r else {}))
with open(sys.argv[1], 'w') as f:
    for r in recs.values(): f.write(json.dumps(r) + '\n')
print(len(recs), [r['edit'] for r in recs.values() if not r['detected']])

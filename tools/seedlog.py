#!/usr/bin/env python3
"""Convert the raw results of mutate.py (argv) into /verif/seeded/LOG.jsonl."""
import sys,json
TIGHT=json.load(open('/verif/tools/tightened.json'))
REN=json.load(open('/verif/tools/renamed.json'))
out=[]
rn=lambda l:[REN.get(x,x) for x in l]
for f in sys.argv[1:]:
    for l in open(f):
        d=json.loads(l)
        if 'error' in d: continue
        t=TIGHT.get(d['definition']+'|'+d['edit'],{})
        out.append(dict(definition=d['file']+':'+d['definition'],edit=d['edit'],claim=d['claim'],
            theorems_failed=rn(d['dead']),lemmas_whose_proof_broke=rn(d['direct']),
            claimed_theorems_not_failing=rn(d['claim_survivors'] or []),
            comment=t.get('comment',''),theorems_tightened=t.get('tightened',[])))
json_lines=[json.dumps(o) for o in out]
open('/verif/seeded/LOG.jsonl','w').write('\n'.join(json_lines)+'\n')
print(len(out), 'entries;', sum(1 for o in out if not o['theorems_failed']), 'with no failing claimed theorem')
for o in out:
    if not o['theorems_failed']: print('  ',o['definition'],o['edit'],o['comment'])

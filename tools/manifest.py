#!/usr/bin/env python3
"""Writes /verif/MANIFEST.json; checks that every theorem named exists in rocq/theories."""
import json,re,glob
C=[]
def c(i,status,thms,note): C.append(dict(property="C%02d"%i,status=status,theorems=thms.split(),note=note))
P,Q="proved","partial"
exec(open('/verif/tools/claims.py').read())
src="\n".join(open(f).read() for f in glob.glob('/verif/rocq/theories/*.v'))
names=set(re.findall(r'^\s*(?:Theorem|Lemma|Corollary|Example|Fact)\s+([A-Za-z0-9_\']+)',src,re.M))
bad=[(x['property'],t) for x in C for t in x['theorems'] if t not in names]
assert not bad,bad
listed={t for x in C for t in x['theorems']}
for n in sorted(names):
    if re.match(r'C\d\d_',n) and n not in listed and 'nonvacuous' not in n: print('not listed:',n)
ids=[json.loads(l)['id'] for l in open('/verif/properties.jsonl')]
print('properties without claim:',[i for i in ids if i not in {x['property'] for x in C}])
json.dump({"claims":C},open('/verif/MANIFEST.json','w'),indent=1)
print({s:sum(x['status']==s for x in C) for s in (P,Q,'not_applicable')})

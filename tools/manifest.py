#!/usr/bin/env python3
"""Regenerates MANIFEST.json from this table; fails if a theorem is missing from the sources."""
import json, re, glob, os
here=os.path.dirname(os.path.abspath(__file__)); root=os.path.dirname(here)
C=[]
def p(prop,status,theorems,note): C.append(dict(property=prop,status=status,theorems=theorems.split(),note=note))
exec(open(os.path.join(here,'claims.py')).read())
src=''.join(open(f).read() for f in glob.glob(root+'/rocq/theories/*.v'))
names=set(re.findall(r'^\s*Theorem\s+(\w+)',src,re.M))
props=[json.loads(l)['id'] for l in open(root+'/properties.jsonl')]
for c in C:
    for t in c['theorems']: assert t in names,(c['property'],t)
    assert c['property'] in props
used={t for c in C for t in c['theorems']}
print('theorems not in manifest:',sorted(names-used)); print('props without claim:',[x for x in props if x not in {c['property'] for c in C}])
json.dump({'claims':C},open(root+'/MANIFEST.json','w'),indent=1)

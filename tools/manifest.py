#!/usr/bin/env python3
# Generates MANIFEST.json; every theorem name is checked to exist in theories/*.v
import json,re,glob
names=set()
for f in glob.glob('/verif/rocq/theories/*.v'):
    names|=set(re.findall(r'^\s*(?:Theorem|Lemma|Corollary)\s+(\w+)',open(f).read(),re.M))
C=[]
def c(p,status,thms,note=""):
    t=thms.split()
    for x in t:
        if x not in names: print('MISSING',p,x)
    C.append({"property":p,"status":status,"theorems":t,"note":note})
exec(open('/verif/tools/claims.py').read())
props=[json.loads(l)['id'] for l in open('/verif/properties.jsonl')]
have={x['property'] for x in C}
print('unclaimed:',[p for p in props if p not in have])
json.dump({"claims":C},open('/verif/MANIFEST.json','w'),indent=1)

#!/usr/bin/env python3
# Regenerates /verif/MANIFEST.json from tools/claims.txt-like table below and checks the theorem names exist.
import json,re,glob,sys
C=[]
def c(p,status,thms,note): C.append(dict(property=p,status=status,theorems=thms.split(),note=note))
exec(open('/verif/tools/claims.py').read())
src={}
for f in glob.glob('/verif/rocq/theories/*.v'):
    for m in re.finditer(r'^\s*(?:Theorem|Lemma|Corollary)\s+([A-Za-z0-9_\']+)',open(f).read(),re.M): src[m.group(1)]=f
bad=[t for x in C for t in x['theorems'] if t not in src]
if bad: print('missing',bad); sys.exit(1)
json.dump({"claims":C},open('/verif/MANIFEST.json','w'),indent=1)
ids=[json.loads(l)['id'] for l in open('/verif/properties.jsonl')]
print('claimed',len(C),'unclaimed',[i for i in ids if i not in [x['property'] for x in C]])

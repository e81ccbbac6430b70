#!/usr/bin/env python3
# builds MANIFEST.json from /tmp/gen/claims.txt-like python data kept in /verif/tools
import json,re,glob,sys
props=[json.loads(l) for l in open('/verif/properties.jsonl')]
names={}
for f in sorted(glob.glob('/verif/rocq/theories/Claims_*.v')):
    for m in re.finditer(r'^(?:Theorem|Corollary|Lemma)\s+((C\d\d+)_\w+)',open(f).read(),re.M):
        names.setdefault(m.group(2),[]).append(m.group(1))
notes=json.load(open('/verif/tools/notes.json'))
out=[]
for p in props:
    i=p['id']; th=names.get(i,[])
    n=notes.get(i,{})
    st=n.get('status') or ('proved' if th else 'not_applicable')
    if not th and st=='not_applicable' and not n.get('note'): continue
    if not th and st!='not_applicable': continue
    out.append({"property":i,"status":st,"theorems":th,"note":n.get('note','')})
json.dump({"claims":out},open('/verif/MANIFEST.json','w'),indent=1)
print(len(out),'claims',sum(len(c['theorems']) for c in out),'theorems; missing:',[p['id'] for p in props if p['id'] not in [c['property'] for c in out]])

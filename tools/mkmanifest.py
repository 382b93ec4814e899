#!/usr/bin/env python3
# regenerates MANIFEST.json from the table below; checks that every theorem exists
import json,re,glob,os
R=os.path.dirname(os.path.dirname(os.path.abspath(__file__)))
names=set()
for f in glob.glob(R+'/rocq/theories/*.v'):
    for m in re.finditer(r'^\s*(?:Theorem|Lemma|Corollary|Example|Fact|Proposition)\s+([A-Za-z0-9_\']+)',open(f).read(),re.M):
        names.add(m.group(1))
claims={}
exec(open(R+'/tools/claims.py').read())
props=[json.loads(l)['id'] for l in open(R+'/properties.jsonl')]
out=[]
for p in props:
    if p in claims:
        st,th,note=claims[p]
        for t in th:
            if t not in names: print('MISSING',p,t)
        out.append(dict(property=p,status=st,theorems=th,note=note))
json.dump({"claims":out},open(R+'/MANIFEST.json','w'),indent=1)
print(len(out),'claims of',len(props)); print('unclaimed:',[p for p in props if p not in claims])
# property-named theorems not listed
listed={t for c in out for t in c['theorems']}
print('unlisted:',sorted(n for n in names if re.match(r'C\d\d_',n) and n not in listed and 'nonvacuous' not in n))

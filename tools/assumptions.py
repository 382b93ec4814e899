#!/usr/bin/env python3
# Prints the axioms (Print Assumptions) of every theorem named in MANIFEST.json; needs a built /verif/rocq.
import json,subprocess,re,sys
man=json.load(open('/verif/MANIFEST.json'))
mods=[l.strip().split('/')[-1][:-2] for l in open('/verif/rocq/_CoqProject') if l.strip().endswith('.v')]
names=[]
for c in man['claims']:
    for t in c['theorems']:
        if t not in names: names.append(t)
src='From Coq Require Import String.\n'+''.join(f'From Verif Require {m}.\n' for m in mods)
# find the module of each theorem
where={}
for m in mods:
    for x in re.findall(r'^\s*(?:Theorem|Lemma|Corollary|Fact|Proposition)\s+([A-Za-z0-9_\']+)',open(f'/verif/rocq/theories/{m}.v').read(),re.M):
        where.setdefault(x,m)
for t in names:
    src+=f'Goal True. idtac "@@ {t}". Abort.\nPrint Assumptions Verif.{where[t]}.{t}.\n'
open('/tmp/assum.v','w').write(src)
out=subprocess.run(['coqtop','-Q','theories','Verif','-q','-batch','-l','/tmp/assum.v'],cwd='/verif/rocq',capture_output=True,text=True)
res={};cur=None
for l in (out.stdout+out.stderr).split('\n'):
    if l.startswith('@@ '): cur=l[3:].strip(); res[cur]=[]
    elif cur and re.match(r'^[A-Za-z_][\w\.\']*\s*(:|$)',l) and not l.startswith(('Closed','Axioms','Fetching')): res[cur].append(re.match(r'^([\w\.\']+)',l).group(1))
json.dump(res,open('/tmp/assum.json','w'))
print(len(names),len(res))
from collections import defaultdict
g=defaultdict(list)
for t in names: g[tuple(sorted(set(res.get(t,['?']))))].append(t)
for k,v in g.items(): print(k,len(v),v if k else '')

#!/usr/bin/env python3
# Regenerates DESIGN.md from tools/design_head.md, MANIFEST.json, properties.jsonl and /tmp/assum.json (tools/assumptions.py).
import json,re
man={c['property']:c for c in json.load(open('/verif/MANIFEST.json'))['claims']}
props=[json.loads(l) for l in open('/verif/properties.jsonl')]
ass=json.load(open('/tmp/assum.json'))
mods=[l.strip().split('/')[-1][:-2] for l in open('/verif/rocq/_CoqProject') if l.strip().endswith('.v')]
where={}
for m in mods:
    for x in re.findall(r'^\s*(?:Theorem|Lemma|Corollary|Fact|Proposition)\s+([A-Za-z0-9_\']+)',open(f'/verif/rocq/theories/{m}.v').read(),re.M): where.setdefault(x,m)
how=json.load(open('/verif/tools/how.json'))
out=open('/verif/tools/design_head.md').read()
out+='\n## 5. Per property: what is modelled, how it is proved\n\n'
out+='The status of every property is in MANIFEST.json; "deviations" are theorems named `_refuted`.\n\n| id | property | files (rocq/theories) | model and proof method | theorems / deviations |\n|---|---|---|---|---|\n'
for p in props:
    c=man[p['id']]; files=[]
    for t in c['theorems']:
        f=where.get(t)
        if f and f not in files: files.append(f)
    dev=[t for t in c['theorems'] if t.endswith('_refuted')]
    out+=f"| {p['id']} | {p['title']} ({c['status']}) | {', '.join(files)} | {how.get(p['id'],'')} | {len(c['theorems'])-len(dev)} / {len(dev)} |\n"
out+='\n## 6. Print Assumptions of every theorem in MANIFEST.json\n\n'
groups={}
for p in props:
    for t in man[p['id']]['theorems']:
        groups.setdefault(tuple(sorted(set(ass.get(t,['not checked'])))),[]).append(t)
for k,v in sorted(groups.items(),key=lambda kv:len(kv[0])):
    v=list(dict.fromkeys(v))
    out+=('* **Closed under the global context** (no axioms): ' if not k else '* **'+', '.join(k)+'** (all from the standard library): ')+', '.join(f'`{t}`' for t in v)+f' ({len(v)} theorems).\n'
open('/verif/DESIGN.md','w').write(out)

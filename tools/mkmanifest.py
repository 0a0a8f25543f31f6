#!/usr/bin/env python3
"""Regenerate MANIFEST.json and rocq/theories/Assumptions.v from the *Props.v files."""
import re,json,glob,os
root=os.path.dirname(os.path.dirname(os.path.abspath(__file__)))
props=[json.loads(l) for l in open(root+'/properties.jsonl')]
notes=json.load(open(root+'/tools/notes.json')) if os.path.exists(root+'/tools/notes.json') else {}
th={}
mods=[]
for l in open(root+'/rocq/_CoqProject'):
    m=re.match(r'theories/(\w+Props)\.v',l.strip())
    if m: mods.append(m.group(1))
names=[]
for m in mods:
    s=open(f'{root}/rocq/theories/{m}.v').read()
    for t in re.findall(r'(?m)^Theorem\s+(C\d\d\w*)',s):
        th.setdefault(t[:3],[]).append(t); names.append((m,t))
claims=[]
for p in props:
    i=p['id']; ts=th.get(i,[])
    st='proved' if ts and not all(t.endswith('_partial') for t in ts) else 'partial'
    n=notes.get(i,{})
    if isinstance(n,str): n={'note':n}
    st=n.get('status',st)
    claims.append({'property':i,'status':st,'theorems':ts,'note':n.get('note','' if ts else 'not proved yet')})
json.dump({'claims':claims},open(root+'/MANIFEST.json','w'),indent=1)
with open(root+'/rocq/theories/Assumptions.v','w') as f:
    f.write('(* Generated by tools/mkmanifest.py: assumptions of every property theorem. *)\n')
    f.write('From Verif Require Import '+' '.join(mods)+'.\n')
    for m,t in names: f.write(f'Print Assumptions {t}.\n')
print(len(names),'theorems;',sum(1 for c in claims if c['theorems']),'of',len(claims),'claims have theorems')

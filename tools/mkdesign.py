#!/usr/bin/env python3
"""Writes DESIGN.md from design_head.md, properties, manifest and the theories."""
import json,re,glob,os
V='/verif/'
P=[json.loads(l) for l in open(V+'properties.jsonl')]
C={c['property']:c for c in json.load(open(V+'MANIFEST.json'))['claims']}
how=json.load(open(V+'tools/how.json'))
loc={}
for f in glob.glob(V+'rocq/theories/*.v'):
    for n in re.findall(r'^\s*(?:Theorem|Lemma|Corollary|Example)\s+(\w+)',open(f).read(),re.M): loc.setdefault(n,os.path.basename(f))
out=open(V+'tools/design_head.md').read()
out+='Status, what is modelled (file of the theorems) and how it is proved. Statements: `properties.jsonl`.\n\n| property | title | status | theorems in | model and proof |\n|---|---|---|---|---|\n'
for p in P:
    c=C[p['id']]; fs=sorted(set(loc[t] for t in c['theorems']))
    out+='| %s | %s | %s | %s | %s |\n'%(p['id'],p['title'],c['status'],', '.join('`%s`'%f for f in fs),how.get(p['id'],c['note']).replace('|','/'))
ax=[l for l in open(V+'tools/axioms.txt').read().split('\n') if l]
out+='\nTheorems that use the axioms of the real numbers (all others are closed under the global context):\n'+', '.join('`%s`'%a for a in ax)+'.\n'
s=[json.loads(l) for l in open(V+'seeded/LOG.jsonl')] if os.path.exists(V+'seeded/LOG.jsonl') else []
k=sum(1 for x in s if x.get('verdict')=='killed')
out+='\n## 6. Seeded bugs\n\n%d edits of model definitions are logged in `seeded/LOG.jsonl`; %d made a theorem of the claim they break fail. The rest are\nrecorded there with the theorem that was added or tightened, or with the reason why the edit does not change behaviour.\n'%(len(s),k)
open(V+'DESIGN.md','w').write(out)

#!/usr/bin/env python3
"""Generates MANIFEST.json from the table below; checks that all theorem names exist."""
import json,re,glob,os
HERE=os.path.dirname(os.path.abspath(__file__))
ROOT=os.path.dirname(HERE)
names=set()
for f in glob.glob(ROOT+'/rocq/theories/*.v'):
    for m in re.finditer(r'^\s*(?:Theorem|Lemma|Corollary|Fact|Proposition|Remark)\s+([A-Za-z0-9_\']+)',open(f).read(),re.M):
        names.add(m.group(1))
table=json.load(open(HERE+'/claims.json'))
props=[json.loads(l)['id'] for l in open(ROOT+'/properties.jsonl')]
out=[]
seen=set()
allthms=sorted(n for n in names if re.match(r'C\d\d_',n))
for pid in props:
    c=table.get(pid)
    thms=[n for n in allthms if n.startswith(pid+'_')]
    if c is None:
        c={"status":"partial" if thms else "not_applicable","note":"TODO"}
    st=c["status"]
    out.append({"property":pid,"status":st,"theorems":thms,"note":c["note"]})
    if not thms and st!="not_applicable": print("no theorems for",pid)
    if c["note"]=="TODO": print("todo",pid,len(thms))
json.dump({"claims":out},open(ROOT+'/MANIFEST.json','w'),indent=1)

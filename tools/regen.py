#!/usr/bin/env python3
"""Regenerate rocq/_CoqProject (file list) and MANIFEST.json from tools/claims.json."""
import os, json
root=os.path.dirname(os.path.dirname(os.path.abspath(__file__)))
fs=[]
for d,_,f in os.walk(os.path.join(root,'rocq','theories')):
    for x in f:
        if x.endswith('.v'): fs.append(os.path.relpath(os.path.join(d,x),os.path.join(root,'rocq')))
order={'Model':0,'Spec':1,'Proofs':2,'Props':3}
fs.sort(key=lambda p:(order.get(p.split('/')[1],9),p))
open(os.path.join(root,'rocq','_CoqProject'),'w').write('-Q theories Verif\n'+'\n'.join(fs)+'\n')
c=json.load(open(os.path.join(root,'tools','claims.json')))
import re,glob
for f in sorted(glob.glob(os.path.join(root,'rocq','theories','Props','*.v'))):
    for t in re.findall(r'^\s*Theorem\s+(c(\d\d+)_\w+)',open(f).read(),re.M):
        e=c.setdefault('C'+t[1],["proved",[],""])
        if t[0] not in e[1]: e[1].append(t[0])
ids=[json.loads(l)['id'] for l in open(os.path.join(root,'properties.jsonl'))]
out=[]
for i in ids:
    if i in c:
        s,t,n=c[i]; out.append({"property":i,"status":s,"theorems":t,"note":n})
json.dump({"claims":out},open(os.path.join(root,'MANIFEST.json'),'w'),indent=1)
print(len(out),'claims of',len(ids),'missing',[i for i in ids if i not in c])

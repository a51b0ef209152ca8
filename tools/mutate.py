#!/usr/bin/env python3
"""Apply wrong-program edits to a scratch copy of the model, rebuild, log which theorems fail.
usage: mutate.py mutants-file  (appends to /verif/seeded/LOG.jsonl; mutants already logged are skipped)
A mutants file is python: m(id, file, definition, old, new, claim, n=1, tightened=[])  -- n = which occurrence in the definition."""
import sys, os, re, json, subprocess, shutil
ROOT='/verif/rocq'; MUT='/tmp/mut'; LOG='/verif/seeded/LOG.jsonl'
muts=[]
def m(id,file,defn,old,new,claim,n=1,tightened=()): muts.append(dict(id=id,file=file,defn=defn,old=old,new=new,claim=claim,n=n,tightened=list(tightened)))
exec(open(sys.argv[1]).read())
done=set()
if os.path.exists(LOG):
    for l in open(LOG): done.add(json.loads(l)['id'])
deps={}
BASE='/tmp/mutbase'; subprocess.run(f'rm -rf {BASE} && cp -a {ROOT} {BASE}',shell=True,check=True)  # snapshot, with its compiled files
def depgraph():
    out=subprocess.run('coqdep -f _CoqProject',shell=True,cwd=ROOT,capture_output=True,text=True).stdout
    for l in out.split('\n'):
        if '.vo' in l and ':' in l:
            t,d=l.split(':',1); t=[x for x in t.split() if x.endswith('.vo')]
            if t: deps[t[0]]=[x for x in d.split() if x.endswith('.vo')]
depgraph()
def enclosing(f,line):
    src=open(f).read().split('\n'); name=None
    for l in src[:line]:
        k=re.match(r'\s*(?:Local\s+|Global\s+)?(?:Theorem|Lemma|Corollary|Example|Definition|Fixpoint|Instance)\s+([\w\']+)',l)
        if k: name=k.group(1)
    return name
def theorems(f):
    return re.findall(r'^\s*(?:Theorem|Corollary)\s+([\w\']+)',open(f).read(),re.M)
for mu in muts:
    if mu['id'] in done: continue
    subprocess.run(f'rm -rf {MUT} && cp -a {BASE} {MUT}',shell=True,check=True)
    p=f"{MUT}/theories/{mu['file']}"; src=open(p).read()
    k=re.search(r'^\s*(?:Definition|Fixpoint|Record|Inductive)\s+'+re.escape(mu['defn'])+r'\b',src,re.M)
    if not k: print('NODEF',mu['id']); continue
    st=k.start(); en=re.search(r'\n\(\*\*|\nDefinition |\nFixpoint |\nEnd ',src[st+5:]); en=st+5+(en.start() if en else len(src))
    body=src[st:en]; idx=-1
    for _ in range(mu['n']): idx=body.find(mu['old'],idx+1)
    if idx<0: print('NOOLD',mu['id']); continue
    body=body[:idx]+mu['new']+body[idx+len(mu['old']):]
    open(p,'w').write(src[:st]+body+src[en:])
    r=subprocess.run('timeout 2500 make -k -j2 COQC="timeout 240 coqc" 2>&1',shell=True,cwd=MUT,capture_output=True,text=True).stdout
    errs=[]; badfiles=set()
    for f,l in re.findall(r'File "\./(theories/[^"]+)", line (\d+)[^\n]*\n(?:[^\n]*\n)*?Error',r):
        n=enclosing(f'{MUT}/{f}',int(l)); errs.append((f,n)); badfiles.add(f[:-2]+'.vo' if f.endswith('.v') else f)
    for f in re.findall(r'(theories/[^ \]]+)\.vo\] (?:Error 124|Killed|Terminated)',r): errs.append((f+'.v','(proof script does not terminate)')); badfiles.add(f+'.vo')
    # property files that no longer build because of these failures
    lost=set(x for x in deps if not os.path.exists(f'{MUT}/{x}') or x in badfiles)
    bad=set(badfiles); ch=True
    while ch:
        ch=False
        for t,d in deps.items():
            if t not in bad and any(x in bad for x in d): bad.add(t); ch=True
    modelbroken=[e for e in errs if e[0].startswith('theories/Model')]
    failed=[f'{n} ({f[9:]})' for f,n in errs]
    unb=sorted(x[9:-1]  for x in bad-badfiles if 'Properties' in x)
    out=dict(id=mu['id'],definition=f"{mu['file']}: {mu['defn']}",edit=f"{mu['old']}  ==>  {mu['new']} (occurrence {mu['n']})",claim=mu['claim'],theorems_failed=failed,
             dependent_property_files_unbuilt=unb,theorems_tightened=mu['tightened'])
    if modelbroken: print('MODEL DOES NOT TYPECHECK',mu['id'],modelbroken); continue
    print(('caught ' if failed else 'SURVIVED '),mu['id'],failed[:3],flush=True)
    if not failed: out['note']='survived'; print(json.dumps(out)); continue
    open(LOG,'a').write(json.dumps(out)+'\n')

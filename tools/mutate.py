#!/usr/bin/env python3
"""Seeded-bug runs: for each mutation of the model, rebuild a scratch copy and log which theorem broke.
usage: mutate.py mutations.json   (list of {file, old, new, edit, claim, definition})"""
import json,sys,os,re,subprocess,shutil
SRC='/verif/rocq'; DST='/tmp/mut'; LOG='/verif/seeded/LOG.jsonl'
def lemma_at(path,line):
    name=None
    for n,l in enumerate(open(path),1):
        if n>line: break
        m=re.match(r'\s*(?:Local\s+)?(?:Lemma|Theorem|Corollary|Fact|Example|Definition|Fixpoint)\s+([\w\']+)',l)
        if m: name=m.group(1)
    return name
muts=json.load(open(sys.argv[1]))
for m in muts:
    if os.path.exists(DST): shutil.rmtree(DST)
    shutil.copytree(SRC,DST,symlinks=True)
    p=f"{DST}/theories/{m['file']}"; s=open(p).read()
    cnt=s.count(m['old'])
    if cnt<1: print("NOT FOUND",m['edit']); continue
    k=m.get('nth',0)
    parts=s.split(m['old']); s=m['old'].join(parts[:k+1])+m['new']+m['old'].join(parts[k+1:])
    open(p,'w').write(s)
    subprocess.run("coq_makefile -f _CoqProject -o Makefile",shell=True,cwd=DST,capture_output=True)
    r=subprocess.run("timeout 1500 make -k -j2",shell=True,cwd=DST,capture_output=True,text=True)
    out=r.stdout+r.stderr
    fails=[]
    for f,l in re.findall(r'File "\./theories/(\w+\.v)", line (\d+)[^\n]*\n(?=Error|[^\n]*\n?Error|.*?Error)',out):
        fails.append(f"{f[:-2]}.{lemma_at(DST+'/theories/'+f,int(l))}")
    fails=sorted(set(fails))
    # properties files not built
    notbuilt=[f[:-2] for f in sorted(os.listdir(DST+'/theories')) if f.endswith('.v') and not os.path.exists(DST+'/theories/'+f+'o') or (f.endswith('.v') and os.path.getmtime(DST+'/theories/'+f+'o')<os.path.getmtime(SRC+'/theories/'+f))]
    props=[f for f in notbuilt if f.startswith('Properties')]
    rec=dict(definition=m['definition'],edit=m['edit'],claim=m['claim'],theorems_failed=fails,property_files_blocked=props,tightened=m.get('tightened',[]),verdict="killed" if fails else "SURVIVED")
    print(json.dumps(rec),flush=True)
    open(LOG,'a').write(json.dumps(rec)+"\n")

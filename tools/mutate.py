#!/usr/bin/env python3
"""Run seeded wrong programs.  usage: mutate.py <mutants.json> [start]
Each mutant: {"file","definition","edit","old","new","claim"} (old must occur exactly once).
Works in a scratch copy /tmp/mut; appends one line per mutant to seeded/LOG.jsonl."""
import json, sys, os, re, subprocess, shutil
root='/verif'; work=os.environ.get('MUTDIR','/tmp/mut'); snap=os.environ.get('SNAP',root+'/rocq')  # snap: a built copy to start from
muts=json.load(open(sys.argv[1])); 
def enclosing(path, line):
    name='?'
    for i,l in enumerate(open(path),1):
        if i>line: break
        m=re.match(r'\s*(?:Lemma|Theorem|Example|Corollary|Definition|Fixpoint)\s+(\w+)',l)
        if m: name=m.group(1)
    return name
for m in muts:
    shutil.rmtree(work,ignore_errors=True); subprocess.run(['cp','-a',snap,work],check=True)
    p=f"{work}/theories/{m['file']}"; s=open(p).read()
    if s.count(m['old'])!=1:
        print('BAD MUTANT',m['definition'],s.count(m['old'])); continue
    open(p,'w').write(s.replace(m['old'],m['new']))
    cid=m['claim'].split(':')[0].strip()
    # only the files that state the claim, and what they need
    targets=[f'theories/{f}o' for f in sorted(os.listdir(work+'/theories')) if f.startswith('Props') and f.endswith('.v') and re.search(r'^(?:Theorem|Corollary)\s+'+cid+'_',open(work+'/theories/'+f).read(),re.M)]
    r=subprocess.run('coq_makefile -f _CoqProject -o Makefile >/dev/null && timeout 3000 make -k COQC="timeout '+os.environ.get('FILE_TIMEOUT','600')+' coqc" -j'+os.environ.get('JOBS','4')+' '+' '.join(targets)+' 2>&1',shell=True,cwd=work,capture_output=True,text=True)
    errs=re.findall(r'File "\./?(theories/\w+\.v)", line (\d+), characters[^\n]*\nError',r.stdout)
    fails=[f"{os.path.basename(f)}:{enclosing(work+'/'+f,int(l))}" for f,l in errs]
    # a proof script that no longer terminates on the edited model
    fails+=[f'{f}.v:(does not finish)' for f in re.findall(r'theories/(\w+)\.vo\] Error 124',r.stdout)]
    # claim theorems in Props files that were not rebuilt
    lost=[]
    stale=set(f for f,_ in errs)
    for f in sorted(os.listdir(work+'/theories')):
        if f.startswith('Props') and f.endswith('.v'):
            vo=work+'/theories/'+f+'o'
            if not os.path.exists(vo) or os.path.getmtime(vo)<os.path.getmtime(p):
                lost+=re.findall(r'^(?:Theorem|Example)\s+('+cid+r'_\w+)',open(work+'/theories/'+f).read(),re.M)
    rec={"definition":m['file']+': '+m['definition'],"edit":m['edit'],"claim":m['claim'],"theorems_failed":fails,"claim_theorems_not_provable":lost if fails else [],"theorems_tightened":m.get('tightened',[])}
    print('KILLED' if fails else 'SURVIVED', m['definition'],'|',m['edit'],'|',fails,flush=True)
    open(root+'/seeded/LOG.jsonl','a').write(json.dumps(rec)+'\n')

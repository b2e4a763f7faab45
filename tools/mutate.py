#!/usr/bin/env python3
"""mutate.py spec.json : spec is a list of {file, definition, old, new, claim[, nth]}.
Each mutant is applied to a scratch copy (/tmp/mut/rocq), rebuilt with make -k, and the
outcome appended to /verif/seeded/LOG.jsonl."""
import json,subprocess,sys,os,re,shutil
spec=json.load(open(sys.argv[1]))
S='/tmp/mut/rocq'
os.makedirs('/tmp/mut',exist_ok=True)
def sync():
    subprocess.run(['rsync','-a','--delete','/verif/rocq/',S+'/'],check=True) if shutil.which('rsync') else (shutil.rmtree(S,ignore_errors=True),shutil.copytree('/verif/rocq',S))
def deps():
    d={}
    for f in os.listdir(S+'/theories'):
        if f.endswith('.v'):
            t=open(S+'/theories/'+f).read()
            m=set()
            for x in re.findall(r'From Verif Require Import ([^.]*)\.',t): m|=set(x.split())
            d[f[:-2]]=m
    return d
sync()
D=deps()
def below(x):
    out={x}; ch=True
    while ch:
        ch=False
        for k,v in D.items():
            if k not in out and v&out: out.add(k); ch=True
    return out
for m in spec:
    p=S+'/theories/'+m['file']+'.v'
    orig=open(p).read()
    n=m.get('nth',0)
    idx=-1
    for _ in range(n+1):
        idx=orig.find(m['old'],idx+1)
    if idx<0: print('NOT FOUND',m); continue
    open(p,'w').write(orig[:idx]+m['new']+orig[idx+len(m['old']):])
    r=subprocess.run('ulimit -v 12000000; timeout 1500 make -k -j4 COQC="timeout '+str(m.get('timeout',60))+' coqc" 2>&1',shell=True,cwd=S,capture_output=True,text=True)
    fails=re.findall(r'File "\./theories/(\w+)\.v", line (\d+)[^\n]*\n(?:Warning)?',r.stdout)
    errs=[]
    for mm in re.finditer(r'File "\./theories/(\w+)\.v", line (\d+), characters [\d-]+:\nError',r.stdout):
        f,l=mm.group(1),int(mm.group(2))
        lines=open(S+'/theories/'+f+'.v').read().split('\n')[:l]
        name='?'
        for ln in reversed(lines):
            q=re.match(r'\s*(?:Local |Program )?(Lemma|Theorem|Example|Corollary|Definition|Fixpoint|Instance|Fact|Remark)\s+(\w+)',ln)
            if q: name=q.group(2);break
        errs.append(f+'.'+name)
    for f in re.findall(r'theories/(\w+)\.vo\] Error 124',r.stdout): errs.append(f+'.(proof search no longer terminates within the time limit)')
    ef={e.split('.')[0] for e in errs}
    lost=sorted({x for f in ef for x in below(f) if x.endswith('Props')})
    survived=not errs and r.returncode==0
    if r.returncode!=0 and not errs: errs=['build failed: '+r.stdout[-300:]]
    entry={'definition':m['file']+'.'+m['definition'],'edit':m['old']+'  ==>  '+m['new'],'claim':m['claim'],
           'failed':errs,'props_files_lost':lost,'tightened':m.get('tightened',[])}
    if survived: entry['note']='SURVIVED'
    print(json.dumps(entry))
    if '--dry' not in sys.argv:
        open('/verif/seeded/LOG.jsonl','a').write(json.dumps(entry)+'\n')
    open(p,'w').write(orig)
    os.utime(p)

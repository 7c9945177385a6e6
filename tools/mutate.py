#!/usr/bin/env python3
"""Runs seeded-bug experiments: mutate.py BATCH.json. Each entry {file,old,new,definition,edit,claim}. The model is edited in a scratch copy of rocq/
(outside /verif), rebuilt, and one line per attempt is appended to seeded/LOG.jsonl."""
import json,sys,os,re,subprocess,shutil,glob
root=os.path.dirname(os.path.dirname(os.path.abspath(__file__)))
jobs=sys.argv[2] if len(sys.argv)>2 else '2'
log=sys.argv[3] if len(sys.argv)>3 else root+'/seeded/LOG.jsonl'
scratch='/tmp/mut/'+os.path.basename(sys.argv[1]).replace('.json','')
fast='MUT_FAST' in os.environ  # stop at the first failure
def sh(c): return subprocess.run(c,shell=True,capture_output=True,text=True)
for m in json.load(open(sys.argv[1])):
    shutil.rmtree(scratch,ignore_errors=True); sh(f'cp -a {os.environ.get("MUT_SRC",root+"/rocq")} {scratch}')
    f=f'{scratch}/theories/{m["file"]}.v'; s=open(f).read()
    if s.count(m['old'])<1: print('NO MATCH',m); continue
    s=s.replace(m['old'],m['new'],m.get('count',1)); open(f,'w').write(s)
    sh(f'cd {scratch} && coq_makefile -f _CoqProject -o Makefile')
    r=sh(f'cd {scratch} && timeout 2400 make {"" if fast else "-k"} -j{jobs} 2>&1'); out=r.stdout
    failed=[]
    for g in re.finditer(r'File "\./theories/(\w+)\.v", line (\d+)[^\n]*\n(?:[^\n]*\n){0,1}?Error',out):
        pass
    seen=set()
    for g in re.finditer(r'File "\./theories/(\w+)\.v", line (\d+), characters[^\n]*\n([^\n]*)',out):
        if not g.group(3).startswith('Error'): continue
        k=(g.group(1),int(g.group(2)))
        if k in seen: continue
        seen.add(k)
        t=open(f'{scratch}/theories/{k[0]}.v').read().split('\n')[:k[1]]
        nm='?'
        for l in reversed(t):
            q=re.match(r'\s*(?:Theorem|Lemma|Corollary|Example|Fact|Remark|Definition|Fixpoint)\s+(\w+)',l)
            if q: nm=q.group(1); break
        failed.append(k[0]+'.'+nm)
    unb=[]
    for p in [] if fast else sorted(glob.glob(f'{scratch}/theories/Properties_*.v')):
        vo=p[:-2]+'.vo'
        # a Properties file is rebuilt iff its .vo is newer than the edited file
        dep=sh(f"cd {scratch} && make -q theories/{os.path.basename(p)[:-2]}.vo").returncode
        if dep!=0: unb+=[x.group(1) for x in re.finditer(r'^Theorem\s+(C\d+_\w+)',open(p).read(),re.M)]
    rec={"definition":m['file']+'.'+m['definition'],"edit":m['edit'],"claim":m['claim'],"theorems_failed":failed,**({"stopped":"at the first failure"} if fast else {"no_longer_proved":unb}),"tightened":m.get('tightened',[]),"detected":bool(failed)}
    open(log,'a').write(json.dumps(rec)+'\n'); print(json.dumps(rec),flush=True)

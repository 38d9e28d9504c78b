#!/usr/bin/env python3
"""Seeded-bug testing.  Usage: mutate.py batch.json   (a list of
{"file","def","old","new","claim","edit"}).  Each edit is applied to a scratch
copy under /tmp/mut; failing lemmas there are replaced by Admitted so that
Print Assumptions tells which property theorems depended on them.  Results are
appended to /verif/seeded/LOG.jsonl (never to the committed theories)."""
import sys,json,os,re,subprocess,shutil,glob,time
W=os.environ.get('MUTW','/tmp/mut'); SNAP=W+'snap'
def sh(c,t=1500):
    return subprocess.run(c,shell=True,capture_output=True,text=True,timeout=t)
def sync():
    os.makedirs(W,exist_ok=True)
    os.makedirs(W+'/theories',exist_ok=True)
    # work from the last commit, so that unfinished files do not interfere
    shutil.rmtree(SNAP,ignore_errors=True); os.makedirs(SNAP)
    r=sh(f'cd /verif && git archive HEAD rocq | tar x -C {SNAP}'); assert r.returncode==0
    SRC=SNAP+'/rocq'
    for p in glob.glob(SRC+'/theories/*.v'):
        q=W+'/theories/'+os.path.basename(p)
        if not os.path.exists(q) or open(p).read()!=open(q).read(): shutil.copy(p,q); os.utime(q)
    shutil.copy(SRC+'/_CoqProject',W+'/_CoqProject')
    r=sh(f'cd {W} && coq_makefile -f _CoqProject -o Makefile && make -j4')
    assert r.returncode==0, r.stderr[-2000:]
START=re.compile(r'^\s*(?:Local\s+|Global\s+)?(Lemma|Theorem|Example|Corollary|Fact|Remark|Proposition)\s+(\w+)',re.M)
END=re.compile(r'\b(Qed|Defined|Abort)\.')
def admit(path,line):
    s=open(path).read(); off=sum(len(l)+1 for l in s.split('\n')[:line-1])
    last=None
    for m in START.finditer(s):
        if m.start()<=off+200 and s.count('\n',0,m.start())+1<=line: last=m
    if not last: return None
    pm=re.compile(r'\bProof\b[^.]*\.').search(s,last.end())
    if not pm or not (s.count('\n',0,pm.start())+1<=line+0 or True): return None
    stmt_end=pm.start()
    if s.count('\n',0,stmt_end)+1>line and 'STMT' : return ('STMT',last.group(2))
    em=END.search(s,pm.end())
    s=s[:pm.end()]+' Admitted.'+' '*0+'\n'*s.count('\n',pm.end(),em.end())+s[em.end():]
    open(path,'w').write(s)
    return (last.group(1),last.group(2))
def run(m):
    f=f'{W}/theories/{m["file"]}'
    s=open(f).read(); assert s.count(m['old'])>=1,(m['file'],m['old'])
    n=m.get('nth',0); parts=s.split(m['old'])
    i=n+1
    s2=m['old'].join(parts[:i])+m['new']+m['old'].join(parts[i:])
    t0=time.time()-1; open(f,'w').write(s2)
    failed=[];stuck=None
    for it in range(400):
        r=sh(f"cd {W} && make -k -j3 COQC='timeout 400 coqc'")
        if r.returncode==0: break
        errs=re.findall(r'File "(?:\./)?(theories/\w+\.v)", line (\d+)[^\n]*\n(Error.*)',r.stdout+r.stderr)
        if not errs: stuck=(r.stderr[-600:]); break
        prog=False
        for e in {(a,b) for a,b,c in errs}:
            x=admit(f'{W}/{e[0]}',int(e[1]))
            if x and x[0]!='STMT':
                if (x[1]) in failed: stuck=f'{e} {x}'; break
                failed.append(x[1]); prog=True
            else: stuck=f'{e} {x}'; break
        if stuck: break
    ths=[]
    if not stuck:
        for p in sorted(glob.glob(f'{W}/theories/*Props*.v')):
            src=open(p).read(); names=re.findall(r'Print Assumptions (\w+)\.',src)
            if os.path.getmtime(p+'o')<t0: continue   # does not depend on the edited definition
            r=sh(f'cd {W}/theories && mkdir -p ../out && coqc -Q . Verif -o ../out/{os.path.basename(p)}o {os.path.basename(p)}')
            outs=re.findall(r'^(Closed under the global context|Axioms:)',r.stdout,re.M)
            if len(outs)!=len(names): stuck=str((p,len(outs),len(names),r.stderr[-500:])); break
            ths+= [a for a,b in zip(names,outs) if b!='Closed under the global context']
    return failed,ths,stuck
def main():
    batch=json.load(open(sys.argv[1]))
    done={(r['file'],r['definition'],r['edit']) for r in map(json.loads,open('/verif/seeded/LOG.jsonl'))}
    for m in batch:
        if (m['file'],m['def'],m['edit']) in done: continue
        sync()
        failed,ths,stuck=run(m)
        rec=dict(definition=m['def'],file=m['file'],edit=m['edit'],claim=m['claim'],
                 theorems_failed=ths,lemmas_failed=[x for x in failed if x not in ths][:12],
                 theorems_tightened=m.get('tightened',[]))
        if stuck: rec['stuck']=stuck
        print(json.dumps(rec),flush=True)
        if '--dry' not in sys.argv:
            open('/verif/seeded/LOG.jsonl','a').write(json.dumps({k:v for k,v in rec.items() if k!='stuck'} )+'\n') if not stuck else None
main()

#!/usr/bin/env python3
"""Seeded-bug testing of the model (scratch copies only, never touches /verif/rocq).

usage: mutate.py MUTANTS.json [ids...]
Every mutant: {"id","file","def","old","new","edit","claim","expect":["C01",..]}.
For each one: copy the built theories to a scratch directory, apply the edit,
rebuild everything downstream; whenever a proof breaks it is replaced (in the
scratch copy) by Admitted so that the rest can be examined; finally Print
Assumptions tells which manifest theorems rest on a broken proof.
Result: one JSON line per mutant in /tmp/mut/results.jsonl."""
import json,sys,os,re,subprocess,shutil,time
from concurrent.futures import ThreadPoolExecutor
SRC=os.environ.get('MSRC','/tmp/mut/src'); BASE='/tmp/mut'; J=int(os.environ.get('MJ','3')); TO=int(os.environ.get('MTO','400'))
def deps(d):
    fs=[f for f in os.listdir(d) if f.endswith('.v')]
    out=subprocess.run(['coqdep','-Q','.','Verif']+fs,cwd=d,capture_output=True,text=True).stdout
    dep={}
    for l in out.splitlines():
        m=re.match(r'(\w+)\.vo\b.*?: (.*)',l)
        if m: dep[m[1]]=[x[:-3] for x in m[2].split() if x.endswith('.vo')]
    return dep
HEAD=re.compile(r'^\s*(?:(?:Local|Global|#\[[^\]]*\])\s+)*(Lemma|Theorem|Corollary|Example|Fact|Remark|Proposition|Instance)\s+([\w\']+)',re.M)
END=re.compile(r'\b(Qed|Defined)\s*\.')
def compile(d,f,failed,log):
    p=f'{d}/{f}.v'
    for it in range(60):
        try:
            r=subprocess.run(['coqc','-time','-Q','.','Verif',f+'.v'],cwd=d,capture_output=True,text=True,timeout=TO)
            rc=r.returncode; out=r.stdout; err=r.stderr
        except subprocess.TimeoutExpired as e:
            rc=-1; out=(e.stdout or b'').decode(errors='replace'); err='TIMEOUT'
        if rc==0: return True
        offs=[int(m[1]) for m in re.finditer(r'^Chars \d+ - (\d+) ',out,re.M)]
        off=(offs[-1] if offs else 0)+1
        s=open(p,'rb').read(); pre=s[:off].decode(); post=s[off:].decode()
        heads=list(HEAD.finditer(pre+post)); txt=pre+post; pos=len(pre)
        cur=None
        for h in heads:
            if h.start()<=pos+2: cur=h
        if cur is None: log.append(f'{f}: unlocatable {err[-300:]}'); return False
        e=END.search(txt,cur.end())
        if not e or e.end()<=pos-1:
            log.append(f'{f}: not in proof at {off}: {err[-400:]}'); return False
        pm=re.compile(r'\bProof\b[^.]*\.').search(txt,cur.end())
        if not pm or pm.start()>e.start(): log.append(f'{f}: no Proof {cur[2]}'); return False
        if pos<pm.start()-1: log.append(f'{f}: statement of {cur[2]} broken: {err[-400:]}'); return False
        failed.append((f,cur[2]))
        new=txt[:pm.end()]+' Admitted.'+txt[e.end():]
        open(p,'w').write(new)
    return False
def run(mu):
    t0=time.time(); d=f"{BASE}/{mu['id']}"
    shutil.rmtree(d,ignore_errors=True); shutil.copytree(SRC,d)
    p=f"{d}/{mu['file']}.v"; s=open(p).read()
    if s.count(mu['old'])!=1: return dict(id=mu['id'],status='bad-old',count=s.count(mu['old']))
    open(p,'w').write(s.replace(mu['old'],mu['new']))
    for f in os.listdir(d):
        if f.endswith('.v'):
            q=open(f'{d}/{f}').read(); q2=re.sub(r'^Print Assumptions .*$','',q,flags=re.M)
            if q2!=q:
                st=os.stat(f'{d}/{f}'); open(f'{d}/{f}','w').write(q2); os.utime(f'{d}/{f}',(st.st_atime,st.st_mtime))
    dep=deps(d); dirty={mu['file']}; ch=True
    while ch:
        ch=False
        for k,v in dep.items():
            if k not in dirty and dirty&set(v): dirty.add(k); ch=True
    for k in dirty:
        for e in ('.vo','.vos','.vok','.glob'):
            try: os.remove(f'{d}/{k}{e}')
            except FileNotFoundError: pass
    if os.environ.get('MEXPECT')=='1' and mu.get('expect'):
        # examine only the property files of the claims expected to break (and what they rest on)
        want=set()
        for f in dep:
            if f.startswith('Prop') and any(re.search(r'^Theorem %s_'%e,open(f'{d}/{f}.v').read(),re.M) for e in mu['expect']): want.add(f)
        ch=True
        while ch:
            ch=False
            for k in list(want):
                for x in dep.get(k,[]):
                    if x not in want: want.add(x); ch=True
        dirty&=want
    failed=[];log=[];done=set(dep)-dirty;todo=set(dirty);running={}; bad=set()
    with ThreadPoolExecutor(J) as ex:
        while todo or running:
            for k in sorted(todo):
                if len(running)>=J: break
                if all(x in done for x in dep.get(k,[])):
                    todo.discard(k); running[k]=ex.submit(compile,d,k,failed,log)
            if not running: break
            time.sleep(0.05)
            for k in list(running):
                if running[k].done():
                    if running[k].result(): done.add(k)
                    else: bad.add(k)
                    del running[k]
    man=json.load(open(f'{SRC}/MANIFEST.json')); thms=sorted({t for c in man['claims'] for t in c['theorems']})
    where={}
    for f in os.listdir(SRC):
        if f.startswith('Prop') and f.endswith('.v'):
            for h in HEAD.finditer(open(f'{SRC}/{f}').read()): where[h[2]]=f[:-2]
    blocked=[t for t in thms if where.get(t) not in done or not os.path.exists(f"{d}/{where.get(t)}.vo")]
    ok=[t for t in thms if t not in set(blocked)]; blocked=[t for t in blocked if where.get(t) in bad or (where.get(t) in dirty and where.get(t) not in done)]
    if os.environ.get('MEXPECT')=='1' and mu.get('expect'): ok=[t for t in ok if any(t.startswith(e+'_') for e in mu['expect'])]
    names={n for _,n in failed}
    broke=[]
    if names:
        def ask(i):
            part=ok[i::J]; mods=sorted({where[t] for t in part})
            with open(f'{d}/ZZ{i}.v','w') as fh:
                for m in mods: fh.write(f'From Verif Require {m}.\n')
                for t in part: fh.write(f'Goal True. idtac "@@{t}". Abort.\nPrint Assumptions Verif.{where[t]}.{t}.\n')
            r=subprocess.run(['coqc','-Q','.','Verif',f'ZZ{i}.v'],cwd=d,capture_output=True,text=True)
            if r.returncode: log.append('ZZ '+r.stderr[-300:])
            return r.stdout
        with ThreadPoolExecutor(J) as ex: outs=list(ex.map(ask,range(J)))
        cur=None
        for l in '\n'.join(outs).splitlines():
            if l.startswith('@@'): cur=l[2:]
            else:
                m=re.match(r"([\w\.']+) :",l) or re.match(r"([\w\.']+)$",l)
                if m and m[1].split('.')[-1] in names and cur not in broke: broke.append(cur)
        broke.sort()
    if os.environ.get('KEEP')!='1': shutil.rmtree(d,ignore_errors=True)
    exp=mu.get('expect',[]); hit={e:any(t.startswith(e+'_') for t in broke+blocked) for e in exp}
    return dict(id=mu['id'],status='ok' if not bad else 'partial',failed=[f'{a}.{b}' for a,b in failed],broke=broke,blocked=len(blocked),log=log,missed=[e for e in exp if not hit[e]],claims=sorted({t[:3] for t in broke}),secs=round(time.time()-t0))
if __name__=='__main__':
    ms=json.load(open(sys.argv[1])); ids=set(sys.argv[2:])
    for mu in ms:
        if ids and mu['id'] not in ids: continue
        r=run(mu)
        with open(f'{BASE}/results.jsonl','a') as fh: fh.write(json.dumps(r)+'\n')
        print(r['id'],r['status'],r.get('claims'),'MISSED',r.get('missed'),r.get('secs'),r.get('log'),flush=True)

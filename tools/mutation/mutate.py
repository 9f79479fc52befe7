import sys,os,re,json,subprocess,shutil,concurrent.futures as cf,time
SRC='/verif/rocq'; BASE='/tmp/mut/base'
def sh(c,cwd,timeout=900):
    try:
        r=subprocess.run(c,shell=True,cwd=cwd,capture_output=True,text=True,timeout=timeout); return r.returncode,r.stdout+r.stderr
    except subprocess.TimeoutExpired: return 124,'TIMEOUT'
def refresh():
    os.makedirs(BASE,exist_ok=True)
    sh(f'rsync -a --delete --exclude=.git {SRC}/ {BASE}/ || (rm -rf {BASE}; cp -a {SRC} {BASE})','/tmp')
    rc,o=sh('coq_makefile -f _CoqProject -o Makefile >/dev/null && make -j4 2>&1 | tail -5',BASE,3000); print(rc,o)
def deps(d):
    rc,o=sh('coqdep -f _CoqProject 2>/dev/null',d)
    D={}
    for l in o.splitlines():
        m=re.match(r'theories/(\w+)\.vo .*?: (.*)',l)
        if m: D[m[1]]=set(re.findall(r'theories/(\w+)\.vo\b',m[2]))-{m[1]}
    return D
def order(D,start):
    aff={start}; ch=True
    while ch:
        ch=False
        for k,v in D.items():
            if k not in aff and v&aff: aff.add(k); ch=True
    out=[]; 
    while len(out)<len(aff):
        for k in sorted(aff):
            if k not in out and not ((D[k]&aff)-set(out)): out.append(k)
    return out
HEAD=re.compile(r'^\s*(?:Local |Global |#\[[^\]]*\] *)*(Lemma|Theorem|Example|Corollary|Fact|Remark|Proposition|Instance|Definition|Fixpoint|Program)\s+(\w+)')
def patch(path,line):
    L=open(path).read().split('\n')
    i=line-1
    while i>=0 and not HEAD.match(L[i]): i-=1
    if i<0: return None
    m=HEAD.match(L[i]); name=m[2]
    # find Proof between
    j=i
    while j<len(L) and not re.search(r'(^|[\s.])Proof\b',L[j]):
        if j>i and HEAD.match(L[j]): return ('STMT',name)
        j+=1
    if j>line-1 : return ('STMT',name)
    k=j
    while k<len(L) and not re.search(r'\b(Qed|Defined)\.',L[k]): k+=1
    if k<line-1: return ('OUTSIDE',L[line-1])
    if k<line-1: return None
    pm=re.search(r'Proof\b',L[j]); 
    pre=L[j][:pm.start()]
    new=pre+'Admitted.'
    L[j]=new
    post=re.split(r'\b(?:Qed|Defined)\.',L[k],1)[1] if k!=j else ''
    # keep line count
    if k==j:
        pass
    else:
        for x in range(j+1,k+1): L[x]=''
        L[k]=post
    open(path,'w').write('\n'.join(L))
    return ('PATCH',name)
def run(mu):
    W=f"/tmp/mut/w_{mu['id']}"; shutil.rmtree(W,ignore_errors=True); shutil.copytree(BASE,W)
    f=f"{W}/theories/{mu['file']}.v"; s=open(f).read()
    if s.count(mu['old'])<1: return dict(mu,error=f"old not found")
    occ=mu.get('occ',1); lo=-1
    if s.count(mu['old'])!=1 and 'occ' not in mu:
        q=re.search(r'^\s*(?:Definition|Fixpoint|Inductive|Record|with)\s+'+re.escape(mu['definition'])+r'\b',s,re.M)
        if not q: return dict(mu,error=f"old occurs {s.count(mu['old'])} times")
        lo=q.start()-1; e=re.search(r'^\s*(?:Definition|Fixpoint|Inductive|Record|Section|End|Variable|Context|Lemma)\b',s[q.end():],re.M); hi=q.end()+e.start() if e else len(s)
        if s[lo+1:hi].count(mu['old'])!=1: return dict(mu,error=f"old occurs {s[lo+1:hi].count(mu['old'])} times in def")
    idx=lo
    for _ in range(occ): idx=s.index(mu['old'],idx+1)
    open(f,'w').write(s[:idx]+mu['new']+s[idx+len(mu['old']):])
    D=deps(W); O=order(D,mu['file']); O=[k for k in O if 'only' not in mu or k in mu['only'] or k==mu['file']]; failed=[]; err=None
    flags='-Q theories Verif'
    tl=mu.get('timeout',400)
    for k in O:
        tries=0
        while True:
            rc,o=sh(f'ulimit -s unlimited; coqc {FLAGS} theories/{k}.v',W,tl)
            if rc==0: break
            m=re.findall(r'File "[^"]*", line (\d+), characters[^\n]*\n(Error[\s\S]*)',o)
            tries+=1
            if not m or tries>60: err=f"{k}: {o[-300:]}"; break
            r=patch(f'{W}/theories/{k}.v',int(m[0][0]))
            if r is None or r[0]!='PATCH': err=f"{k}:{m[0][0]} {r} {m[0][1][:300]}"; break
            failed.append(f"{k}.{r[1]}")
        if err: break
    thms=[]
    for k in O:
        s=open(f'{W}/theories/{k}.v').read()
        for t in re.findall(r'^\s*(?:Theorem|Example|Corollary|Lemma)\s+(C\d\d\w*)',s,re.M): thms.append((k,t))
    bad=[]
    if not err:
        with open(f'{W}/theories/PA.v','w') as g:
            for k in O: g.write(f'From Verif Require {k}.\n')
            for k,t in thms: g.write(f'Goal True. idtac "@@ {t}". Abort.\nPrint Assumptions Verif.{k}.{t}.\n')
        rc,o=sh(f'coqc {FLAGS} theories/PA.v',W,600)
        if rc: err='PA '+o[-300:]
        for part in o.split('@@ ')[1:]:
            n=part.split()[0]
            if 'Closed under' not in part: bad.append(n)
    if not mu.get('keep'): shutil.rmtree(W,ignore_errors=True)
    return dict(mu,failed_lemmas=failed,failed_theorems=bad,surviving=[t for k,t in thms if t not in bad],error=err)
FLAGS='-Q theories Verif'
for l in open('/verif/rocq/_CoqProject'):
    pass
import glob
m=open('/verif/rocq/_CoqProject').read()
FLAGS=' '.join(re.findall(r'^-[QR] .*$',m,re.M)+re.findall(r'^-arg (.*)$',m,re.M)) or FLAGS
if __name__=='__main__':
    if sys.argv[1]=='refresh': refresh(); sys.exit()
    M=json.load(open(sys.argv[1])); sel=sys.argv[2:]
    M=[x for x in M if not sel or x['id'] in sel]
    res=[]
    with cf.ThreadPoolExecutor(4) as ex:
        for r in ex.map(run,M):
            res.append(r)
            print('==',r['id'],r['file'],'|',r['edit'],'\n   claim:',r['claim'],'\n   ERR:' if r['error'] else '',r['error'] or '','\n   lemmas:',r.get('failed_lemmas'),'\n   failed:',r.get('failed_theorems'),'\n   survive:',r.get('surviving'),flush=True)
    out=sys.argv[1].replace('.json','.res.json')
    old=json.load(open(out)) if os.path.exists(out) else []
    ids={r['id'] for r in res}
    json.dump([r for r in old if r['id'] not in ids]+res,open(out,'w'),indent=1)

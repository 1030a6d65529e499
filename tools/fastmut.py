"""Fast seeded-bug harness.  usage: fastmut.py base worker-id muts.py...   (or: auto SEED DEFFILE)
For every mutant: edit the model file, recompile what depends on it in dependency order, stop at the first proof that
fails and on which (by the .glob cross references of the unmutated build) a property theorem depends.  Reports those
theorems; a mutant for which everything compiles SURVIVED.  Appends to seeded/LOG.jsonl."""
import sys,os,re,subprocess,shutil,json,heapq,time,glob,fcntl
BASE=sys.argv[1]; WID=sys.argv[2]; W='/tmp/fm_'+WID
shutil.rmtree(W,ignore_errors=True); subprocess.run(['cp','-a',BASE,W])
T=W+'/theories'; B=BASE+'/theories'
mods=[l.strip()[9:-2] for l in open(BASE+'/_CoqProject') if l.startswith('theories/')]
deps={m:set() for m in mods}
out=subprocess.run(['coqdep','-Q','theories','Verif']+['theories/%s.v'%m for m in mods],cwd=BASE,capture_output=True,text=True).stdout
for l in out.split('\n'):
    m=re.match(r'theories/(\w+)\.vo .*?: (.*)',l)
    if m: deps[m.group(1)]={x[9:-3] for x in m.group(2).split() if x.startswith('theories/') and x.endswith('.vo')}-{m.group(1)}
def dependents(f):
    r={f}; ch=True
    while ch:
        ch=False
        for m in mods:
            if m not in r and deps[m]&r: r.add(m); ch=True
    return r-{f}
# glob graph: (mod,name) -> set of (mod,name) used
KW={'def','thm','prf','lem','ind','rec','constr','proj','ax','inst','coe','ex','defax','proof'}
uses={}; where={}
for m in mods:
    cur=None; start=[]
    for l in open(B+'/%s.glob'%m,errors='replace'):
        p=l.split()
        if not p: continue
        if p[0][0]=='R' and ':' in p[0]:
            off=int(p[0][1:].split(':')[0])
            if len(p)>=4 and p[1].startswith('Verif.') and cur: uses.setdefault(cur,set()).add((p[1][6:],p[3]))
        elif p[0] in('def','thm','prf','inst','ind','rec','ax','ex','coe'):
            cur=(m,p[3] if p[2]=='<>' else p[3]); uses.setdefault(cur,set())
        elif p[0] in('constr','proj'):
            uses.setdefault((m,p[3]),set())
            if cur: uses[(m,p[3])].add(cur)
rev={}
for k,v in uses.items():
    for u in v: rev.setdefault(u,set()).add(k)
def theorems(k):
    seen={k}; st=[k]
    while st:
        x=st.pop()
        for y in rev.get(x,()):
            if y not in seen: seen.add(y); st.append(y)
    return sorted({n for (m,n) in seen if re.match(r'C\d+_',n) and m.startswith('Prop_')})
def depends(k,target):
    seen={k}; st=[k]
    while st:
        x=st.pop()
        if x==target: return True
        for y in uses.get(x,()):
            if y not in seen: seen.add(y); st.append(y)
    return False
DECL=re.compile(r'^\s*(?:Local |Global |#\[\w+\] )?(Lemma|Theorem|Example|Corollary|Fact|Remark|Definition|Fixpoint|Instance) (\w+)',re.M)
def decl_at(src,line):
    off=sum(len(l)+1 for l in src.split('\n')[:line-1]); best=None
    for m in DECL.finditer(src):
        st=m.start()+len(m.group(0))-len(m.group(0).lstrip())
        if st<=off+250 and src.count('\n',0,st)+1<=line: best=m
    return best
def admit(path,line):
    src=open(path).read(); m=decl_at(src,line)
    if m is None or m.group(1) in('Definition','Fixpoint','Instance'): return None
    q=re.compile(r'\b(Qed|Defined)\.').search(src,m.end()); p=src.find('Proof',m.end())
    if q is None or p<0 or p>q.start(): return None
    body=src[p:q.end()]
    open(path,'w').write(src[:p]+'Admitted.'+'\n'*body.count('\n')+src[q.end():]); return m.group(2)
TIMES='/tmp/fm_times.json'
times=json.load(open(TIMES)) if os.path.exists(TIMES) else {}
def coqc(m,limit=400):
    t=time.time()
    try: r=subprocess.run('ulimit -v 6000000; exec timeout %d coqc -q -Q theories Verif theories/%s.v'%(limit,m),shell=True,cwd=W,capture_output=True,text=True)
    except Exception as e: return 1,str(e)
    times[m]=time.time()-t
    return r.returncode,r.stdout[-0:]+r.stderr
def restore(mset):
    for m in mset:
        for e in('.v','.vo','.vok','.vos','.glob'):
            s=B+'/'+m+e
            if os.path.exists(s): shutil.copy2(s,T+'/'+m+e)
def direct_users(f,d):
    return {m for (m,n) in rev.get((f,d),())}
def run(f,d,old_src,new_src):
    """f: module; returns dict"""
    open(T+'/%s.v'%f,'w').write(new_src)
    rc,err=coqc(f)
    if rc: restore([f]); return {'status':'illtyped','err':err[-200:]}
    dep=dependents(f); touched={f}; todo=set(dep); done={f}; broken=[]
    du=direct_users(f,d)
    # modules from which a direct user of d is reachable come first
    need=set(du)
    for m in list(du):
        st=[m]
        while st:
            x=st.pop()
            for y in deps[x]&dep:
                if y not in need: need.add(y); st.append(y)
    res=None
    while todo:
        ready=[m for m in todo if not (deps[m]&todo)]
        ready.sort(key=lambda m:(m not in need, times.get(m,os.path.getsize(B+'/%s.v'%m)/2000)))
        m=ready[0]; touched.add(m)
        src=open(T+'/%s.v'%m).read(); open(T+'/%s.v'%m,'w').write('Set Default Timeout 60. '+src)
        ok=False
        for it in range(25):
            rc,err=coqc(m)
            if rc==0: ok=True; break
            ie=err.rfind('\nError'); e=re.findall(r'line (\d+), characters',err[:ie] if ie>=0 else err)
            if not e:
                # killed or out of memory: find the sentence that was being executed
                r2=subprocess.run('ulimit -v 6000000; exec timeout 300 stdbuf -oL coqc -time -q -Q theories Verif theories/%s.v'%m,shell=True,cwd=W,capture_output=True,text=True)
                cs=re.findall(r'^Chars (\d+) - (\d+) ',r2.stdout,re.M)
                if cs: e=[open(T+'/%s.v'%m,'rb').read()[:int(cs[-1][1])+2].count(b'\n')+1]
            if not e: res={'status':'hard','where':m,'err':err[-300:]}; break
            ln=int(e[-1]); dm=decl_at(open(T+'/%s.v'%m).read(),ln); nm=dm.group(2) if dm else None
            if dm is None or dm.group(1) in('Definition','Fixpoint','Instance'): 
                res={'status':'hard','where':m,'err':err[-300:],'decl':nm}; break
            ths=theorems((m,nm)); broken.append(nm)
            if not depends((m,nm),(f,d)): res={'status':'SUSPECT','where':m+'.'+str(nm),'err':err[-300:]}; break
            if ths: res={'status':'killed','lemma':nm,'theorems':ths}; break
            if admit(T+'/%s.v'%m,ln) is None: res={'status':'hard','where':m,'err':err[-300:]}; break
        if res: break
        todo.discard(m)
    restore(touched)
    r=res or {'status':'SURVIVED'}
    r['broken']=broken; return r
def log(ent):
    with open('/verif/seeded/LOG.jsonl','a') as fh:
        fcntl.flock(fh,fcntl.LOCK_EX); fh.write(json.dumps(ent)+'\n')
def report(f,d,old,new,claim,r,expect=None):
    ths=r.get('theorems',[])
    s=r['status']
    print(s, f, d, repr(old[:60]),'->',repr(new[:60]),'|',r.get('lemma',''),len(ths),ths[:3],'' if s in('killed','SURVIVED') else r.get('err','')[-160:].replace('\n',' '),
      '' if not expect or s!='killed' or set(expect)&set(ths) else 'EXPECTED '+str(expect),flush=True)
    if s=='killed':
        log({'definition':d,'file':'theories/%s.v'%f,'edit':old+'  -->  '+new,'claim':claim,'broken_lemmas':r['broken'],'theorems_failed':ths[:12],'method':'stopped at the first broken proof; theorems_failed = property theorems that depend on it','tightened':[]})
if __name__=='__main__':
    for mf in sys.argv[3:]:
        if mf.startswith('auto:'):
            _,mf,part,of=mf.split(':'); ns={}; exec(open(mf).read(),ns)
            for n,(f,d,off,old,new) in enumerate(ns['MUTS']):
                if n%int(of)!=int(part): continue
                src=open(B+'/'+f).read(); fm=f[:-2]
                if src[off:off+len(old)]!=old: print('NOT FOUND',d,flush=True); continue
                r=run(fm,d,src,src[:off]+new+src[off+len(old):])
                report(fm,d,old,new,'generated operator edit',r)
                json.dump(times,open(TIMES,'w'))
            continue
        ns={}; exec(open(mf).read(),ns)
        for mt in ns['MUTS']:
            (f,d,old,new,claim,expect)=mt
            fm=f[:-2]; src=open(B+'/'+f).read()
            mm=re.search(r'(?:Definition|Fixpoint|Inductive|Record) '+re.escape(d)+r'\b',src); i=mm.start() if mm else 0
            k=src.find(old,i)
            if k<0: print('NOT FOUND',d,repr(old),flush=True); continue
            r=run(fm,d,src,src[:k]+new+src[k+len(old):])
            report(fm,d,old,new,claim,r,expect)
            try: json.dump(times,open(TIMES,'w'))
            except: pass

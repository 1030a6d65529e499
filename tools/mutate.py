"""Seeded-bug harness.  usage: mutate.py muts.py [Prop files to check...]
muts.py defines MUTS = [(file, definition, old, new, claim, [theorems expected to fail]), ...] and
optionally FILES = list of .v files (dependency-closed) to build; default: all of _CoqProject.
Works in a private scratch copy.  A failing proof is replaced by Admitted and the build is resumed, so
that the final list of failing property theorems is exact: those whose own proof broke plus those
whose Print Assumptions mentions a broken lemma.  Appends to /verif/seeded/LOG.jsonl."""
import sys,os,re,subprocess,shutil,json,tempfile
ns={}; exec(open(sys.argv[1]).read(),ns); MUTS=ns['MUTS']
S=tempfile.mkdtemp(prefix='scratch')
subprocess.run(['cp','-a','/verif/rocq/.',S+'/'])
if 'FILES' in ns:
    open(S+'/_CoqProject','w').write('-Q theories Verif\n'+''.join('theories/%s\n'%f for f in ns['FILES']))
subprocess.run('coq_makefile -f _CoqProject -o Makefile >/dev/null && make -j3 >/dev/null 2>&1',shell=True,cwd=S)
DECL=re.compile(r'^\s*(?:Local |Global |#\[\w+\] )?(Lemma|Theorem|Example|Corollary|Fact|Remark|Definition|Fixpoint|Instance) (\w+)',re.M)
def decl_at(src,line):
    off=sum(len(l)+1 for l in src.split('\n')[:line-1]); best=None
    for m in DECL.finditer(src):
        if m.start()<=off+200 and src.count('\n',0,m.start())+1+ (1 if m.group(0).startswith('\n') else 0) <=line: best=m
    return best
def admit(path,line):
    src=open(path).read(); m=decl_at(src,line)
    if m is None or m.group(1) in('Definition','Fixpoint','Instance'): return None
    q=re.compile(r'\b(Qed|Defined)\.').search(src,m.end())
    p=src.find('Proof',m.end())
    if q is None or p<0 or p>q.start(): return None
    # keep line count
    body=src[p:q.end()]
    open(path,'w').write(src[:p]+'Admitted.'+'\n'*body.count('\n')+src[q.end():])
    return m.group(2)
for (f,d,old,new,claim,expect) in MUTS:
    T=S+'_m'; shutil.rmtree(T,ignore_errors=True); subprocess.run(['cp','-a',S,T])
    p=os.path.join(T,'theories',f); src=open(p).read()
    mm=re.search(r'(?:Definition|Fixpoint|Inductive|Record) '+re.escape(d)+r'\b',src); i=mm.start() if mm else 0
    k=src.find(old,i)
    if k<0: print('NOT FOUND',d,repr(old),flush=True); continue
    open(p,'w').write(src[:k]+new+src[k+len(old):])
    for g in os.listdir(T+'/theories'):
        if g.endswith('.v') and not g.endswith('Model.v'):
            gp=T+'/theories/'+g; st=os.stat(gp); t=open(gp).read(); open(gp,'w').write('Set Default Timeout 60. '+t); os.utime(gp,ns=(st.st_atime_ns,st.st_mtime_ns))
    broken=[]; hard=None
    for it in range(60):
        r=subprocess.run('ulimit -v 4500000; timeout 1800 make -k -j2',shell=True,cwd=T,capture_output=True,text=True)
        out=r.stdout+r.stderr
        errs=re.findall(r'File "\./(theories/\w+\.v)", line (\d+), characters [\d-]+:\nError:?(.*)',out)
        if r.returncode==0: break
        oom=[] if errs else re.findall(r'Makefile:\d+: (theories/\w+)\.vo\] (?:Error 13[47]|Killed|Aborted)',out)
        for of in oom[:1]:   # memory limit hit: find the command that was running
            t=subprocess.run(f'ulimit -v 4500000; timeout 1800 coqc -time -Q theories Verif {of}.v',shell=True,cwd=T,capture_output=True,text=True)
            ends=[int(b) for a,b in re.findall(r'^Chars (\d+) - (\d+) ',t.stdout,re.M)]
            raw=open(f'{T}/{of}.v','rb').read(); ln=raw.count(b'\n',0,ends[-1] if ends else 0)+1
            rest=raw[ends[-1]:] if ends else raw; ln+=len(rest)-len(rest.lstrip()) and rest[:len(rest)-len(rest.lstrip())].count(b'\n')
            errs.append((of+'.v',str(ln),'out of memory'))
        if not errs: hard='no error parsed: '+out[-300:]; break
        for (ef,el,msg) in errs:
            nm=admit(os.path.join(T,ef),int(el))
            if nm is None: hard=f'{ef}:{el} {msg}'; break
            broken.append(nm)
        if hard: break
    failed=set(b for b in broken if re.match(r'C\d\d',b))
    if not hard and broken:
        # exact dependency: Print Assumptions of every property theorem
        thms=[]; 
        for pf in sorted(os.listdir(T+'/theories')):
            if pf.startswith('Prop_') and pf.endswith('.vo'):
                n=pf[:-3]; ths=re.findall(r'^Theorem (C\d+\w*)',open(f'{T}/theories/{n}.v').read(),re.M)
                if not ths: continue
                open(T+'/pa.v','w').write('From Verif Require Import '+n+'.\n'+''.join(f'Goal True. idtac "nonexistent_{t}". Abort.\nPrint Assumptions {t}.\n' for t in ths))
                o=subprocess.run('coqc -Q theories Verif pa.v',shell=True,cwd=T,capture_output=True,text=True).stdout
                parts=re.split(r'nonexistent_(C\d+\w*)',o)
                for a in range(1,len(parts)-1,2):
                    if any(re.search(r'^(?:\w+\.)*'+re.escape(b)+r'\b',parts[a+1],re.M) for b in broken): failed.add(parts[a])
    rec=dict(definition=d,file='theories/'+f,edit=f'{old.strip()}  -->  {new.strip()}',claim=claim,broken_lemmas=broken,theorems_failed=sorted(failed),tightened=[])
    if hard: rec['build_error']=hard
    print(json.dumps(rec),flush=True)
    missing=[e for e in expect if e not in failed]
    if hard: print('*** HARD ***',hard,flush=True)
    elif missing: print('*** SURVIVED (expected to fail but still prove) ***',missing,flush=True)
    if broken or hard: open('/verif/seeded/LOG.jsonl','a').write(json.dumps(rec)+'\n')
shutil.rmtree(S,ignore_errors=True); shutil.rmtree(S+'_m',ignore_errors=True)
print('DONE',flush=True)

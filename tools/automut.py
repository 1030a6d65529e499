"""Generate random seeded bugs.  usage: automut.py SEED PER_DEF OUT.py [ALL]  -- operator/constant/argument edits in the model
definitions that LOG.jsonl does not mention yet (ALL: in every definition)."""
import re,sys,json,glob,random
seed,per,out=int(sys.argv[1]),int(sys.argv[2]),sys.argv[3]
rnd=random.Random(seed); T='/verif/rocq/theories/'
logd=set()
if len(sys.argv)<5:
    for l in open('/verif/seeded/LOG.jsonl'): logd.add(json.loads(l).get('definition'))
seen={(json.loads(l).get('definition'),json.loads(l).get('edit')) for l in open('/verif/seeded/LOG.jsonl')}
RULES=[(r' \+ ',[' - ']),(r' - ',[' + ']),(r' \* ',[' + ']),(r' / ',[' * ']),(r'\bRltb\b',['Rleb']),(r'\bRleb\b',['Rltb']),
 (r'\bNat\.ltb\b',['Nat.leb']),(r'\bNat\.leb\b',['Nat.ltb']),(r' <\? ',[' <=? ']),(r' <=\? ',[' <? ']),(r' && ',[' || ']),(r' \|\| ',[' && ']),
 (r'\btrue\b',['false']),(r'\bfalse\b',['true']),(r'\bnegb ',['']),(r'(?<![\w.])0(?![\w.])',['1']),(r'(?<![\w.])1(?![\w.])',['0','2']),(r'(?<![\w.])2(?![\w.])',['1','3']),(r'(?<![\w.])3(?![\w.])',['2']),(r'(?<![\w.])[4-9]\d*(?![\w.])',['3']),
 (r'\bvx\b',['vy']),(r'\bvy\b',['vz']),(r'\bvz\b',['vx']),(r'\bfst\b',['snd']),(r'\bsnd\b',['fst']),(r'\bRmin\b',['Rmax']),(r'\bRmax\b',['Rmin']),
 (r'\bsin\b',['cos']),(r'\bcos\b',['sin']),(r'\bS (?=[a-z])',['']),(r'\bvadd\b',['vsub']),(r'\bvsub\b',['vadd']),(r'\bexistsb\b',['forallb']),(r'\bforallb\b',['existsb']),
 (r'\bRmult\b',['Rplus']),(r'(?<=[\( ])- (?=[a-z(])',['']),(r'\bSome \w+\b(?! *=>)',['None']),(r'\bvscale\b',['vdivs']),(r'\brev ',['']),(r'\bfirstn\b',['skipn']),(r'\bskipn\b',['firstn']),(r' \+\+ (?:\w+|\[[^\[\]]*\])(?=\s*[).\n])',['']),(r'(?<=\()([a-z]\w*) ([a-z]\w*) ([a-z]\w*)(?=\))',['SW']),(r'(?<=\()(\w+) (\w+) (\w+) (\w+)(?=\))',['SW4'])]
res=[]
for fn in sorted(glob.glob(T+'*Model.v'))+[T+'RigidTypes.v']:
    f=fn.split('/')[-1]; s=open(fn).read()
    blank=re.sub(r'\(\*.*?\*\)',lambda m:' '*len(m.group(0)),s,flags=re.S)
    for m in re.finditer(r'^(?:Definition|Fixpoint) (\w+)',blank,re.M):
        d=m.group(1)
        if d in logd: continue
        e=re.compile(r'\.\s*$',re.M).search(blank,m.end()); a=blank.find(':=',m.end())
        if a<0 or not e or a>e.start(): continue
        c=[]
        for pat,reps in RULES:
            for k in re.finditer(pat,blank[a+2:e.start()]):
                for rp in reps:
                    g=k.groups()
                    r2=g[0]+' '+g[2]+' '+g[1] if rp=='SW' else ' '.join([g[0],g[1],g[3],g[2]]) if rp=='SW4' else rp
                    if r2==k.group(0): continue
                    i,j=a+2+k.start(),a+2+k.end()
                    # context
                    l=max(m.start(),i-35); r=min(e.start()+1,j+35)
                    c.append((i,j,s[l:r],s[l:i]+r2+s[j:r],l,r))
        rnd.shuffle(c); n=0
        for (i,j,old,new,l,r) in c:
            if n>=per: break
            if (d,old+'  -->  '+new) in seen: continue
            res.append((f,d,l,old,new)); n+=1
open(out,'w').write('MUTS='+repr(res)+'\n'); print(len(res))

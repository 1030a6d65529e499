"""Generate MANIFEST.json from the Theorem names in rocq/theories/Prop_*.v.
Status: partial if any theorem of the property ends in _partial/_refuted or is overridden."""
import re,glob,json
NOTES={}
exec(open('/verif/tools/notes.py').read())
props=[json.loads(l)['id'] for l in open('/verif/properties.jsonl')]
th={}
for f in sorted(glob.glob('/verif/rocq/theories/Prop_*.v')):
    for m in re.finditer(r'^Theorem (C\d\d+)_(\w+)',open(f).read(),re.M):
        th.setdefault(m.group(1),[]).append(m.group(1)+'_'+m.group(2))
claims=[]
for p in props:
    t=th.get(p,[])
    st,note=NOTES.get(p,(None,''))
    if not t:
        st=st or 'partial'; note=note or 'not yet modelled'
    if st is None:
        st='partial' if any(x.endswith('_partial') or x.endswith('_refuted') for x in t) else 'proved'
    claims.append(dict(property=p,status=st,theorems=t,note=note))
missing=set(th)-set(props)
assert not missing,missing
json.dump({"claims":claims},open('/verif/MANIFEST.json','w'),indent=1)
print({s:sum(c['status']==s for c in claims) for s in ('proved','partial','not_applicable')}, 'without theorems:',[c['property'] for c in claims if not c['theorems']])

"""closure(targets): the files of _CoqProject that the given .v files (names without .v; '*' suffix = prefix match) depend on."""
import re
P='/verif/rocq/'
def closure(targets):
    order=[l.strip()[9:-2] for l in open(P+'_CoqProject') if l.startswith('theories/')]
    dep={}
    for f in order:
        src=open(P+'theories/%s.v'%f).read(); d=set()
        for m in re.finditer(r'From Verif Require (?:Import|Export)?\s*([^.]*)\.',src): d|=set(m.group(1).split())
        dep[f]=d&set(order)
    todo=[f for f in order for t in targets if f==t or (t.endswith('*') and f.startswith(t[:-1]))]; seen=set()
    while todo:
        x=todo.pop()
        if x in seen: continue
        seen.add(x); todo+=dep[x]
    return [f+'.v' for f in order if f in seen]

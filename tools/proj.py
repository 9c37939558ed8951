# Regenerate _CoqProject file list from theories/*.v in dependency order
import os,re
os.chdir('/verif/rocq')
fs=sorted(f[:-2] for f in os.listdir('theories') if f.endswith('.v'))
deps={}
for f in fs:
    t=open('theories/%s.v'%f).read()
    d=set()
    for m in re.finditer(r'From Verif Require (?:Import|Export)?\s*([^.]*)\.',t): d|=set(m.group(1).split())
    deps[f]=[x for x in d if x in fs]
out=[];seen=set()
def visit(f):
    if f in seen: return
    seen.add(f)
    for d in sorted(deps[f]): visit(d)
    out.append(f)
for f in fs: visit(f)
open('_CoqProject','w').write('-Q theories Verif\n'+''.join('theories/%s.v\n'%f for f in out))

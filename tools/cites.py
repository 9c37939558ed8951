"""List the citations file:lines of the models whose range is outside the file, and those whose
following identifier does not occur in the range."""
import re,glob,os
src={}
for f in glob.glob('/repo/src/*')+glob.glob('/repo/*/*.cc'):
    if os.path.isfile(f):
        try: src.setdefault(os.path.basename(f),open(f,errors='replace').read().split('\n'))
        except Exception: pass
bad=0
for v in sorted(glob.glob('/verif/rocq/theories/*.v')):
    t=open(v).read()
    for m in re.finditer(r'([A-Za-z_]+\.(?:cc|hh))[:, ]+(?:lines? )?(\d+)(?:-(\d+))?(?:,? *([A-Za-z_]+))?',t):
        f,a,b,w=m.group(1),int(m.group(2)),m.group(3),m.group(4)
        b=int(b) if b else a
        ln=t[:m.start()].count('\n')+1
        if f not in src: print(v,ln,'no file',f); bad+=1; continue
        if b>len(src[f]) or a>b: print(os.path.basename(v),ln,m.group(0),'range'); bad+=1; continue
        if w and '_' in w and not any(w in x for x in src[f][max(0,a-4):b+1]): print(os.path.basename(v),ln,m.group(0),'name'); bad+=1
print(bad,'suspicious')

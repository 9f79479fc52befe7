# log.py res.json [id=tightened,...]  -> append to LOG (replacing same id)
import sys,json,os
L='/verif/seeded/LOG.jsonl'
old=[json.loads(l) for l in open(L)] if os.path.exists(L) else []
tight=dict(a.split('=',1) for a in sys.argv[2:])
res=json.load(open(sys.argv[1]))
new=[]
for r in res:
    if r.get('error'): continue
    if r.get('skip'): continue
    new.append({"id":r['id'],"definition":f"{r['file']}.v:{r['definition']}","edit":r['edit'],"diff":{"old":r['old'],"new":r['new']},"claim_broken":r['claim'],
      "theorems_failed":r['failed_theorems'],"first_broken_lemmas":r['failed_lemmas'],"theorems_tightened":[t for t in tight.get(r['id'],'').split(',') if t],"note":r.get('note','')})
ids={n['id'] for n in new}
prev={o['id']:o for o in old}
for n in new:
    if n['id'] in prev and not n['theorems_tightened']:
        n['theorems_tightened']=prev[n['id']]['theorems_tightened']
        if prev[n['id']].get('note') and not n['note']: n['note']=prev[n['id']]['note']
with open(L,'w') as f:
    for o in [o for o in old if o['id'] not in ids]+new: f.write(json.dumps(o)+'\n')

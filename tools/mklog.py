#!/usr/bin/env python3
"""Collect the results of tools/mutate.py into seeded/LOG.jsonl (one line per seeded bug)."""
import json,os
V='/verif/seeded'
res={}
for l in open('/tmp/mut/results.jsonl'):
    r=json.loads(l); res.setdefault(r['id'],[]).append(r)
tight=json.load(open(f'{V}/tightened.json')) if os.path.exists(f'{V}/tightened.json') else {}
old={}
if os.path.exists(f'{V}/LOG.jsonl'):
    for l in open(f'{V}/LOG.jsonl'):
        o=json.loads(l); old[o['id']]=o
import glob
for f in sorted(glob.glob(f'{V}/mutants_*.json')):
    for mu in json.load(open(f)):
        rs=res.get(mu['id'])
        if not rs: continue
        r=rs[-1]
        if r['status'] not in('ok','partial'): continue
        broke=sorted(set(r.get('broke',[])))
        o=dict(id=mu['id'],definition=f"{mu['file']}.v: {mu['def']}",edit=mu['edit'] if '==>' in mu['edit'] else f"{mu['old']}  ==>  {mu['new']}",
          breaks=mu['claim'],expected=mu.get('expect',[]),theorems_failed=broke,theorems_tightened=tight.get(mu['id'],[]))
        if not mu.get('expect'): o['note']='control: the edit does not falsify any claim'+('' if not broke else ' (some proofs of auxiliary statements change)')
        miss=[x for x in r.get('missed',[])]
        if miss and not o['theorems_tightened']: o['missed']=miss
        elif miss: o['note']=f"first run: no theorem of {miss} failed; the listed theorem was added and now fails"
        old[mu['id']]=o
with open(f'{V}/LOG.jsonl','w') as g:
    for k in sorted(old): g.write(json.dumps(old[k],ensure_ascii=False)+'\n')
print(len(old), 'missed:', [k for k in old if old[k].get('missed')])

#!/usr/bin/env python3
"""mklog.py RESULTS.jsonl : turns results of mutate.py into seeded/LOG.jsonl"""
import json,sys
T={}
try: T=json.load(open('/verif/tools/tightened.json'))
except FileNotFoundError: pass
out=[]
for l in open(sys.argv[1]):
    r=json.loads(l)
    if r.get('hard'):
        failed=['(build stops: %s)'%r['hard'][:160]]+r.get('admitted',[])
    else: failed=r['failed']
    out.append({'id':r['id'],'file':r['file'],'definition':r['definition'],'edit':r['edit'],
      'claims_broken':r['claims'],'theorems_failed':failed,'claims_missed':r.get('missed',[]),
      'theorems_tightened':T.get(r['id'],[])})
out.sort(key=lambda x:x['id'])
open('/verif/seeded/LOG.jsonl','w').write(''.join(json.dumps(x)+'\n' for x in out))
print(len(out))

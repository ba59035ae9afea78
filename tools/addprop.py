#!/usr/bin/env python3
"""addprop.py < jsonlines : add or replace properties by id in properties.jsonl"""
import json,sys,os
f=os.path.join(os.path.dirname(os.path.abspath(__file__)),'..','properties.jsonl')
ps={json.loads(l)['id']:json.loads(l) for l in open(f)}
for l in sys.stdin:
    if l.strip():
        d=json.loads(l); ps[d['id']]={**ps.get(d['id'],{}),**d}
for d in ps.values():
    assert all(k in d for k in('id','title','statement','quantifier','why_tests_cant','anchors')),d
open(f,'w').write(''.join(json.dumps(ps[k])+'\n' for k in sorted(ps)))

#!/usr/bin/env python3
"""Write MANIFEST.json from the theorem names in Prop*.v and tools/notes.json."""
import re,glob,json,os
root=os.path.join(os.path.dirname(os.path.abspath(__file__)),'..')
th={}
for f in sorted(glob.glob(root+'/rocq/theories/Prop*.v'),key=lambda x:(len(x),x)):
    for n in re.findall(r'^Theorem (C\d\d\w*)',open(f).read(),re.M): th.setdefault(n[:3],[]).append(n)
notes=json.load(open(root+'/tools/notes.json'))
claims=[]
for l in open(root+'/properties.jsonl'):
    i=json.loads(l)['id']; n=notes.get(i,{})
    t=th.get(i,[])
    st=n.get('status','proved' if t else 'partial')
    claims.append({"property":i,"status":st,"theorems":t,"note":n.get('note','' if t else 'model not written yet')})
json.dump({"claims":claims},open(root+'/MANIFEST.json','w'),indent=1)
print({s:sum(c['status']==s for c in claims) for s in('proved','partial','not_applicable')},'theorems',sum(map(len,th.values())))

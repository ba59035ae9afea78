#!/usr/bin/env python3
"""assumptions.py: rewrites section 6 of DESIGN.md with what Print Assumptions
lists for each theorem of the manifest (needs a built rocq/)."""
import json,re,subprocess,os,tempfile,glob
T='/verif/rocq/theories'
names=[]
for f in sorted(glob.glob(T+'/Prop*.v'),key=lambda x:int(re.findall(r'\d+',x)[0])):
    b=os.path.basename(f)[:-2]
    names+=[(b,n) for n in re.findall(r'^Theorem (\w+)',open(f).read(),re.M)]
src=''.join('From Verif Require %s.\n'%b for b in sorted({b for b,_ in names}))
for b,n in names: src+='Goal True. idtac "@@%s". exact I. Qed.\nPrint Assumptions %s.%s.\n'%(n,b,n)
d=tempfile.mkdtemp(); open(d+'/zz.v','w').write(src)
out=subprocess.run(['coqc','-q','-w','none','-Q',T,'Verif','zz.v'],cwd=d,stdout=subprocess.PIPE).stdout.decode()
g={}
for blk in out.split('@@')[1:]:
    n,blk=blk.split('\n',1)
    n=n.strip()
    ax=tuple(sorted(set(re.findall(r'^([A-Z][\w.\']*)\s*(?::|$)',blk,re.M))-{'Axioms'}))
    g.setdefault(ax,[]).append(n)
s='## 6. What `Print Assumptions` lists for each theorem\n\nGenerated by tools/assumptions.py. Every name is an axiom of the standard library.\n'
for ax,ns in sorted(g.items(),key=lambda x:(len(x[0]),x[0])):
    s+='\n**'+(', '.join('`%s`'%a for a in ax) if ax else 'Closed under the global context (no axiom)')+'**:\n'
    import textwrap
    s+='\n'.join(textwrap.wrap(', '.join(ns)+'.',100))+'\n'
D='/verif/DESIGN.md'; t=open(D).read()
a,b='<!-- assumptions begin -->\n','<!-- assumptions end -->'
t=t[:t.index(a)+len(a)]+s+t[t.index(b):]
open(D,'w').write(t)
print(len(names),{len(k):len(v) for k,v in g.items()})

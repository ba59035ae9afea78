#!/usr/bin/env python3
"""Generate rocq/theories/Prop*.v from Claims*.v: every `Lemma Cnn_x_lemma : S.`
becomes `Theorem Cnn_x : S. Proof. exact Cnn_x_lemma. Qed.` followed by
Print Assumptions; every `Lemma Cnn_x_ex : S.` becomes an Example.  The Prop
files contain nothing else."""
import re,sys,glob,os
d=os.path.join(os.path.dirname(os.path.abspath(__file__)),'..','rocq','theories')
for f in sorted(glob.glob(os.path.join(d,'Claims*.v'))):
    s=open(f).read()
    name=os.path.basename(f)[:-2]
    out='Prop'+name[len('Claims'):]
    head=re.search(r'(From Coq Require[\s\S]*?Local Open Scope [A-Za-z_]*\.\n(?:Local Open Scope [A-Za-z_]*\.\n|Import [A-Za-z. ]*\.\n)*)',s).group(1)
    head=head.rstrip('\n')
    res=['(** Generated by tools/genprops.py from %s.v: the property theorems only. *)'%name,head,'From Verif Require Import %s.'%name,'']
    n=0
    for m in re.finditer(r'((?:\(\*\*(?:[^*]|\*(?!\)))*\*\)\n)?)Lemma (C\d\d[A-Za-z0-9_\']*?)_(lemma|ex) :([\s\S]*?)\nProof\.',s):
        com,nm,kind,st=m.groups()
        if kind=='lemma':
            res.append('%sTheorem %s :%s\nProof. exact %s_lemma. Qed.\nPrint Assumptions %s.\n'%(com,nm,st,nm,nm)); n+=1
        else:
            res.append('%sExample %s_ex :%s\nProof. exact %s.%s_ex. Qed.\n'%(com,nm,st,name,nm))
    open(os.path.join(d,out+'.v'),'w').write('\n'.join(res))
    print(out,n)

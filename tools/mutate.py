#!/usr/bin/env python3
"""mutate.py MUTANTS.json [-j N] [--log seeded/LOG.jsonl]
Seeded-bug testing of the theorems. For every mutant (file, old text, new text,
definition, edit, claims) a scratch copy of rocq/ outside /verif is edited and
the affected files are rebuilt. A proof that no longer checks is replaced by
Admitted in the scratch copy and the build goes on, so that Print Assumptions
of every property lemma tells exactly which property theorems no longer hold."""
import sys,os,re,json,subprocess,shutil,threading,queue,time
ROOT='/tmp/mut'; SRC='/verif/rocq'
def sh(cmd,cwd,timeout):
    try:
        r=subprocess.run(cmd,cwd=cwd,stdout=subprocess.PIPE,stderr=subprocess.STDOUT,timeout=timeout)
        return r.returncode,r.stdout.decode(errors='replace')
    except subprocess.TimeoutExpired as e:
        return 124,(e.stdout or b'').decode(errors='replace')
def files():
    return [l.strip()[9:-2] for l in open(SRC+'/_CoqProject') if l.startswith('theories/')]
def deps():
    o=subprocess.run(['coqdep','-Q','theories','Verif']+['theories/%s.v'%f for f in files()],cwd=SRC,stdout=subprocess.PIPE,stderr=subprocess.DEVNULL).stdout.decode()
    d={}
    for l in o.split('\n'):
        m=re.match(r'theories/(\w+)\.vo\b[^:]*:(.*)',l)
        if m: d[m.group(1)]=set(re.findall(r'theories/(\w+)\.vo\b',m.group(2)))
    return d
DEP=deps(); FILES=[f for f in files() if not f.startswith('Prop')]
LEM=re.compile(r'(?:Lemma|Theorem|Corollary|Instance|Fact|Remark|Example|Definition)\s+(\w+\'*)')
def compile_file(w,f,admitted,budget):
    path=w+'/theories/%s.v'%f
    for _ in range(80):
        rc,out=sh(['bash','-c','ulimit -v 4000000; exec coqc -q -w none -time -Q theories Verif theories/%s.v'%f],w,budget)
        if rc==0: return None
        b=open(path,'rb').read()
        m=re.search(r'File "[^"]*", line (\d+), characters (\d+)-(\d+):\s*\n([\s\S]*)',out)
        if m and 'Error' in m.group(4):
            ls=b.split(b'\n'); off=sum(len(x)+1 for x in ls[:int(m.group(1))-1])+int(m.group(2)); msg=m.group(4)[:200]
        else:
            cs=re.findall(r'Chars (\d+) - (\d+)',out); off=(int(cs[-1][1]) if cs else 0)+1; msg='timeout'
        s=b.decode('latin1')
        # the Proof. that encloses off
        ps=[x.start() for x in re.finditer(r'\bProof\.',s) if x.start()<=off+6]
        if not ps: return 'error outside a proof: '+msg
        a=ps[-1]; q=re.compile(r'\b(Qed|Defined)\.').search(s,a)
        if not q or q.end()<off: return 'error outside a proof near offset %d: %s'%(off,msg)
        nm=LEM.findall(s[:a])[-1]
        admitted.add(nm)
        s=s[:a]+'Proof. Admitted.'+s[q.end():]
        open(path,'wb').write(s.encode('latin1'))
    return 'too many failures'
def run(mu,w):
    shutil.rmtree(w,ignore_errors=True); shutil.copytree(ROOT+'/base',w)
    p=w+'/theories/%s.v'%mu['file']; s=open(p).read()
    if s.count(mu['old'])!=1: return {'hard':'old text occurs %d times'%s.count(mu['old'])}
    open(p,'w').write(s.replace(mu['old'],mu['new']))
    dirty={mu['file']}; admitted=set(); hard=None
    for f in FILES:
        if f in dirty or DEP[f]&dirty:
            dirty.add(f)
            h=compile_file(w,f,admitted,150)
            if h: hard='%s: %s'%(f,h); break
    if hard: return {'hard':hard,'admitted':sorted(admitted)}
    cl=[f for f in FILES if f.startswith('Claims')]
    body=''; names=[]
    for f in cl:
        if f not in dirty: continue
        body+='From Verif Require %s.\n'%f
        for n in re.findall(r'^Lemma (C\d\d\w*)_lemma\b',open(w+'/theories/%s.v'%f).read(),re.M):
            names.append(n); body+='Goal True. idtac "@@%s". exact I. Qed.\nPrint Assumptions %s.%s_lemma.\n'%(n,f,n)
    open(w+'/theories/zz.v','w').write(body)
    rc,out=sh(['coqc','-q','-w','none','-Q','theories','Verif','theories/zz.v'],w,600)
    failed=[]
    for blk in out.split('@@')[1:]:
        n=blk.split('\n')[0].strip()
        ax=set(x.split('.')[-1] for x in re.findall(r'^([\w.\']+)\s*(?::|$)',blk,re.M))
        if ax&admitted: failed.append(n)
    return {'failed':failed,'admitted':sorted(admitted),'checked':len(names),'rc':rc}
def main():
    mus=json.load(open(sys.argv[1])); J=int(sys.argv[sys.argv.index('-j')+1]) if '-j' in sys.argv else 4
    res=ROOT+'/results.jsonl'
    done={json.loads(l)['id'] for l in open(res)} if os.path.exists(res) else set()
    shutil.rmtree(ROOT+'/base',ignore_errors=True); shutil.copytree(SRC,ROOT+'/base')
    q=queue.Queue(); lock=threading.Lock()
    for m in mus:
        if m['id'] not in done: q.put(m)
    def work(i):
        while True:
            try: m=q.get_nowait()
            except queue.Empty: return
            t=time.time(); r=run(m,ROOT+'/w%d'%i)
            exp=set(m['claims']); got={x[:3] for x in r.get('failed',[])}
            r.update(id=m['id'],file=m['file'],definition=m['definition'],edit=m['edit'],claims=m['claims'],missed=sorted(exp-got),secs=round(time.time()-t))
            with lock:
                open(res,'a').write(json.dumps(r)+'\n')
                print(m['id'],'HARD '+r['hard'] if 'hard' in r else ('ok' if not r['missed'] else 'MISSED %s'%r['missed']),len(r.get('failed',[])),r['secs'],flush=True)
    ts=[threading.Thread(target=work,args=(i,)) for i in range(J)]
    [t.start() for t in ts]; [t.join() for t in ts]
main()

#!/usr/bin/env python3
"""Mutation testing of the theorems.  Usage: mutate.py first last
Each mutation edits one definition of the model in a scratch copy of rocq/, rebuilds, admits (in the scratch copy only)
every proof that no longer checks until the rest builds, and asks Print Assumptions which of the MANIFEST theorems
still stand without an admitted lemma.  Prints one JSON line per mutation: killed / surviving theorems."""
import sys,os,re,json,subprocess,shutil,glob
W=os.environ.get('MUTW','/tmp/mutw')
J=os.environ.get('MUTJ','2')
exec(open('/verif/tools/mutations.py').read())
KW=re.compile(r'^\s*(?:#\[[^\]]*\]\s*)?(?:Local |Global |Program )*(Theorem|Lemma|Corollary|Example|Fact|Remark|Definition|Fixpoint|Instance)\s+([A-Za-z0-9_\']+)',re.M)
def sh(cmd,t=1500):
    try: return subprocess.run(cmd,shell=True,stdout=subprocess.PIPE,stderr=subprocess.STDOUT,timeout=t).stdout.decode(errors='replace')
    except subprocess.TimeoutExpired as e: return (e.stdout or b'').decode(errors='replace')+'\nTIMEOUT'
def prep():
    shutil.rmtree(W,ignore_errors=True); os.makedirs(W)
    sh('cp -a %s/rocq %s/'%(os.environ.get('MUTSRC','/verif'),W))
def theorems(cid):
    m=json.load(open(os.environ.get('MUTSRC','/verif')+'/MANIFEST.json'))
    return [t for c in m['claims'] for t in c['theorems'] if not cid or c['property'] in cid]
def admit(path,off):
    s=open(path).read()
    best=None
    for m in KW.finditer(s):
        if m.start()<=off: best=m
    if not best: return None
    a=s.find('Proof',best.start())
    ends=[x for x in (s.find('Qed.',best.start()),s.find('Defined.',best.start())) if x>=0]
    if a<0 or not ends or a>min(ends): return None
    e=min(ends)
    if off>e+10: return None
    e2=e+(4 if s.startswith('Qed.',e) else 8)
    s=s[:a]+'Proof. Admitted.'+s[e2:]
    open(path,'w').write(s); return best.group(2)
def run(k,mu):
    f,old,new,claim,desc,cids=mu
    d=W+'/rocq'
    prep()
    p=d+'/theories/'+f
    s=open(p).read()
    if s.count(old)!=1: return dict(n=k,error='old text occurs %d times'%s.count(old),edit=desc)
    open(p,'w').write(s.replace(old,new))
    defn=[m for m in re.finditer(r'(Definition|Fixpoint|Record)\s+([A-Za-z0-9_]+)',s[:s.index(old)+len(old)])][-1].group(2)
    failed=[]; rounds=0; stuck=''; targets=''
    if os.environ.get('MUTFAST'): # only the files with the claimed theorems, and what they depend on
        tf=set()
        for x in glob.glob(d+'/theories/P_*.v'):
            if set(m.group(2) for m in KW.finditer(open(x).read()))&set(theorems(cids)): tf.add('theories/'+os.path.basename(x)+'o')
        targets=' '.join(sorted(tf))
    while True:
        rounds+=1
        out=sh('cd %s && coq_makefile -f _CoqProject -o Makefile >/dev/null 2>&1 && make -k -j%s %s 2>&1'%(d,J,targets))
        errs=re.findall(r'File "\./(theories/\w+\.v)", line (\d+), characters (\d+)-(\d+):\n(?:Error|[^\n]*\n?Error)',out)
        if not errs:
            if re.search(r'(?m)^Error|\*\*\*',out) or 'TIMEOUT' in out: stuck=out[-300:]
            break
        prog=False
        for (pf,l,c0,c1) in errs:
            t=open(d+'/'+pf).read().split('\n'); off=sum(len(x)+1 for x in t[:int(l)-1])+int(c0)
            nm=admit(d+'/'+pf,off)
            if nm: failed.append(nm); prog=True
            else: stuck='cannot admit at %s:%s'%(pf,l)
        if not prog or rounds>40: break
    ths=theorems(cids if os.environ.get('MUTFAST') else None); alive=[]; dead=[]
    if os.environ.get('MUTFAST'): # the assumptions of these two take minutes to print: counted by their own failure only
        slow=[t for t in ths if t in ('C151_longi_refuted','C151_query_refuted')]; ths=[t for t in ths if t not in slow]; dead+=[t for t in slow if t in failed]; alive+=[t for t in slow if t not in failed]
    if not stuck:
        mods=[os.path.basename(x)[:-3] for x in targets.split()] or [os.path.basename(x)[:-2] for x in glob.glob(d+'/theories/*.v')]
        src='From Verif Require '+' '.join(sorted(mods))+'.\n'
        where={}
        for m in mods:
            for x in KW.finditer(open(d+'/theories/%s.v'%m).read()): where.setdefault(x.group(2),m)
        for t in ths: src+='Print Assumptions %s.%s.\n'%(where[t],t)
        open(d+'/chk.v','w').write(src)
        o=sh('cd %s && coqc -Q theories Verif chk.v 2>&1'%d)
        parts=re.split(r'(?m)^(?=Axioms:|Closed under)',o)
        parts=[x for x in parts if x.startswith('Axioms:') or x.startswith('Closed')]
        if len(parts)!=len(ths): stuck='print assumptions %d %d %s'%(len(parts),len(ths),o[-200:])
        else:
            fs=set(failed)
            for t,x in zip(ths,parts):
                names=set(y.split('.')[-1] for y in re.findall(r'(?m)^([A-Za-z_][\w.\']*) ?:?',x))
                (dead if (names&fs or t in fs) else alive).append(t)
    cl=theorems(cids)
    return dict(n=k,definition=defn,file=f,edit=desc,claim=claim,direct=failed,dead=dead,claimed=cl,claim_survivors=[t for t in cl if t in alive] if not stuck else None,stuck=stuck,rounds=rounds)
if __name__=='__main__':
    a,b=int(sys.argv[1]),int(sys.argv[2]); prep()
    for k in range(a,min(b,len(M))):
        r=run(k,M[k]); 
        open(os.environ.get('MUTOUT','/tmp/mut.jsonl'),'a').write(json.dumps(r)+'\n'); print(json.dumps(r)[:1500]); sys.stdout.flush()

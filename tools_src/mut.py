#!/usr/bin/env python3
# usage: mut.py muts.json [ids...]   ; each mut: {id,file,old,new,claim,def,(count)}
import re,sys,json,subprocess,os,shutil,collections
SRC=os.environ.get('SRC','/tmp/mut/snap')
W=os.environ.get('W','/tmp/mut/w')
files=[l.strip()[9:] for l in open('/tmp/mut/snap_proj') if l.strip().startswith('theories/')]
def deps(f):
    s=open(f'{SRC}/{f}').read()
    d=set()
    for m in re.finditer(r'From\s+Verif\s+Require\s+(?:Import|Export)?\s*([^.]*)\.',s):
        d|={x+'.v' for x in m.group(1).split()}
    for m in re.finditer(r'Require\s+(?:Import|Export)?\s+((?:Verif\.\w+\s*)+)\.',s):
        d|={x.split('.')[1]+'.v' for x in m.group(1).split()}
    return d
D={f:deps(f) for f in files}
def affected(f):
    a={f};out=[]
    for g in files:
        if g==f or D[g]&a: a.add(g); out.append(g)
    return out
RX=re.compile(r'(?m)^[ \t]*(?:Local |Global )?(?:Lemma|Theorem|Example|Corollary|Fact|Remark)\s+(\w+)')
def strip_comments(s):
    out=[];d=0;i=0
    instr=False
    while i<len(s):
        if d==0 and s[i]=='"': instr=not instr
        if not instr and s.startswith('(*',i): d+=1;i+=2;continue
        if not instr and d>0 and s.startswith('*)',i): d-=1;i+=2;out.append(' ');continue
        if d==0: out.append(s[i])
        elif s[i]=='\n': out.append('\n')
        i+=1
    return ''.join(out)
def blocks(s):
    res=[];pos=0
    while True:
        m=RX.search(s,pos)
        if not m: break
        e=re.search(r'\b(Qed|Defined)\.',s[m.start():])
        if not e: break
        b=m.start();en=b+e.end()
        p=re.search(r'\bProof\b[^.]*\.',s[b:en])
        res.append((m.group(1),b,b+p.start(),en,e.group(1)))
        pos=en
    return res
def coqc(f,t=400):
    try:
        r=subprocess.run(['coqc','-Q','.','Verif',f],cwd=W,capture_output=True,text=True,timeout=t)
        return r.returncode,r.stdout+r.stderr
    except subprocess.TimeoutExpired: return 124,'TIMEOUT'
STUB=set(os.environ.get('STUB','').split())
def process(f):
    """returns failing blocks, and compiles f with failing blocks admitted"""
    if f in STUB:
        # slow file of examples: keep the statements only
        s=strip_comments(open(f'{W}/{f}').read()); t=[];pos=0
        for (n,b,p,e,k) in blocks(s): t.append(s[pos:b]+s[b:p]+' Admitted.'); pos=e
        open(f'{W}/{f}','w').write(''.join(t)+s[pos:])
        rc,out=coqc(f)
        return ([],[],out) if rc==0 else (['COMPILE-FAIL '+out[-300:]],[],out)
    rc,out=coqc(f)
    if rc==0: return [],[],out
    raw=open(f'{W}/{f}').read()
    s=strip_comments(raw)
    B=blocks(s)
    t=[];pos=0
    for i,(n,b,p,e,k) in enumerate(B):
        t.append(s[pos:b]); t.append(f'\nLocate MARK{i}.\n'+s[b:p]+f'\nLocate SMARK{i}.\n'+s[p:e]+f'\nAdmitted.\nLocate EMARK{i}.\n'); pos=e
    t.append(s[pos:])
    txt='Set Default Timeout 100.\n'+''.join(t)
    r=subprocess.run('coqtop -quiet -Q . Verif 2>&1',shell=True,input=txt,cwd=W,capture_output=True,text=True,timeout=1500)
    o=r.stdout
    fail=[];sfail=[]
    for i,(n,b,p,e,k) in enumerate(B):
        a=o.find(f'MARK{i}\n') 
        m0=re.search(rf'basename MARK{i}\b',o);m1=re.search(rf'basename SMARK{i}\b',o);m2=re.search(rf'basename EMARK{i}\b',o)
        if not (m0 and m1 and m2): fail.append(n);continue
        if re.search(r'Error|Timeout',o[m0.end():m1.start()]): sfail.append(n);continue
        if len(re.findall(r'(?:Error:|Timeout|Syntax error)',o[m1.end():m2.start()]))>1 or 'Attempt to save' in o[m1.end():m2.start()]: fail.append(n)
    t=[];pos=0
    for (n,b,p,e,k) in B:
        t.append(s[pos:b])
        if n in sfail: pass
        elif n in fail: t.append(s[b:p]+' Admitted.')
        else: t.append(s[b:e])
        pos=e
    t.append(s[pos:])
    new=''.join(t)
    for n in sfail: new=re.sub(rf'(?m)^\s*Print Assumptions {n}\.\s*$','',new)
    open(f'{W}/{f}','w').write(new)
    rc,out=coqc(f,600)
    if rc!=0: return fail+['COMPILE-FAIL '+out[-300:]],sfail,out
    return fail,sfail,out
def tainted(out,f):
    """theorem names in T file whose Print Assumptions isn't closed"""
    s=strip_comments(open(f'{W}/{f}').read())
    names=re.findall(r'Print Assumptions\s+(\w+)\s*\.',s)
    parts=re.split(r'(?m)^(?=Closed under|Axioms:)',out)
    parts=[p for p in parts if p.startswith(('Closed','Axioms:'))]
    return [n for n,p in zip(names,parts) if p.startswith('Axioms:')] if len(names)==len(parts) else ['?mismatch']
def run(m):
    if os.path.exists(W): shutil.rmtree(W)
    shutil.copytree(SRC,W)
    s=open(f'{W}/{m["file"]}').read()
    c=s.count(m['old']) if m['old'] else m.get('count',1)
    if c!=m.get('count',1): return {'id':m['id'],'error':f'occurrences {c}'}
    open(f'{W}/{m["file"]}','w').write((s.replace(m['old'],m['new']) if m['old'] else s))
    failed=[];lem=[]
    from concurrent.futures import ThreadPoolExecutor
    A=affected(m['file']); fut={}
    if m.get('only'): A=[f for f in A if re.match(m['only'],f) or f==m['file']]
    ex=ThreadPoolExecutor(int(os.environ.get('J','3')))
    def job(f):
        for g in A:
            if g in D[f] and g!=f:
                if fut[g].result()[0] and fut[g].result()[0][-1].startswith(('COMPILE','SKIP')): return ['SKIP'],[],''
        return process(f)
    for f in A: fut[f]=ex.submit(job,f)
    for f in A:
        fl,sf,out=fut[f].result()
        if any(x.startswith('COMPILE') for x in fl):
            lem.append(f+' '+fl[-1])
        if f==m['file'] and (fl or sf):
            return {'id':m['id'],'error':f'{f} does not compile','out':out[-600:]}
        if f.startswith('T_') and 'SKIP' not in fl:
            failed+=fl+sf+[x for x in tainted(out,f) if x not in fl]
        else: lem+=[f[:-2]+'.'+x for x in fl+sf]
    return {'id':m['id'],'def':m.get('def'),'edit':m.get('edit'),'claim':m['claim'],'failed':failed,'lemmas':lem}
if __name__=='__main__':
    ms=json.load(open(sys.argv[1]))
    ids=set(sys.argv[2:])
    base={}
    def baseline(m):
        # theorems resting on the stubbed files; only counted when a stub is in use
        if not STUB: return set()
        key=(m['file'],m.get('only'))
        if key not in base:
            r=run({**m,'old':'','new':''}); base[key]=set(r['failed'])
            print(json.dumps({'base':list(base[key])}),file=sys.stderr,flush=True)
        return base[key]
    for m in ms:
        if ids and m['id'] not in ids: continue
        b=baseline(m); r=run(m)
        if 'failed' in r: r['failed']=[x for x in r['failed'] if x not in b]
        print(json.dumps(r),flush=True)

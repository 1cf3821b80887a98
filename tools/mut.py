#!/usr/bin/env python3
"""Mutation driver: applies one textual edit to a model file in a scratch copy of
rocq/, rebuilds everything that depends on it, admits the proofs that fail, and
reports which manifest theorems fail or rest on a failed lemma."""
import json, os, re, shutil, subprocess, sys, threading, time, importlib.util
BASE=os.environ.get('MUTBASE','/tmp/mut/base')
OPTS=['-noglob','-w','none','-Q','theories','Verif']
LEM=re.compile(r'^[ \t]*(?:#\[[^\]]*\]\s*)?(?:Local\s+|Global\s+)?(Lemma|Theorem|Corollary|Example|Fact|Remark|Proposition|Instance)\s+([A-Za-z_][\w\']*)',re.M)
END=re.compile(r'\b(Qed|Defined)\.')
def deps():
    out=subprocess.run('coqdep -Q theories Verif theories/*.v',shell=True,cwd=BASE,capture_output=True,text=True).stdout
    d={}
    for line in out.splitlines():
        m=re.match(r'theories/(\w+)\.vo .*?: (.*)',line)
        if m: d[m.group(1)]={x for x in re.findall(r'theories/(\w+)\.vo\b',m.group(2)) if x!=m.group(1)}
    return d
def blank(s): return re.sub(r'[^\n]','',s)
def compile_file(work,f,times,limit=1500):
    path=f'{work}/theories/{f}.v'
    admitted=[];t0=time.time();broken=None
    with open(path) as h: text=h.read()
    text=re.sub(r'^[ \t]*Print Assumptions [^\n]*',lambda m:'',text,flags=re.M)
    text='Set Default Timeout 90. '+text
    while True:
        with open(path,'w') as h: h.write(text)
        try:
            p=subprocess.run(['coqc']+OPTS+[f'theories/{f}.v'],cwd=work,capture_output=True,text=True,timeout=limit)
        except subprocess.TimeoutExpired:
            broken='timeout';break
        if p.returncode==0: break
        out=p.stdout+p.stderr
        locs=list(re.finditer(r'File "[^"]*'+f+r'\.v", line (\d+), characters (\d+)-(\d+):\s*\nError',out))
        if not locs: broken=out[-400:];break
        line=int(locs[-1].group(1));ch=int(locs[-1].group(2))
        off=sum(len(l)+1 for l in text.split('\n')[:line-1])+ch
        ms=[m for m in LEM.finditer(text) if m.start()<=off]
        if not ms: broken=out[-400:];break
        m=ms[-1];name=m.group(2)
        pr=text.find('Proof.',m.end());en=END.search(text,pr)
        if pr<0 or en is None or off>en.end(): broken=out[-400:];break
        if off<pr:   # statement does not check: drop the lemma
            text=text[:m.start()]+blank(text[m.start():en.end()])+text[en.end():]
        else:
            body=text[pr:en.end()]
            text=text[:pr]+'Proof. Admitted.'+blank(body)+text[en.end():]
        admitted.append((m.group(1),name))
        if time.time()-t0>3000: broken='too many repairs';break
    times[f]=time.time()-t0
    return admitted,broken
def build(work,changed,d,workers=3,keep=None,built=()):
    rev={}
    for f,ds in d.items():
        for x in ds: rev.setdefault(x,set()).add(f)
    todo=set();st=list(changed)
    while st:
        f=st.pop()
        if f in todo: continue
        todo.add(f);st+=rev.get(f,[])
    every=set(todo)
    if keep is not None: todo&=keep
    todo-=set(built)
    for f in (every if not built else ()):
        try: os.remove(f'{work}/theories/{f}.vo')
        except FileNotFoundError: pass
    done=set();running=set();res={};times={};broken={};lock=threading.Condition()
    def ready():
        for f in sorted(todo):
            if f in done or f in running: continue
            if any(x in broken for x in d[f]): broken[f]='dependency';done.add(f);continue
            if all(x in done or x not in todo for x in d[f]): return f
        return None
    def worker():
        while True:
            with lock:
                while True:
                    if len(done)==len(todo): lock.notify_all();return
                    f=ready()
                    if f: running.add(f);break
                    if len(done)==len(todo): lock.notify_all();return
                    lock.wait(1)
            a,b=compile_file(work,f,times)
            with lock:
                res[f]=a
                if b: broken[f]=b
                running.discard(f);done.add(f);lock.notify_all()
    ts=[threading.Thread(target=worker) for _ in range(workers)]
    [t.start() for t in ts];[t.join() for t in ts]
    return todo,res,broken,times
def theorems():
    m=json.load(open('/verif/MANIFEST.json'));s=set()
    for c in m['claims']: s|=set(c['theorems'])
    return s
def where(thms):
    w={}
    for f in os.listdir(BASE+'/theories'):
        if f.startswith('Prop') and f.endswith('.v'):
            for m in LEM.finditer(open(f'{BASE}/theories/{f}').read()):
                if m.group(2) in thms: w.setdefault(f[:-2],[]).append(m.group(2))
    return w
def assumptions(work,f,names):
    src=f'From Verif Require Import {f}.\n'+''.join(f'Print Assumptions {n}.\n' for n in names)
    p=subprocess.run(['coqtop','-q','-Q','theories','Verif'],cwd=work,input=src,capture_output=True,text=True,timeout=1200)
    blocks=re.split(r'(?=Closed under the global context|Axioms:)',p.stdout)[1:]
    if len(blocks)!=len(names): return None
    return {n:set(re.findall(r'^([\w\'.]+)\s*(?::|$)',b,re.M)) for n,b in zip(names,blocks)}
def run(mut,d,workers,tag):
    work=f'/tmp/mut/work{tag}'
    shutil.rmtree(work,ignore_errors=True)
    subprocess.run(['cp','-a',BASE,work],check=True)
    t0=time.time()
    for f,old,new in mut['edits']:
        p=f'{work}/theories/{f}.v';s=open(p).read()
        assert s.count(old)==1,(mut['id'],f,old,s.count(old))
        open(p,'w').write(s.replace(old,new))
    files={f for f,_,_ in mut['edits']}
    thms=theorems();w=where(thms)
    def closure(f,seen):
        for x in d[f]:
            if x not in seen: seen.add(x);closure(x,seen)
        return seen
    ids=set(re.findall(r'C\d\d+',mut['claim']));keep=set()
    for f,names in w.items():
        if any(n.split('_')[0] in ids for n in names): keep|=closure(f,{f})
    r=None
    if keep:
        todo,res,broken,times=build(work,files,d,workers,keep)
        r=judge(mut,d,workers,work,t0,thms,w,closure,todo,res,broken,times)
        r['exhaustive']=False
    if not keep or not r['failed']:
        a=(todo,res,broken,times) if keep else (set(),{},{},{})
        todo,res,broken,times=build(work,files,d,workers,None,a[0])
        todo|=a[0];res.update(a[1]);broken.update(a[2]);times.update(a[3])
        r=judge(mut,d,workers,work,t0,thms,w,closure,todo,res,broken,times)
        r['exhaustive']=True
    return r
def judge(mut,d,workers,work,t0,thms,w,closure,todo,res,broken,times):
    bad_names={n for a in res.values() for _,n in a}
    failed=set();unbuilt=set()
    jobs=[]
    for f,names in w.items():
        if f not in todo: continue
        if f in broken: unbuilt|=set(names);continue
        here=[n for n in names if n not in bad_names]
        failed|={n for n in names if n in bad_names}
        if here and any(res.get(x) for x in closure(f,{f})): jobs.append((f,here))
    def job(t):
        try: a=assumptions(work,*t)
        except Exception: a=None
        return t,a
    import concurrent.futures as cf
    with cf.ThreadPoolExecutor(workers) as ex:
        for (f,here),a in ex.map(job,jobs):
            if a is None: failed|={'?'+f};continue
            for n in here:
                if {x.split('.')[-1] for x in a[n]}&bad_names: failed.add(n)
    lem=sorted(n for a in res.values() for k,n in a if n not in thms and k!='Example')
    ex=sorted(n for a in res.values() for k,n in a if k=='Example')
    return dict(id=mut['id'],failed=sorted(failed),unbuilt=sorted(unbuilt),lemmas=lem,examples=ex,
                broken={k:v for k,v in broken.items() if v!='dependency'},secs=round(time.time()-t0),rebuilt=len(todo),times=times)
if __name__=='__main__':
    spec=importlib.util.spec_from_file_location('muts',sys.argv[1]);mm=importlib.util.module_from_spec(spec);spec.loader.exec_module(mm)
    out=sys.argv[2];tag=sys.argv[3];workers=int(sys.argv[4]);only=sys.argv[5:]
    done=set()
    if os.path.exists(out): done={json.loads(l)['id'] for l in open(out)}
    d=deps()
    for m in mm.MUTS:
        if m['id'] in done or (only and m['id'] not in only): continue
        try: r=run(m,d,workers,tag)
        except Exception as e: r=dict(id=m['id'],error=repr(e))
        open(out,'a').write(json.dumps(r)+'\n')
        print(r['id'],r.get('secs'),r.get('error'),len(r.get('failed',[])),'unbuilt',len(r.get('unbuilt',[])),r.get('broken'),flush=True)

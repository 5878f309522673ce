#!/usr/bin/env python3
"""Mutation testing of the theorems.  Usage: mutate.py mutations.py [-j N] [id ...]
For each mutation (file, old, new, definition, claim): copies the built project to a scratch directory, applies the edit,
recompiles the dependents; a proof that breaks is replaced (in the scratch copy only) by Admitted, so that the precise set of
property theorems whose proof depends on a broken proof is found with Print Assumptions.  Appends to seeded/LOG.jsonl."""
import sys, os, re, subprocess, shutil, json, threading, queue
ROOT='/verif'; SRC=ROOT+'/rocq'
STD=re.compile(r'^(ClassicalDedekindReals|functional_extensionality|FunctionalExtensionality|Classical_Prop|classic|sig_not_dec|sig_forall_dec|Eqdep)')
START=re.compile(r'^[ \t]*(?:Local |Global |#\[[^\]]*\] *)?(Lemma|Theorem|Example|Corollary|Fact|Remark|Instance|Goal|Let|Definition|Fixpoint)\s+([A-Za-z_0-9\']+)',re.M)
def deps():
    files=[l.strip() for l in open(SRC+'/_CoqProject') if l.strip().endswith('.v')]
    out=subprocess.run(['coqdep','-Q','theories','Verif']+files,cwd=SRC,capture_output=True,text=True).stdout
    d={}
    for line in out.replace('\\\n',' ').splitlines():
        if ':' not in line: continue
        l,r=line.split(':',1)
        m=re.search(r'(theories/\w+)\.vo\b',l)
        if not m: continue
        d[m.group(1)]=[x[:-3] for x in r.split() if x.endswith('.vo') and x.startswith('theories/')]
    order=[]; seen=set()
    def visit(x):
        if x in seen: return
        seen.add(x)
        for y in d.get(x,[]): visit(y)
        order.append(x)
    for x in d: visit(x)
    return d,order
D,ORDER=deps()
def dependents(f):
    s={f}
    for x in ORDER:
        if any(y in s for y in D.get(x,[])): s.add(x)
    return [x for x in ORDER if x in s]
def offset(txt,line,ch):
    ls=txt.split('\n'); return sum(len(l.encode())+1 for l in ls[:line-1])+ch
def compile_file(wd,f):
    """returns (ok, stdout, list of broken lemma names)"""
    broken=[]; path=f'{wd}/{f}.v'
    for _ in range(120):
        try:
            p=subprocess.run(['coqc','-Q','theories','Verif',f+'.v'],cwd=wd,capture_output=True,text=True,timeout=400)
        except subprocess.TimeoutExpired:
            return False,'',broken+['<timeout in '+f+'>']
        if p.returncode==0: return True,p.stdout,broken
        m=re.search(r'line (\d+), characters (\d+)-(\d+):\s*\nError',p.stderr)
        if not m:
            return False,'',broken+['<'+p.stderr[-300:]+'>']
        raw=open(path,'rb').read(); pos=offset(raw.decode(),int(m.group(1)),int(m.group(2)))
        txt=raw.decode(); cpos=len(raw[:pos].decode(errors='ignore'))
        st=[x for x in START.finditer(txt) if x.start()<=cpos]
        if not st: return False,'',broken+['<no lemma>']
        s=st[-1]
        pr=re.search(r'\bProof\b',txt[s.end():]); en=re.search(r'\b(Qed|Defined)\.',txt[s.end():])
        if not pr or not en or pr.start()>en.start() or cpos<s.end()+pr.start():
            return False,'',broken+['<statement of '+s.group(2)+' in '+f+': '+p.stderr.strip()[-200:]+'>']
        a=s.end()+pr.start(); b=s.end()+en.end()
        txt=txt[:a]+'Admitted.'+txt[b:]
        open(path,'w').write(txt); broken.append(s.group(2))
    return False,'',broken
def run(m,slot):
    wd=f'/tmp/mut/{slot}'
    shutil.rmtree(wd,ignore_errors=True); os.makedirs(wd)
    subprocess.run(['cp','-a',SRC+'/theories',wd+'/'],check=True)
    p=f"{wd}/theories/{m['file']}.v"; t=open(p).read()
    assert t.count(m['old'])>=1,(m['id'],'old not found')
    assert t.count(m['old'])==1 or m.get('nth') is not None,(m['id'],'old not unique',t.count(m['old']))
    if m.get('nth') is not None:
        parts=t.split(m['old']); k=m['nth']; t=m['old'].join(parts[:k+1])+m['new']+m['old'].join(parts[k+1:])
    else: t=t.replace(m['old'],m['new'])
    open(p,'w').write(t)
    broken=[]; failed=[]; ok_thms=[]; bad=set()
    for f in dependents('theories/'+m['file']):
        if any(y in bad for y in D[f]): 
            bad.add(f)
        else:
            ok,out,br=compile_file(wd,f); broken+= [f"{f[9:]}.{b}" for b in br]
            if not ok: bad.add(f)
        src=open(SRC+'/'+f+'.v').read()
        thms=re.findall(r'Print Assumptions (C\d+_\w+)',src)
        if not thms: continue
        if f in bad: failed+=[x+' (file not built)' for x in thms]; continue
        pa=re.split(r'(?=Closed under the global context|^Axioms:)',out,flags=re.M)[1:]
        alltargets=re.findall(r'Print Assumptions (\w+)',src)
        if len(pa)!=len(alltargets): failed.append(f'<{f}: {len(pa)} vs {len(alltargets)}>')
        for x,a in zip(alltargets,pa):
            axs=[l.split()[0].rstrip(':') for l in a.splitlines() if l and not l[0].isspace() and not l.startswith(('Axioms','Closed'))]
            axs=[x2 for x2 in axs if not STD.match(x2) and not x2.startswith('Coq.')]
            if x.startswith('C') and x in thms: (failed if axs else ok_thms).append(x)
    shutil.rmtree(wd,ignore_errors=True)
    return broken,failed,ok_thms
def main():
    args=sys.argv[1:]; j=3
    if '-j' in args: i=args.index('-j'); j=int(args[i+1]); del args[i:i+2]
    ns={}; exec(open(args[0]).read(),ns); ms=ns['M']; ids=args[1:]
    log=ROOT+'/seeded/LOG.jsonl'
    done={json.loads(l).get('id') for l in open(log) if l.strip()} if os.path.exists(log) else set()
    ms=[m for m in ms if (m['id'] in ids if ids else m['id'] not in done)]
    q=queue.Queue(); [q.put(m) for m in ms]; lock=threading.Lock()
    def work(slot):
        while True:
            try: m=q.get_nowait()
            except queue.Empty: return
            try:
                broken,failed,okt=run(m,slot)
            except AssertionError as e:
                print('SKIP',e,flush=True); continue
            hit=[x for x in failed if x.startswith(m['property'])] if m.get('property') else failed
            verdict='killed' if hit else 'SURVIVED'
            rec=dict(id=m['id'],definition=f"{m['file']}.v: {m['definition']}",edit=f"{m['old']}  -->  {m['new']}",claim=m['claim'],property=m.get('property'),
                     theorems_failed=failed,first_broken_proofs=broken[:8],theorems_still_proved=okt,verdict=verdict,theorems_tightened=m.get('tightened',[]))
            with lock:
                print(verdict,m['id'],m['definition'],'| broken',broken[:3],'| failed',failed[:6],flush=True)
                open(log,'a').write(json.dumps(rec,ensure_ascii=False)+'\n')
    ts=[threading.Thread(target=work,args=(i,)) for i in range(j)]
    [t.start() for t in ts]; [t.join() for t in ts]
main()

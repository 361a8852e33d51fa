"""Seeded-bug experiments.  usage: mutate.py batch.json
batch: list of {file, old, new, definition, edit, claim, expect:[property ids]}.
Copies theories/ to /tmp/mut, applies the edit, rebuilds; a lemma whose proof
breaks is replaced by Admitted and the build goes on, so that at the end
Print Assumptions tells which theorems of Prop*.v no longer hold.
Appends one line per experiment to /verif/seeded/LOG.jsonl."""
import sys,json,os,re,subprocess,shutil
SRC=os.environ.get('MUTSRC','/verif/rocq'); D=os.environ.get('MUTDIR','/tmp/mut')
def sh(c,**k): return subprocess.run(c,shell=True,capture_output=True,text=True,**k)
def deps_order():
    return [l.strip()[9:-2] for l in open(SRC+'/_CoqProject') if l.startswith('theories/')]
def block(s,pos):
    """enclosing Lemma..Qed around character pos; returns (name, start of 'Proof', end)"""
    best=None
    for m in re.finditer(r'^\s*(?:Lemma|Theorem|Corollary|Example|Fact|Local Lemma)\s+([\w\']+)',s,re.M):
        if m.start()<=pos: best=m
        else: break
    if not best: return None
    name=best.group(1)
    p=re.compile(r'Proof\b').search(s,best.end())
    if not p: return None
    q=re.compile(r'\b(Qed|Defined)\.').search(s,p.end())
    if not q or q.end()<pos: return None
    return name,p.start(),q.end()
def run(e,order,pristine):
    for f in order: 
        p=f'{D}/theories/{f}.v'
        if open(p).read()!=pristine[f]: open(p,'w').write(pristine[f])
    f0=e['file']
    s=pristine[f0]
    if s.count(e['old'])!=1: return {'error':f"pattern occurs {s.count(e['old'])} times"}
    open(f'{D}/theories/{f0}.v','w').write(s.replace(e['old'],e['new']))
    broken=[]; dead=[]; dirty={f0}; thms=[]
    for f in order[order.index(f0):]:
        s=open(f'{D}/theories/{f}.v').read()
        imps=set(re.findall(r'\b([A-Z]\w+)\b',' '.join(re.findall(r'From Verif Require[^.]*\.',s))))
        if f!=f0 and not (imps&dirty): continue
        dirty.add(f)
        if imps&set(dead):
            dead.append(f)
            if f.startswith('Prop'):   # not recompiled: read off which theorems use a broken lemma
                for m in re.finditer(r'^Theorem (\w+)(.*?)Qed\.',s,re.M|re.S):
                    if any(re.search(r'\b'+re.escape(b)+r'\b',m.group(2)) for b in broken): thms.append(m.group(1))
            continue
        for it in range(60):
            try: r=sh(f'cd {D}/theories && timeout 300 coqc -Q . Verif {f}.v')
            except Exception as x: r=None
            if r.returncode==0: break
            m=re.findall(r'File "[^"]*", line (\d+), characters (\d+)-(\d+):\n(?:Error|.*?Error)',r.stderr+r.stdout)
            if not m: dead.append(f); break
            ln,c=int(m[-1][0]),int(m[-1][1])
            s=open(f'{D}/theories/{f}.v').read()
            pos=sum(len(x)+1 for x in s.encode().split(b'\n')[:ln-1])+c
            b=block(s,pos)
            if not b: dead.append(f); break
            n,a,z=b
            broken.append(n)
            s=s[:a]+'Admitted.'+s[z:]
            open(f'{D}/theories/{f}.v','w').write(s)
        else: dead.append(f)
        if f.startswith('Prop') and f not in dead:
            out=r.stdout
            s=open(f'{D}/theories/{f}.v').read()
            names=re.findall(r'Print Assumptions (\w+)\.',s)
            parts=re.split(r'^(?=Axioms:|Closed under)',out,flags=re.M)
            parts=[p for p in parts if p.startswith(('Axioms:','Closed'))]
            for n,p in zip(names,parts):
                if any(re.search(r'^'+re.escape(b)+r'\b',p,re.M) or re.search(r'\.'+re.escape(b)+r'\b',p) for b in broken): thms.append(n)
        elif f.startswith('Prop'): thms.append(f'(all of {f})')
    return {'broken_lemmas':broken,'theorems_failed':thms,'dead_files':dead}
def main():
    batch=json.load(open(sys.argv[1]))
    order=deps_order()
    if not os.path.isdir(D): os.makedirs(D)
    sh(f'rsync -a --delete {SRC}/theories/ {D}/theories/') if shutil.which('rsync') else sh(f'rm -rf {D}/theories; cp -a {SRC}/theories {D}/')
    pristine={f:open(f'{D}/theories/{f}.v').read() for f in order}
    for e in batch:
        r=run(e,order,pristine)
        # restore the compiled state
        sh(f'rm -rf {D}/theories; cp -a {SRC}/theories {D}/')
        for f in order: open(f'{D}/theories/{f}.v','w').write(pristine[f]) if open(f'{D}/theories/{f}.v').read()!=pristine[f] else None
        if 'error' in r: print('SKIP',e['definition'],r['error'],flush=True); continue
        caught=[t for t in r['theorems_failed'] if any(t.startswith(x) for x in e.get('expect',[]))]
        line={"definition":e['definition'],"edit":e['edit'],"claim_broken":e['claim'],"lemmas_broken":r['broken_lemmas'][:12],"theorems_failed":r['theorems_failed'],"theorems_tightened":[],"verdict":"caught" if caught or r['theorems_failed'] else "SURVIVED"}
        if r['dead_files']: line['files_not_compiling']=r['dead_files']
        with open('/verif/seeded/LOG.jsonl','a') as g: g.write(json.dumps(line)+'\n')
        print(line['verdict'],e['definition'],'|',e['edit'],'|',r['theorems_failed'],'|',r['dead_files'],flush=True)
main()

#!/usr/bin/env python3
"""Recompile every Prop*.v and write ASSUMPTIONS.md: what Print Assumptions lists
for each property theorem."""
import re, subprocess, glob, os, tempfile
T='/verif/rocq/theories'
sets={}; order=[]
from concurrent.futures import ThreadPoolExecutor
def comp(f):
    d=tempfile.mkdtemp()
    return f,subprocess.run(['coqc','-q','-Q',T,'Verif','-o',d+'/'+os.path.basename(f)+'o',f],capture_output=True,text=True)
for f,r in ThreadPoolExecutor(4).map(comp,sorted(glob.glob(T+'/Prop*.v'))):
    src=open(f).read()
    names=re.findall(r'^Print Assumptions (\w+)\.',src,re.M)
    if r.returncode: raise SystemExit(f+r.stderr)
    blocks=[]
    for line in r.stdout.splitlines():
        if line.startswith('Closed under'): blocks.append([])
        elif line.startswith('Axioms:'): blocks.append([])
        else:
            m=re.match(r'^([A-Za-z][\w.\']*)\s*(:|$)',line)
            if m and blocks: blocks[-1].append(m.group(1))
    assert len(blocks)==len(names),(f,len(blocks),len(names))
    thms=re.findall(r'^Theorem (C\d+\w+)',src,re.M)
    if not set(thms)<=set(names): print("no Print Assumptions:",f,set(thms)-set(names))
    for n,b in zip(names,blocks): sets[n]=tuple(sorted(b)); order.append((os.path.basename(f),n))
groups={}
for f,n in order: groups.setdefault(sets[n],[]).append((f,n))
out=['# What `Print Assumptions` lists','',
 'Generated by `tools/assumptions.py`; every axiom below belongs to Coq\'s standard library.','']
for k in sorted(groups,key=lambda k:(len(k),k)):
    out.append('## '+(', '.join('`%s`'%a for a in k) if k else 'Closed under the global context (no axiom)'))
    out.append('')
    byf={}
    for f,n in groups[k]: byf.setdefault(f,[]).append(n)
    for f in byf: out.append('* %s: %s'%(f,', '.join(byf[f])))
    out.append('')
open('/verif/ASSUMPTIONS.md','w').write('\n'.join(out))

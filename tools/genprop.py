"""generate a Prop file: statements copied verbatim from the lemmas"""
import re,sys,glob
th='/verif/rocq/theories/'
def stmts():
    d={}
    for f in glob.glob(th+'*.v'):
        s=open(f).read()
        for m in re.finditer(r'^(?:Lemma|Theorem|Corollary)\s+([\w\']+)(.*?\.)\s+Proof\b',s,re.M|re.S):
            d.setdefault(m.group(1),m.group(2).strip())
    return d
def gen(out,header,items,examples=''):
    d=stmts()
    o=[header]
    for n,l,c in items:
        if l not in d: print('missing',l); continue
        st=d[l]
        # split binders from type at top-level ':'
        depth=0;k=None
        for i,ch in enumerate(st):
            if ch in '({[':depth+=1
            elif ch in ')}]':depth-=1
            elif ch==':' and depth==0: k=i;break
        b=st[:k].strip(); t=st[k+1:].strip()
        assert t.endswith('.'),(n,st)
        t=t[:-1]
        stm=(f'Theorem {n} : forall {b},\n  {t}.' if b else f'Theorem {n} :\n  {t}.')
        o.append(f'(** {c} *)\n{stm}\nProof. exact {l}. Qed.\nPrint Assumptions {n}.\n')
    if examples: o.append(examples)
    open(th+out,'w').write('\n'.join(o))

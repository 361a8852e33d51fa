"""Writes MANIFEST.json: every theorem of a Prop*.v file named Cnn_... is listed
under property Cnn.  status/notes come from the table below."""
import re,glob,json,os
root=os.path.dirname(os.path.dirname(os.path.abspath(__file__)))
notes=json.load(open(root+'/tools/notes.json'))
th={}
for f in sorted(glob.glob(root+'/rocq/theories/Prop*.v')):
    for m in re.finditer(r'^Theorem\s+(C\d+)(_\w+)',open(f).read(),re.M):
        th.setdefault(m.group(1),[]).append(m.group(1)+m.group(2))
props=[json.loads(l)['id'] for l in open(root+'/properties.jsonl')]
claims=[]
for p in props:
    n=notes.get(p)
    t=th.get(p,[])
    if n is None and not t: continue
    st=(n or {}).get('status') or ('partial' if any(x.endswith(('_refuted','_partial')) for x in t) else 'proved')
    if not t and st!='not_applicable': continue
    claims.append({"property":p,"status":st,"theorems":t,"note":(n or {}).get('note','')})
missing=[p for p in props if p not in [c['property'] for c in claims]]
extra=[p for p in th if p not in props]
json.dump({"claims":claims},open(root+'/MANIFEST.json','w'),indent=1)
print(len(claims),'claims; missing',missing,'; no property',extra)
from collections import Counter; print(Counter(c['status'] for c in claims))

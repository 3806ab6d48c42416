#!/usr/bin/env python3
# Collect every "Theorem Cnn_*" from the *Props.v files into MANIFEST.json.
import re,glob,json,os
root=os.path.join(os.path.dirname(os.path.abspath(__file__)),'..')
ids=[json.loads(l)['id'] for l in open(root+'/properties.jsonl')]
thms={}
for f in sorted(glob.glob(root+'/rocq/theories/*.v')):
    for n in re.findall(r'^\s*(?:Theorem|Lemma|Corollary)\s+(C\d\d\w*)',open(f).read(),re.M):
        m=re.match(r'(C\d+)_',n)
        thms.setdefault(m.group(1),[]).append(n)
notes=json.load(open(root+'/tools/notes.json'))
claims=[]
for i in ids:
    t=thms.get(i,[])
    n=notes.get(i,{})
    st=n.get('status') or ('partial' if (not t or any('partial' in x or 'refuted' in x for x in t)) else 'proved')
    claims.append(dict(property=i,status=st,theorems=t,note=n.get('note','not yet modelled' if not t else '')))
json.dump({'claims':claims},open(root+'/MANIFEST.json','w'),indent=1)
from collections import Counter
print(Counter(c['status'] for c in claims), sum(len(c['theorems']) for c in claims), [c['property'] for c in claims if not c['theorems']])

#!/usr/bin/env python3
"""Regenerates MANIFEST.json from the theorem names (Cnn_*) in rocq/theories/Props_*.v
and the notes in tools/notes.json.  Status: "partial" if a theorem of the property is
named *_partial or *_refuted, else "proved"; overridable in notes.json."""
import json, re, glob, os
root=os.path.dirname(os.path.dirname(os.path.abspath(__file__)))
props=[json.loads(l) for l in open(root+'/properties.jsonl') if l.strip()]
notes=json.load(open(root+'/tools/notes.json'))
th={}
for f in sorted(glob.glob(root+'/rocq/theories/Props_*.v')):
    for m in re.finditer(r'^Theorem (C\d+)_(\w+)',open(f).read(),re.M):
        th.setdefault(m.group(1),[]).append(m.group(1)+'_'+m.group(2))
claims=[]
for p in props:
    i=p['id']; t=th.get(i,[]); n=notes.get(i,{})
    if isinstance(n,str): n={'note':n}
    st=n.get('status')
    if st is None:
        st='partial' if (not t or any(x.endswith('_partial') or x.endswith('_refuted') for x in t)) else 'proved'
    claims.append({'property':i,'status':st,'theorems':t,'note':n.get('note','' if t else 'not yet modelled')})
json.dump({'claims':claims},open(root+'/MANIFEST.json','w'),indent=1)
print({s:sum(c['status']==s for c in claims) for s in ('proved','partial','not_applicable')}, 'no theorem:',[c['property'] for c in claims if not c['theorems']])

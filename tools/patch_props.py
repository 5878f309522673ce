#!/usr/bin/env python3
"""helper: python3 tools/patch_props.py < patch.json ; patch = {id: {field: value}}; unknown ids are appended."""
import json,sys,os
root=os.path.dirname(os.path.dirname(os.path.abspath(__file__)))
p=root+'/properties.jsonl'
ps=[json.loads(l) for l in open(p) if l.strip()]
patch=json.load(sys.stdin)
for d in ps:
    if d['id'] in patch: d.update(patch.pop(d['id']))
for i,d in patch.items():
    ps.append({'id':i,**d})
ps.sort(key=lambda d:int(d['id'][1:]))
open(p,'w').write(''.join(json.dumps(d)+'\n' for d in ps))

#!/usr/bin/env python3
import json,sys,os
root=os.path.dirname(os.path.dirname(os.path.abspath(__file__)))
p=root+'/tools/notes.json'
n=json.load(open(p)); n.update(json.load(sys.stdin))
json.dump(dict(sorted(n.items(),key=lambda k:int(k[0][1:]))),open(p,'w'),indent=1)

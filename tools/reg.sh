#!/bin/bash
# usage: tools/reg.sh "design rows file" ; expects /tmp/p.json and /tmp/n.json
cd /verif && python3 tools/patch_props.py < /tmp/p.json && python3 tools/patch_notes.py < /tmp/n.json && python3 - "$1" <<'P'
import sys
s=open('DESIGN.md').read(); rows=open(sys.argv[1]).read().rstrip('\n')+'\n'
m="\n## Trusted base"; i=s.index(m); head=s[:i].rstrip('\n')+'\n'; s=head+rows+s[i:]
open('DESIGN.md','w').write(s)
P
python3 tools/mk_manifest.py

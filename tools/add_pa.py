#!/usr/bin/env python3
"""Adds a Print Assumptions line for every property theorem that lacks one."""
import re,glob
for p in sorted(glob.glob('/verif/rocq/theories/Props_*.v')):
    s=open(p).read()
    th=re.findall(r'^Theorem (C\d+_\w+)',s,re.M); pa=set(re.findall(r'Print Assumptions (\w+)',s))
    miss=[t for t in th if t not in pa]
    if miss:
        open(p,'w').write(s.rstrip('\n')+'\n'+''.join(f'Print Assumptions {t}.\n' for t in miss)); print(p,miss)

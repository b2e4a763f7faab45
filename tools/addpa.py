#!/usr/bin/env python3
"""rewrite the trailing Print Assumptions lines of a Props file: one per Theorem"""
import re,sys
for f in sys.argv[1:]:
    p='/verif/rocq/theories/%s.v'%f
    s=open(p).read()
    s=re.sub(r'^Print Assumptions.*\n?','',s,flags=re.M).rstrip('\n')+'\n\n'
    for t in re.findall(r'^Theorem\s+(\w+)',s,flags=re.M): s+='Print Assumptions %s.\n'%t
    open(p,'w').write(s)

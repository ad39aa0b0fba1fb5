#!/usr/bin/env python3
# usage: setprop.py C15 field "text"  -- edit one field of a property
import sys,json
i,f,t=sys.argv[1:4]
L=[json.loads(l) for l in open('/verif/properties.jsonl')]
for o in L:
    if o['id']==i: o[f]=t
open('/verif/properties.jsonl','w').write(''.join(json.dumps(o)+'\n' for o in L))

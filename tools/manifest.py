#!/usr/bin/env python3
# builds MANIFEST.json from theorem names C??_* in *Props.v and notes
import re,json,glob,os
notes=json.load(open('/verif/tools/notes.json')) if os.path.exists('/verif/tools/notes.json') else {}
ths={}
for f in sorted(glob.glob('/verif/rocq/theories/*Props*.v')):
    for m in re.finditer(r'^Theorem (C(\d\d+)_\w+)',open(f).read(),re.M):
        ths.setdefault('C'+m.group(2),[]).append(m.group(1))
claims=[]; missing=[]
for l in open('/verif/properties.jsonl'):
    i=json.loads(l)['id']
    n=notes.get(i,{})
    if i in ths:
        st=n.get('status','partial' if any(t.endswith('_partial') for t in ths[i]) else 'proved')
        claims.append({'property':i,'status':st,'theorems':ths[i],'note':n.get('note','')})
    elif 'status' in n:
        claims.append({'property':i,'status':n['status'],'theorems':[],'note':n['note']})
    else:
        missing.append(i)
json.dump({'claims':claims},open('/verif/MANIFEST.json','w'),indent=1)
print(len(claims),'claims; missing', missing)

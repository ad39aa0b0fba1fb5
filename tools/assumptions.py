"""usage: assumptions.py BUILT_ROCQ_DIR > table.md  -- Print Assumptions of every Cxx theorem, grouped by axiom set."""
import sys,os,re,subprocess,collections
d=sys.argv[1]+'/theories'
names=[]
for g in sorted(os.listdir(d)):
    if g.endswith('.v') and 'Props' in g:
        names+=[(g[:-2],n) for n in re.findall(r'^Theorem (C\d\d+_\w+)',open(f'{d}/{g}').read(),re.M)]
src=''.join(f'From Verif Require {g}.\n' for g in sorted({g for g,_ in names}))
for g,n in names: src+=f'Goal True. idtac "@@{n}". Abort.\nPrint Assumptions {g}.{n}.\n'
open('/tmp/pa/PA.v','w').write(src)
r=subprocess.run(['coqc','-w','none','-Q',d,'Verif','/tmp/pa/PA.v'],stdout=subprocess.PIPE,stderr=subprocess.STDOUT,text=True)
assert r.returncode==0, r.stdout[-2000:]
sets=collections.defaultdict(list)
for blk in r.stdout.split('@@')[1:]:
    n=blk.split()[0]
    ax=tuple(sorted(set(m for m in re.findall(r'^([A-Za-z_][\w.\']*)\s*:',blk,re.M) if m not in('Axioms',))))
    sets[ax].append(n)
for ax in sorted(sets,key=lambda a:(len(a),a)):
    print(f'- **{", ".join("`"+a+"`" for a in ax) if ax else "Closed under the global context"}** ({len(sets[ax])} theorems): '+', '.join(sorted(sets[ax]))+'.')

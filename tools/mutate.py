"""usage: run.py muts.py [ids]  -- muts.py defines M = [(id, file, definition, old, new, edit, claim)]"""
import sys, os, re, subprocess, json, time
exec(open(sys.argv[1]).read())
only = set(sys.argv[2:])
W=os.environ.get('W','/tmp/mut/w')
J=os.environ.get('J','4')
out = open('/tmp/mut/results.jsonl','a')
def stmt_span(src, line):
    """(name, start of proof, end of Qed) of the Lemma/Theorem/Example enclosing line"""
    pos=sum(len(l)+1 for l in src.split('\n')[:line-1])
    last=None
    for m in re.finditer(r'^[ \t]*(?:Local )?(Theorem|Lemma|Example|Corollary|Remark)\s+([\w\']+)',src,re.M):
        if m.start()<=pos+len(src.split('\n')[line-1]): last=m
        else: break
    if not last: return None
    q=re.compile(r'\bQed\.|\bDefined\.|\bAdmitted\.').search(src,last.end())
    pr=re.compile(r'\bProof\.').search(src,last.end())
    if not q or q.end()<pos: return (None,None,None)
    if pr is None or pr.start()>q.start(): return (last.group(2),None,None)
    return (last.group(2),pr.start(),q.end())
def errors(log,d):
    res=[]
    for m in re.finditer(r'File "\./theories/(\w+)\.v", line (\d+)[^\n]*\n(?:Error|[^\n]*\n?Error)',log):
        res.append((m.group(1),int(m.group(2))))
    return res
for (mid,f,defn,old,new,edit,claim) in M:
    if only and mid not in only: continue
    t0=time.time()
    d=W
    subprocess.run(['rm','-rf',d]); subprocess.run(['cp','-a','/tmp/mut/base',d])
    p=f'{d}/theories/{f}.v'; s=open(p).read()
    if s.count(old)!=1:
        print(mid,'BAD OLD count',s.count(old)); continue
    open(p,'w').write(s.replace(old,new)); mt=os.path.getmtime(p)
    broken=[]; fatal=None
    cl=claim.split('/')[0].split(',')
    tg=[]
    for g in sorted(os.listdir(f'{d}/theories')):
        if g.endswith('.v') and 'Props' in g and g!='ZZ.v':
            t=open(f'{d}/theories/{g}').read()
            if g.startswith(f) or any(re.search(r'^Theorem '+c+'_',t,re.M) for c in cl): tg.append('theories/'+g+'o')
    for it in range(40):
        try:
            r=subprocess.run(['make','-k','-j'+J]+tg,cwd=d,stdout=subprocess.PIPE,stderr=subprocess.STDOUT,text=True,timeout=1200)
            log=r.stdout
        except subprocess.TimeoutExpired:
            fatal='timeout'; break
        if r.returncode==0: break
        errs=errors(log,d)
        if not errs: fatal='unparsed '+log[-300:]; break
        prog=False
        for fl,ln in errs:
            q=f'{d}/theories/{fl}.v'; src=open(q).read(); sp=stmt_span(src,ln)
            if not sp or sp[1] is None:
                fatal=f'statement {fl}:{ln} {sp}'; continue
            nm,a,b=sp
            if src[a:b]=='Proof. Admitted.': fatal=f'loop {fl}:{ln}'; continue
            open(q,'w').write(src[:a]+'Proof. Admitted.'+src[b:]); broken.append(nm); prog=True
        if not prog: break
    failed=[]; 
    if broken and not fatal:
        files=[g[:-2] for g in sorted(os.listdir(f'{d}/theories')) if g.endswith('.v') and 'Props' in g and os.path.exists(f'{d}/theories/{g}o') and os.path.getmtime(f'{d}/theories/{g}o')>=mt and 'theories/'+g+'o' in tg]
        names=[]
        for g in files: names+= [(g,n) for n in re.findall(r'^Theorem (C\d\d_\w+)',open(f'{d}/theories/{g}.v').read(),re.M)]
        chk=''.join(f'From Verif Require {g}.\n' for g in files)
        for g,n in names: chk+=f'Goal True. idtac "@@{n}". Abort.\nPrint Assumptions {g}.{n}.\n'
        open(f'{d}/theories/ZZ.v','w').write(chk)
        r=subprocess.run('coqc -w none -Q . Verif ZZ.v',cwd=d+'/theories',shell=True,stdout=subprocess.PIPE,stderr=subprocess.STDOUT,text=True)
        if r.returncode: fatal='ZZ '+r.stdout[-300:]
        for blk in r.stdout.split('@@')[1:]:
            n=blk.split()[0]
            if n in broken or any(re.search(r'(^|[.\s])'+re.escape(b)+r'\b',blk) for b in broken): failed.append(n)
    rec=dict(id=mid,file=f,definition=defn,edit=edit,claim=claim,broken=broken,failed=failed,fatal=fatal,secs=round(time.time()-t0))
    out.write(json.dumps(rec)+'\n'); out.flush()
    ok = any(x.startswith(c) for x in failed for c in claim.split('/')[0].split(','))
    print(mid,defn,'->', 'SURVIVED' if not broken and not fatal else ('ok' if ok else 'CLAIM-NOT-HIT'), 'failed',failed[:6], 'broken',broken[:4], fatal or '', rec['secs'],'s', flush=True)

import sys,os,re,subprocess,json,shutil
sys.path.insert(0,'/tmp/mut')
from muts import M
W='/tmp/mut/w/rocq'
sel=[int(x) for x in sys.argv[1:]] or range(len(M))
def sh(c,t=900):
    return subprocess.run(c,shell=True,capture_output=True,text=True,timeout=t)
os.makedirs('/tmp/mut/w',exist_ok=True)
out=open('/tmp/mut/results.jsonl','a')
for i in sel:
    f,d,old,new,claim=M[i]
    sh(f'rm -rf {W}; cp -a /tmp/mut/base {W}')
    p=f'{W}/theories/{f}.v'
    s=open(p).read()
    n=s.count(old)
    if n!=1:
        print(i,d,'OLD COUNT',n,flush=True); continue
    open(p,'w').write(s.replace(old,new))
    try:
        r=sh(f'cd {W} && (ulimit -v 8000000; timeout 800 make -k -j4)')
    except subprocess.TimeoutExpired:
        print(i,d,'TIMEOUT',flush=True); continue
    txt=r.stdout+r.stderr
    errs=[]
    for mm in re.finditer(r'File "\./theories/(\w+)\.v", line (\d+).*?\n(Error|[^\n]*Error)',txt):
        fn,ln=mm.group(1),int(mm.group(2))
        L=open(f'{W}/theories/{fn}.v').read().split('\n')
        nm='?'
        for k in range(ln-1,-1,-1):
            q=re.match(r'\s*(?:#\[[^\]]*\]\s*)?(?:Local |Global )?(?:Theorem|Lemma|Corollary|Example|Fact|Proposition|Instance|Definition|Fixpoint|Record)\s+([\w\']+)',L[k])
            if q: nm=q.group(1); break
        errs.append(f'{fn}.{nm}')
    rec=dict(i=i,file=f,defn=d,claim=claim,rc=r.returncode,errs=errs)
    print(i,d,'|',claim,'|','SURVIVED' if r.returncode==0 else errs,flush=True)
    if r.returncode!=0 and not errs: print(txt[-600:],flush=True)
    out.write(json.dumps(rec)+'\n'); out.flush()

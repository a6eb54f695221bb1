"""Turn muts.py and results.jsonl into /verif/seeded/LOG.jsonl."""
import json,os,sys
here=os.path.dirname(os.path.abspath(__file__))
sys.path.insert(0,here)
from muts import M
try: from tightened import T
except ImportError: T={}
first,last={},{}
for l in open(sys.argv[1]):
    r=json.loads(l); i=r['i']
    first.setdefault(i,r); last[i]=r
out=open(os.path.join(here,'..','..','seeded','LOG.jsonl'),'w')
k=s=0
for i,(f,d,old,new,claim) in enumerate(M):
    if i not in last: continue
    r=last[i]; t=T.get(i,{})
    killed=r['rc']!=0
    rec=dict(id=i,definition=f"{f}.{d}",edit=f"{old}  ==>  {new}",claim=claim,
      outcome='caught' if killed else 'not caught',
      theorems_failed=r['errs'],
      theorems_tightened=t.get('tightened',[]))
    if t.get('note'): rec['note']=t['note']
    out.write(json.dumps(rec)+'\n'); k+=killed; s+=not killed
print(k,'caught',s,'not caught')

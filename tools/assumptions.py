#!/usr/bin/env python3
"""Prints ASSUMPTIONS.md: what Print Assumptions lists for every theorem named in MANIFEST.json (needs a built /verif/rocq)."""
import json,re,subprocess,os,collections
V='/verif'; files=[l.strip() for l in open(V+'/rocq/_CoqProject') if l.strip().endswith('.v')]
where={}
for f in files:
    m=os.path.basename(f)[:-2]
    for x in re.findall(r'^\s*(?:Theorem|Lemma|Corollary|Fact|Remark|Proposition)\s+([\w\']+)',open(V+'/rocq/'+f).read(),re.M): where.setdefault(x,m)
man=json.load(open(V+'/MANIFEST.json')); ths=[]
for c in man['claims']:
    for t in c['theorems']: ths.append((c['property'],t))
src='From Coq Require Import String.\n'+''.join('From Verif Require %s.\n'%m for m in sorted(set(where[t] for _,t in ths)))
for i,(p,t) in enumerate(ths): src+='Definition mark_%d := 0.\nPrint mark_%d.\nPrint Assumptions %s.%s.\n'%(i,i,where[t],t)
os.makedirs('/tmp/pa',exist_ok=True); open('/tmp/pa/PA.v','w').write(src)
out=subprocess.run(['coqc','-Q',V+'/rocq/theories','Verif','/tmp/pa/PA.v'],capture_output=True,text=True); assert out.returncode==0,out.stderr[-2000:]
parts=re.split(r'mark_(\d+) = 0\s*: nat\s*',out.stdout)
res={}
for i in range(1,len(parts),2):
    ax=tuple(sorted(set(a.split('.')[-1] if not a.startswith('RbaseSymbolsImpl') and not a.startswith('RinvImpl') else 'R' for a in re.findall(r'^(?!Axioms)([A-Za-z_][\w\.]*)\s*:',parts[i+1],re.M))))
    res[ths[int(i and parts[i])]]=ax
groups=collections.OrderedDict()
for k,v in res.items(): groups.setdefault(v,[]).append('%s %s'%(k[0],k[1]))
print('# Print Assumptions for every theorem in MANIFEST.json\n\nGenerated by tools/assumptions.py.  Every axiom is from the Coq 8.16 standard library.  `sig_forall_dec`, `sig_not_dec` are\n`Coq.Reals.ClassicalDedekindReals`, `functional_extensionality_dep` is `Coq.Logic.FunctionalExtensionality`, `classic` is\n`Coq.Logic.Classical_Prop`; primitive floats/integers (`Coq.Floats`, `Coq.Numbers.Cyclic.Int63`) are listed by name.\n')
for v,k in groups.items():
    print('## '+(', '.join(v) if v else 'Closed under the global context (no axioms)')+'\n'); 
    for x in k: print('* '+x)
    print()

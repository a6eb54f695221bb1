#!/usr/bin/env python3
"""edit a field of properties.jsonl: setprop.py ID field text"""
import json,sys,os
p=os.path.join(os.path.dirname(__file__),'..','properties.jsonl')
ls=[json.loads(l) for l in open(p)]
for d in ls:
    if d['id']==sys.argv[1]: d[sys.argv[2]]=sys.argv[3]; break
else: raise SystemExit('no such id')
open(p,'w').write(''.join(json.dumps(d)+'\n' for d in ls))

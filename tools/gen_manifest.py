#!/usr/bin/env python3
"""Writes MANIFEST.json from the Prop*.v files: every `Theorem Cnn_...` belongs to property Cnn.
STATUS/NOTE hold the human verdicts."""
import re,glob,json,os
root=os.path.dirname(os.path.dirname(os.path.abspath(__file__)))
props=[json.loads(l) for l in open(root+'/properties.jsonl')]
from_status={}
notes={}
exec(open(root+'/tools/status.py').read())
thms={}
for f in sorted(glob.glob(root+'/rocq/theories/Prop*.v')):
    for m in re.finditer(r'^(?:Theorem|Corollary)\s+(C\d\d)(\w*)',open(f).read(),re.M):
        thms.setdefault(m.group(1),[]).append(m.group(1)+m.group(2))
claims=[]
for p in props:
    i=p['id']
    if i in thms:
        claims.append({"property":i,"status":from_status.get(i,"proved"),"theorems":thms[i],"note":notes.get(i,"")})
    elif from_status.get(i):
        claims.append({"property":i,"status":from_status[i],"theorems":[],"note":notes.get(i,"")})
json.dump({"claims":claims},open(root+'/MANIFEST.json','w'),indent=1)
print(len(claims),'claims;','missing:',[p['id'] for p in props if p['id'] not in thms])

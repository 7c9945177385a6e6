#!/usr/bin/env python3
"""Regenerates rocq/_CoqProject's file list and MANIFEST.json (theorems are found by their Cnn_ prefix in Properties_*.v)."""
import re,glob,json,os
root=os.path.dirname(os.path.dirname(os.path.abspath(__file__)))
files=sorted(os.path.relpath(f,root+'/rocq') for f in glob.glob(root+'/rocq/theories/*.v'))
open(root+'/rocq/_CoqProject','w').write('-Q theories Verif\n'+'\n'.join(files)+'\n')
props=[json.loads(l) for l in open(root+'/properties.jsonl') if l.strip()]
th={}
for f in sorted(glob.glob(root+'/rocq/theories/Properties_*.v')):
    for m in re.finditer(r'^(?:Theorem|Lemma)\s+((C\d+)_\w+)',open(f).read(),re.M):
        th.setdefault(m.group(2),[]).append(m.group(1))
notes=json.load(open(root+'/tools/notes.json'))
claims=[]
for p in props:
    i=p['id']; n=notes.get(i,{})
    if i not in th: continue
    claims.append({"property":i,"status":n.get("status","partial"),"theorems":th[i],"note":n.get("note","")})
json.dump({"claims":claims},open(root+'/MANIFEST.json','w'),indent=1)
print(len(claims),'claims;', 'missing:',[p['id'] for p in props if p['id'] not in th])

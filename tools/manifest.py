#!/usr/bin/env python3
"""Regenerates MANIFEST.json from the theorem names Cxx_... in rocq/theories/Props*.v and the notes below."""
import re,glob,json,os
root=os.path.dirname(os.path.dirname(os.path.abspath(__file__)))
ths={}
for f in sorted(glob.glob(root+'/rocq/theories/Props*.v')):
    for m in re.finditer(r'^Theorem (C\d\d_\w+)',open(f).read(),re.M):
        ths.setdefault(m.group(1)[:3],[]).append(m.group(1))
notes=json.load(open(root+'/tools/notes.json'))
out=[]
for l in open(root+'/properties.jsonl'):
    p=json.loads(l)['id']
    n=notes.get(p,{})
    t=ths.get(p,[])
    st=n.get('status','proved' if t else 'partial')
    if not t: st=n.get('status','partial')
    out.append({"property":p,"status":st,"theorems":t,"note":n.get('note','')})
json.dump({"claims":out},open(root+'/MANIFEST.json','w'),indent=1)
print({s:sum(1 for o in out if o['status']==s) for s in ('proved','partial','not_applicable')},[o['property'] for o in out if not o['theorems']])

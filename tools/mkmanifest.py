#!/usr/bin/env python3
"""Writes MANIFEST.json from the theorem names in rocq/theories/Props*.v.
A property is `partial` when it has no theorem without the suffix _partial, or when NOTES says so."""
import re,glob,json,os
here=os.path.dirname(os.path.abspath(__file__)); V=os.path.join(here,'..')
thms={}
for f in sorted(glob.glob(V+'/rocq/theories/Props*.v')):
    for m in re.finditer(r'^Theorem ((C\d+)_\w+)',open(f).read(),re.M):
        thms.setdefault(m.group(2),[]).append(m.group(1))
N={}
p=os.path.join(here,'notes.py')
if os.path.exists(p): exec(open(p).read())
claims=[]
for l in open(V+'/properties.jsonl'):
    i=json.loads(l)['id']; t=thms.get(i,[])
    if not t: continue
    st='partial' if (i in PARTIAL or any(x.endswith('_partial') for x in t)) else 'proved'
    claims.append(dict(property=i,status=st,theorems=t,note=N.get(i,'')))
json.dump({"claims":claims},open(V+'/MANIFEST.json','w'),indent=1)
print(len(claims),'claims',[c['property'] for c in claims if c['status']!='proved'])

#!/usr/bin/env python3
"""Rebuild MANIFEST.json from the theorem names in rocq/theories/*Props.v and tools/status.json."""
import re,json,glob,os
root=os.path.dirname(os.path.dirname(os.path.abspath(__file__)))
st=json.load(open(root+'/tools/status.json'))
th={}
for f in sorted(glob.glob(root+'/rocq/theories/*Props.v')):
    for n in re.findall(r'^Theorem (C\d\d\w*)',open(f).read(),re.M):
        ids=re.match(r'((?:C\d\d_)+)',n).group(1).strip('_').split('_')
        for i in ids: th.setdefault(i,[]).append(n)
claims=[]
for l in open(root+'/properties.jsonl'):
    p=json.loads(l)['id']
    s=st.get(p)
    if not s or not th.get(p):
        if s and s['status']=='not_applicable': claims.append(dict(property=p,status='not_applicable',theorems=[],note=s['note']))
        continue
    claims.append(dict(property=p,status=s['status'],theorems=th[p],note=s['note']))
json.dump({"claims":claims},open(root+'/MANIFEST.json','w'),indent=1)
missing=[json.loads(l)['id'] for l in open(root+'/properties.jsonl') if json.loads(l)['id'] not in [c['property'] for c in claims]]
print(len(claims),'claims; missing',missing)

#!/usr/bin/env python3
"""setprop.py file.json : merge {id:{statement,quantifier,...}} into properties.jsonl (adding new ids at the end)"""
import json,sys
root='/verif/'
L=[json.loads(l) for l in open(root+'properties.jsonl')]
d=json.load(open(sys.argv[1])); ids={p['id']:p for p in L}
for k,v in d.items():
    if k in ids: ids[k].update(v)
    else: L.append(dict(id=k,**v))
open(root+'properties.jsonl','w').write(''.join(json.dumps(p)+'\n' for p in L))

#!/usr/bin/env python3
"""Write ASSUMPTIONS.md: what Print Assumptions lists for every theorem of MANIFEST.json (needs a built rocq/)."""
import json,re,subprocess,os,glob,tempfile
root=os.path.dirname(os.path.dirname(os.path.abspath(__file__)))
claims=json.load(open(root+'/MANIFEST.json'))['claims']
where={}
for f in sorted(glob.glob(root+'/rocq/theories/*Props.v')):
    for n in re.findall(r'^Theorem (C\d\d\w*)',open(f).read(),re.M): where[n]=os.path.basename(f)[:-2]
names=[]
for c in claims:
    for t in c['theorems']:
        if t not in names: names.append(t)
by={}
for n in names: by.setdefault(where[n],[]).append(n)
res={}
for mod,ns in by.items():
    d=tempfile.mkdtemp(); p=d+'/a.v'
    with open(p,'w') as f:
        f.write(f'From Verif Require {mod}.\n')
        for n in ns: f.write(f'Check "THM_{n}"%string.\n' if False else f'Goal True. idtac "THM {n}". Abort.\nPrint Assumptions Verif.{mod}.{n}.\n')
    o=subprocess.run(['coqc','-Q',root+'/rocq/theories','Verif',p],capture_output=True,text=True)
    assert o.returncode==0,o.stderr[:2000]
    cur=None
    for l in o.stdout.split('\n'):
        m=re.match(r'THM (\w+)',l)
        if m: cur=m[1]; res[cur]=[]; continue
        m=re.match(r'([A-Za-z_][\w.]*) *(:|$)',l)
        if m and m[1] not in ('Axioms','Closed','Section') and cur: res[cur].append(m[1])
groups={}
for n in names: groups.setdefault(tuple(sorted(res[n])),[]).append(n)
with open(root+'/ASSUMPTIONS.md','w') as f:
    f.write('# What `Print Assumptions` lists for each theorem\n\nGenerated by tools/assumptions.py from the built development.\n')
    for g,ns in sorted(groups.items(),key=lambda x:len(x[0])):
        f.write('\n## '+('No axioms (closed under the global context)' if not g else ', '.join('`%s`'%x for x in g))+f' ({len(ns)} theorems)\n\n')
        f.write(', '.join(ns)+'\n')
print({g:len(n) for g,n in groups.items()})

#!/usr/bin/env python3
"""Print Assumptions of every property theorem -> /verif/ASSUMPTIONS.md (needs a finished build)."""
import re,os,subprocess,glob,collections
T='/verif/rocq/theories'
rows=[]
for p in sorted(glob.glob(T+'/P_*.v')):
    f=os.path.basename(p)[:-2]
    ts=re.findall(r'^Theorem\s+(C\d\d_\w+)',open(p).read(),re.M)
    if not ts: continue
    q='/tmp/q_assum.v'
    open(q,'w').write(f'From Verif Require Import {f}.\n'+''.join(f'Check tt. Print Assumptions {t}.\n' for t in ts))
    r=subprocess.run(['coqc','-w','none','-Q',T,'Verif',q],capture_output=True,text=True,cwd='/tmp')
    parts=r.stdout.split('tt\n     : unit\n')[1:]
    assert len(parts)==len(ts),(f,r.stderr)
    for t,x in zip(ts,parts):
        if 'Closed under the global context' in x: names=()
        else: names=tuple(sorted(set(re.findall(r'^((?:\w+\.)*[\w\']+)\s*(?::|$)',x,re.M))-{'Axioms'}))
        rows.append((t,f,names))
rows.sort()
groups=collections.OrderedDict()
for t,f,n in rows: groups.setdefault(n,[]).append(t)
o=['# What `Print Assumptions` lists for each property theorem','','Generated by `tools/assumptions.py` from a finished build.','']
for n,ts in sorted(groups.items(),key=lambda kv:(len(kv[0]),kv[0])):
    o.append('## '+('Closed under the global context (no axioms)' if not n else 'Axioms: '+', '.join(f'`{x}`' for x in n))+f' — {len(ts)} theorems'); o.append('')
    o.append(', '.join(f'`{t}`' for t in ts)); o.append('')
open('/verif/ASSUMPTIONS.md','w').write('\n'.join(o))
print({k:len(v) for k,v in groups.items()})

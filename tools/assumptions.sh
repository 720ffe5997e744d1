#!/bin/sh
# Print Assumptions for every theorem of MANIFEST.json (after a build in rocq/).
cd /verif/rocq && python3 - <<'P' > /tmp/ck_all.v
import json,glob,re
thms=[t for c in json.load(open('/verif/MANIFEST.json'))['claims'] for t in c['theorems']]
where={}
for f in glob.glob('theories/Props*.v'):
    for m in re.finditer(r'^(?:Theorem|Corollary) (C\d\d_\w+)',open(f).read(),re.M): where[m.group(1)]=f[9:-2]
print('From Verif Require '+' '.join(sorted(set(where.values())))+'.')
for t in thms: print('Print Assumptions %s.%s.'%(where[t],t))
P
cp /tmp/ck_all.v /tmp/ck_all_run.v && coqc -Q theories Verif /tmp/ck_all_run.v | sort | uniq -c

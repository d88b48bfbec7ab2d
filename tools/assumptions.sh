cd /verif/rocq
python3 - <<'P'
import json
m=json.load(open('/verif/MANIFEST.json'))
import glob,re
mods={}
for f in glob.glob('theories/*Props*.v'):
    for t in re.findall(r'^(?:Theorem|Corollary) (C\d\d_\w+)',open(f).read(),re.M): mods[t]=f[9:-2]
out=[]
for c in m['claims']:
    for t in c['theorems']: out.append(t)
open('/tmp/Assum.v','w').write('From Verif Require '+' '.join(sorted(set(mods.values())))+'.\n'+'\n'.join(f'Print Assumptions {mods[t]}.{t}.' for t in out))
print(len(out))
P
coqc -Q theories Verif /tmp/Assum.v | sort | uniq -c

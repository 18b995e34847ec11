#!/bin/bash
# Writes ASSUMPTIONS.md: Print Assumptions of every theorem of MANIFEST.json. Run after a build.
cd "$(dirname "$0")/../rocq" || exit 1
D=$(mktemp -d)
python3 - > $D/a.v <<'P'
import json,re,os
th=[t for c in json.load(open('../MANIFEST.json'))['claims'] for t in c['theorems']]
mods=sorted(f[:-2] for f in os.listdir('theories') if f.startswith('Prop') and f.endswith('.v'))
for m in mods: print(f'From Verif Require {m}.')
for m in mods:
    for t in re.findall(r'^Theorem (\w+)',open(f'theories/{m}.v').read(),re.M):
        if t in th: print(f'Goal True. idtac "THM {t}". Abort.\nPrint Assumptions {m}.{t}.')
P
coqc -Q theories Verif $D/a.v 2>/dev/null > $D/out
python3 - $D/out > ../ASSUMPTIONS.md <<'P'
import sys,re
cur=None; d={}
for l in open(sys.argv[1]):
    m=re.match(r'THM (\w+)',l)
    if m: cur=m.group(1); d[cur]=[]; continue
    m=re.match(r'^([A-Za-z_][\w.\']*)\s*(:|$)',l)
    if cur and m and m.group(1) not in('Axioms','Closed'): d[cur].append(m.group(1))
print('# Print Assumptions of every theorem in MANIFEST.json\n')
for t in sorted(d): print(f'* `{t}`: '+(', '.join(d[t]) if d[t] else 'closed under the global context'))
P
rm -rf $D

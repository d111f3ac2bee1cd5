#!/bin/sh
# Print the assumptions of every theorem in MANIFEST.json (after a build).
d=$(mktemp -d)
python3 - "$d" <<'EOF'
import json, os, re, sys
th = 'rocq/theories'
mods = sorted(f[:-2] for f in os.listdir(th) if f.startswith('Props_') and f.endswith('.v'))
where = {n: m for m in mods for n in re.findall(r'^Theorem\s+(\w+)', open(f'{th}/{m}.v').read(), re.M)}
lines = ['From Verif Require ' + ' '.join(mods) + '.']
for c in json.load(open('MANIFEST.json'))['claims']:
    for t in c['theorems']:
        lines += [f'Check {where[t]}.{t}.', f'Print Assumptions {where[t]}.{t}.']
open(sys.argv[1] + '/A.v', 'w').write('\n'.join(lines) + '\n')
EOF
coqc -Q rocq/theories Verif "$d/A.v" | grep -E '^Props_|^C[0-9]|^Closed|^Axioms|^[A-Z]' 
rm -r "$d"

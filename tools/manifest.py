"""Regenerate MANIFEST.json from the theorem names in rocq/theories/Props_*.v.

A theorem named Cnn_... belongs to property Cnn. A property is "partial" when
tools/status.json says so or when all its theorems end in _partial.
"""
import glob, json, os, re
root = os.path.dirname(os.path.dirname(os.path.abspath(__file__)))
props = [json.loads(l) for l in open(os.path.join(root, 'properties.jsonl')) if l.strip()]
status = json.load(open(os.path.join(root, 'tools', 'status.json')))
thms = {}
for f in sorted(glob.glob(os.path.join(root, 'rocq/theories/Props_*.v'))):
    for m in re.finditer(r'^Theorem\s+(C\d+_\w+)', open(f).read(), re.M):
        thms.setdefault(m[1].split('_')[0], []).append(m[1])
claims = []
for p in props:
    i = p['id']
    ts = thms.get(i, [])
    st = status.get(i, {})
    s = st.get('status')
    if s is None:
        s = 'proved' if any(not t.endswith('_partial') for t in ts) else 'partial'
    if not ts and s == 'proved':
        s = 'partial'
    claims.append({'property': i, 'status': s, 'theorems': ts, 'note': st.get('note', p['title'])})
json.dump({'claims': claims}, open(os.path.join(root, 'MANIFEST.json'), 'w'), indent=1)
print(sum(c['status'] == 'proved' for c in claims), 'proved of', len(claims))

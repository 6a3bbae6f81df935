#!/usr/bin/env python3
"""Write MANIFEST.json from the Theorem names in rocq/theories/Properties_*.v and tools/notes.json.

Usage: tools/genmanifest.py   (run in /verif)"""
import glob, json, re
names = []
for f in sorted(glob.glob('rocq/theories/Properties_*.v')):
    names += re.findall(r'^Theorem (\w+)', open(f).read(), re.M)
notes = json.load(open('tools/notes.json'))
claims = []
for line in open('properties.jsonl'):
    p = json.loads(line)
    ths = [n for n in names if re.match(p['id'] + r'(_|$)', n)]
    assert ths, p['id']
    status = 'partial' if any(n.endswith('_partial') for n in ths) else 'proved'
    claims.append({'property': p['id'], 'status': status, 'theorems': ths, 'note': notes.get(p['id'], '')})
ids = {c['property'] for c in claims}
assert all(n[:3] in ids for n in names), [n for n in names if n[:3] not in ids]
json.dump({'claims': claims}, open('MANIFEST.json', 'w'), indent=1)
open('MANIFEST.json', 'a').write('\n')
print(len(claims), 'claims,', len(names), 'theorems')

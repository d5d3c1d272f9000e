#!/usr/bin/env python3
"""Write MANIFEST.json: theorem names are collected from the *Props.v files
(Theorem Cnn_...), statuses and notes from claims.json."""
import glob, json, os, re
root = os.path.dirname(os.path.dirname(os.path.abspath(__file__)))
claims = json.load(open(os.path.join(root, 'tools', 'claims.json')))
thms = {}
for f in sorted(glob.glob(os.path.join(root, 'rocq/theories/*Props*.v'))):
    for m in re.finditer(r'^Theorem (C\d+)_(\w+)', open(f).read(), re.M):
        thms.setdefault(m.group(1), []).append(m.group(1) + '_' + m.group(2))
out = []
for line in open(os.path.join(root, 'properties.jsonl')):
    pid = json.loads(line)['id']
    names = thms.get(pid, [])
    if not names:
        continue
    c = claims.get(pid, {})
    default = 'partial' if any('_refuted' in n or n.endswith('_partial') for n in names) else 'proved'
    out.append({'property': pid, 'status': c.get('status', default), 'theorems': names, 'note': c.get('note', '')})
json.dump({'claims': out}, open(os.path.join(root, 'MANIFEST.json'), 'w'), indent=1)
print(len(out), 'claims;', 'no theorems yet:', [json.loads(l)['id'] for l in open(os.path.join(root, 'properties.jsonl')) if json.loads(l)['id'] not in thms])

#!/usr/bin/env python3
"""Append results of tools/mutate.py or tools/quickmut.py to seeded/LOG.jsonl; "method" says which.

usage: logmut.py out.jsonl [tightened.json]
tightened.json maps "definition: edit" to a list of theorems tightened because of that mutant."""
import json, os, sys
root = os.path.dirname(os.path.dirname(os.path.abspath(__file__)))
log = os.path.join(root, 'seeded/LOG.jsonl')
t = json.load(open(sys.argv[2])) if len(sys.argv) > 2 else {}
seen = set()
if os.path.exists(log):
    for l in open(log):
        d = json.loads(l); seen.add((d['definition'], d['edit']))
with open(log, 'a') as o:
    for l in open(sys.argv[1]):
        d = json.loads(l)
        if 'error' in d or (d['definition'], d['edit']) in seen: continue
        r = {'definition': d['definition'], 'file': d['file'], 'edit': d['edit'], 'claim': d['claim'],
             'theorems_failed': d['theorems_failed'], 'theorems_tightened': t.get(d['definition'] + ': ' + d['edit'], [])}
        if d.get('first_failure'): r['method'] = 'inferred from first failure'; r['first_failure'] = d['first_failure']
        elif d.get('survived'): r['method'] = 'property modules of the claim rebuilt, none failed'
        else: r['method'] = 'rebuilt'
        o.write(json.dumps(r) + '\n')

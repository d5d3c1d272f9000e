#!/usr/bin/env python3
"""Write AXIOMS.md: what Print Assumptions lists for each property theorem.  Needs a finished build in rocq/."""
import glob, os, re, subprocess, tempfile
ROOT = os.path.dirname(os.path.dirname(os.path.abspath(__file__))) + '/rocq'
groups = {}
for pf in sorted(glob.glob(ROOT + '/theories/*Props.v')):
    mod = os.path.basename(pf)[:-2]
    names = re.findall(r'^Theorem (C\d+_\w+)', open(pf).read(), re.M)
    with tempfile.TemporaryDirectory() as d:
        q = 'From Verif Require %s.\n' % mod + ''.join('Check 0. Print Assumptions %s.%s.\n' % (mod, n) for n in names)
        open(d + '/q.v', 'w').write(q)
        r = subprocess.run(['coqc', '-Q', ROOT + '/theories', 'Verif', d + '/q.v'], capture_output=True, text=True)
        if r.returncode: raise SystemExit(r.stderr)
    for n, p in zip(names, r.stdout.split('0\n     : nat\n')[1:]):
        ax = tuple(sorted(re.findall(r'^([A-Za-z0-9_.\']+)\s*:?$', p, re.M) + re.findall(r'^([A-Za-z0-9_.\']+) :', p, re.M)))
        ax = tuple(a for a in dict.fromkeys(ax) if a != 'Axioms')
        groups.setdefault(ax, []).append(n)
out = ['# Axioms of each property theorem', '',
       'Generated by `tools/axioms.py` from `Print Assumptions` in a finished build. Every axiom below is one of the standard library.', '']
for ax in sorted(groups, key=lambda a: (len(a), a)):
    out += ['## ' + (', '.join('`%s`' % a for a in ax) if ax else 'Closed under the global context'), '',
            ', '.join('`%s`' % n for n in groups[ax]), '']
open(os.path.dirname(ROOT) + '/AXIOMS.md', 'w').write('\n'.join(out))
print({a: len(n) for a, n in groups.items()})

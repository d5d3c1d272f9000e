#!/usr/bin/env python3
"""Faster variant of mutate.py: stop at the first proof that fails.

usage: quickmut.py mutations.json out.jsonl   (environment MUT_SRC: a built static copy of rocq/, MUT_DIR: scratch, MUT_J, MUT_TMO)

Only the property modules holding theorems of the claim (first Cnn in "claim") are rebuilt.  theorems_failed lists the theorems of
that claim whose proofs use the lemma that failed, following the names used in statements and proofs of the unmodified sources;
first_failure is that lemma.  A proof that exceeds the time limit is an error, not a failure.  A mutation that leaves every proof standing has an empty theorems_failed."""
import json, os, re, shutil, subprocess, sys, glob
SCR = os.environ.get('MUT_DIR', '/tmp/qmut'); SRC = os.environ['MUT_SRC']; TMO = int(os.environ.get('MUT_TMO', '1500'))
START = re.compile(r'^\s*(?:Local |Global |#\[[^\]]*\]\s*)?(Lemma|Theorem|Example|Corollary|Fact|Remark|Definition|Fixpoint|Instance|Ltac|Inductive|Record)\s+([A-Za-z0-9_\']+)', re.M)

def items():
    """name -> list of (module, identifiers used)"""
    d = {}
    for f in glob.glob(SRC + '/theories/*.v'):
        s = open(f).read(); mod = os.path.basename(f)[:-2]; ms = list(START.finditer(s))
        for m, n in zip(ms, ms[1:] + [None]):
            d.setdefault(m.group(2), []).append((mod, set(re.findall(r"[A-Za-z_][A-Za-z0-9_']*", s[m.end():n.start() if n else len(s)]))))
    return d
ITEMS = items()
CL = {}
for f in glob.glob(SRC + '/theories/*Props.v'):
    for n in re.findall(r'^Theorem (C\d+_\w+)', open(f).read(), re.M): CL.setdefault(n.split('_')[0], []).append((os.path.basename(f)[:-2], n))

def uses(root):
    seen, todo = set(), [root]
    while todo:
        x = todo.pop()
        if x in seen: continue
        seen.add(x)
        for _, ids in ITEMS.get(x, []): todo += [i for i in ids if i in ITEMS and i not in seen]
    return seen

def sync():
    for d in ('', '/theories'):
        os.makedirs(SCR + d, exist_ok=True)
        want = {e.name: e.stat() for e in os.scandir(SRC + d) if e.is_file()}
        have = {e.name: e.stat() for e in os.scandir(SCR + d) if e.is_file()}
        for n in have:
            if n not in want: os.remove(SCR + d + '/' + n)
        for n, st in want.items():
            if n not in have or have[n].st_mtime_ns != st.st_mtime_ns or have[n].st_size != st.st_size: shutil.copy2(SRC + d + '/' + n, SCR + d + '/' + n)

def run(mut):
    sync()
    path = os.path.join(SCR, 'theories', mut['file']); src = open(path).read()
    if src.count(mut['old']) != 1: return {'error': 'pattern occurs %d times' % src.count(mut['old'])}
    open(path, 'w').write(src.replace(mut['old'], mut['new']))
    cid = re.search(r'C\d+', mut['claim']).group(0)
    tg = sorted(set(m for m, _ in CL[cid]))
    try:
        r = subprocess.run('timeout %d make -j%s COQEXTRAFLAGS="-set \'Default Timeout=150\'" %s 2>&1' % (TMO, os.environ.get('MUT_J', '2'), ' '.join('theories/%s.vo' % t for t in tg)), shell=True, cwd=SCR, capture_output=True, text=True)
    except Exception as e: return {'error': str(e)}
    if r.returncode == 0: return {'theorems_failed': [], 'survived': True}
    e = re.search(r'File "([^"]+)", line (\d+), characters [^\n]*:\s*\n(?:Error|In env)', r.stdout)
    if not e: return {'error': r.stdout[-800:]}
    if r.stdout[e.end():].lstrip(':').strip().startswith('Timeout'): return {'error': 'timeout: ' + e.group(0)}
    f, ln = e.group(1).lstrip('./'), int(e.group(2)); s = open(os.path.join(SCR, f)).read()
    if os.path.basename(f) == mut['file']:
        pos0 = sum(len(l) + 1 for l in s.split('\n')[:ln])
        kinds = [m for m in START.finditer(s) if m.start() <= pos0]
        if not kinds or kinds[-1].group(1) not in ('Lemma', 'Theorem', 'Example'): return {'error': 'ill-typed edit: ' + r.stdout[-600:]}
    pos = sum(len(l) + 1 for l in s.split('\n')[:ln]); ms = [m for m in START.finditer(s) if m.start() < pos]; name = ms[-1].group(2)
    failed = sorted(n for _, n in CL[cid] if n == name or name in uses(n))
    return {'first_failure': os.path.basename(f)[:-2] + '.' + name, 'theorems_failed': failed}

if __name__ == '__main__':
    done = set()
    if os.path.exists(sys.argv[2]): done = set((json.loads(l)['file'], json.loads(l)['definition'], json.loads(l)['edit']) for l in open(sys.argv[2]))
    for mut in json.load(open(sys.argv[1])):
        if (mut['file'], mut['definition'], mut['edit']) in done: continue
        rec = {'file': mut['file'], 'definition': mut['definition'], 'edit': mut['edit'], 'claim': mut['claim'], **run(mut)}
        open(sys.argv[2], 'a').write(json.dumps(rec) + '\n'); print(json.dumps(rec)[:300], flush=True)

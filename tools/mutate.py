#!/usr/bin/env python3
"""Seed a wrong program into a scratch copy of the model and see which theorems notice.

usage: mutate.py mutations.json   (list of {"file","old","new","definition","edit","claim"})

For each mutation: copy rocq/ to a scratch directory, apply the edit, rebuild; whenever a proof fails
replace it by Admitted (in the scratch copy only) and go on.  A property theorem Cnn_... "fails" when
its Print Assumptions then mentions one of the admitted lemmas (or the theorem itself fails).
Prints one JSON object per mutation, and appends it to the file given by --out."""
import json, os, re, shutil, subprocess, sys, glob
SCR = os.environ.get('MUT_DIR', '/tmp/mut')
SRC = os.environ.get('MUT_SRC', '/verif/rocq')
TARGETS = os.environ.get('MUT_TARGETS', '').split()  # property modules to rebuild, default all
START = re.compile(r'^\s*(?:Local |Global |#\[[^\]]*\]\s*)?(Lemma|Theorem|Example|Corollary|Fact|Remark|Program Definition|Definition|Fixpoint|Instance|Global Instance)\s+([A-Za-z0-9_\']+)', re.M)

def sync():
    os.makedirs(SCR, exist_ok=True)
    subprocess.run(['rsync', '-a', '--delete', SRC + '/', SCR + '/'], check=False) if shutil.which('rsync') else (shutil.rmtree(SCR), subprocess.run(['cp', '-a', SRC, SCR], check=True))
    subprocess.run('coq_makefile -f _CoqProject -o Makefile', shell=True, cwd=SCR, stdout=subprocess.DEVNULL)

def build():
    r = subprocess.run('timeout 3000 make -k -j%s COQEXTRAFLAGS="-set \'Default Timeout=150\'" %s 2>&1' % (os.environ.get('MUT_J', '3'), ' '.join('theories/%s.vo' % t for t in TARGETS)), shell=True, cwd=SCR, capture_output=True, text=True)
    return r.returncode, r.stdout

def patch(errs, admitted, dropped):
    byfile = {}
    for f, ln in errs: byfile.setdefault(f, set()).add(ln)
    for f, lns in byfile.items():
        path = os.path.join(SCR, f); src = open(path).read()
        for ln in sorted(lns, reverse=True):
            lines = src.split('\n'); pos = sum(len(l) + 1 for l in lines[:ln - 1]) + len(lines[ln - 1])
            ms = [m for m in START.finditer(src) if m.start() <= pos]
            if not ms: return False
            m = ms[-1]; q = re.compile(r'\b(Qed|Defined|Admitted)\.').search(src, m.start())
            p = re.compile(r'\bProof\b[^.]*\.').search(src, m.start())
            name = os.path.basename(f)[:-2] + '.' + m.group(2)
            if not q or not p or p.start() > q.start(): return False
            if name in admitted or pos < p.start():
                if name in dropped: return False
                dropped.append(name); src = src[:m.start()] + src[q.end():]
            else:
                admitted.append(name); src = src[:p.end()] + ' Admitted.' + src[q.end():]
        open(path, 'w').write(src)
    return True

def run(mut):
    sync()
    path = os.path.join(SCR, 'theories', mut['file']); src = open(path).read()
    if src.count(mut['old']) < 1: return {'error': 'pattern not found'}
    if src.count(mut['old']) > 1 and not mut.get('all'): return {'error': 'pattern not unique'}
    open(path, 'w').write(src.replace(mut['old'], mut['new']))
    admitted, dropped, out = [], [], ''
    for _ in range(60):
        rc, out = build()
        if rc == 0: break
        errs = set((f.lstrip('./'), int(l)) for f, l in re.findall(r'File "([^"]+)", line (\d+), characters [^\n]*:\s*\n(?:Error|In env)', out))
        if not errs or not patch(errs, admitted, dropped): return {'error': out[-1500:], 'admitted': admitted}
    # which property theorems depend on admitted lemmas
    failed, kept = [], []
    short = set(a.split('.')[1] for a in admitted); gone = set(a.split('.')[1] for a in dropped)
    for pf in sorted(glob.glob(SCR + '/theories/*Props.v')):
        t = open(pf).read(); mod = os.path.basename(pf)[:-2]
        if TARGETS and mod not in TARGETS: continue
        names = re.findall(r'^Theorem (C\d+_\w+)', t, re.M)
        names0 = re.findall(r'^Theorem (C\d+_\w+)', open(SRC + '/theories/' + mod + '.v').read(), re.M)
        failed += [n for n in names0 if n not in names]
        if not names: continue
        q = 'From Verif Require Import %s.\n' % mod + ''.join('Check 0. Print Assumptions %s.%s.\n' % (mod, n) for n in names)
        open(SCR + '/mutq.v', 'w').write(q)
        r = subprocess.run('coqc -Q theories Verif mutq.v', shell=True, cwd=SCR, capture_output=True, text=True).stdout
        parts = r.split('0\n     : nat\n')[1:]
        for n, p in zip(names, parts):
            ax = set(re.findall(r'^([A-Za-z0-9_.\']+)\s*:', p, re.M)) | set(re.findall(r'^([A-Za-z0-9_.\']+)$', p, re.M))
            if any(a.split('.')[-1] in short or a.split('.')[-1] == n for a in ax): failed.append(n)
            else: kept.append(n)
    return {'admitted': admitted, 'dropped': dropped, 'theorems_failed': sorted(set(failed))}

if __name__ == '__main__':
    muts = json.load(open(sys.argv[1])); outp = sys.argv[2] if len(sys.argv) > 2 else None
    for mut in muts:
        r = run(mut)
        rec = {'file': mut['file'], 'definition': mut['definition'], 'edit': mut['edit'], 'claim': mut['claim'], **r}
        s = json.dumps(rec); print(s, flush=True)
        if outp: open(outp, 'a').write(s + '\n')

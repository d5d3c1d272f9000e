#!/usr/bin/env python3
"""Generate rocq/theories/<Name>Props.v from tools/props/<Name>.spec.

Spec lines:
  @import A B C        modules of Verif to import (also searched for the statements)
  @scope R|nat         open this scope for the following statements
  @require X           extra Require Import of the standard library
  Cnn_name = lemma     restate [lemma] as Theorem Cnn_name
  ?Cnn_name = lemma    restate as Example
  # text               comment placed before the next item
"""
import re, sys, os
root = os.path.dirname(os.path.dirname(os.path.abspath(__file__)))
def stmt(mods, name):
    for m in mods:
        p = os.path.join(root, 'rocq/theories', m + '.v')
        if not os.path.exists(p): continue
        t = open(p).read()
        r = re.search(r'^\s*(?:Lemma|Theorem|Example|Corollary|Fact|Remark) %s\s*:(.*?)\.\s*\n?\s*Proof\b' % re.escape(name), t, re.M | re.S)
        if r: return r.group(1).strip()
    raise SystemExit('no statement for ' + name)
def gen(spec):
    name = os.path.basename(spec)[:-5]
    mods, req, out, com = [], [], [], []
    for line in open(spec):
        line = line.rstrip()
        if not line: continue
        if line.startswith('@import'): mods += line.split()[1:]
        elif line.startswith('@require'): req += line.split()[1:]
        elif line.startswith('@scope'): out.append('Local Open Scope %s_scope.\n' % line.split()[1])
        elif line.startswith('#'): com.append(line[1:].strip())
        else:
            ex = line.startswith('?')
            a, b = [s.strip() for s in line.lstrip('?').split('=')]
            if com: out.append('(** %s *)' % '\n    '.join(com)); com = []
            out.append('%s %s : %s.\nProof. exact %s. Qed.' % ('Example' if ex else 'Theorem', a, stmt(mods, b), b))
            if not ex: out.append('Print Assumptions %s.' % a)
            out.append('')
    head = '(** Generated by tools/mkprops.py from tools/props/%s.spec: the property theorems. *)\n' % name
    if 'String' in req:                                   # before List, for length and concat
        req.remove('String')
        head += 'Require Import String.\n'
    head += 'Require Import Reals List Bool Arith ZArith%s.\n' % (' ' + ' '.join(req) if req else '')
    head += 'From Verif Require Import %s.\nImport ListNotations.\nLocal Open Scope R_scope.\n\n' % ' '.join(mods)
    open(os.path.join(root, 'rocq/theories', name + '.v'), 'w').write(head + '\n'.join(out))
for s in sys.argv[1:]: gen(s)

#!/usr/bin/env python3
"""Generate rocq/theories/Prop*.v from the lemma files.

In a lemma file X.v (X starting with P) a line

    (*@ C05_name *)

directly before a `Lemma foo : stmt. Proof. ... Qed.` makes
`Theorem C05_name : stmt. Proof. exact foo. Qed. Print Assumptions C05_name.`
appear in PropX.v.  An optional doc comment `(** ... *)` right after the marker is copied.
Lemmas marked (*@ex name *) become `Example name` in the same way.
"""
import re, sys, os, glob
here = os.path.join(os.path.dirname(os.path.abspath(__file__)), '..', 'rocq', 'theories')
mods = []
allth = []
for f in sorted(glob.glob(os.path.join(here, 'P*.v'))):
    base = os.path.basename(f)[:-2]
    if base.startswith('Prop'):
        continue
    s = open(f).read()
    marks = list(re.finditer(r'\(\*@(ex)? (\w+) \*\)\n', s))
    if not marks:
        continue
    head = s[:s.index('\n\n', s.index('From '))] if False else ''
    # header: all Import / Scope / Existing Instance lines at the start of lines before the first Lemma
    first = re.search(r'^(Lemma|Ltac|Definition|Section|Fixpoint|Record|Inductive|Theorem|Example|Notation)\b', s, re.M).start()
    hdr = []
    for para in re.finditer(r'^(From .*?\.|Import .*?\.|Local Open Scope .*?\.|#\[local\] Existing Instance .*?\.)(?=\n)', s[:first], re.M | re.S):
        hdr.append(para.group(1))
    out = ['(** GENERATED by tools/gen_props.py from %s.v: the property theorems only. *)' % base] + hdr
    out.append('From Verif Require Import %s.' % base)
    out.append('')
    for m in marks:
        ex, name = m.group(1), m.group(2)
        rest = s[m.end():]
        mm = re.match(r'(\(\*\*(?:(?!\*\)).)*\*\)\n)?(?:Lemma|Example) (\w+) ?:((?:(?!\n(?:Lemma|Example|Qed)\b).)*?)\.\nProof\.', rest, re.S)
        if not mm:
            sys.exit('bad marker %s in %s' % (name, base))
        doc, lem, stmt = mm.group(1) or '', mm.group(2), mm.group(3)
        kind = 'Example' if ex else 'Theorem'
        out.append('%s%s %s :%s.\nProof. exact %s. Qed.' % (doc, kind, name, stmt, lem))
        if not ex:
            out.append('Print Assumptions %s.' % name)
            allth.append(name)
        out.append('')
    pm = 'Prop' + base[1:]
    txt = '\n'.join(out)
    path = os.path.join(here, pm + '.v')
    if not os.path.exists(path) or open(path).read() != txt:
        open(path, 'w').write(txt)
    mods.append(pm)
if '-l' in sys.argv:
    print('\n'.join(allth))

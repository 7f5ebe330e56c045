#!/usr/bin/env python3
"""Print, as Markdown, which axioms each property theorem depends on (needs a finished build)."""
import re, glob, os, subprocess, tempfile, collections
th = os.path.join(os.path.dirname(os.path.abspath(__file__)), '..', 'rocq', 'theories')
names = []
mods = []
for f in sorted(glob.glob(os.path.join(th, 'Prop*.v'))):
    m = os.path.basename(f)[:-2]
    mods.append(m)
    names += [(m, n) for n in re.findall(r'^Theorem (C\d\d_\w+)', open(f).read(), re.M)]
src = ''.join('From Verif Require %s.\n' % m for m in mods)
src += ''.join('Print Assumptions %s.%s.\n' % x for x in names)
d = tempfile.mkdtemp()
open(os.path.join(d, 'x.v'), 'w').write(src)
out = subprocess.run(['coqc', '-Q', th, 'Verif', os.path.join(d, 'x.v')], capture_output=True, text=True).stdout
parts = re.split(r'^(?=Closed under|Axioms:)', out, flags=re.M)[1:]
assert len(parts) == len(names), (len(parts), len(names))
groups = collections.OrderedDict()
for (m, n), p in zip(names, parts):
    ax = tuple(sorted(re.findall(r'^([\w.]+)\s*:', p, re.M))) if p.startswith('Axioms') else ()
    ax = tuple(a for a in ax if a != 'Axioms')
    groups.setdefault(ax, []).append(n)
for ax, ns in sorted(groups.items(), key=lambda kv: len(kv[0])):
    print('* **' + (', '.join('`%s`' % a for a in ax) if ax else 'closed under the global context (no axiom)') + '** — %d theorems: ' % len(ns) + ', '.join(sorted(ns)) + '.')

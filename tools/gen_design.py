#!/usr/bin/env python3
"""Assemble DESIGN.md from tools/design_head.md, design_plan.json, properties.jsonl, MANIFEST.json,
assumptions (tools/assumptions.py) and tools/design_tail.md."""
import json, os, subprocess, sys
t = os.path.dirname(os.path.abspath(__file__)); v = os.path.dirname(t)
plan = json.load(open(os.path.join(t, 'design_plan.json')))
props = [json.loads(l) for l in open(os.path.join(v, 'properties.jsonl')) if l.strip()]
man = {c['property']: c for c in json.load(open(os.path.join(v, 'MANIFEST.json')))['claims']}
out = [open(os.path.join(t, 'design_head.md')).read().rstrip(), '']
out += ['## 3. Plan per property', '', '| id | property | modelled | proved by | theorems |', '|---|---|---|---|---|']
for p in props:
    m, h = plan.get(p['id'], ['', ''])
    c = man.get(p['id'], {'status': '-', 'theorems': []})
    out.append('| %s | %s | %s | %s | %d (%s) |' % (p['id'], p['title'].replace('|', '/'), m, h, len(c['theorems']), c['status']))
out += ['', open(os.path.join(t, 'design_tail.md')).read().rstrip(), '']
asm = subprocess.run([sys.executable, os.path.join(t, 'assumptions.py')], capture_output=True, text=True).stdout
out += ['## 6. What Print Assumptions lists for each theorem', '', asm.rstrip(), '']
open(os.path.join(v, 'DESIGN.md'), 'w').write('\n'.join(out))

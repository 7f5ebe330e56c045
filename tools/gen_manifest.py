#!/usr/bin/env python3
"""Write MANIFEST.json: theorems are collected by name prefix, status and note from the table below."""
import json, os, re, subprocess, sys
here = os.path.dirname(os.path.abspath(__file__))
names = subprocess.run([sys.executable, os.path.join(here, 'gen_props.py'), '-l'], capture_output=True, text=True).stdout.split()
notes = json.load(open(os.path.join(here, 'notes.json')))
claims = []
for l in open(os.path.join(here, '..', 'properties.jsonl')):
    pid = json.loads(l)['id']
    th = [n for n in names if n.startswith(pid + '_')]
    if pid not in notes:
        if th:
            sys.stderr.write('no note for %s (%d theorems)\n' % (pid, len(th)))
        continue
    st, note = notes[pid]
    if st != 'not_applicable' and not th:
        sys.stderr.write('no theorem for %s\n' % pid)
        continue
    claims.append({'property': pid, 'status': st, 'theorems': th, 'note': note})
with open(os.path.join(here, '..', 'MANIFEST.json'), 'w') as f:
    f.write('{"claims": [\n' + ',\n'.join('  ' + json.dumps(c) for c in claims) + '\n]}\n')

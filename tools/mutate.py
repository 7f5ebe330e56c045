#!/usr/bin/env python3
"""Seeded-bug runs: apply one edit to a model file in a scratch copy, rebuild, and list the property
theorems that no longer hold.  A failing lemma is replaced by Admitted so that the rest of the file is
still checked; a property theorem counts as failed if its Print Assumptions lists an admitted lemma.

usage: mutate.py mutations.json [-o LOG.jsonl]
mutations.json: [{"file": "MPoint.v", "def": "...", "old": "...", "new": "...", "claim": "C02 ..."}]
"""
import json, os, re, shutil, subprocess, sys, tempfile, time
here = os.path.dirname(os.path.abspath(__file__))
src = os.environ.get('MUT_SRC', os.path.join(here, '..', 'rocq'))
LEM = re.compile(r'^(?:#\[[^\]]*\]\s*)?(?:Lemma|Theorem|Example|Corollary|Remark|Fact)\s+(\w+)', re.M)

def admit_at(path, line):
    """Replace the proof of the lemma around the line by Admitted; return its name."""
    s = open(path).read()
    pos = sum(len(l) + 1 for l in s.split('\n')[:line - 1])
    best = None
    for m in LEM.finditer(s):
        if m.start() <= pos:
            best = m
    if best is None:
        return None
    m = re.compile(r'\bProof\b.*?\.(?=\s)').search(s, best.start())
    q = re.compile(r'\b(?:Qed|Defined|Admitted)\.').search(s, best.start())
    if not q:
        return None
    a = m.start() if m and m.start() < q.start() else q.start()
    if 'Admitted' == s[q.start():q.start()+8]:
        return None
    s = s[:a] + 'Admitted.' + '\n' * s[a:q.end()].count('\n') + s[q.end():]
    open(path, 'w').write(s)
    return best.group(1)

def run(mu):
    d = tempfile.mkdtemp(prefix='mut', dir='/tmp')
    t0 = time.time()
    try:
        w = os.path.join(d, 'rocq')
        shutil.copytree(src, w)
        th = os.path.join(w, 'theories')
        f = os.path.join(th, mu['file'])
        s = open(f).read()
        n = s.count(mu['old'])
        if n != 1:
            return {'error': 'old text occurs %d times' % n}
        open(f, 'w').write(s.replace(mu['old'], mu['new']))
        admitted, out = {}, ''
        for _ in range(120):
            p = subprocess.run("make -k -j3 COQC='timeout -s INT 600 coqc'", shell=True, cwd=w, capture_output=True, text=True)
            out += p.stdout
            if p.returncode == 0:
                break
            errs = set(re.findall(r'File "\./(theories/\w+\.v)", line (\d+)', p.stderr))
            prog = False
            # later lines first, so that line numbers stay valid
            for fn, ln in sorted(errs, key=lambda e: -int(e[1])):
                nm = admit_at(os.path.join(w, fn), int(ln))
                if nm:
                    prog = True
                    admitted.setdefault(os.path.basename(fn), []).append(nm)
            if not prog:
                return {'error': 'build does not recover: ' + p.stderr[-600:], 'admitted': admitted}
        names = {x for v in admitted.values() for x in v}
        failed = []
        # Print Assumptions output: rebuild every Prop file to get it
        for fn in sorted(os.listdir(th)):
            vo = os.path.join(th, fn + 'o')
            # a Prop file that was not rebuilt does not depend on the edit
            if re.match(r'Prop\w+\.v$', fn) and not (os.path.exists(vo) and os.path.getmtime(vo) < t0):
                t = open(os.path.join(th, fn)).read()
                thms = re.findall(r'^Print Assumptions (\w+)\.', t, re.M)
                p = subprocess.run('coqc -q -Q . Verif %s' % fn, shell=True, cwd=th, capture_output=True, text=True)
                chunks = re.split(r'^(?=Axioms:|Closed under)', p.stdout, flags=re.M)[1:]
                if len(chunks) != len(thms):
                    failed.append('?' + fn)
                    continue
                for a, b in zip(thms, chunks):
                    used = {x.split('.')[-1] for x in re.findall(r'^([\w.]+)\s*(?=:|$)', b, re.M)}
                    if a in names or used & names:
                        failed.append(a)
        return {'failed': sorted(failed), 'lemmas': admitted}
    finally:
        shutil.rmtree(d, ignore_errors=True)

def main():
    log = sys.argv[sys.argv.index('-o') + 1] if '-o' in sys.argv else None
    for mu in json.load(open(sys.argv[1])):
        r = run(mu)
        pid = mu['claim'].split()[0]
        hit = [t for t in r.get('failed', []) if t.startswith(pid + '_')]
        e = {'definition': mu['file'] + ': ' + mu['def'], 'edit': mu['old'] + '  ==>  ' + mu['new'], 'claim': mu['claim'],
             'theorems_failed': r.get('failed', []), 'tightened': mu.get('tightened', [])}
        if 'error' in r:
            e['error'] = r['error']
        print('%-4s %s %s: %d failed, own: %s %s' % ('OK' if hit else 'MISS', pid, mu['def'], len(r.get('failed', [])), hit, r.get('error', '')), flush=True)
        if log:
            with open(log, 'a') as f:
                f.write(json.dumps(e) + '\n')
if __name__ == '__main__':
    main()

#!/usr/bin/env python3
"""Test the theorems against a wrong program.

usage: seed.py WORKDIR SPEC.json
SPEC.json: {"file": "Ops.v", "old": "...", "new": "...", "definition": "...", "edit": "...", "claim": "C12 ..."}

Copies rocq/ to WORKDIR, applies the edit to the model, and recompiles every
file.  A proof that no longer goes through is cut off (in the scratch copy only)
so that the rest can be compiled; a property theorem counts as failed when its
own proof broke or when it depends on a broken one (Print Assumptions), and as
surviving when it is still closed under the global context.  Prints one JSON
line."""
import sys, os, re, json, subprocess, shutil
root = os.path.dirname(os.path.dirname(os.path.abspath(__file__)))
work, spec = sys.argv[1], json.load(open(sys.argv[2]))
if os.path.exists(work): shutil.rmtree(work)
shutil.copytree(os.path.join(root, 'rocq'), work)
files = [l.strip() for l in open(os.path.join(work, '_CoqProject')) if l.strip().startswith('theories/')]
target = 'theories/' + spec['file']
p = os.path.join(work, target)
s = open(p).read()
assert s.count(spec['old']) == 1, 'pattern occurs %d times' % s.count(spec['old'])
open(p, 'w').write(s.replace(spec['old'], spec['new']))
deps = {}
for f in files:
    t = open(os.path.join(work, f)).read()
    deps[f] = set('theories/%s.v' % m for b in re.findall(r'From Verif Require Import([^.]*)\.', t) for m in b.split())
dirty = set()
broken = []
thm = re.compile(r'(?:#\[[^\]]*\]\s*)?(?:Lemma|Theorem|Example|Corollary|Remark|Fact)\s+(\w+)')
def enclosing(text, pos):
    best = None
    for m in thm.finditer(text):
        if m.start() <= pos: best = m
        else: break
    return best
for f in files:
    if not (f == target or deps[f] & dirty): continue
    dirty.add(f)
    if f.endswith('Properties.v'): break
    while True:
        try:
            r = subprocess.run(['prlimit', '--as=6000000000', 'timeout', '240', 'coqc', '-time', '-Q', 'theories', 'Verif', f], cwd=work, capture_output=True, text=True)
        except Exception as e: print(e); sys.exit(1)
        if r.returncode == 0: break
        text = open(os.path.join(work, f)).read()
        m = re.search(r'line (\d+), characters (\d+)', r.stderr)
        if r.returncode == 124 or m is None:      # out of time or memory
            last = re.findall(r'Chars (\d+) - (\d+)', r.stdout)
            pos = int(last[-1][1]) + 1 if last else 0
        else:
            line = int(m.group(1)); pos = sum(len(x) + 1 for x in text.split('\n')[:line - 1]) + int(m.group(2))
        e = enclosing(text, pos)
        if e is None:
            print(json.dumps({'error': 'cannot recover in %s: %s' % (f, r.stderr[:400])})); sys.exit(1)
        rest = text[e.start():]
        q = re.search(r'\b(Qed|Defined|Admitted)\.', rest)
        body = rest[:q.end()]
        pm = re.search(r'\bProof\.', body)
        name = e.group(1)
        if pos > e.start() + q.end():
            print(json.dumps({'error': 'error outside a proof in %s: %s' % (f, r.stderr[:600])})); sys.exit(1)
        broken.append(name)
        if body.endswith('Admitted.') or pm is None or pos < e.start() + pm.start():
            new = '(* removed: statement no longer typechecks *)'
        else:
            new = body[:pm.start()] + 'Proof. Admitted.'
        open(os.path.join(work, f), 'w').write(text[:e.start()] + new + rest[q.end():])
# the property theorems: Print Assumptions of the lower-case originals
names = [n for c in json.load(open(os.path.join(root, 'MANIFEST.json')))['claims'] for n in c['theorems']]
pt = open(os.path.join(work, 'theories/Properties.v')).read()
hdr = pt[:pt.index('Local Open Scope')]
q = hdr + ''.join('Print Assumptions %s.\n' % ('c' + n[1:]) for n in names)
open(os.path.join(work, 'Q.v'), 'w').write(q)
removed = set()
failed, survive = [], []
# query one by one is slow; do all, dropping names that do not exist
while True:
    todo = [n for n in names if n not in removed]
    open(os.path.join(work, 'Q.v'), 'w').write(hdr + ''.join('Print Assumptions %s.\n' % ('c' + n[1:]) for n in todo))
    r = subprocess.run(['coqc', '-Q', 'theories', 'Verif', 'Q.v'], cwd=work, capture_output=True, text=True)
    if r.returncode == 0: break
    m = re.search(r'[Tt]he reference (\w+) was not found', r.stderr)
    if not m: print(json.dumps({'error': r.stderr[:400]})); sys.exit(1)
    removed.add('C' + m.group(1)[1:])
outs = re.findall(r'^(Closed under the global context|Axioms:)', r.stdout, flags=re.M)
assert len(outs) == len(todo), (len(outs), len(todo))
for n, o in zip(todo, outs): (survive if o.startswith('Closed') else failed).append(n)
failed += sorted(removed)
res = {k: spec[k] for k in ('definition', 'edit', 'claim')}
res['broken_proofs'] = broken
res['theorems_failed'] = sorted(failed)
res['survived'] = sorted(survive)
print(json.dumps(res))

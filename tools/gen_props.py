#!/usr/bin/env python3
"""Regenerate rocq/theories/Properties.v from the theorems named cNN_* in the
Thm*.v files, and MANIFEST.json from tools/status.json.

Every property theorem is restated verbatim and closed with `exact <lemma>`,
followed by Print Assumptions, so that Properties.v is the single place where
the final statements can be read."""
import re, json, glob, os, collections
root = os.path.dirname(os.path.dirname(os.path.abspath(__file__)))
th = os.path.join(root, 'rocq', 'theories')
order = [l.strip() for l in open(os.path.join(root, 'rocq', '_CoqProject')) if l.strip().startswith('theories/Thm')]
mods = [os.path.basename(x)[:-2] for x in order]
out = []
names = collections.OrderedDict()
for m in mods:
    s = open(os.path.join(th, m + '.v')).read()
    for mt in re.finditer(r'((?:\(\*\*(?:(?!\*\)).)*?\*\)\n)?)Theorem (c(\d\d)_\w+)(.*?)\nProof\.', s, flags=re.S):
        doc, name, num, stmt = mt.group(1), mt.group(2), mt.group(3), mt.group(4)
        if doc.startswith('(** *'): doc = ''
        names.setdefault('C' + num, []).append((name, doc, stmt, m))
pre = '''(** Properties.v -- GENERATED by tools/gen_props.py from the Thm*.v files.

    The property theorems and nothing else: each is closed by the lemma of the
    same name (lower case) and followed by Print Assumptions. *)

From Coq Require Import ZArith List Bool Permutation Sorted.
From Verif Require Import Base StorageOrder Ranges Layout Access Objects Memory Ops MultiArray Handles Threads Const Algorithms UserCode History Stored Calls Strict Shared Torn Quota Concur Fork Lock
  Spec ViewSpec ReachSpec %s.
Import ListNotations.
Local Open Scope Z_scope.
'''
allmods = [os.path.basename(l.strip())[:-2] for l in open(os.path.join(root, 'rocq', '_CoqProject')) if l.strip().startswith('theories/')]
extra = [m for m in allmods if (m.endswith('Spec') or m.startswith('Hist')) and not m.endswith('Proofs') and m not in ('Spec', 'ViewSpec', 'ReachSpec')]
body = pre % ' '.join(extra + mods)
titles = {}
for l in open(os.path.join(root, 'properties.jsonl')):
    d = json.loads(l); titles[d['id']] = d['title']
for c in sorted(names):
    body += '\n(** * %s -- %s *)\n' % (c, titles.get(c, ''))
    for name, doc, stmt, m in names[c]:
        N = 'C' + name[1:]
        body += '\n%sTheorem %s%s\nProof. exact %s. Qed.\nPrint Assumptions %s.\n' % (doc, N, stmt, name, N)
open(os.path.join(th, 'Properties.v'), 'w').write(body)
st = json.load(open(os.path.join(root, 'tools', 'status.json')))
claims = []
for c in sorted(titles):
    e = st.get(c, {})
    th_names = ['C' + n[0][1:] for n in names.get(c, [])]
    claims.append({'property': c, 'status': e.get('status', 'proved' if th_names else 'partial'),
                   'theorems': th_names, 'note': e.get('note', '')})
json.dump({'claims': claims}, open(os.path.join(root, 'MANIFEST.json'), 'w'), indent=1)
print({c: len(names.get(c, [])) for c in titles})

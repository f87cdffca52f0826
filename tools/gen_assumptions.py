#!/usr/bin/env python3
"""Rewrites the section of DESIGN.md between the ASSUMPTIONS markers with what
Print Assumptions lists for every theorem of rocq/theories/Prop_*.v (which must
be compiled). Axioms are abbreviated by the letters of LETTERS."""
import glob, os, re, subprocess, tempfile
root = os.path.abspath(os.path.join(os.path.dirname(os.path.abspath(__file__)), '..'))
th = os.path.join(root, 'rocq', 'theories')
LETTERS = {'ClassicalDedekindReals.sig_forall_dec': 'F', 'ClassicalDedekindReals.sig_not_dec': 'N',
           'FunctionalExtensionality.functional_extensionality_dep': 'X', 'Classical_Prop.classic': 'C'}
src = ['From Coq Require Import String.']
names = []
for f in sorted(glob.glob(os.path.join(th, 'Prop_*.v'))):
    b = os.path.basename(f)[:-2]
    src.append(f'From Verif Require {b}.')
    names += [(b, m.group(1)) for m in re.finditer(r'^Theorem\s+(C\d\d_\w+)', open(f).read(), re.M)]
src += [f'Eval compute in "@@{n}"%string. Print Assumptions {b}.{n}.' for b, n in names]
with tempfile.TemporaryDirectory() as d:
    open(os.path.join(d, 'pa.v'), 'w').write('\n'.join(src))
    out = subprocess.run(['coqc', '-Q', th, 'Verif', 'pa.v'], cwd=d, capture_output=True, text=True).stdout
parts = re.split(r'= "@@(\w+)"%string', out)[1:]
got = {}
for n, b in zip(parts[::2], parts[1::2]):
    if 'Closed under the global context' in b:
        got[n] = '-'
    else:
        ax = set(re.findall(r'^([A-Z][\w.]*\w)\s*(?::|$)', b, re.M)) - {'Axioms'}
        got[n] = ''.join(sorted(LETTERS[a] for a in ax))
assert len(got) == len(names), (len(got), len(names))
rows = {}
for _, n in names:
    rows.setdefault(n[:3], []).append(n)
lines = ['| Property | Theorems and axioms used |', '|---|---|']
for c in sorted(rows):
    lines.append('| %s | %s |' % (c, ', '.join('`%s` %s' % (n[4:], got[n]) for n in rows[c])))
p = os.path.join(root, 'DESIGN.md')
s = open(p).read()
a, b = '<!-- ASSUMPTIONS -->', '<!-- END ASSUMPTIONS -->'
i, j = s.index(a) + len(a), s.index(b)
open(p, 'w').write(s[:i] + '\n' + '\n'.join(lines) + '\n' + s[j:])
print(len(names), 'theorems')

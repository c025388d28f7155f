#!/usr/bin/env python3
"""Writes AXIOMS.md: the output of Print Assumptions for every theorem of MANIFEST.json.
Needs a built rocq/ directory. For each Props file a scratch file is compiled that imports it and
prints the assumptions of its theorems, separated by the theorem's name."""
import re, json, glob, os, subprocess, sys, tempfile
root = os.path.dirname(os.path.dirname(os.path.abspath(__file__)))
rows = []; only = sys.argv[1:]   # with arguments: renew the rows of these Props files only
if only:
    old = open(root + '/AXIOMS.md').read(); full = dict(re.findall(r'^\* (A\d+) = `([^`]+)`', old, re.M))
    for t, m, ax in re.findall(r'^\| (C\d\d_\w+) \| (\w+) \| (.*) \|$', old, re.M):
        if m not in only: rows.append((t, m, () if ax.startswith('none') else tuple(full[a] for a in ax.split(', '))))
for f in sorted(glob.glob(root + '/rocq/theories/Props_*.v')):
    mod = os.path.basename(f)[:-2]
    if only and mod not in only: continue
    ts = re.findall(r'^Theorem\s+(C\d\d_\w+)', open(f).read(), re.M)
    d = tempfile.mkdtemp()
    src = 'From Verif Require Import %s.\n' % mod
    for t in ts:
        src += 'Fail Definition MARK_%s := tt tt.\n' % t if False else 'Definition MARK_%s := tt. Print MARK_%s.\nPrint Assumptions %s.%s.\n' % (t, t, mod, t)
    open(d + '/ax.v', 'w').write(src)
    out = subprocess.run(['coqc', '-Q', root + '/rocq/theories', 'Verif', d + '/ax.v'], capture_output=True, text=True).stdout
    parts = re.split(r'MARK_(C\d\d_\w+) = tt\n\s*: unit\n', out)
    for t, body in zip(parts[1::2], parts[2::2]):
        ax = tuple(sorted(re.findall(r'^([\w.]+)\s*:?', body, re.M))) if 'Closed under' not in body else ()
        ax = tuple(a for a in ax if a not in ('Axioms', 'Arguments'))
        rows.append((t, mod, ax))
rows.sort()
allax = sorted({a for r in rows for a in r[2]})
names = {a: 'A%d' % (i + 1) for i, a in enumerate(allax)}
with open(root + '/AXIOMS.md', 'w') as o:
    o.write('# What `Print Assumptions` lists for each theorem\n\nGenerated by tools/mkaxioms.py. Only axioms of the Coq standard library occur:\n\n')
    for a in allax: o.write('* %s = `%s`\n' % (names[a], a))
    o.write('\n| theorem | file | axioms |\n|---|---|---|\n')
    for t, m, ax in rows: o.write('| %s | %s | %s |\n' % (t, m, ', '.join(names[a] for a in ax) or 'none (closed)'))
print(len(rows), names)

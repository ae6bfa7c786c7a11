#!/usr/bin/env python3
"""Writes /verif/ASSUMPTIONS.md: what Print Assumptions says about each property theorem.  Run after a build of /verif/rocq."""
import glob, os, re, subprocess, tempfile
T = '/verif/rocq/theories/'
rows = []
for f in sorted(glob.glob(T + 'Props*.v')):
    mod = os.path.basename(f)[:-2]
    thms = re.findall(r'^Theorem (C\d+_\w+)', open(f).read(), re.M)
    if not thms:
        continue
    src = f'From Verif Require {mod}.\n' + ''.join(f'Print Assumptions {mod}.{t}.\n' for t in thms)
    with tempfile.TemporaryDirectory() as d:
        open(d + '/Ax.v', 'w').write(src)
        out = subprocess.run(['coqc', '-q', '-Q', T, 'Verif', d + '/Ax.v'], capture_output=True, text=True, check=True).stdout
    blocks = re.split(r'^(?=Closed under the global context|Axioms:)', out, flags=re.M)[1:]
    assert len(blocks) == len(thms), (mod, len(blocks), len(thms))
    for t, b in zip(thms, blocks):
        ax = sorted(set(re.findall(r'^([A-Za-z_][\w.]*)\s*$|^([A-Za-z_][\w.]*) :', b, re.M)))
        ax = sorted({x or y for x, y in ax} - {''})
        rows.append((t, mod, ', '.join(a.split('.')[-1] for a in ax) if ax else 'none'))
rows.sort()
with open('/verif/ASSUMPTIONS.md', 'w') as o:
    o.write('# What `Print Assumptions` lists for each property theorem\n\nGenerated by `tools/gen_assumptions.py`. The names are axioms of the standard library: '
            '`ClassicalDedekindReals.sig_forall_dec`, `ClassicalDedekindReals.sig_not_dec`, `FunctionalExtensionality.functional_extensionality_dep`, `Classical_Prop.classic`.\n\n'
            '| theorem | file | axioms |\n|---|---|---|\n')
    for r in rows:
        o.write('| %s | %s.v | %s |\n' % r)
import collections
print(len(rows), collections.Counter(r[2] for r in rows))

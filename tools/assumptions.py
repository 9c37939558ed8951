#!/usr/bin/env python3
"""Compile every *Props.v and write, per theorem, what Print Assumptions lists (ASSUMPTIONS.md)."""
import re, subprocess, glob, os, collections, tempfile
T = os.path.join(os.path.dirname(os.path.abspath(__file__)), '..', 'rocq', 'theories')
os.chdir(T)
by = collections.OrderedDict()
for f in sorted(glob.glob('*.v')):
    src = open(f).read()
    names = re.findall(r'^\s*Print Assumptions\s+([\w\']+)\s*\.', src, re.M)
    if not names: continue
    with tempfile.TemporaryDirectory() as d:
        out = subprocess.run(['coqc', '-w', 'none', '-Q', '.', 'Verif', '-o', os.path.join(d, f + 'o'), f], capture_output=True, text=True).stdout
    chunks = re.split(r'^(?=Closed under the global context|Axioms:)', out, flags=re.M)[1:]
    if len(chunks) != len(names):
        print('MISMATCH', f, len(chunks), len(names)); continue
    for n, c in zip(names, chunks):
        ax = () if c.startswith('Closed') else tuple(sorted(set(re.findall(r'^([\w\.]+)\s*:', c, re.M)) | set(re.findall(r'^([\w\.]+)$', c, re.M))))
        ax = tuple(a for a in ax if a != 'Axioms')
        by.setdefault(ax, []).append((n, f))
with open('../../ASSUMPTIONS.md', 'w') as o:
    o.write('# What `Print Assumptions` lists\n\nGenerated by tools/assumptions.py. All axioms are of the standard library.\n')
    for ax, l in sorted(by.items(), key=lambda x: len(x[0])):
        o.write('\n## ' + (', '.join('`%s`' % a for a in ax) if ax else 'Nothing (closed under the global context)') + '\n\n')
        for n, f in l: o.write('* %s (%s)\n' % (n, f))
print({k: len(v) for k, v in by.items()})

#!/usr/bin/env python3
"""Rewrites the list of assumptions at the end of DESIGN.md from the output of
Print Assumptions. Run after a complete build."""
import glob, os, re, subprocess, tempfile
root = os.path.dirname(os.path.dirname(os.path.abspath(__file__)))
th = os.path.join(root, 'rocq', 'theories')
groups, missing, n = {}, [], 0
for f in sorted(glob.glob(th + '/Props_*.v')):
    src = open(f).read()
    thms = re.findall(r'^Theorem (C\d\d_\w+)', src, re.M)
    asked = re.findall(r'^Print Assumptions (\w+)\.', src, re.M)
    missing += [t for t in thms if t not in asked]
    with tempfile.TemporaryDirectory() as d:
        p = subprocess.run(['coqc', '-Q', th, 'Verif', '-o', d + '/' + os.path.basename(f) + 'o', f], capture_output=True, text=True, cwd=d)
    parts = re.split(r'^(?=Closed under the global context|Axioms:)', p.stdout, flags=re.M)[1:]
    assert p.returncode == 0 and len(parts) == len(asked), (f, len(parts), len(asked), p.stderr)
    for t, a in zip(asked, parts):
        n += 1
        names = () if a.startswith('Closed') else tuple(sorted(re.findall(r'^([\w.]+)\s*\n?\s*:', a[8:], re.M)))
        groups.setdefault(names, []).append(t)
assert not missing, missing
out = ['%d theorems in `Props_*.v` are followed by `Print Assumptions`.' % n, '']
for names, ts in sorted(groups.items(), key=lambda e: len(e[0])):
    if names:
        out += ['These depend on ' + ', '.join('`%s`' % x for x in names) + ', all from the standard library (the classical reals):', '']
        out += ['* `%s`' % t for t in sorted(ts)] + ['']
    else:
        out += ['%d are "Closed under the global context": all that are not listed below.' % len(ts), '']
p = os.path.join(root, 'DESIGN.md')
s = open(p).read()
a, b = '<!-- assumptions -->', '<!-- end -->'
s = s[:s.index(a) + len(a)] + '\n' + '\n'.join(out) + s[s.index(b):]
open(p, 'w').write(s)

#!/usr/bin/env python3
"""Runs Print Assumptions on every theorem of MANIFEST.json (the tree must be built) and writes ASSUMPTIONS.md."""
import re, glob, json, os, subprocess
root = os.path.dirname(os.path.dirname(os.path.abspath(__file__)))
where = {}
for f in sorted(glob.glob(root + '/rocq/theories/**/*.v', recursive=True)):
    mod = 'Verif.' + os.path.relpath(f, root + '/rocq/theories')[:-2].replace('/', '.')
    for m in re.finditer(r'^(?:Theorem|Corollary)\s+(C\d\d[A-Za-z0-9_\']*)', open(f).read(), re.M):
        where[m.group(1)] = mod
names = [t for c in json.load(open(root + '/MANIFEST.json'))['claims'] for t in c['theorems']]
src = ''.join('Require %s.\n' % m for m in sorted(set(where.values())))
for t in names:
    src += 'Check "@@%s"%%string.\nPrint Assumptions %s.%s.\n' % (t, where[t], t)
src = 'Require Import String.\n' + src
p = subprocess.run(['coqtop', '-q', '-Q', 'theories', 'Verif'], cwd=root + '/rocq', input=src, capture_output=True, text=True, timeout=1500)
res = {}
for part in p.stdout.split('"@@')[1:]:
    name = part.split('"')[0]
    if 'Closed under the global context' in part:
        res[name] = ()
    else:
        ax = re.findall(r'^([A-Za-z_][\w.\']*)\s*(?::|$)', part.split('Axioms:')[1], re.M)
        res[name] = tuple(sorted(ax))
assert set(res) == set(names), set(names) - set(res)
groups = {}
for t in names:
    groups.setdefault(res[t], []).append(t)
out = ['# What `Print Assumptions` lists for each theorem', '',
       'Generated by tools/assumptions.py (coqtop over the built tree). All axioms are declared by the Coq standard library.', '']
for ax, ts in sorted(groups.items(), key=lambda kv: len(kv[0])):
    out.append('## ' + (', '.join('`%s`' % a for a in ax) if ax else 'Closed under the global context') + ' (%d theorems)' % len(ts))
    out.append('')
    by = {}
    for t in ts:
        by.setdefault(t[:3], []).append(t)
    for k in sorted(by):
        out.append('* ' + ', '.join(by[k]))
    out.append('')
open(root + '/ASSUMPTIONS.md', 'w').write('\n'.join(out))
print({k: len(v) for k, v in groups.items()})

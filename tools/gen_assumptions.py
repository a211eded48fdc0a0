#!/usr/bin/env python3
"""Lists what Print Assumptions says for every theorem of MANIFEST.json and writes it
between the markers at the end of DESIGN.md.  Needs a finished build."""
import json, re, subprocess, os, collections
R = '/verif/rocq'
man = json.load(open('/verif/MANIFEST.json'))
names = [t for c in man['claims'] for t in c['theorems']]
where = {}
for f in sorted(os.listdir(R + '/theories')):
    if f.endswith('.v'):
        for m in re.finditer(r'^\s*(?:Theorem|Lemma|Corollary|Proposition)\s+([\w\']+)', open(f'{R}/theories/{f}').read(), re.M):
            where.setdefault(m.group(1), f[:-2])
src = ''.join(f'From Verif Require {m}.\n' for m in sorted({where[n] for n in names}))
src += 'Goal True. idtac. exact I. Qed.\n'
for n in names:
    src += f'Check tt.\nPrint Assumptions {where[n]}.{n}.\n'
open('/tmp/assumptions.v', 'w').write(src)
out = subprocess.run(['coqc', '-Q', R + '/theories', 'Verif', '/tmp/assumptions.v'], capture_output=True, text=True)
assert out.returncode == 0, out.stderr
parts = re.split(r'^tt\s*\n\s*: unit\s*$', out.stdout, flags=re.M)[1:]
assert len(parts) == len(names), (len(parts), len(names))
groups = collections.OrderedDict()
for n, p in zip(names, parts):
    ax = tuple(sorted(set(re.findall(r'^([A-Za-z_][\w\'.]*)\s*$|^([A-Za-z_][\w\'.]*) :', p, re.M) and
        [a or b for a, b in re.findall(r'^([A-Za-z_][\w\'.]*)\s*$|^([A-Za-z_][\w\'.]*) :', p, re.M)])))
    ax = tuple(a for a in ax if a not in ('Axioms',))
    groups.setdefault(ax, []).append(n)
txt = ''
for ax, ns in sorted(groups.items(), key=lambda g: len(g[0])):
    txt += '\n**' + ('Closed under the global context (no axioms)' if not ax else ', '.join(f'`{a}`' for a in ax)) + f'** ({len(ns)} theorems):\n\n'
    by = collections.OrderedDict()
    for n in ns:
        by.setdefault(n.split('_')[0], []).append(n)
    for c, l in by.items():
        txt += '* ' + ', '.join(f'`{n}`' for n in l) + '\n'
D = '/verif/DESIGN.md'
s = open(D).read()
b, e = '<!-- assumptions -->', '<!-- end of assumptions -->'
assert b in s and e in s
s = s[:s.index(b) + len(b)] + '\n' + txt + '\n' + s[s.index(e):]
open(D, 'w').write(s)
print({k: len(v) for k, v in groups.items()})

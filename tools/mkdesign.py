#!/usr/bin/env python3
"""Refresh the generated part of DESIGN.md: the axioms that Print Assumptions lists for each property theorem.
Needs a built tree (rocq/theories/*.vo)."""
import glob, os, re, subprocess
R = '/verif/rocq/theories'
files = [os.path.basename(f)[:-2] for f in sorted(glob.glob(R + '/*.v'))]
names = []
for f in files:
    for n in re.findall(r'(?m)^(?:Theorem|Corollary)\s+(C\d+\w*)', open(f'{R}/{f}.v').read()):
        names.append((f, n))
src = ''.join(f'From Verif Require {f}.\n' for f in sorted({f for f, _ in names}))
src += ''.join(f'Print Assumptions Verif.{f}.{n}.\n' for f, n in names)
os.makedirs('/tmp/w', exist_ok=True)
open('/tmp/w/Assum.v', 'w').write(src)
out = subprocess.run(['coqc', '-Q', R, 'Verif', '/tmp/w/Assum.v'], capture_output=True, text=True).stdout
blocks = re.split(r'(?m)^(?=Closed under|Axioms:)', out)[1:]
assert len(blocks) == len(names), (len(blocks), len(names))
groups = {}
for (f, n), b in zip(names, blocks):
    ax = () if b.startswith('Closed') else tuple(sorted(set(re.findall(r'(?m)^([A-Za-z_][\w.]*)\s*:?', b.split('\n', 1)[1]))))
    groups.setdefault(ax, []).append(n)
txt = ''
for ax in sorted(groups, key=len):
    txt += f"**{', '.join('`'+a+'`' for a in ax) if ax else 'no axioms (closed under the global context)'}** ({len(groups[ax])} theorems): "
    txt += ', '.join(groups[ax]) + '\n\n'
d = open('/verif/DESIGN.md').read()
b, e = '<!-- assumptions begin -->\n', '<!-- assumptions end -->'
i, j = d.index(b) + len(b), d.index(e)
open('/verif/DESIGN.md', 'w').write(d[:i] + txt + d[j:])
print({len(k): len(v) for k, v in groups.items()}, sorted({a for k in groups for a in k}))

#!/usr/bin/env python3
"""Rewrite the Print Assumptions block at the end of each Prop*.v file: one line per property theorem."""
import re, sys, glob
for f in sys.argv[1:] or sorted(glob.glob('/verif/rocq/theories/Prop*.v')):
    s = open(f).read()
    s = re.sub(r'(?m)^Print Assumptions .*\n', '', s).rstrip('\n') + '\n'
    names = re.findall(r'(?m)^(?:Theorem|Corollary)\s+(C\d+\w*)', s)
    s += '\n' + ''.join(f'Print Assumptions {n}.\n' for n in names)
    open(f, 'w').write(s)

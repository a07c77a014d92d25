#!/usr/bin/env python3
"""Check (and with --fix rewrite) citations of the form  Class.func ... (file.py:a-b)
in rocq/theories/*.v against the line ranges of the definitions in /repo/mealpy."""
import ast, glob, os, re, sys
R='/repo/mealpy'
files={}
for p in glob.glob(R+'/**/*.py',recursive=True):
    files.setdefault(os.path.basename(p),[]).append(p)
rng={}
for b,ps in files.items():
    for p in ps:
        t=ast.parse(open(p).read())
        for n in t.body:
            if isinstance(n,ast.ClassDef):
                rng[(b,n.name)]=(n.lineno,n.end_lineno)
                for f in n.body:
                    if isinstance(f,ast.FunctionDef):
                        lo=min([f.lineno]+[d.lineno for d in f.decorator_list])
                        rng[(b,n.name+'.'+f.name)]=(lo,f.end_lineno)
            elif isinstance(n,ast.FunctionDef):
                rng[(b,n.name)]=(n.lineno,n.end_lineno)
fix='--fix' in sys.argv
pat=re.compile(r'(?P<name>[A-Za-z_]\w*(?:\.\w+)?)(?P<mid>[^()\[\]\n]{0,40})\((?P<f>\w+\.py):(?P<a>\d+)-(?P<b>\d+)\)')
adj=re.compile(r'(?P<name>[A-Za-z_]\w*\.\w+)(?P<mid>[\s]{0,8}(?:inside )?)\((?P<f>\w+\.py):(?P<a>\d+)-(?P<b>\d+)\)')
bad=0
for v in sorted(glob.glob('/verif/rocq/theories/*.v')):
    s=open(v).read()
    def sub(m):
        global bad
        k=(m['f'],m['name'])
        if m['f'] not in files: print(v,'NO FILE',m.group(0)); bad+=1; return m.group(0)
        if k not in rng: return m.group(0)
        lo,hi=rng[k]
        a,b=int(m['a']),int(m['b'])
        if (a,b)!=(lo,hi) :
            bad+=1
            print(os.path.basename(v),m.group(0),'->',lo,hi)
            return f"{m['name']}{m['mid']}({m['f']}:{lo}-{hi})"
        return m.group(0)
    s2=adj.sub(sub,s)
    s2=pat.sub(sub,s2)
    if fix and s2!=s: open(v,'w').write(s2)
print('mismatches',bad)

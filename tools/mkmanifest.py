#!/usr/bin/env python3
"""Build MANIFEST.json from properties.jsonl and the theorems named C<nn>_... in rocq/theories.
Notes and status overrides live in tools/notes.json ({"C01": {"status": ..., "note": ..., "extra": [...]}})."""
import json, re, glob, os
root = '/verif'
props = [json.loads(l) for l in open(f'{root}/properties.jsonl') if l.strip()]
notes = json.load(open(f'{root}/tools/notes.json')) if os.path.exists(f'{root}/tools/notes.json') else {}
th = {}
listed = set(l.strip().split('/')[-1] for l in open(f'{root}/rocq/_CoqProject') if l.startswith('theories/'))
for f in sorted(x for x in glob.glob(f'{root}/rocq/theories/*.v') if os.path.basename(x) in listed):
    txt = open(f).read()
    for m in re.finditer(r'^(?:Theorem|Corollary) (C(\d+)_\w+)', txt, re.M):
        th.setdefault('C' + m.group(2), []).append(m.group(1))
claims = []
for p in props:
    i = p['id']; n = notes.get(i, {})
    names = th.get(i, []) + n.get('extra', [])
    st = n.get('status') or ('partial' if (not names or any(x.endswith('_partial') for x in names)) else 'proved')
    note = n.get('note', '')
    if not names and not note: note = 'no theorem yet'
    claims.append({'property': i, 'status': st, 'theorems': names, 'note': note})
json.dump({'claims': claims}, open(f'{root}/MANIFEST.json', 'w'), indent=1)
print({s: sum(c['status'] == s for c in claims) for s in ('proved', 'partial', 'not_applicable')},
      'without theorem:', [c['property'] for c in claims if not c['theorems']])

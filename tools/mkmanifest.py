#!/usr/bin/env python3
"""Writes MANIFEST.json: one claim per property; theorem names are collected from
Props*.v by their Cnn_ prefix, status and notes come from the table below."""
import json, re, glob, os
here = os.path.dirname(os.path.abspath(__file__)) + '/..'
names = {}
for f in sorted(glob.glob(here + '/rocq/theories/Props*.v')):
    src = re.sub(r'\(\*.*?\*\)', '', open(f).read(), flags=re.S)
    for m in re.finditer(r'^\s*Theorem\s+((C\d\d)_\w+)', src, re.M):
        names.setdefault(m.group(2), []).append(m.group(1))
NOTES = {}
exec(open(here + '/tools/notes.py').read())
claims = []
for l in open(here + '/properties.jsonl'):
    i = json.loads(l)['id']
    th = names.get(i, [])
    status, note = NOTES.get(i, (None, ''))
    if not th:
        status, note = 'not_applicable', note or 'not reached yet'
    elif status is None:
        status = 'partial' if any('_partial' in t or '_refuted' in t for t in th) else 'proved'
    claims.append(dict(property=i, status=status, theorems=th, note=note))
json.dump({'claims': claims}, open(here + '/MANIFEST.json', 'w'), indent=1)
print({s: sum(c['status'] == s for c in claims) for s in ('proved', 'partial', 'not_applicable')})

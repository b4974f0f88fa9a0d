#!/usr/bin/env python3
"""Regenerate MANIFEST.json: theorem names are collected from rocq/theories/Props*.v, status and notes from below."""
import glob, json, re
NOTES = {}
def n(i, status, note): NOTES[i] = (status, note)
exec(open('/verif/tools/notes.py').read())
thms = {}
for f in sorted(glob.glob('/verif/rocq/theories/Props*.v')):
    for m in re.finditer(r'^Theorem (C\d\d+)_(\w+)', open(f).read(), re.M):
        thms.setdefault(m.group(1), []).append(m.group(1) + '_' + m.group(2))
ids = [json.loads(l)['id'] for l in open('/verif/properties.jsonl')]
claims = []
for i in ids:
    if i in thms or i in NOTES:
        st, note = NOTES.get(i, ('partial', ''))
        if not thms.get(i) and st != 'not_applicable': print('no theorem for', i); continue
        claims.append({"property": i, "status": st, "theorems": thms.get(i, []), "note": note})
    else: print('missing', i)
for i in thms:
    if i not in NOTES: print('no note for', i)
json.dump({"claims": claims}, open('/verif/MANIFEST.json', 'w'), indent=1)
print(len(claims), 'claims', sum(len(c['theorems']) for c in claims), 'theorems')

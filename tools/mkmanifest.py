#!/usr/bin/env python3
"""Regenerate MANIFEST.json: collects every theorem Cxx_* from Props_*.v and
merges tools/notes.json (property -> [status, note])."""
import re, json, glob, os
root = os.path.dirname(os.path.dirname(os.path.abspath(__file__)))
notes = json.load(open(root + '/tools/notes.json'))
props = [json.loads(l)['id'] for l in open(root + '/properties.jsonl')]
thms = {}
for f in sorted(glob.glob(root + '/rocq/theories/Props_*.v')):
    for m in re.finditer(r'^Theorem (C\d\d)(_\w+)', open(f).read(), re.M):
        thms.setdefault(m.group(1), []).append(m.group(1) + m.group(2))
claims = []
for p in props:
    if p not in notes:
        print('no note for', p, thms.get(p)); continue
    st, note = notes[p]
    claims.append({"property": p, "status": st, "theorems": thms.get(p, []), "note": note})
    if not thms.get(p) and st != 'not_applicable': print('NO THEOREMS', p)
json.dump({"claims": claims}, open(root + '/MANIFEST.json', 'w'), indent=1)
print(len(claims), 'claims', sum(len(v) for v in thms.values()), 'theorems')

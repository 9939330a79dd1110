#!/usr/bin/env python3
"""Writes MANIFEST.json: every Theorem named Cnn_* in theories/ is attached to property Cnn.
STATUS gives status and note per property; properties with no theorem yet are listed as partial-less
and omitted."""
import re, glob, json, os
root = os.path.dirname(os.path.dirname(os.path.abspath(__file__)))
thms = {}
for f in sorted(glob.glob(root + '/rocq/theories/**/*.v', recursive=True)):
    for m in re.finditer(r'^(?:Theorem|Corollary)\s+(C\d\d[A-Za-z0-9_\']*)', open(f).read(), re.M):
        thms.setdefault(re.match(r'C\d+', m.group(1)).group(0), []).append(m.group(1))
notes = json.load(open(root + '/tools/notes.json'))
claims = []
ids = [json.loads(l)['id'] for l in open(root + '/properties.jsonl')]
for i in ids:
    t = thms.get(i, [])
    n = notes.get(i, {})
    st = n.get('status', 'proved' if t else None)
    if st is None:
        continue
    claims.append({"property": i, "status": st, "theorems": t, "note": n.get('note', '')})
json.dump({"claims": claims}, open(root + '/MANIFEST.json', 'w'), indent=1)
print(len(claims), 'claims;', sum(len(c['theorems']) for c in claims), 'theorems; missing:', [i for i in ids if i not in thms])

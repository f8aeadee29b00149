#!/usr/bin/env python3
"""Regenerate MANIFEST.json: every Theorem named Cnn_* in rocq/theories/Properties."""
import glob, json, os, re
root = os.path.dirname(os.path.dirname(os.path.abspath(__file__)))
notes = json.load(open(os.path.join(root, 'tools', 'notes.json')))
thms = {}
for f in sorted(glob.glob(root + '/rocq/theories/Properties/*.v')):
    for m in re.finditer(r'^Theorem (C\d\d+)_(\w+)', open(f).read(), re.M):
        thms.setdefault(m.group(1), []).append(m.group(1) + '_' + m.group(2))
props = {}
for l in open(root + '/properties.jsonl'):
    d = json.loads(l); props[d['id']] = d
claims = []
for pid in props:
    if pid not in thms: continue
    n = notes.get(pid, {})
    claims.append({"property": pid, "status": n.get("status", "proved"), "theorems": thms[pid],
                   "note": n.get("note", props[pid]['title'] + ".")})
for pid in thms:
    assert pid in props, pid
json.dump({"claims": claims}, open(root + '/MANIFEST.json', 'w'), indent=1)
print(len(claims), "claims;", sum(len(c['theorems']) for c in claims), "theorems; missing:", [p for p in props if p not in thms])

#!/usr/bin/env python3
"""Generate MANIFEST.json: theorem names are collected from rocq/theories/Prop*.v
by the prefix Cnn_; status and note come from the table below."""
import json, re, glob, os
root = os.path.dirname(os.path.dirname(os.path.abspath(__file__)))
thms = {}
for f in sorted(glob.glob(root + '/rocq/theories/Prop*.v')):
    for m in re.finditer(r'^Theorem (C\d\d)_([A-Za-z0-9_\']+)', open(f).read(), re.M):
        thms.setdefault(m.group(1), []).append(m.group(1) + '_' + m.group(2))
table = json.load(open(root + '/tools/status.json'))
ids = [json.loads(l)['id'] for l in open(root + '/properties.jsonl') if l.strip()]
claims = []
for i in ids:
    st, note = table.get(i, ["partial", "not yet modelled"])
    claims.append({"property": i, "status": st, "theorems": thms.get(i, []), "note": note})
json.dump({"claims": claims}, open(root + '/MANIFEST.json', 'w'), indent=1)
for c in claims: print(c['property'], c['status'], len(c['theorems']))

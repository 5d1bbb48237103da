#!/usr/bin/env python3
"""Regenerate MANIFEST.json from the theorem names in rocq/theories/Properties*.v
and the status/note table below.  A theorem belongs to property Cnn when its name
starts with Cnn_."""
import re, json, glob, collections, os
root = os.path.dirname(os.path.dirname(os.path.abspath(__file__)))
thms = collections.OrderedDict()
for f in sorted(glob.glob(root + '/rocq/theories/Properties*.v')):
    for m in re.finditer(r'^(?:Theorem|Lemma)\s+(C\d\d)(_\w+)', open(f).read(), re.M):
        thms.setdefault(m.group(1), []).append(m.group(1) + m.group(2))
notes = json.load(open(root + '/tools/status.json'))
claims = []
for line in open(root + '/properties.jsonl'):
    p = json.loads(line)['id']
    st = notes.get(p, {})
    claims.append({"property": p, "status": st.get("status", "partial" if thms.get(p) else "not_applicable"),
                   "theorems": thms.get(p, []), "note": st.get("note", "" if thms.get(p) else "not yet modelled")})
json.dump({"claims": claims}, open(root + '/MANIFEST.json', 'w'), indent=1)
for p in thms:
    if p not in [c["property"] for c in claims]: print("theorem for unknown property", p)

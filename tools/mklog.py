#!/usr/bin/env python3
"""Write seeded/LOG.jsonl from results of mutate.py: mklog.py notes.json results.jsonl ...
Later results for the same id are reruns of the same edit after a theorem was added; the added
theorems are logged as tightening only if the rerun breaks them."""
import json, sys
notes = json.load(open(sys.argv[1])); runs = {}
for f in sys.argv[2:]:
    for l in open(f):
        r = json.loads(l)
        if 'error' in r: print('not applied:', r['id'], r['error']); continue
        if r.get('invalid') or r['id'] in notes.get('invalid', []): print('left out, ill-formed edit:', r['id']); continue
        runs.setdefault(r['id'], []).append(r)
with open('/verif/seeded/LOG.jsonl', 'w') as out:
    for i, rs in runs.items():
        r = rs[0]; n = notes.get(i, {})
        d = {"id": i, "file": "rocq/theories/%s.v" % r['file'], "definition": r['def'],
             "edit": {"old": r['old'], "new": r['new']}, "claim": r['claim'],
             "observed_errors": [b['file'] + '.' + b['name'] for b in r['broken']],
             "theorems_failed": r['theorems'], "survived": r['survived'], "tightened": []}
        if len(rs) > 1:
            d["rerun"] = {"observed_errors": [b['file'] + '.' + b['name'] for b in rs[-1]['broken']],
                          "theorems_failed": rs[-1]['theorems'], "survived": rs[-1]['survived']}
            d["tightened"] = [t for t in n.get('added', []) if t in rs[-1]['theorems'] or t in [b['name'] for b in rs[-1]['broken']]]
        if r['survived'] and not d['tightened']: print('open survivor:', i)
        if 'note' in n: d['note'] = n['note']
        out.write(json.dumps(d) + '\n')

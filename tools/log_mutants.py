#!/usr/bin/env python3
"""Convert mutation results to seeded/LOG.jsonl.  usage: log_mutants.py RESULTS.jsonl...  (tightenings in tools/tightened.json)"""
import json, os, sys
here = os.path.dirname(os.path.abspath(__file__))
tight = json.load(open(here + '/tightened.json'))
seen = {}
for f in sys.argv[1:]:
    for l in open(f):
        r = json.loads(l)
        if r.get('error'): print('skipped', r['id'], r['error'][:80]); continue
        seen[r['id']] = r
with open(here + '/../seeded/LOG.jsonl', 'w') as o:
    for r in tight['extra']: o.write(json.dumps(r) + '\n')
    for k in sorted(seen):
        r = seen[k]
        d = {'id': k, 'definition': r['file'] + '.v: ' + (r.get('def') or ''), 'edit': r['edit'], 'old': r['old'], 'new': r['new'],
                 'claim_broken': r['claim'], 'proofs_failed': r['failed'], 'theorems_failed': r['theorems_failed'],
                 'theorems_tightened': tight['by_id'].get(k, [])}
        o.write(json.dumps(d) + '\n')

#!/usr/bin/env python3
"""Turns the raw mutation results into seeded/LOG.jsonl (one line per attempt)."""
import json, sys
T = json.load(open(sys.argv[2])) if len(sys.argv) > 2 else {}
with open('/verif/seeded/LOG.jsonl', 'w') as g:
    for l in open(sys.argv[1]):
        r = json.loads(l)
        if r.get('error'): continue
        g.write(json.dumps({'id': r['id'], 'definition': f"{r['file']}: {r['definition']}", 'edit': r['edit'], 'claim': r['claim'],
            'theorems_failed': r['failed'] if not r.get('hard') else ['the development no longer builds: ' + str(r['hard'])[:200]],
            'theorems_tightened': T.get(r['id'], [])}) + '\n')

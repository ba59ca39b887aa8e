#!/usr/bin/env python3
"""Append the results of mutate.py to seeded/LOG.jsonl.
usage: log_mutants.py RESULTS [TIGHTENED.json]; TIGHTENED maps an edit to the theorems that
were strengthened or added because of it."""
import json, sys
tight = json.load(open(sys.argv[2])) if len(sys.argv) > 2 else {}
with open('/verif/seeded/LOG.jsonl', 'a') as out:
    for l in open(sys.argv[1]):
        r = json.loads(l)
        if r.get('error'): continue
        out.write(json.dumps({
            'file': 'rocq/theories/%s.v' % r['file'], 'definition': r['definition'], 'edit': r['edit'],
            'old': r['old'], 'new': r['new'], 'claim_broken': r['claim'],
            'theorems_failed': r['failed'], 'first_lemmas_failed': r['lemmas'][:6],
            'theorems_tightened': tight.get(r['edit'], [])}) + '\n')

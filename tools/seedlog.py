#!/usr/bin/env python3
"""Writes seeded/LOG.jsonl from tools/mutants.py and the results of tools/seed.py in /tmp/seedres."""
import json, os, sys
sys.path.insert(0, os.path.dirname(os.path.abspath(__file__)))
from mutants import MUTANTS
root = os.path.dirname(os.path.dirname(os.path.abspath(__file__)))
try: from tightened import TIGHTENED
except ImportError: TIGHTENED = {}
done, rows, weak = 0, [], []
for m in MUTANTS:
    f = '/tmp/seedres/%s.json' % m['id']
    if not os.path.exists(f): continue
    r = json.load(open(f))
    if r['broken']: weak.append((m['id'], 'BROKEN', r['broken'][:200])); continue
    done += 1
    failed = r['failed']
    hit = [p for p in m['props'] if any(t.startswith(p) for t in failed)]
    miss = [p for p in m['props'] if p not in hit]
    t = TIGHTENED.get(m['id'], {})
    row = {'id': m['id'], 'definition': m['defn'], 'file': sorted(set('rocq/theories/%s.v' % e[0] for e in m['edits'])),
           'edit': m['what'], 'diff': [{'old': e[1], 'new': e[2]} for e in m['edits']], 'claim_broken': m['claim'],
           'theorems_failed': failed, 'theorems_tightened': t.get('tightened', [])}
    if r.get('scope'): row['rebuilt'] = 'only ' + ', '.join(r['scope']) + ' and what they rest on'
    if t.get('note'): row['note'] = t['note']
    rows.append(row)
    if miss: weak.append((m['id'], m['what'], 'expected', m['props'], 'missed', miss, 'failed', failed[:12]))
with open(root + '/seeded/LOG.jsonl', 'w') as f:
    for r in rows: f.write(json.dumps(r, ensure_ascii=False) + '\n')
print(done, 'logged')
for w in weak: print(*w)

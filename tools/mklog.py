#!/usr/bin/env python3
"""Append results of mutate.py to seeded/LOG.jsonl.   usage: mklog.py out.jsonl [tightened.json]

tightened.json maps a definition name (or "definition|edit") to [theorems tightened, remark].
Reports the claims of which no theorem failed."""
import json, os, re, sys
LOG = os.path.join(os.path.dirname(os.path.abspath(__file__)), '..', 'seeded', 'LOG.jsonl')
T = json.load(open(sys.argv[2])) if len(sys.argv) > 2 else {}
seen = {(d['definition'], d['edit']) for d in map(json.loads, open(LOG))}
with open(LOG, 'a') as f:
    for l in open(sys.argv[1]):
        d = json.loads(l)
        key = f"{d['definition']}|{d['edit']}"
        ids = re.findall(r'C\d+', d['claim_broken'])
        miss = [i for i in ids if not any(t.startswith(i) for t in d['theorems_failed'])]
        if miss: print('UNNOTICED', miss, key, '--', d['claim_broken'])
        if (d['definition'], d['edit']) in seen: continue
        t, note = T.get(key, T.get(d['definition'], [[], d.get('note', '')]))
        f.write(json.dumps({'definition': d['definition'], 'edit': d['edit'], 'claim_broken': d['claim_broken'],
            'theorems_failed': d['theorems_failed'], 'theorems_tightened': t, 'first_broken_lemmas': d.get('lemmas_failed', [])[:4], 'note': note},
            ensure_ascii=False) + '\n')

#!/usr/bin/env python3
"""Generates /verif/MANIFEST.json from tools/claims.txt:
   lines  'C01 proved thm1 thm2 | note'."""
import json, re
claims = []
for l in open('/verif/tools/claims.txt'):
    l = l.strip()
    if not l or l.startswith('#'):
        continue
    head, _, note = l.partition('|')
    w = head.split()
    claims.append({"property": w[0], "status": w[1], "theorems": w[2:], "note": note.strip()})
json.dump({"claims": claims}, open('/verif/MANIFEST.json', 'w'), indent=1)
ids = [json.loads(l)['id'] for l in open('/verif/properties.jsonl')]
print('missing:', [i for i in ids if i not in [c['property'] for c in claims]])

#!/usr/bin/env python3
"""audit.py C01 C02 ...: each property's English next to its theorem statements (proofs left out)."""
import json, re, sys, glob
props = {p['id']: p for p in map(json.loads, open('/verif/properties.jsonl'))}
th = {}
for f in glob.glob('/verif/rocq/theories/Props*.v'):
    s = open(f).read()
    for m in re.finditer(r'((?:\(\*\*(?:[^*]|\*(?!\)))*\*\)\s*)?)((?:Theorem|Lemma|Corollary|Definition|Example)\s+(C\d\d+_\w+)(?:.|\n)*?)\nProof', s):
        th.setdefault(m.group(3).split('_')[0], []).append((f.split('/')[-1], m.group(2)))
for i in sys.argv[1:]:
    p = props[i]
    print('=' * 8, i, p['title']); print(p['statement']); print('--')
    for f, t in th.get(i, []):
        if t.startswith('Example'): t = t.split('\n')[0] + ' ...'
        print('[' + f + ']', t); print()

#!/usr/bin/env python3
"""Regenerate MANIFEST.json from the theorem names in rocq/theories/Properties.

A property is "partial" when one of its theorems carries the suffix _partial or
_refuted, and "proved" otherwise.  NOTES holds the remarks."""
import glob, json, os, re
root = os.path.dirname(os.path.dirname(os.path.abspath(__file__)))
notes = json.load(open(os.path.join(root, 'tools', 'notes.json')))
claims = {}
for f in sorted(glob.glob(os.path.join(root, 'rocq/theories/Properties/*.v'))):
    txt = re.sub(r'\(\*.*?\*\)', '', open(f).read(), flags=re.S)
    for m in re.finditer(r'^\s*Theorem\s+((C\d\d)_\w+)', txt, flags=re.M):
        claims.setdefault(m.group(2), []).append(m.group(1))
ids = [json.loads(l)['id'] for l in open(os.path.join(root, 'properties.jsonl'))]
out = []
for i in ids:
    if i in claims:
        ths = claims[i] + notes.get(i, {}).get('also', [])
        part = any(t.endswith('_partial') or t.endswith('_refuted') for t in ths)
        out.append({'property': i, 'status': notes.get(i, {}).get('status', 'partial' if part else 'proved'),
                    'theorems': ths, 'note': notes.get(i, {}).get('note', '')})
    elif i in notes and notes[i].get('status') == 'not_applicable':
        out.append({'property': i, 'status': 'not_applicable', 'theorems': [], 'note': notes[i]['note']})
json.dump({'claims': out}, open(os.path.join(root, 'MANIFEST.json'), 'w'), indent=1)
print(len(out), 'claims;', 'missing:', [i for i in ids if i not in {c['property'] for c in out}])

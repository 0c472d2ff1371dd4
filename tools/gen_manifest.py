#!/usr/bin/env python3
"""Generate MANIFEST.json from the theorem names in rocq/theories/Prop_*.v.
A theorem belongs to property Cxx when its name starts with Cxx_.
A property is "partial" when one of its theorems ends in _defect/_partial or it is listed in PARTIAL."""
import re, json, glob, os
root = os.path.dirname(os.path.dirname(os.path.abspath(__file__)))
notes = json.load(open(os.path.join(root, 'tools', 'notes.json')))
props = [json.loads(l) for l in open(os.path.join(root, 'properties.jsonl')) if l.strip()]
thms = {}
for f in sorted(glob.glob(os.path.join(root, 'rocq/theories/Prop_*.v'))):
    for m in re.finditer(r'^\s*(?:Theorem|Lemma|Corollary)\s+((C\d\d\d?)_[\w\']*)', open(f).read(), re.M):
        thms.setdefault(m[2], []).append(m[1])
claims = []
for p in props:
    t = thms.get(p['id'], [])
    n = notes.get(p['id'], {})
    st = n.get('status')
    if st is None:
        st = 'partial' if (not t or any(x.endswith(('_defect', '_partial')) for x in t)) else 'proved'
    note = n.get('note', '')
    if not t and not note:
        note = 'not yet proved'
    claims.append({'property': p['id'], 'status': st, 'theorems': t, 'note': note})
json.dump({'claims': claims}, open(os.path.join(root, 'MANIFEST.json'), 'w'), indent=1)
print({s: sum(c['status'] == s for c in claims) for s in ('proved', 'partial', 'not_applicable')},
      sum(len(c['theorems']) for c in claims), 'theorems;',
      'missing:', [c['property'] for c in claims if not c['theorems']])

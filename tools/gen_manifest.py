#!/usr/bin/env python3
"""Generate MANIFEST.json: theorem names are collected from rocq/theories/Props*.v,
status and notes from tools/status.json."""
import json, re, glob, os
root = os.path.dirname(os.path.dirname(os.path.abspath(__file__)))
props = [json.loads(l) for l in open(root + '/properties.jsonl')]
st = json.load(open(root + '/tools/status.json'))
thms = {}
for f in sorted(glob.glob(root + '/rocq/theories/Props*.v')):
    for m in re.finditer(r'^(?:Theorem|Corollary)\s+(C\d\d)(_\w+)', open(f).read(), re.M):
        thms.setdefault(m.group(1), []).append(m.group(1) + m.group(2))
claims = []
for p in props:
    i = p['id']; t = thms.get(i, [])
    s = st.get(i, {})
    if not t and not s: continue
    default = 'partial' if not t or any(x.endswith(('_partial', '_refuted')) for x in t) else 'proved'
    claims.append({"property": i, "status": s.get('status', default), "theorems": t, "note": s.get('note', '')})
json.dump({"claims": claims}, open(root + '/MANIFEST.json', 'w'), indent=1)
print(len(claims), 'claims;', sum(len(c['theorems']) for c in claims), 'theorems')

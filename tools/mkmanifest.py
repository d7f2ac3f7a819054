#!/usr/bin/env python3
"""Regenerates MANIFEST.json and rocq/_CoqProject's file list: theorem names C<nn>_... are collected from Thm_*.v.
Status rule: 'proved' unless overridden in tools/status.json ({"C06": ["partial", "note"]})."""
import re, json, glob, os, subprocess
root = os.path.dirname(os.path.dirname(os.path.abspath(__file__)))
th = os.path.join(root, 'rocq', 'theories')
over = json.load(open(os.path.join(root, 'tools', 'status.json')))
names = {}
for f in sorted(glob.glob(th + '/Thm_*.v')):
    for m in re.finditer(r'^ *(?:Theorem|Corollary)\s+(C\d+)(_\w+)', open(f).read(), re.M):
        names.setdefault(m.group(1), []).append(m.group(1) + m.group(2))
ids = [json.loads(l)['id'] for l in open(root + '/properties.jsonl')]
claims = []
for i in ids:
    if i not in names: continue
    st, note = over.get(i, [None, ''])
    if st is None:
        st = 'partial' if all(n.endswith('_partial') or n.endswith('_refuted') for n in names[i]) else 'proved'
    claims.append({"property": i, "status": st, "theorems": names[i], "note": note})
json.dump({"claims": claims}, open(root + '/MANIFEST.json', 'w'), indent=1)
files = sorted(os.path.basename(f) for f in glob.glob(th + '/*.v'))
with open(root + '/rocq/_CoqProject', 'w') as fh:
    fh.write('-Q theories Verif\n' + ''.join('theories/%s\n' % f for f in files))
print(len(claims), 'claims;', sum(len(v) for v in names.values()), 'theorems; missing', [i for i in ids if i not in names])

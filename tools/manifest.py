#!/usr/bin/env python3
"""Regenerate MANIFEST.json from the theorem names in rocq/theories/Thm_*.v.

A theorem named Cnn_... belongs to property Cnn. Status and notes come from tools/claims.json."""
import json, re, glob, os
root = os.path.dirname(os.path.dirname(os.path.abspath(__file__)))
names = {}
for f in sorted(glob.glob(root + '/rocq/theories/Thm_*.v')):
    for m in re.finditer(r'^Theorem (C\d\d+)_(\w+)', open(f).read(), re.M):
        names.setdefault(m.group(1), []).append(m.group(1) + '_' + m.group(2))
info = json.load(open(root + '/tools/claims.json'))
claims = []
for line in open(root + '/properties.jsonl'):
    pid = json.loads(line)['id']
    th = names.get(pid, [])
    if not th and pid not in info:
        continue
    d = info.get(pid, {})
    status = d.get('status', 'partial')
    claims.append({'property': pid, 'status': status, 'theorems': th, 'note': d.get('note', '')})
json.dump({'claims': claims}, open(root + '/MANIFEST.json', 'w'), indent=1)
print(len(claims), 'claims;', [p for p in names if p not in info], 'without notes')

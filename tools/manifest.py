"""Writes MANIFEST.json: for every property, the theorems found in the Props files
whose names start with its id, and a hand-written status and note."""
import glob
import json
import os
import re

here = os.path.dirname(os.path.abspath(__file__))
root = os.path.dirname(here)
STATUS = json.load(open(os.path.join(here, 'status.json')))
thms = {}
for f in sorted(glob.glob(os.path.join(root, 'rocq/theories/Props_*.v'))):
    for m in re.finditer(r'^Theorem\s+((C\d+)_\w+)', open(f).read(), re.M):
        thms.setdefault(m.group(2), []).append(m.group(1))
claims = []
for line in open(os.path.join(root, 'properties.jsonl')):
    pid = json.loads(line)['id']
    if pid in STATUS:
        st, note = STATUS[pid]
        claims.append(dict(property=pid, status=st, theorems=thms.get(pid, []), note=note))
json.dump({'claims': claims}, open(os.path.join(root, 'MANIFEST.json'), 'w'), indent=1)
missing = [p for p in thms if p not in STATUS]
if missing:
    print('no status for', missing)

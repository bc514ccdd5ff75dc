#!/usr/bin/env python3
"""Generate /verif/MANIFEST.json.  Theorems of property Cxx are found by name prefix in theories/Props*.v;
notes and statuses are listed here."""
import re, json, glob, os
root = os.path.dirname(os.path.dirname(os.path.abspath(__file__)))
NOTES = json.load(open(os.path.join(root, 'tools', 'notes.json')))
thms = {}
for f in sorted(glob.glob(root + '/rocq/theories/Props*.v')):
    for m in re.finditer(r'^\s*(?:Theorem|Corollary)\s+((?:C\d\d+_)+\w+)', open(f).read(), re.M):
        name = m.group(1)
        for c in re.findall(r'C\d\d+(?=_)', re.match(r'(?:C\d\d+_)+', name).group(0)):
            thms.setdefault(c, []).append(name)
claims = []
for line in open(root + '/properties.jsonl'):
    c = json.loads(line)['id']
    n = NOTES.get(c, {})
    if c in thms:
        claims.append({"property": c, "status": n.get("status", "proved"), "theorems": thms[c], "note": n.get("note", "")})
json.dump({"claims": claims}, open(root + '/MANIFEST.json', 'w'), indent=1)
print(len(claims), 'claims;', 'missing:', [json.loads(l)['id'] for l in open(root + '/properties.jsonl') if json.loads(l)['id'] not in thms])

#!/usr/bin/env python3
"""Regenerate MANIFEST.json from the theorem names in rocq/theories/Props_*.v and
the status/notes in tools/status.json ({"C01": ["proved", "note"]})."""
import json, re, glob, os
root = os.path.dirname(os.path.dirname(os.path.abspath(__file__)))
props = [json.loads(l)["id"] for l in open(root + "/properties.jsonl") if l.strip()]
status = json.load(open(root + "/tools/status.json"))
thms = {}
for f in sorted(glob.glob(root + "/rocq/theories/Props_*.v")):
    for m in re.finditer(r"^\s*(?:Theorem|Lemma|Corollary)\s+((C\d\d)_\w+)", open(f).read(), re.M):
        thms.setdefault(m.group(2), []).append(m.group(1))
claims = []
for p in props:
    if p in thms and p in status:
        claims.append({"property": p, "status": status[p][0], "theorems": thms[p], "note": status[p][1]})
    elif p in thms:
        print("no status for", p)
    elif p in status:
        claims.append({"property": p, "status": status[p][0], "theorems": [], "note": status[p][1]})
json.dump({"claims": claims}, open(root + "/MANIFEST.json", "w"), indent=1)
print(len(claims), "claims;", "missing:", [p for p in props if p not in thms])

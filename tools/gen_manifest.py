#!/usr/bin/env python3
"""Writes MANIFEST.json: theorem names are collected from the theories by their Cnn_ prefix;
status and notes are kept in tools/status.json."""
import json, re, glob, os
root = os.path.join(os.path.dirname(os.path.abspath(__file__)), "..")
st = json.load(open(os.path.join(root, "tools/status.json")))
thms = {}
for f in sorted(glob.glob(root + "/rocq/theories/*.v")):
    for m in re.finditer(r"^\s*Theorem\s+((C\d\d+)_[\w']+)", open(f).read(), re.M):
        thms.setdefault(m[2], []).append(m[1])
props = [json.loads(l) for l in open(root + "/properties.jsonl")]
claims = []
for p in props:
    i = p["id"]
    if i in st:
        claims.append({"property": i, "status": st[i][0], "theorems": thms.get(i, []), "note": st[i][1]})
    elif i in thms:
        raise SystemExit("no status for " + i)
missing = [p["id"] for p in props if p["id"] not in st]
json.dump({"claims": claims}, open(root + "/MANIFEST.json", "w"), indent=1)
print(len(claims), "claims;", sum(len(c["theorems"]) for c in claims), "theorems; without status:", missing)

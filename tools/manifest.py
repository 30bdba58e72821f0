#!/usr/bin/env python3
"""Writes MANIFEST.json from tools/claims.txt.
   Each claim: a line 'Cnn | status | note'; theorems are collected from rocq/theories/*Theorems.v by the prefix Cnn_."""
import re, json, glob, os
root = os.path.dirname(os.path.dirname(os.path.abspath(__file__)))
thms = {}
for f in sorted(glob.glob(root + "/rocq/theories/*.v")):
    for m in re.finditer(r"^(?:Theorem|Corollary)\s+(C\d\d\w*)", open(f).read(), re.M):
        thms.setdefault(m.group(1).split("_")[0], []).append(m.group(1))
claims = []
seen = set()
for line in open(root + "/tools/claims.txt"):
    line = line.rstrip("\n")
    if not line.strip() or line.startswith("#"): continue
    cid, status, note = [t.strip() for t in line.split("|", 2)]
    seen.add(cid)
    claims.append({"property": cid, "status": status, "theorems": thms.get(cid, []), "note": note})
props = [json.loads(l)["id"] for l in open(root + "/properties.jsonl") if l.strip()]
print("no claim for", [p for p in props if p not in seen])
for t in thms:
    if t not in seen: print("theorems without claim", t, thms[t])
for c in claims:
    if c["property"] not in props: print("claim without property", c["property"])
    if c["status"] != "not_applicable" and not c["theorems"]: print("no theorem for", c["property"])
json.dump({"claims": claims}, open(root + "/MANIFEST.json", "w"), indent=1)
print(len(claims), "claims", sum(len(c["theorems"]) for c in claims), "theorems")

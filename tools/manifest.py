#!/usr/bin/env python3
"""Regenerates MANIFEST.json from the table below and checks that every
theorem named exists in rocq/theories."""
import json, os, re
ROOT = os.path.dirname(os.path.dirname(os.path.abspath(__file__)))
T = json.load(open(os.path.join(ROOT, "tools", "claims.json")))
names = set()
for f in os.listdir(os.path.join(ROOT, "rocq", "theories")):
    if f.endswith(".v"):
        s = open(os.path.join(ROOT, "rocq", "theories", f)).read()
        names |= set(re.findall(r"(?:Theorem|Lemma|Corollary|Example)\s+([\w']+)", s))
claims = []
for p, c in T.items():
    for t in c["theorems"]:
        assert t in names, (p, t)
    claims.append({"property": p, "status": c["status"], "theorems": c["theorems"], "note": c["note"]})
claims.sort(key=lambda c: c["property"])
json.dump({"claims": claims}, open(os.path.join(ROOT, "MANIFEST.json"), "w"), indent=1)
print(len(claims), "claims,", sum(len(c["theorems"]) for c in claims), "theorems")
allp = [json.loads(l)["id"] for l in open(os.path.join(ROOT, "properties.jsonl"))]
print("missing:", [p for p in allp if p not in T])
unused = sorted(n for n in names if re.match(r"C\d\d_", n) and not n.endswith("_case") and not any(n in c["theorems"] for c in claims))
print("unclaimed C-theorems:", unused)

#!/usr/bin/env python3
"""Writes MANIFEST.json from the table below; theorem names are checked to exist in rocq/theories."""
import json, re, glob, os, sys
root = os.path.dirname(os.path.dirname(os.path.abspath(__file__)))
T = {}
def claim(pid, status, theorems, note=""):
    T[pid] = {"property": pid, "status": status, "theorems": theorems.split(), "note": note}

exec(open(os.path.join(root, "tools", "claims.py")).read())

names = set()
for f in glob.glob(os.path.join(root, "rocq/theories/*.v")):
    names |= set(re.findall(r"^(?:Theorem|Lemma|Corollary) (\w+)", open(f).read(), re.M))
ids = [json.loads(l)["id"] for l in open(os.path.join(root, "properties.jsonl")) if l.strip()]
bad = [n for c in T.values() for n in c["theorems"] if n not in names]
if bad: sys.exit("missing theorems: " + " ".join(bad))
for i in ids:
    if i not in T: T[i] = {"property": i, "status": "partial", "theorems": [], "note": "not yet proved"}
json.dump({"claims": [T[i] for i in ids]}, open(os.path.join(root, "MANIFEST.json"), "w"), indent=1)
print(len(ids), "claims,", sum(1 for c in T.values() if c["status"] == "proved"), "proved")

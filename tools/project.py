#!/usr/bin/env python3
"""Rewrites rocq/_CoqProject from the files present, and MANIFEST.json from tools/claims.py after checking names."""
import os, re, json, sys
root = os.path.dirname(os.path.dirname(os.path.abspath(__file__)))
th = os.path.join(root, "rocq", "theories")
files = sorted(os.path.relpath(os.path.join(d, f), os.path.join(root, "rocq"))
               for d, _, fs in os.walk(th) for f in fs if f.endswith(".v"))
with open(os.path.join(root, "rocq", "_CoqProject"), "w") as fh:
    fh.write("-Q theories Verif\n" + "\n".join(files) + "\n")
names = {}
for f in files:
    for m in re.finditer(r"^(?:Theorem|Lemma)\s+([\w']+)", open(os.path.join(root, "rocq", f)).read(), re.M):
        names.setdefault(m[1], f)
sys.path.insert(0, os.path.join(root, "tools"))
from claims import CLAIMS
props = [json.loads(l)["id"] for l in open(os.path.join(root, "properties.jsonl"))]
out = []
for c in CLAIMS:
    for t in c["theorems"]:
        if t not in names:
            print("missing theorem", t)
    if c["property"] not in props:
        print("unknown property", c["property"])
    out.append(c)
print("properties without claim:", [p for p in props if p not in {c["property"] for c in out}])
used = {t for c in out for t in c["theorems"]}
print("property theorems not claimed:", [n for n, f in names.items() if re.match(r"C\d+_", n) and n not in used])
json.dump({"claims": out}, open(os.path.join(root, "MANIFEST.json"), "w"), indent=1)

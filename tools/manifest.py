#!/usr/bin/env python3
"""Writes MANIFEST.json from the table below (property -> status, theorems, note)."""
import json, os, re
ROOT = os.path.dirname(os.path.dirname(os.path.abspath(__file__)))
C = []
def claim(p, status, theorems, note=""):
    C.append({"property": p, "status": status, "theorems": theorems.split(), "note": note})
exec(open(os.path.join(ROOT, "tools", "claims.py")).read())
names = set()
for f in os.listdir(os.path.join(ROOT, "rocq", "theories")):
    if f.endswith(".v"):
        names |= set(re.findall(r"^(?:Theorem|Lemma)\s+(\w+)", open(os.path.join(ROOT, "rocq", "theories", f)).read(), re.M))
for c in C:
    for t in c["theorems"]:
        assert t in names, t
used = {t for c in C for t in c["theorems"]}
for t in sorted(names):
    if re.match(r"C\d\d_", t) and t not in used:
        print("not in manifest:", t)
json.dump({"claims": C}, open(os.path.join(ROOT, "MANIFEST.json"), "w"), indent=1)

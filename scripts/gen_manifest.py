#!/usr/bin/env python3
"""Writes MANIFEST.json. Edit CLAIMS below."""
import json, os, re
C = {}
def claim(prop, status, theorems, note):
    C[prop] = dict(property=prop, status=status, theorems=theorems, note=note)
exec(open(os.path.join(os.path.dirname(__file__), "claims.py")).read())
out = {"claims": [C[k] for k in sorted(C)]}
open(os.path.join(os.path.dirname(__file__), "..", "MANIFEST.json"), "w").write(json.dumps(out, indent=1) + "\n")
# sanity: every theorem exists
src = ""
d = os.path.join(os.path.dirname(__file__), "..", "rocq", "theories")
for f in os.listdir(d):
    if f.endswith(".v"): src += open(os.path.join(d, f)).read()
names = set(re.findall(r"^(?:Theorem|Lemma)\s+([A-Za-z0-9_']+)", src, re.M))
for c in out["claims"]:
    for t in c["theorems"]:
        if t not in names: print("MISSING", c["property"], t)

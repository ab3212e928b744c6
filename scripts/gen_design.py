#!/usr/bin/env python3
"""Assembles DESIGN.md from docs/DESIGN.head.md, the manifest and (optionally, with --assumptions) the output of Print Assumptions.
usage: gen_design.py [--assumptions]   (the latter needs a finished build and takes a few minutes)"""
import json, os, re, subprocess, sys, tempfile
R = os.path.join(os.path.dirname(os.path.abspath(__file__)), "..")
T = os.path.join(R, "rocq", "theories")
man = json.load(open(os.path.join(R, "MANIFEST.json")))["claims"]
where = {}
for f in sorted(os.listdir(T)):
    if f.endswith(".v"):
        for m in re.finditer(r"^(?:Theorem|Lemma)\s+([A-Za-z0-9_']+)", open(os.path.join(T, f)).read(), re.M):
            where.setdefault(m.group(1), f[:-2])
names = []
for c in man:
    for t in c["theorems"]:
        if t not in names: names.append(t)
cache = os.path.join(R, "docs", "assumptions.json")
A = json.load(open(cache)) if os.path.exists(cache) else {}
if "--assumptions" in sys.argv:
    d = tempfile.mkdtemp()
    s = "".join("From Verif Require %s.\n" % f for f in sorted({where[t] for t in names}))
    for t in names:
        s += 'Goal True. idtac "@@ %s". exact I. Qed.\nPrint Assumptions %s.%s.\n' % (t, where[t], t)
    open(os.path.join(d, "pa.v"), "w").write(s)
    out = subprocess.run(["coqc", "-Q", T, "Verif", os.path.join(d, "pa.v")], capture_output=True, text=True).stdout
    A = {}
    for part in out.split("@@ ")[1:]:
        n, body = part.split("\n", 1)
        A[n.strip()] = sorted(set(re.findall(r"^([A-Za-z_][\w.]*)\s*(?::|$)", body.replace("Axioms:", "").replace("Closed under the global context", ""), re.M)))
    json.dump(A, open(cache, "w"), indent=0, sort_keys=True)
groups = {}
for t in names: groups.setdefault(tuple(A.get(t, ["(not recorded)"])), []).append(t)
sec = ""
for g in sorted(groups, key=len):
    sec += "* **%s** (%d theorems): %s\n\n" % ("no axioms: `Closed under the global context`" if not g else ", ".join("`%s`" % x for x in g), len(groups[g]), ", ".join("`%s`" % t for t in groups[g]))
tab = "| id | theorems (file) | status | note |\n|---|---|---|---|\n"
for c in man:
    tab += "| %s | %s | %s | %s |\n" % (c["property"], ", ".join("`%s` (%s)" % (t, where.get(t, "?")) for t in c["theorems"]), c["status"], c["note"].replace("|", "/"))
head = open(os.path.join(R, "docs", "DESIGN.head.md")).read()
open(os.path.join(R, "DESIGN.md"), "w").write(head.replace("@@TABLE@@", tab).replace("@@ASSUMPTIONS@@", sec))
for t in names:
    if t not in A: print("no assumptions recorded:", t)

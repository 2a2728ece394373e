#!/usr/bin/env python3
"""Generates MANIFEST.json. Theorems are collected from rocq/theories/P_*.v by their Cxx_ prefix; status and notes are below."""
import json, re, glob, os
root = os.path.dirname(os.path.dirname(os.path.abspath(__file__)))
thms = {}
for f in sorted(glob.glob(root + "/rocq/theories/P_*.v")):
    for m in re.finditer(r"^(?:Theorem|Corollary) ((C\d+)_\w+)", open(f).read(), re.M):
        thms.setdefault(m.group(2), []).append(m.group(1))
NOTES = json.load(open(root + "/tools/notes.json"))
claims = []
for line in open(root + "/properties.jsonl"):
    pid = json.loads(line)["id"]
    if pid in thms:
        st, note = NOTES.get(pid, [None, ""])
        ts = thms[pid]
        if st is None:
            st = "partial" if any("_partial" in t or "_refuted" in t for t in ts) else "proved"
        claims.append({"property": pid, "status": st, "theorems": ts, "note": note})
    elif pid in NOTES:
        claims.append({"property": pid, "status": NOTES[pid][0], "theorems": [], "note": NOTES[pid][1]})
json.dump({"claims": claims}, open(root + "/MANIFEST.json", "w"), indent=1)
print(len(claims), "claims;", sum(len(c["theorems"]) for c in claims), "theorems")

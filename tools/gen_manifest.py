#!/usr/bin/env python3
"""Writes MANIFEST.json from the theorem names in rocq/theories/Prop*.v and this table."""
import json, re, glob, os
root = os.path.join(os.path.dirname(os.path.abspath(__file__)), "..")
STATUS = {}   # property -> (status, note); default for properties with theorems: proved
exec(open(os.path.join(root, "tools", "status.py")).read())
thms = {}
for f in sorted(glob.glob(os.path.join(root, "rocq/theories/Prop*.v"))):
    for m in re.finditer(r"^Theorem (C(\d\d)_\w+)", open(f).read(), re.M):
        thms.setdefault("C" + m.group(2), []).append(m.group(1))
ids = [json.loads(l)["id"] for l in open(os.path.join(root, "properties.jsonl"))]
claims = []
for i in ids:
    st, note = STATUS.get(i, ("proved", ""))
    if i not in thms and st != "not_applicable":
        print("no theorems:", i); continue
    claims.append({"property": i, "status": st, "theorems": thms.get(i, []), "note": note})
json.dump({"claims": claims}, open(os.path.join(root, "MANIFEST.json"), "w"), indent=1)
print(len(claims), "claims", sum(len(c["theorems"]) for c in claims), "theorems")

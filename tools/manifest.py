#!/usr/bin/env python3
"""Regenerate MANIFEST.json from the property theorems in rocq/theories/Properties*.v.
A theorem named Cnn_... belongs to property Cnn.  notes.json holds the notes."""
import json, re, glob, os
root = os.path.dirname(os.path.dirname(os.path.abspath(__file__)))
props = [json.loads(l)["id"] for l in open(root + "/properties.jsonl")]
notes = json.load(open(root + "/tools/notes.json"))
thms = {}
for f in sorted(glob.glob(root + "/rocq/theories/Properties*.v")):
    for m in re.finditer(r"^Theorem ((C\d\d)_\w+)", open(f).read(), re.M):
        thms.setdefault(m.group(2), []).append(m.group(1))
claims = []
for p in props:
    t = thms.get(p, [])
    n = notes.get(p, {})
    st = n.get("status", "proved" if t else "partial")
    if any(x.endswith("_partial") for x in t): st = "partial"
    claims.append({"property": p, "status": st, "theorems": t, "note": n.get("note", "" if t else "not yet modelled")})
json.dump({"claims": claims}, open(root + "/MANIFEST.json", "w"), indent=1)
print(sum(1 for c in claims if c["status"] == "proved"), "proved of", len(claims))

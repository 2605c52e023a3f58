#!/usr/bin/env python3
"""Regenerate ../MANIFEST.json from the theorem names in rocq/theories/Props_*.v and notes.json."""
import glob, json, os, re
here = os.path.dirname(os.path.abspath(__file__))
root = os.path.dirname(here)
notes = json.load(open(os.path.join(here, "notes.json")))
props = [json.loads(l) for l in open(os.path.join(root, "properties.jsonl")) if l.strip()]
thms = {}
for f in sorted(glob.glob(os.path.join(root, "rocq/theories/Props_*.v"))):
    for m in re.finditer(r"^(?:Theorem|Corollary)\s+(C\d+)_(\w+)", open(f).read(), re.M):
        thms.setdefault(m.group(1), []).append(m.group(1) + "_" + m.group(2))
claims = []
for p in props:
    i = p["id"]
    n = notes.get(i, {})
    t = thms.get(i, [])
    st = n.get("status")
    if st is None:
        st = "partial" if (not t or any(x.endswith(("_partial", "_refuted")) for x in t)) else "proved"
    note = n.get("note", "" if t else "Not yet modelled.")
    claims.append({"property": i, "status": st, "theorems": t, "note": note})
json.dump({"claims": claims}, open(os.path.join(root, "MANIFEST.json"), "w"), indent=1)
from collections import Counter
print(Counter(c["status"] for c in claims), sum(len(c["theorems"]) for c in claims), "theorems;",
      "without theorems:", [c["property"] for c in claims if not c["theorems"]])

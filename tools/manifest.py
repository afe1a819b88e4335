#!/usr/bin/env python3
"""Regenerate MANIFEST.json from the theorem names of rocq/theories/Properties*.v.

A theorem named Cnn_xxx (optionally Cnn_xxx_partial / Cnn_xxx_refuted) belongs to
property Cnn.  A property is "partial" when one of its theorems has the suffix
_partial or when NOTES marks it so."""
import glob, json, os, re
here = os.path.dirname(os.path.abspath(__file__))
root = os.path.dirname(here)
thms = {}
for f in sorted(glob.glob(os.path.join(root, "rocq/theories/Properties*.v"))):
    for m in re.finditer(r"^Theorem\s+(C(\d\d+)_\w+)", open(f).read(), re.M):
        thms.setdefault("C" + m.group(2), []).append(m.group(1))
notes = json.load(open(os.path.join(here, "notes.json")))
props = [json.loads(l)["id"] for l in open(os.path.join(root, "properties.jsonl"))]
claims = []
for p in props:
    if p not in thms:
        continue
    status = "partial" if any(t.endswith("_partial") for t in thms[p]) else "proved"
    n = notes.get(p, {})
    if isinstance(n, str):
        n = {"note": n}
    claims.append({"property": p, "status": n.get("status", status),
                   "theorems": thms[p], "note": n.get("note", "")})
json.dump({"claims": claims}, open(os.path.join(root, "MANIFEST.json"), "w"), indent=1)
print(len(claims), "claims;", "missing:", [p for p in props if p not in thms])

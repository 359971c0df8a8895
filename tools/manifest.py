#!/usr/bin/env python3
"""Regenerate MANIFEST.json from the *Props.v files and tools/status.json.

Theorems are collected by name: every Theorem called Cnn_... belongs to property Cnn.
status.json maps a property to [status, note]; the default status is "proved"."""
import json, re, glob, os
root = os.path.dirname(os.path.dirname(os.path.abspath(__file__)))
status = json.load(open(root + "/tools/status.json"))
props = [json.loads(l)["id"] for l in open(root + "/properties.jsonl") if l.strip()]
thms = {}
for f in sorted(glob.glob(root + "/rocq/theories/*Props*.v")):
    for m in re.finditer(r"^Theorem\s+((C\d+)_\w+)", open(f).read(), re.M):
        thms.setdefault(m.group(2), []).append(m.group(1))
claims = []
for p in props:
    if p not in thms:
        continue
    st, note = status.get(p, ["proved", ""])
    claims.append({"property": p, "status": st, "theorems": thms[p], "note": note})
json.dump({"claims": claims}, open(root + "/MANIFEST.json", "w"), indent=1, ensure_ascii=False)
print(len(claims), "claims;", sum(len(c["theorems"]) for c in claims), "theorems; missing:",
      [p for p in props if p not in thms])

#!/usr/bin/env python3
"""Regenerate MANIFEST.json: collects theorems named Cxx_* from the *Props.v files and joins them with the
status and note of each property in tools/status.json."""
import glob, json, os, re
root = os.path.dirname(os.path.dirname(os.path.abspath(__file__)))
thms = {}
for f in sorted(glob.glob(root + "/rocq/theories/*Props.v")):
    for m in re.finditer(r"^\s*Theorem ((C\d+)_\w+)", open(f).read(), re.M):
        thms.setdefault(m.group(2), []).append(m.group(1))
status = json.load(open(root + "/tools/status.json"))
props = [json.loads(l) for l in open(root + "/properties.jsonl")]
claims = []
for p in props:
    i = p["id"]
    s = status.get(i, {})
    if i in thms:
        claims.append({"property": i, "status": s["status"], "theorems": thms[i], "note": s.get("note", "")})
    elif s.get("status") == "not_applicable":
        claims.append({"property": i, "status": "not_applicable", "theorems": [], "note": s["note"]})
    else:
        print("no theorem yet:", i, p["title"])
json.dump({"claims": claims}, open(root + "/MANIFEST.json", "w"), indent=1)
print(len(claims), "claims,", sum(len(c["theorems"]) for c in claims), "theorems")

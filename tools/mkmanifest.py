#!/usr/bin/env python3
"""Regenerate MANIFEST.json from the theorem names in rocq/theories/Props*.v and notes.json."""
import json, re, glob, os
root = os.path.dirname(os.path.dirname(os.path.abspath(__file__)))
props = [json.loads(l)["id"] for l in open(f"{root}/properties.jsonl") if l.strip()]
notes = json.load(open(f"{root}/tools/notes.json"))
thms = {}
for f in sorted(glob.glob(f"{root}/rocq/theories/Props*.v")):
    src = open(f).read()
    for m in re.finditer(r"^\s*(?:Theorem|Lemma|Corollary)\s+((C\d\d+)_\w+)", src, re.M):
        thms.setdefault(m.group(2), []).append(m.group(1))
claims = []
for p in props:
    n = notes.get(p, {})
    t = thms.get(p, [])
    if not t:
        print("no theorem for", p); continue
    status = n.get("status") or ("partial" if any(x.endswith(("_partial", "_refuted")) for x in t) else "proved")
    claims.append({"property": p, "status": status, "theorems": t, "note": n.get("note", "")})
json.dump({"claims": claims}, open(f"{root}/MANIFEST.json", "w"), indent=1)
print(len(claims), "claims", sum(len(c["theorems"]) for c in claims), "theorems")

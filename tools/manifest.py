#!/usr/bin/env python3
"""Regenerate MANIFEST.json: theorems are found by their Cnn_ prefix in rocq/theories/Props*.v,
notes and statuses come from tools/notes.json (status defaults to proved, or partial when a
theorem name ends in _partial or _refuted)."""
import glob, json, os, re
root = os.path.dirname(os.path.dirname(os.path.abspath(__file__)))
notes = json.load(open(os.path.join(root, "tools", "notes.json")))
ths = {}
for f in sorted(glob.glob(os.path.join(root, "rocq/theories/Props*.v"))):
    for m in re.finditer(r"^\s*(?:Theorem|Corollary)\s+((C\d+)_\w+)", open(f).read(), re.M):
        ths.setdefault(m.group(2), []).append(m.group(1))
claims = []
for line in open(os.path.join(root, "properties.jsonl")):
    pid = json.loads(line)["id"]
    names = ths.pop(pid, [])
    n = notes.get(pid, {})
    status = n.get("status") or ("partial" if any(x.endswith(("_partial", "_refuted")) for x in names) else "proved")
    if not names and n.get("status") != "not_applicable":
        print("no theorem yet:", pid); continue
    claims.append({"property": pid, "status": status, "theorems": names, "note": n.get("note", "")})
for k in ths: print("theorems without property:", k, ths[k])
json.dump({"claims": claims}, open(os.path.join(root, "MANIFEST.json"), "w"), indent=1)
print(len(claims), "claims", sum(len(c["theorems"]) for c in claims), "theorems")

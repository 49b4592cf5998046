#!/usr/bin/env python3
"""Regenerates MANIFEST.json from the theorem names in rocq/theories/Prop*.v and the notes below."""
import glob, json, re, os
root = os.path.dirname(os.path.dirname(os.path.abspath(__file__)))
notes = json.load(open(os.path.join(root, "tools", "notes.json")))
thms = {}
for f in sorted(glob.glob(os.path.join(root, "rocq/theories/Prop*.v"))):
    for m in re.finditer(r"^Theorem (C\d\d+)_(\w+)", open(f).read(), re.M):
        thms.setdefault(m.group(1), []).append(m.group(1) + "_" + m.group(2))
claims = []
for line in open(os.path.join(root, "properties.jsonl")):
    pid = json.loads(line)["id"]
    ts = thms.get(pid, [])
    if not ts:
        continue
    partial = any(t.endswith("_partial") for t in ts)
    n = notes.get(pid, {})
    status = n.get("status", "partial" if partial else "proved")
    claims.append({"property": pid, "status": status, "theorems": ts, "note": n.get("note", "")})
with open(os.path.join(root, "MANIFEST.json"), "w") as out:
    json.dump({"claims": claims}, out, indent=1)
    out.write("\n")
print(len(claims), "claims", sum(len(c["theorems"]) for c in claims), "theorems",
      [c["property"] for c in claims if c["status"] != "proved"])

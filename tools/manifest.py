#!/usr/bin/env python3
"""Writes MANIFEST.json from the theorem names in rocq/theories/Properties_*.v."""
import glob, json, os, re
root = os.path.join(os.path.dirname(os.path.abspath(__file__)), "..")
notes = json.load(open(os.path.join(root, "tools", "notes.json")))
thms = {}
for f in sorted(glob.glob(os.path.join(root, "rocq/theories/Properties_*.v"))):
    for name in re.findall(r"^Theorem (C\d+\w*)", open(f).read(), re.M):
        thms.setdefault(name.split("_")[0], []).append(name)
claims = []
for line in open(os.path.join(root, "properties.jsonl")):
    pid = json.loads(line)["id"]
    ts = thms.pop(pid, [])
    if not ts:
        print("no theorem for", pid); continue
    n = notes.get(pid, {})
    part = any(re.search(r"_(partial|refuted)$", t) for t in ts)
    status = n.get("status", "partial" if part else "proved")
    claims.append(dict(property=pid, status=status, theorems=ts, note=n.get("note", "")))
assert not thms, thms
json.dump(dict(claims=claims), open(os.path.join(root, "MANIFEST.json"), "w"), indent=1)
print(len(claims), "claims,", sum(len(c["theorems"]) for c in claims), "theorems")

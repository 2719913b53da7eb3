#!/usr/bin/env python3
"""Generate MANIFEST.json from the Props_*.v files: theorem names start with the property id."""
import glob, json, re, os
root = os.path.dirname(os.path.dirname(os.path.abspath(__file__)))
notes = json.load(open(os.path.join(root, "tools", "notes.json")))
names = {}
for f in sorted(glob.glob(os.path.join(root, "rocq/theories/Props_*.v"))):
    for m in re.finditer(r"^Theorem ((C\d\d)_\w+)", open(f).read(), re.M):
        names.setdefault(m.group(2), []).append(m.group(1))
claims = []
for line in open(os.path.join(root, "properties.jsonl")):
    pid = json.loads(line)["id"]
    n = notes.get(pid, {})
    if pid not in names and n.get("status") != "not_applicable":
        continue
    ths = names.get(pid, [])
    status = n.get("status") or ("partial" if any(t.endswith("_partial") for t in ths) else "proved")
    claims.append({"property": pid, "status": status, "theorems": ths, "note": n.get("note", "")})
json.dump({"claims": claims}, open(os.path.join(root, "MANIFEST.json"), "w"), indent=1)
print(len(claims), "claims")

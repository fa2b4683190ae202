#!/usr/bin/env python3
"""Writes MANIFEST.json from the theorem names found in rocq/theories/T_*.v.

Theorems are named <property>_<rest>.  STATUS gives the status and the note of
each property; properties without an entry are proved if they have theorems.
"""
import glob, json, os, re
root = os.path.join(os.path.dirname(__file__), "..")
names = {}
for fn in sorted(glob.glob(os.path.join(root, "rocq/theories/T_*.v"))):
    for m in re.finditer(r"^Theorem ((C\d\d+)_\w+)", open(fn).read(), re.M):
        names.setdefault(m.group(2), []).append(m.group(1))
exec(open(os.path.join(root, "tools/manifest_notes.py")).read())
claims = []
for line in open(os.path.join(root, "properties.jsonl")):
    pid = json.loads(line)["id"]
    th = names.get(pid, [])
    status, note = NOTES.get(pid, ("proved" if th else "partial", "" if th else "Not proved yet."))
    claims.append({"property": pid, "status": status, "theorems": th, "note": note})
json.dump({"claims": claims}, open(os.path.join(root, "MANIFEST.json"), "w"), indent=1)
for c in claims:
    print(c["property"], c["status"], len(c["theorems"]))

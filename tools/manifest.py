#!/usr/bin/env python3
"""Regenerate /verif/MANIFEST.json from the theorem names in rocq/theories/T_*.v and the notes below."""
import glob, json, os, re
root = os.path.dirname(os.path.dirname(os.path.abspath(__file__)))
notes = json.load(open(os.path.join(root, "tools", "notes.json")))
thms = {}
for f in sorted(glob.glob(os.path.join(root, "rocq/theories/T_*.v"))):
    for m in re.finditer(r"^Theorem\s+((C\d+)_\w+)", open(f).read(), re.M):
        thms.setdefault(m.group(2), []).append("Verif.%s.%s" % (os.path.basename(f)[:-2], m.group(1)))
claims = []
for line in open(os.path.join(root, "properties.jsonl")):
    pid = json.loads(line)["id"]
    n = notes.get(pid, {})
    ts = thms.get(pid, [])
    if not ts:
        status = n.get("status", "partial")
        note = n.get("note", "not yet proved")
    else:
        status = n.get("status", "proved")
        note = n.get("note", "")
    claims.append({"property": pid, "status": status, "theorems": ts, "note": note})
json.dump({"claims": claims}, open(os.path.join(root, "MANIFEST.json"), "w"), indent=1)
print({s: sum(c["status"] == s for c in claims) for s in ("proved", "partial", "not_applicable")},
      [c["property"] for c in claims if not c["theorems"]])

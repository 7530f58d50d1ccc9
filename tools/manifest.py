#!/usr/bin/env python3
"""Rebuild /verif/MANIFEST.json from the theorem names in rocq/theories/Props:
theorem `C07_...` belongs to property C07.  Notes and non-default statuses below."""
import json, re, glob, os, collections
root = os.path.dirname(os.path.dirname(os.path.abspath(__file__)))
names = collections.OrderedDict()
for f in sorted(glob.glob(root + "/rocq/theories/Props/*.v")):
    for m in re.finditer(r"^(?:Theorem|Lemma|Corollary|Proposition)\s+((C\d+)_\w+)", open(f).read(), re.M):
        names.setdefault(m.group(2), []).append(m.group(1))
notes = json.load(open(root + "/tools/notes.json"))
claims = []
for line in open(root + "/properties.jsonl"):
    p = json.loads(line)["id"]
    th = names.get(p, [])
    n = notes.get(p, {})
    status = n.get("status") or ("proved" if th else "partial")
    if any(t.endswith("_partial") for t in th) and "status" not in n:
        status = "partial"
    note = n.get("note", "" if th else "not yet proved")
    claims.append(dict(property=p, status=status, theorems=th, note=note))
json.dump({"claims": claims}, open(root + "/MANIFEST.json", "w"), indent=1)
print(sum(1 for c in claims if c["theorems"]), "of", len(claims), "properties have theorems;",
      sum(len(c["theorems"]) for c in claims), "theorems")

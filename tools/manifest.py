#!/usr/bin/env python3
"""Regenerate MANIFEST.json from the Prop*.v files and the notes below."""
import glob, json, os, re
root = os.path.dirname(os.path.dirname(os.path.abspath(__file__)))
thms = {}
for f in sorted(glob.glob(root + "/rocq/theories/Prop*.v")):
    for m in re.finditer(r"^Theorem (C\d\d)(_\w+)", open(f).read(), re.M):
        thms.setdefault(m[1], []).append(m[1] + m[2])
notes = json.load(open(root + "/tools/notes.json"))
ids = [json.loads(l)["id"] for l in open(root + "/properties.jsonl")]
claims = []
for i in ids:
    if i not in thms and i not in notes:
        continue
    n = notes.get(i, {})
    st = n.get("status", "proved" if i in thms else "not_applicable")
    claims.append({"property": i, "status": st, "theorems": thms.get(i, []), "note": n.get("note", "")})
json.dump({"claims": claims}, open(root + "/MANIFEST.json", "w"), indent=1)
print(len(claims), "claims;", [i for i in ids if i not in thms], "without theorems")

#!/usr/bin/env python3
# Builds MANIFEST.json from the theorem names Cnn_... in rocq/theories/Properties_*.v
# and from the notes and status overrides in tools/notes.json.
import json, re, glob, os
here = os.path.dirname(os.path.abspath(__file__))
root = os.path.join(here, "..")
props = [json.loads(l) for l in open(os.path.join(root, "properties.jsonl")) if l.strip()]
notes = json.load(open(os.path.join(here, "notes.json")))
th = {}
for f in sorted(glob.glob(os.path.join(root, "rocq/theories/Properties_*.v"))):
    for n in re.findall(r"^ *Theorem\s+((C\d+)_\w+)", open(f).read(), re.M):
        th.setdefault(n[1], []).append(n[0])
claims = []
for p in props:
    i = p["id"]
    names = th.get(i, [])
    nt = notes.get(i, {})
    if isinstance(nt, str):
        nt = {"note": nt}
    if not names:
        if "status" in nt:
            claims.append(dict(property=i, status=nt["status"], theorems=[], note=nt.get("note", "")))
        continue
    st = nt.get("status") or ("partial" if any(re.search(r"_(partial|refuted)$", n) for n in names) else "proved")
    claims.append(dict(property=i, status=st, theorems=names, note=nt.get("note", "")))
json.dump({"claims": claims}, open(os.path.join(root, "MANIFEST.json"), "w"), indent=1)
print(len(claims), "claims;", sum(len(c["theorems"]) for c in claims), "theorems; missing:",
      [p["id"] for p in props if p["id"] not in {c["property"] for c in claims}])

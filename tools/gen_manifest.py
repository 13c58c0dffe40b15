#!/usr/bin/env python3
"""Builds MANIFEST.json from the theorem names Cxx_* in rocq/theories/Prop*.v plus the notes below."""
import glob, json, os, re
root = os.path.join(os.path.dirname(os.path.abspath(__file__)), "..")
notes = json.load(open(os.path.join(root, "tools", "notes.json")))
thms = {}
for f in sorted(glob.glob(os.path.join(root, "rocq/theories/Prop*.v"))):
    for m in re.finditer(r"^(?:Theorem|Corollary) (C\d\d)(\w*)", open(f).read(), re.M):
        thms.setdefault(m.group(1), []).append(m.group(1) + m.group(2))
claims = []
for line in open(os.path.join(root, "properties.jsonl")):
    p = json.loads(line)
    i = p["id"]
    n = notes.get(i, {})
    ts = thms.get(i, [])
    if not ts and n.get("status") != "not_applicable":
        status = "partial"; note = n.get("note", "not yet modelled: no theorem so far")
    else:
        status = n.get("status", "partial" if any(t.endswith("_partial") for t in ts) else "proved"); note = n.get("note", "")
    claims.append(dict(property=i, status=status, theorems=ts, note=note))
json.dump({"claims": claims}, open(os.path.join(root, "MANIFEST.json"), "w"), indent=1)
print({s: sum(c["status"] == s for c in claims) for s in ("proved", "partial", "not_applicable")}, sum(len(c["theorems"]) for c in claims), "no-thm:", [c["property"] for c in claims if not c["theorems"]])

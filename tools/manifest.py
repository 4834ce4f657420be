#!/usr/bin/env python3
"""Regenerate MANIFEST.json from the property list and the Cnn_* theorems in rocq/theories/Claims*.v."""
import glob, json, os, re

root = os.path.dirname(os.path.dirname(os.path.abspath(__file__)))
ids = [json.loads(l)["id"] for l in open(f"{root}/properties.jsonl") if l.strip()]
notes = json.load(open(f"{root}/tools/notes.json"))
thms = {}
for f in sorted(glob.glob(f"{root}/rocq/theories/Claims*.v")):
    mod = os.path.basename(f)[:-2]
    for m in re.finditer(r"^(?:Theorem|Corollary)\s+(C\d\d)(\w*)", open(f).read(), re.M):
        thms.setdefault(m.group(1), []).append(f"Verif.{mod}.{m.group(1)}{m.group(2)}")
claims = []
for i in ids:
    n = notes.get(i, {})
    t = thms.get(i, [])
    status = n.get("status") or ("proved" if t else "partial")
    claims.append({"property": i, "status": status, "theorems": t, "note": n.get("note", "")})
json.dump({"claims": claims}, open(f"{root}/MANIFEST.json", "w"), indent=1)
print({s: sum(c["status"] == s for c in claims) for s in ("proved", "partial", "not_applicable")})

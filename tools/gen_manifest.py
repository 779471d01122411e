"""Writes MANIFEST.json from the theorem names Cxx_* found in rocq/theories/Properties_*.v.

A property whose theorems include a *_refuted or *_partial one is "partial", otherwise
"proved".  NOTES gives the remarks, NOT_APPLICABLE the properties without a theorem.
"""
import glob
import json
import os
import re

ROOT = os.path.join(os.path.dirname(os.path.abspath(__file__)), "..")
exec(open(os.path.join(ROOT, "tools", "notes.py")).read())

found = {}
for f in sorted(glob.glob(os.path.join(ROOT, "rocq/theories/Properties_*.v"))):
    for m in re.finditer(r"^\s*(?:Theorem|Lemma|Corollary)\s+(C\d+)(_[\w']+)", open(f).read(), re.M):
        found.setdefault(m.group(1), []).append(m.group(1) + m.group(2))

claims, missing = [], []
for line in open(os.path.join(ROOT, "properties.jsonl")):
    i = json.loads(line)["id"]
    if i in found:
        bad = any(t.endswith(("_refuted", "_partial")) for t in found[i])
        claims.append({"property": i, "status": "partial" if bad else "proved",
                       "theorems": found[i], "note": NOTES.get(i, "")})
    elif i in NOT_APPLICABLE:
        claims.append({"property": i, "status": "not_applicable", "theorems": [],
                       "note": NOT_APPLICABLE[i]})
    else:
        missing.append(i)
json.dump({"claims": claims}, open(os.path.join(ROOT, "MANIFEST.json"), "w"), indent=1)
print(len(claims), "claims;", sum(c["status"] == "proved" for c in claims), "proved; missing:", " ".join(missing))

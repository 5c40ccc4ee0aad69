#!/usr/bin/env python3
"""Writes /verif/MANIFEST.json from the table below and checks that every theorem exists."""
import json, re, glob, sys
C = []
def c(prop, status, theorems, note=""):
    C.append({"property": prop, "status": status, "theorems": theorems.split(), "note": note})
exec(open('/verif/tools/claims.py').read())
src = "\n".join(open(f).read() for f in glob.glob('/verif/rocq/theories/*.v'))
names = set(re.findall(r'^\s*(?:Theorem|Lemma|Corollary)\s+([A-Za-z0-9_\']+)', src, re.M))
ids = [json.loads(l)["id"] for l in open('/verif/properties.jsonl')]
bad = [(x["property"], t) for x in C for t in x["theorems"] if t not in names]
bad += [(x["property"], "unknown property") for x in C if x["property"] not in ids]
done = [x["property"] for x in C]
missing = [i for i in ids if i not in done]
json.dump({"claims": C}, open('/verif/MANIFEST.json', 'w'), indent=1)
print("bad:", bad); print("unclaimed:", missing); print("duplicate:", [d for d in set(done) if done.count(d) > 1])

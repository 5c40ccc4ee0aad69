#!/usr/bin/env python3
# Writes DESIGN.md: tools/design_head.md followed by one entry per property.
import json, os, sys
here = os.path.dirname(os.path.abspath(__file__))
top = os.path.dirname(here)
HOW = {}
def h(i, model, spec, method):
    HOW[i] = (model, spec, method)
exec(open(os.path.join(here, "how.py")).read())
props = [json.loads(l) for l in open(os.path.join(top, "properties.jsonl"))]
claims = {c["property"]: c for c in json.load(open(os.path.join(top, "MANIFEST.json")))["claims"]}
head = open(os.path.join(here, "design_head.md")).read()
out = [head.replace("{{MORE_FINDINGS}}\n", MORE_FINDINGS)]
for p in props:
    i = p["id"]
    c = claims[i]
    m, s, w = HOW[i]
    out.append("### %s %s\n\n%s\n\n" % (i, p["title"], p["statement"]))
    out.append("* Model: %s. Specification: %s.\n* Method: %s\n" % (m, s, w))
    out.append("* Result: **%s**. Theorems: %s.%s\n\n" % (
        c["status"], ", ".join("`%s`" % t for t in c["theorems"]),
        " " + c["note"] if c["note"] else ""))
open(os.path.join(top, "DESIGN.md"), "w").write("".join(out))

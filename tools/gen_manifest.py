#!/usr/bin/env python3
"""Writes /verif/MANIFEST.json from the claims below; checks that every theorem exists."""
import json, os, re, glob, sys
ROOT = os.path.join(os.path.dirname(os.path.abspath(__file__)), "..")
exec(open(os.path.join(ROOT, "tools", "claims.py")).read())
names = set()
for f in glob.glob(os.path.join(ROOT, "rocq/theories/*.v")):
    for m in re.finditer(r"^\s*(?:Theorem|Lemma|Example|Corollary)\s+([A-Za-z0-9_']+)", open(f).read(), re.M):
        names.add(m.group(1))
bad = [t for c in CLAIMS for t in c["theorems"] if t not in names]
if bad: sys.exit("missing theorems: %s" % bad)
props = [json.loads(l)["id"] for l in open(os.path.join(ROOT, "properties.jsonl"))]
have = [c["property"] for c in CLAIMS]
dup = [c for c in have if have.count(c) > 1]
if dup: sys.exit("duplicate claims %s" % dup)
unk = [c for c in have if c not in props]
if unk: sys.exit("unknown %s" % unk)
print("no claim yet:", [p for p in props if p not in have])
listed = {t for c in CLAIMS for t in c["theorems"]}
thm = set()
for f in glob.glob(os.path.join(ROOT, "rocq/theories/*Theorems.v")):
    thm |= set(re.findall(r"^Theorem\s+([A-Za-z0-9_']+)", open(f).read(), re.M))
print("theorems not in manifest:", sorted(thm - listed))
json.dump({"claims": CLAIMS}, open(os.path.join(ROOT, "MANIFEST.json"), "w"), indent=1)

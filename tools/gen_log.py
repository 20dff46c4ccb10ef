#!/usr/bin/env python3
"""Appends results of seeded/harness.py to seeded/LOG.jsonl: gen_log.py results.jsonl [commit]"""
import json, os, sys
HERE = os.path.dirname(os.path.abspath(__file__))
LOG = os.path.join(HERE, "..", "seeded", "LOG.jsonl")
def main():
    rows = [json.loads(l) for l in open(sys.argv[1])]
    with open(LOG, "a") as f:
        for d in rows:
            e = {"definition": d["definition"], "edit": d["edit"], "claim_broken": d["claim_broken"],
                 "theorems_failed": d["theorems_failed"], "theorems_tightened": d.get("theorems_tightened", [])}
            if d.get("note"): e["note"] = d["note"]
            f.write(json.dumps(e) + "\n")
main()

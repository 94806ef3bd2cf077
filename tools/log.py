#!/usr/bin/env python3
"""Append the results of mutate.py to seeded/LOG.jsonl.

usage: log.py OUT.json [TIGHTENED.json]
TIGHTENED maps an edit to the list of theorems added or tightened because the edit survived.
"""
import json, sys
out = json.load(open(sys.argv[1]))
tight = json.load(open(sys.argv[2])) if len(sys.argv) > 2 else {}
with open("/verif/seeded/LOG.jsonl", "a") as f:
    for r in out:
        rec = {"definition": r["definition"], "file": "rocq/theories/" + r["file"], "edit": r["edit"],
               "replaced": r["old"], "by": r["new"], "claim_broken": r["claim"],
               "theorems_failed": r.get("failed", []), "theorems_tightened": tight.get(r["edit"], [])}
        if r.get("note"): rec["note"] = r["note"]
        if r.get("skipped"): rec["note"] = "time limit reached" if r["skipped"] == ["TIMEOUT"] else "the edit does not type-check in the rest of the development"
        if r.get("error"): rec["error"] = r["error"]
        f.write(json.dumps(rec) + "\n")

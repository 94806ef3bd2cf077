#!/usr/bin/env python3
"""Regenerate rocq/_CoqProject (file list) and MANIFEST.json.

A comment starting with "(** Cnn" (possibly several ids, "(** C12, C13") in a
Prop_*.v file assigns the theorems that follow it to these properties.
Status and notes come from tools/notes.json.
"""
import glob, json, os, re
root = os.path.dirname(os.path.dirname(os.path.abspath(__file__)))
th = os.path.join(root, "rocq", "theories")
files = sorted(os.path.basename(f) for f in glob.glob(th + "/*.v"))
with open(os.path.join(root, "rocq", "_CoqProject"), "w") as f:
    f.write("-Q theories Verif\n" + "".join("theories/%s\n" % x for x in files))
claims = {}
for fn in files:
    if not fn.startswith("Prop_"):
        continue
    cur = []
    for m in re.finditer(r"\(\*\* (C\d+(?:, C\d+)*)|^ *Theorem\s+([A-Za-z0-9_']+)", open(os.path.join(th, fn)).read(), re.M):
        if m.group(1):
            cur = m.group(1).split(", ")
        else:
            assert cur, (fn, m.group(2))
            for c in cur:
                claims.setdefault(c, []).append(m.group(2))
notes = json.load(open(os.path.join(root, "tools", "notes.json")))
props = [json.loads(l)["id"] for l in open(os.path.join(root, "properties.jsonl"))]
out = []
for p in props:
    n = notes.get(p, {})
    if p in claims or "status" in n:
        st = n.get("status", "proved")
        out.append(dict(property=p, status=st, theorems=claims.get(p, []), note=n.get("note", "")))
json.dump({"claims": out}, open(os.path.join(root, "MANIFEST.json"), "w"), indent=1)
print({s: sum(c["status"] == s for c in out) for s in ("proved", "partial", "not_applicable")},
      "missing:", [p for p in props if p not in claims])
allnames = [t for c in out for t in c["theorems"]]
dup = {t for t in allnames if allnames.count(t) > 1}
print("shared:", dup)

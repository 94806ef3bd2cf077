#!/usr/bin/env python3
"""Fill the section "Assumptions per theorem" of DESIGN.md from Print Assumptions.

Needs the compiled files in rocq/theories.
"""
import glob, json, os, re, subprocess, tempfile
root = os.path.dirname(os.path.dirname(os.path.abspath(__file__)))
th = os.path.join(root, "rocq", "theories")
names = []
for c in json.load(open(os.path.join(root, "MANIFEST.json")))["claims"]:
    for t in c["theorems"]:
        if t not in names:
            names.append(t)
where = {}
for fn in sorted(glob.glob(th + "/Prop_*.v")):
    for m in re.finditer(r"^ *Theorem\s+([A-Za-z0-9_']+)", open(fn).read(), re.M):
        where[m.group(1)] = os.path.basename(fn)[:-2]
groups = {}
for mod in sorted(set(where[t] for t in names)):
    ts = [t for t in names if where[t] == mod]
    with tempfile.TemporaryDirectory() as d:
        src = os.path.join(d, "q.v")
        with open(src, "w") as f:
            f.write("From Verif Require %s.\n" % mod)
            for t in ts:
                f.write("Print Assumptions Verif.%s.%s.\n" % (mod, t))
        out = subprocess.run(["coqc", "-Q", th, "Verif", src], capture_output=True, text=True)
        assert out.returncode == 0, out.stderr
        parts = re.split(r"^(?=Closed under the global context|Axioms:)", out.stdout, flags=re.M)[1:]
        assert len(parts) == len(ts), (mod, len(parts), len(ts))
        for t, p in zip(ts, parts):
            ax = () if p.startswith("Closed") else tuple(sorted(set(re.findall(r"^([A-Za-z_][\w.']*)\s*:", p, re.M) + re.findall(r"^([A-Za-z_][\w.']*)$", p, re.M))))
            ax = tuple(a for a in ax if a != "Axioms")
            groups.setdefault(ax, []).append(t)
short = {"ClassicalDedekindReals.sig_not_dec": "sig_not_dec", "ClassicalDedekindReals.sig_forall_dec": "sig_forall_dec",
         "FunctionalExtensionality.functional_extensionality_dep": "functional_extensionality_dep", "Classical_Prop.classic": "classic"}
lines = ["## Assumptions per theorem", "",
         "Written by `tools/assumptions.py` from `Print Assumptions` of every theorem in `MANIFEST.json`. All axioms belong to the",
         "standard library: `ClassicalDedekindReals.sig_not_dec` and `ClassicalDedekindReals.sig_forall_dec` (the construction of",
         "the real numbers), `FunctionalExtensionality.functional_extensionality_dep` (used by the same construction), and",
         "`Classical_Prop.classic` (used by the libraries Flocq and Coquelicot and by `Reals`). No axiom is declared here.", ""]
for ax in sorted(groups, key=lambda a: (len(a), a)):
    lines += ["**%s** (%d theorems): %s" % (", ".join(short.get(a, a) for a in ax) or "No axioms", len(groups[ax]), ", ".join("`%s`" % t for t in groups[ax])), ""]
p = os.path.join(root, "DESIGN.md")
s = open(p).read()
s = s[:s.index("## Assumptions per theorem")] + "\n".join(lines)
open(p, "w").write(s)
print({a: len(v) for a, v in groups.items()})

#!/usr/bin/env python3
"""Apply edits to model definitions in a scratch copy and report which property theorems stop being provable.

usage: mutate.py SPEC.json [OUT.jsonl]
SPEC: list of {"definition", "file", "old", "new", "edit", "claim"}.
When a proof breaks it is replaced by Admitted in the scratch copy and the build goes on; a property theorem
has failed when its own proof breaks or when it rests on a broken lemma.
"""
import json, os, re, shutil, subprocess, sys, tempfile
from concurrent.futures import ThreadPoolExecutor

SRC = "/verif/rocq"
ROOT = os.environ.get("ROOT", "/tmp/mut")
BASE = ROOT + "/base"

def sh(cmd, cwd, timeout=1500):
    try:
        p = subprocess.run(cmd, shell=True, cwd=cwd, stdout=subprocess.PIPE, stderr=subprocess.STDOUT, timeout=timeout, text=True)
        return p.returncode, p.stdout
    except subprocess.TimeoutExpired:
        return 124, "TIMEOUT"

def prepare():
    os.makedirs(ROOT, exist_ok=True)
    if os.path.exists(BASE): shutil.rmtree(BASE)
    shutil.copytree(SRC, BASE, symlinks=True)
    for f in os.listdir(BASE + "/theories"):      # a mutated proof must not run for ever
        if f.endswith(".v"):
            p = BASE + "/theories/" + f
            t = open(p).read()
            open(p, "w").write("Set Default Timeout 120. " + t)
    rc, out = sh("coq_makefile -f _CoqProject -o Makefile && make -j4", BASE, 4000)
    if rc: print(out[-3000:]); sys.exit("base does not build")

HEAD = re.compile(r"^\s*(?:Local\s+|Global\s+)?(Theorem|Lemma|Example|Corollary|Fact|Remark|Definition|Fixpoint|Instance)\s+([\w']+)")

def break_proof(path, line):
    """replace the proof containing the given line by Admitted; returns the name"""
    L = open(path).read().split("\n")
    i = line - 1
    start = None
    for k in range(i, -1, -1):
        m = HEAD.match(L[k])
        if m: start = k; kind, name = m.group(1), m.group(2); break
    if start is None: return None
    # locate the proof: first "Proof" at or after start
    p = start
    while p < len(L) and not re.search(r"\bProof\b", L[p]): p += 1
    q = p
    while q < len(L) and not re.search(r"\b(Qed|Defined)\.", L[q]): q += 1
    if p >= len(L) or q >= len(L): return None
    if line - 1 < p and not re.search(r"\bProof\b", L[line - 1]): return None      # error in a statement
    if line - 1 > q: return None
    pre = re.split(r"\bProof\b", L[p])[0]
    post = re.split(r"\b(?:Qed|Defined)\.", L[q], 1)[1]
    L[p:q+1] = [pre + "Proof. Admitted." + post] + [""] * (q - p)
    open(path, "w").write("\n".join(L))
    return name

def prop_theorems(d):
    res = {}
    for f in sorted(os.listdir(d + "/theories")):
        if f.startswith("Prop_") and f.endswith(".v"):
            res[f[:-2]] = re.findall(r"^\s*(?:Theorem)\s+([\w']+)", open(d + "/theories/" + f).read(), re.M)
    return res

def requires(d):
    """for every file, the files it rests on, including itself"""
    direct = {}
    for f in os.listdir(d + "/theories"):
        if f.endswith(".v"):
            t = open(d + "/theories/" + f).read()
            direct[f[:-2]] = {x for l in re.findall(r"From Verif Require (?:Import|Export) ([\w\s]+)\.", t) for x in l.split()}
    def close(f, seen):
        if f not in seen:
            seen.add(f)
            for g in direct.get(f, ()): close(g, seen)
        return seen
    return {f: close(f, set()) for f in direct}

def run(i, mu):
    d = f"{ROOT}/m{i}"
    if os.path.exists(d): shutil.rmtree(d)
    subprocess.run(["cp", "-a", BASE, d], check=True)
    path = f"{d}/theories/{mu['file']}"
    s = open(path).read()
    if s.count(mu["old"]) < 1:
        return {**mu, "error": "old text not found"}
    if s.count(mu["old"]) > 1 and not mu.get("first"):
        return {**mu, "error": "old text not unique"}
    open(path, "w").write(s.replace(mu["old"], mu["new"], 1))
    broken, skipped = [], []
    for _ in range(120):
        rc, out = sh("make -k 2>&1", d)
        if rc == 0: break
        if rc == 124: skipped.append("TIMEOUT"); break
        ms = re.findall(r'File "\./?theories/([\w]+)\.v", line (\d+), characters [\d-]+:\nError', out)
        if not ms: skipped.append(out[-400:]); break
        for f, ln in ms:
            name = break_proof(f"{d}/theories/{f}.v", int(ln))
            if name is None:
                skipped.append(f"{f}.v:{ln} " + out[out.find("Error"):][:300]); break
            broken.append((f, name))
        if skipped: break
    failed = set()
    props = prop_theorems(d)
    ok = not skipped
    bn = {n for _, n in broken}
    for f, n in broken:
        if f in props and n in props[f]: failed.add(n)
    if ok and bn:
        rests = requires(d)
        for f, ths in props.items():
            ths = [t for t in ths if t not in failed]
            if not ths or not rests[f] & {g for g, _ in broken}: continue
            q = f"From Verif Require Import {f}.\n" + "".join(f'Goal True. idtac "@@ {t}". Abort.\nPrint Assumptions {t}.\n' for t in ths)
            qf = f"{d}/q_{f}.v"; open(qf, "w").write(q)
            rc, o = sh(f"coqc -Q theories Verif {qf}", d)
            cur = None
            for ln in o.split("\n"):
                if ln.startswith("@@ "): cur = ln[3:].strip()
                else:
                    mm = re.match(r"^([\w.']+)\s*(:|$)", ln)
                    if mm and cur and mm.group(1).split(".")[-1] in bn: failed.add(cur)
    shutil.rmtree(d)
    return {**mu, "broken_proofs": [n for _, n in broken], "failed": sorted(failed), "skipped": skipped}

if __name__ == "__main__":
    specs = json.load(open(sys.argv[1]))
    if "--nobase" not in sys.argv: prepare()
    def go(t):
        r = run(*t)
        print(json.dumps({k: r.get(k) for k in ("definition", "edit", "error", "failed", "broken_proofs", "skipped")}), flush=True)
        return r
    with ThreadPoolExecutor(int(os.environ.get("JOBS", "3"))) as ex:
        res = list(ex.map(go, enumerate(specs)))
    outp = sys.argv[2] if len(sys.argv) > 2 and not sys.argv[2].startswith("--") else None
    if outp: json.dump(res, open(outp, "w"), indent=1)

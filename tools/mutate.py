#!/usr/bin/env python3
"""Test the theorems against wrong programs.

usage: tools/mutate.py seeded/mutants.json [id ...]

Each mutant is an edit of one model definition.  It is applied to a scratch copy of rocq/ (outside of the repository), the
files that depend on it are rebuilt, and every proof that no longer goes through is replaced by Admitted; Print Assumptions
in the T_*.v files then tells which property theorems depend on a broken proof.  One JSON line per mutant is printed.
"""
import json, os, re, shutil, subprocess, sys

ROOT = os.path.dirname(os.path.dirname(os.path.abspath(__file__)))
SCRATCH = os.environ.get("SCRATCH", "/tmp/mutants")

def order():
    return [l.strip() for l in open(f"{ROOT}/rocq/_CoqProject") if l.strip().endswith(".v")]

def deps(files):
    d = {}
    for f in files:
        t = open(f"{ROOT}/rocq/{f}").read()
        names = set()
        for m in re.finditer(r"From Verif Require (?:Import|Export) ([^.]*)\.", t):
            names |= set(m.group(1).split())
        d[f] = {f"theories/{n}.v" for n in names}
    return d

HEAD = re.compile(r"^\s*(?:Local |#\[[^\]]*\] )?(Lemma|Theorem|Example|Corollary|Fact|Remark|Definition)\s+(\w+)", re.M)

def coqc(f, out, limit=600):
    try:
        p = subprocess.run(["coqc", "-Q", "theories", "Verif", f], cwd=out, capture_output=True, text=True, timeout=limit)
        return p.returncode, p.stdout + p.stderr
    except subprocess.TimeoutExpired:
        return -1, "timeout"

def build(f, out):
    """returns (output, broken lemmas, fatal error or None)"""
    broken = []
    while True:
        rc, txt = coqc(f, out)
        if rc == 0:
            return txt, broken, None
        m = re.search(r'line (\d+), characters', txt)
        if not m:
            return txt, broken, txt[-300:]
        line = int(m.group(1))
        src = open(f"{out}/{f}").read()
        pos = sum(len(l) + 1 for l in src.split("\n")[:line - 1])
        heads = [h for h in HEAD.finditer(src) if h.start() <= pos + len(src.split("\n")[line-1])]
        if not heads:
            return txt, broken, txt[-300:]
        h = heads[-1]
        pm = re.compile(r"\bProof\.").search(src, h.start())
        qm = re.compile(r"\b(Qed|Defined|Abort)\.").search(src, pm.start()) if pm else None
        if not pm or not qm or pos > qm.end() or line < src.count("\n", 0, pm.start()) + 1:
            return txt, broken, re.sub(r"\s+", " ", txt)[-300:]
        broken.append(h.group(2))
        src = src[:pm.start()] + "Admitted." + src[qm.end():]
        open(f"{out}/{f}", "w").write(src)

def run(mut):
    out = SCRATCH
    if os.path.exists(out):
        shutil.rmtree(out)
    shutil.copytree(f"{ROOT}/rocq", out)
    files = order()
    dp = deps(files)
    target = f"theories/{mut['file']}"
    src = open(f"{out}/{target}").read()
    n = src.count(mut["old"])
    if n != 1:
        return {"id": mut["id"], "error": f"old text occurs {n} times"}
    open(f"{out}/{target}", "w").write(src.replace(mut["old"], mut["new"]))
    dirty, broken, fatal, failed = {target}, {}, {}, []
    for f in files:
        if f == target or dp[f] & dirty:
            dirty.add(f)
            if dp[f] & set(fatal):
                fatal[f] = "depends on a file that does not compile"
                continue
            txt, b, err = build(f, out)
            if b:
                broken[f] = b
            if err:
                fatal[f] = err
            elif os.path.basename(f).startswith("T_"):
                # which theorems depend on an admitted lemma
                src = open(f"{out}/{f}").read()
                thms = re.findall(r"Print Assumptions (\w+)\.", src)
                blocks = re.split(r"(?=Closed under the global context|^Axioms:)", txt, flags=re.M)
                blocks = [x for x in blocks if x.startswith("Closed") or x.startswith("Axioms:")]
                for t, x in zip(thms, blocks):
                    if x.startswith("Axioms:"):
                        failed.append(t)
    for f in fatal:
        if os.path.basename(f).startswith("T_"):
            failed += re.findall(r"Print Assumptions (\w+)\.", open(f"{ROOT}/rocq/{f}").read())
    return {"id": mut["id"], "definition": f"{mut['file']}: {mut['def']}", "edit": mut["edit"], "claim": mut["claim"],
            "failed": sorted(set(failed)), "broken_proofs": broken, "does_not_compile": sorted(fatal), "survived": not broken and not fatal}

if __name__ == "__main__":
    muts = json.load(open(sys.argv[1]))
    want = set(sys.argv[2:])
    for m in muts:
        if want and m["id"] not in want:
            continue
        print(json.dumps(run(m)), flush=True)

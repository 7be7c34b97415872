#!/usr/bin/env python3
"""Seeded-bug runner.  Usage: mutate.py SPEC.json
SPEC: list of {id, file, def, old, new, claim}.  For each: copies /verif/rocq to a
scratch directory, replaces `old` by `new` in theories/<file> (must occur once),
rebuilds with make -k, and prints which lemmas failed and which property theorems
(Cxx_...) could no longer be built.  Appends one JSON line per attempt to OUT."""
import json, os, re, subprocess, sys, shutil, glob
SRC = os.environ.get("MUTBASE", "/verif/rocq")
spec = json.load(open(sys.argv[1]))
OUT = sys.argv[2]
JOBS = sys.argv[3] if len(sys.argv) > 3 else "2"
done = set()
if os.path.exists(OUT):
    for l in open(OUT): done.add(json.loads(l)["id"])
W = "/tmp/mut/work_" + os.path.basename(OUT)
def enclosing(path, line):
    name = "?"
    for i, l in enumerate(open(path), 1):
        m = re.match(r"\s*(?:Local |Global )?(?:Theorem|Lemma|Definition|Fixpoint|Example|Corollary|Inductive|Record)\s+(\w+)", l)
        if m: name = m.group(1)
        if i >= line: break
    return name
for m in spec:
    if m["id"] in done: continue
    shutil.rmtree(W, ignore_errors=True)
    subprocess.check_call(["cp", "-a", SRC, W])
    p = f"{W}/theories/{m['file']}"
    s = open(p).read()
    n = s.count(m["old"])
    if n == m.get("count", 1):
        open(p, "w").write(s.replace(m["old"], m["new"]))
    else:  # first occurrence in the definition
        d = re.search(r"^\s*(?:Definition|Fixpoint|Inductive|Record)\s+" + re.escape(m["def"]) + r"(?![\w']).*?\.\s*(?=\n|$)", s, re.M | re.S)
        if not d or m["old"] not in d.group(0):
            print("BAD MUTANT", m["id"], "occurrences", n, flush=True); continue
        open(p, "w").write(s[:d.start()] + d.group(0).replace(m["old"], m["new"], 1) + s[d.end():])
    subprocess.run("coq_makefile -f _CoqProject -o Makefile >/dev/null", shell=True, cwd=W)
    r = subprocess.run(f"timeout 3000 make -k -j{JOBS} COQC='timeout 900 coqc' 2>&1", shell=True, cwd=W, capture_output=True, text=True)
    failed = []
    for e in re.finditer(r'File "\./theories/(\w+\.v)", line (\d+)[^\n]*\nError', r.stdout):
        failed.append(e.group(1) + ":" + enclosing(f"{W}/theories/{e.group(1)}", int(e.group(2))))
    for e in re.finditer(r"\*\*\* \[[^\]]*theories/(\w+)\.vo\] (?:Error 1\d\d|Killed|Terminated)", r.stdout):
        failed.append(e.group(1) + ".v:(not finished in 15 minutes)")
    # everything that needs a failed file was not rebuilt
    deps = {}
    for v in glob.glob(f"{W}/theories/*.v"):
        t = open(v).read(); n = os.path.basename(v)[:-2]
        deps[n] = set(w for l in re.findall(r"From Verif Require(?: Import| Export)?([^.]*)\.", t) for w in l.split())
    bad = set(f.split(".v:")[0] for f in failed)
    while True:
        new = set(n for n in deps if n not in bad and deps[n] & bad)
        if not new: break
        bad |= new
    missing = [n + ".v" for n in sorted(bad)]
    thms = []
    for v in missing:
        for l in open(f"{W}/theories/{v}"):
            t = re.match(r"Theorem\s+(C\d\d_\w+)", l)
            if t: thms.append(t.group(1))
    rec = {"id": m["id"], "definition": m["file"] + ":" + m["def"], "edit": m["old"] + "  ==>  " + m["new"], "claim": m["claim"],
           "failed_at": failed, "theorems_not_built": sorted(set(thms))}
    open(OUT, "a").write(json.dumps(rec) + "\n")
    print(m["id"], "CAUGHT" if failed else "*** SURVIVED ***", failed, len(thms), flush=True)

#!/usr/bin/env python3
"""seedlog.py OUT.jsonl... : turns mutate.py results into seeded/LOG.jsonl.
A theorem is listed as failed if its proof uses, directly or through other lemmas
(by name), a lemma whose proof no longer compiled."""
import json, re, sys, glob, os
T = os.path.join(os.path.dirname(__file__), "..", "rocq", "theories")
texts = {}; order = []
for v in sorted(glob.glob(T + "/*.v")):
    cur = None
    for l in open(v):
        m = re.match(r"\s*(?:Local |Global )?(?:Theorem|Lemma|Definition|Fixpoint|Example|Corollary|Inductive|Record|Let|Instance)\s+([\w']+)", l)
        if m: cur = (os.path.basename(v), m.group(1)); texts.setdefault(cur, "")
        if cur: texts[cur] += l
uses = {k: set(re.findall(r"[A-Za-z_][\w']*", t)) - {k[1]} for k, t in texts.items()}
need = {}
for v in glob.glob(T + "/*.v"):
    t = open(v).read()
    need[os.path.basename(v)] = set(w + ".v" for l in re.findall(r"From Verif Require(?: Import| Export)?([^.]*)\.", t) for w in l.split())
grew = True
while grew:
    grew = False
    for n in need:
        new = set().union(*[need.get(x, set()) for x in need[n]]) - need[n]
        if new: need[n] |= new; grew = True
def closure(failed):
    bad = set(failed); grew = True
    while grew:
        grew = False
        for k, u in uses.items():
            if k not in bad and any(b[1] in u and (b[0] == k[0] or b[0] in need[k[0]]) for b in bad): bad.add(k); grew = True
    return bad
ALIAS = {"GhostProofs.v:vector2": "GhostProofs.v:vector2'", "CoupledProofs.v:event_step": "CoupledProofs.v:event_more",
         "EulLagProofs.v:weights_eq": "EulLagThms.v:e2l_correct", "GhostProofs.v:vector3": "GhostProofs.v:vector3'", "GhostProofs.v:buf3_box": "GhostProofs.v:exchange3_steps"}  # since renamed
LABEL = {"Doubling.v": "C24-C26", "GhostSum.v": "C27", "EulLag.v": "C29/C30", "Vbf.v": "C15/C39", "Bodies.v": "C40", "IoEul.v": "C33", "IoLag.v": "C34", "IoRod.v": "C43"}
tight = json.load(open(os.path.join(os.path.dirname(__file__), "tightened.json")))
out = []
for f in sys.argv[1:]:
    for l in open(f):
        r = json.loads(l)
        if r["failed_at"] == [r["definition"]]: continue  # the edited definition itself is ill-formed: not an attempt
        lem = [tuple(ALIAS.get(x, x).split(":")) for x in r["failed_at"]]
        bad = closure(lem)
        th = sorted(k[1] for k in texts if re.match(r"C\d\d_", k[1]) and k[0].startswith("Props") and k in bad and "Theorem " + k[1] in texts[k])
        lab = LABEL.get(r["definition"].split(":")[0])
        if lab and r["id"] < "M200": r["claim"] = re.sub(r"^C\d\d\S*( 3D| rod| finding)?", lambda m: lab + (m.group(1) or "") + (":" if m.group(0).endswith(":") else ""), r["claim"])
        out.append({"id": r["id"], "definition": r["definition"], "edit": r["edit"], "claim": r["claim"],
                    "first_failing_lemmas": r["failed_at"], "theorems_failed": th, "theorems_tightened": tight.get(r["id"], [])})
open(os.path.join(os.path.dirname(__file__), "..", "seeded", "LOG.jsonl"), "w").write("".join(json.dumps(x) + "\n" for x in out))
print(len(out), "attempts;", sum(1 for x in out if not x["theorems_failed"]), "without failing theorem:", [x["id"] for x in out if not x["theorems_failed"]])

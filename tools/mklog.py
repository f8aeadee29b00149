#!/usr/bin/env python3
"""Writes seeded/LOG.jsonl from the result files of tools/mutate.py, kept in seeded/results.jsonl."""
import json, os, glob, sys
here = os.path.dirname(os.path.abspath(__file__)); root = os.path.join(here, "..")
store = os.path.join(root, "seeded", "results.jsonl")
T = json.load(open(os.path.join(here, "tightened.json")))
R = {}
if os.path.exists(store):
    for l in open(store):
        d = json.loads(l); R[d["id"]] = d
for f in glob.glob("/tmp/mut/results/*.json"):
    d = json.load(open(f))
    if d.get("status","").split(" ")[0] in ("killed", "SURVIVED", "MISSED"): R.setdefault(d["id"], d) if d["id"] in R and False else R.__setitem__(d["id"], d)
with open(store, "w") as o:
    for i in sorted(R): o.write(json.dumps(R[i]) + "\n")
n = {}
with open(os.path.join(root, "seeded", "LOG.jsonl"), "w") as o:
    for i in sorted(R):
        d = R[i]; t = T.get(i, {})
        st = d["status"].split(" ")[0].lower(); n[st] = n.get(st, 0) + 1
        e = dict(id=i, definition=d["definition"], file="rocq/theories/" + d["file"], edit=d["edit"], claim=d["claim"],
                 outcome={"killed": "detected", "missed": "detected, but not by every theorem expected", "survived": "not detected"}[st],
                 theorems_failed=d.get("affected", []), theorems_tightened=t.get("tightened", []))
        if d.get("missed"): e["expected_but_not_failed"] = d["missed"]
        if t.get("note"): e["note"] = t["note"]
        o.write(json.dumps(e) + "\n")
print(len(R), n)
for i in sorted(R):
    if not R[i]["status"].startswith("killed") and i not in T: print("untreated", i, R[i]["status"], R[i]["definition"], "|", R[i]["edit"], "|", R[i]["claim"])

# Systematic edits (tools/automutate.py): kept in seeded/auto.jsonl, one LOG line each.
import re
astore = os.path.join(root, "seeded", "auto.jsonl"); A = {}
for f in (astore, "/tmp/mut/auto.jsonl"):
    if os.path.exists(f):
        for l in open(f):
            d = json.loads(l)
            if d["status"].split(" ")[0] in ("killed", "SURVIVED") : A.setdefault(d["id"], d); A[d["id"]].update(d)
def encl(d):
    if "definition" in d: return d["definition"]
    src = os.environ.get("MUTSRC", "/tmp/mut/srcC") + "/theories/" + d["file"]
    try: L = open(src).read().split("\n")[:d["line"]]
    except OSError: return "?"
    for l in reversed(L):
        g = re.match(r"\s*(?:Definition|Fixpoint|with|Inductive|Record)\s+([A-Za-z_0-9']+)", l)
        if g: return g.group(1)
    return "?"
with open(astore, "w") as o:
    for i in sorted(A): A[i]["definition"] = encl(A[i]); o.write(json.dumps(A[i]) + "\n")
k = {}
with open(os.path.join(root, "seeded", "LOG.jsonl"), "a") as o:
    for i in sorted(A):
        d = A[i]; t = T.get(i, {}); st = d["status"].split(" ")[0]; k[st] = k.get(st, 0) + 1
        at = d.get("at", "").split(":")[-1]; m = re.match(r"(C\d+)_", at)
        e = dict(id="auto-" + i, definition=d["definition"], file="rocq/theories/" + d["file"], edit=f"line {d['line']}: {d['kind']}: {d['old'].strip()!r} -> {d['new'].strip()!r}",
                 claim=t.get("claim") or (m.group(1) if m else f"what {at} states" if at else "?"),
                 outcome={"killed": "detected (build stopped at the first failing proof)", "SURVIVED": "not detected"}[st],
                 theorems_failed=[at] if at else [], theorems_tightened=t.get("tightened", []))
        if t.get("note"): e["note"] = t["note"]
        o.write(json.dumps(e) + "\n")
        if st == "SURVIVED" and i not in T: print("untreated auto", i, d["file"], d["line"], d["kind"], d["old"], "->", d["new"])
print("auto", k)

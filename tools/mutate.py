#!/usr/bin/env python3
"""Mutation testing of the model, always in a scratch copy under /tmp/mut.

usage: mutate.py MUTANTS.py [id-prefix ...]
MUTANTS.py defines M = [(id, file, definition, old, new, edit, claim, [expected property ids])].
For each mutant: copy the built tree, apply the edit, rebuild; every proof that
no longer compiles is replaced by Admitted and the build goes on, so that at
the end `Print Assumptions` tells which property theorems rest on a broken
proof.  Results go to /tmp/mut/results/<id>.json."""
import sys, os, re, subprocess, json, shutil, concurrent.futures as cf
SRC = os.environ.get("MUTSRC", "/verif/rocq"); BASE = os.environ.get("MUTBASE", "/tmp/mut/base"); RES = os.environ.get("MUTRES", "/tmp/mut/results")
START = re.compile(r"^\s*(?:#\[[^\]]*\]\s*)?(?:Local\s+|Global\s+)?(Theorem|Lemma|Corollary|Example|Fact|Remark|Instance)\s+([A-Za-z_0-9']+)")
def sh(cmd, cwd, t=3000):
    try:
        p = subprocess.run(cmd, cwd=cwd, shell=True, stdout=subprocess.PIPE, stderr=subprocess.STDOUT, text=True, timeout=t, errors="replace")
        return p.returncode, p.stdout
    except subprocess.TimeoutExpired as e:
        return 99, (e.stdout or b"").decode(errors="replace") if isinstance(e.stdout, bytes) else (e.stdout or "")
def admit(path, line):
    L = open(path).read().split("\n")
    i = line - 1
    while i >= 0 and not START.match(L[i]): i -= 1
    if i < 0: return None
    name = START.match(L[i]).group(2)
    # locate "Proof" from i
    j = i
    while j < len(L) and not re.search(r"\bProof\b", L[j]): j += 1
    if j > line - 1: return None  # the statement itself is broken
    k = j
    while k < len(L) and not re.search(r"\b(Qed|Defined|Admitted|Abort)\.", L[k]): k += 1
    if k >= len(L) or "Admitted" in L[k] or line - 1 > k: return None
    head = L[j][:re.search(r"\bProof\b", L[j]).start()]
    tail = L[k][re.search(r"\b(Qed|Defined)\.", L[k]).end():]
    L[j:k+1] = [head + "Admitted." + tail] + [""] * (k - j)
    open(path, "w").write("\n".join(L))
    return name
def theorems():
    out = []
    d = BASE + "/theories/Properties"
    for f in sorted(os.listdir(d)):
        if f.endswith(".v"):
            for l in open(d + "/" + f):
                m = re.match(r"^Theorem (C\d\d+_\w+)", l)
                if m: out.append((f[:-2], m.group(1)))
    return out
def run(m):
    mid, file, definition, old, new, edit, claim, expect = m
    w = f"/tmp/mut/w_{mid}"
    shutil.rmtree(w, ignore_errors=True)
    subprocess.run(["cp", "-a", BASE, w], check=True)
    res = dict(id=mid, definition=definition, file=file, edit=edit, claim=claim, expected=expect)
    p = f"{w}/theories/{file}"
    s = open(p).read()
    if s.count(old) != 1:
        res["status"] = f"BAD EDIT ({s.count(old)} matches)"
    else:
        open(p, "w").write(s.replace(old, new))
        broken = []; status = "ok"
        thms = theorems(); target = ""
        if os.environ.get("TARGETED"):
            # build only the property files of the expected claims, and ask about these
            files = {a for a, t in thms if any(t.startswith(c + "_") for c in expect)}
            thms = [(a, t) for a, t in thms if a in files]
            target = " ".join(f"theories/Properties/{a}.vo" for a in sorted(files))
        for it in range(200):
            rc, out = sh(f"make -k -j1 TIMECMD= {target} 2>&1", w)
            if rc == 0: break
            errs = re.findall(r'File "\./?(theories/[^"]+)", line (\d+), characters [\d-]+:\s*\n((?:Warning|Error))', out)
            todo = {}
            for f, l, k in errs:
                if k == "Error": todo.setdefault(f, int(l))
            if not todo:
                status = "BUILD FAILED: " + out[-600:]; break
            prog = False
            for f, l in todo.items():
                n = admit(f"{w}/{f}", l)
                if n: broken.append(f + ":" + n); prog = True
                else: status = f"STUCK {f}:{l}: " + "".join(re.findall(r'line %d, characters[^\n]*\n(Error[^\n]*\n[^\n]*\n[^\n]*)' % l, out)[:1])
            if not prog: break
        res["broken"] = broken
        if status == "ok" and rc == 0:
            with open(f"{w}/Chk.v", "w") as f:
                for x in sorted({a for a, _ in thms}): f.write(f"From Verif.Properties Require Import {x}.\n")
                for _, t in thms: f.write(f'Goal True. idtac "THM {t}". exact I. Qed.\nPrint Assumptions {t}.\n')
            rc, out = sh("coqc -Q theories Verif Chk.v", w)
            if rc: status = "CHK FAILED " + out[-300:]
            names = {b.split(":")[1] for b in broken}
            aff = []
            for part in out.split("THM ")[1:]:
                t = part.split("\n", 1)[0].strip()
                found = set(re.findall(r"^\s*([A-Za-z_0-9'.]+)\s*(?::|$)", part.split("\n", 1)[1], re.M))
                if {x.split(".")[-1] for x in found} & names: aff.append(t)
            res["affected"] = aff
            miss = [c for c in expect if not any(a.startswith(c + "_") for a in aff)]
            res["missed"] = miss
            if not broken: status = "SURVIVED"
            elif miss: status = "MISSED " + ",".join(miss)
            else: status = "killed"
        res["status"] = status
    shutil.rmtree(w, ignore_errors=True)
    os.makedirs(RES, exist_ok=True)
    json.dump(res, open(f"{RES}/{mid}.json", "w"), indent=1)
    print(mid, res["status"][:300], "| broken", len(res.get("broken", [])), "| affected", " ".join(res.get("affected", []))[:400], flush=True)
def main():
    ns = {}
    exec(open(sys.argv[1]).read(), ns)
    M = ns["M"]
    if os.environ.get("SKIPDONE"): M = [m for m in M if not os.path.exists(f"{RES}/{m[0]}.json")]
    if len(sys.argv) > 2: M = [m for m in M if any(m[0].startswith(a) for a in sys.argv[2:])]
    shutil.rmtree(BASE, ignore_errors=True)
    os.makedirs("/tmp/mut", exist_ok=True)
    subprocess.run(["cp", "-a", SRC, BASE], check=True)
    with cf.ThreadPoolExecutor(int(os.environ.get("W","3"))) as ex: list(ex.map(run, M))
main()

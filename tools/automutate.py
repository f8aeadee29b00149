#!/usr/bin/env python3
"""Systematic mutation of Model/*.v, in a scratch copy under /tmp/mut.

usage: automutate.py [--list] [--sample N] [--seed S] [FILE ...]
Syntactic edits (comparison off by one, && / ||, true / false, negated test,
constant +-1, swapped constructor, dropped match arm, swapped right-hand sides,
changed string) are made one at a time; an edit after which the edited file or
another definition no longer compiles is discarded.  The tree is then rebuilt
up to the first proof that fails which is not an Example.  An edit after which
every theorem still proves is reported as SURVIVED, to be looked at by hand.
Results: one JSON line per mutant in /tmp/mut/auto.jsonl."""
import sys, os, re, subprocess, json, shutil, random, hashlib, concurrent.futures as cf
BASE = os.environ.get("MUTBASE", "/tmp/mut/baseA"); SRC = os.environ.get("MUTSRC", "/verif/rocq"); OUT = os.environ.get("MUTOUT", "/tmp/mut/auto.jsonl")
START = re.compile(r"^\s*(?:#\[[^\]]*\]\s*)?(?:Local\s+|Global\s+)?(Theorem|Lemma|Corollary|Example|Fact|Remark|Instance)\s+([A-Za-z_0-9']+)")
def mask(s):
    """positions inside comments"""
    m = bytearray(len(s)); d = 0; i = 0; q = False
    while i < len(s):
        if not q and s.startswith("(*", i): d += 1; m[i:i+2] = b"\1\1"; i += 2; continue
        if d and s.startswith("*)", i): m[i:i+2] = b"\1\1"; d -= 1; i += 2; continue
        if d: m[i] = 1
        elif s[i] == '"': q = not q
        i += 1
    return m
SUBS = [(r"<=\?", "<?", "boundary"), (r"(?<![<=])<\?", "<=?", "boundary"), (r"&&", "||", "and/or"), (r"(?<!\|)\|\|(?!\|)", "&&", "or/and"),
  (r"\btrue\b", "false", "true/false"), (r"\bfalse\b", "true", "false/true"), (r"\bnegb ", "", "negation dropped"),
  (r"\bVInt\b", "VUInt", "constructor"), (r"\bVUInt\b", "VInt", "constructor"), (r"\bSome\b [a-z_]+\b(?!\s*=>)", "None", "Some lost"),
  (r"\brev\b ", "", "reversal dropped"), (r"\bfirstn\b", "skipn", "firstn/skipn"), (r"\bforallb\b", "existsb", "all/any"), (r"\bexistsb\b", "forallb", "any/all"),
  (r"\bi64_max\b", "(i64_max - 1)%Z", "constant"), (r"\bi64_min\b", "(i64_min + 1)%Z", "constant"), (r"\bu64_max\b", "(u64_max - 1)%Z", "constant"), (r"\bi64_max\b", "u64_max", "constant"), (r"\bu64_max\b", "i64_max", "constant"),
  (r"\bfst\b", "snd", "fst/snd"), (r"\bsnd\b", "fst", "snd/fst"), (r"\bPanic\b", "Done", "panic"), (r" \+ 1\b", "", "increment dropped"), (r"\bS t\b", "t", "step dropped"), (r" - 1\b", "", "decrement dropped")]
def gen(name, s):
    m = mask(s); out = []
    def add(a, b, new, kind):
        if any(m[a:b]): return
        line = s.count("\n", 0, a) + 1
        t = s[:a] + new + s[b:]
        if t != s: out.append(dict(file=name, line=line, kind=kind, old=s[a:b][:120], new=new[:120], text=t))
    for pat, rep, kind in SUBS:
        for x in re.finditer(pat, s):
            # not inside a string
            if s[s.rfind("\n", 0, x.start())+1:x.start()].count('"') % 2: continue
            add(x.start(), x.end(), rep, kind)
    for x in re.finditer(r"\b\d+\b", s):
        if s[s.rfind("\n", 0, x.start())+1:x.start()].count('"') % 2: continue
        n = int(x.group()); add(x.start(), x.end(), str(n + 1), "constant+1")
        if n: add(x.start(), x.end(), str(n - 1), "constant-1")
    for x in re.finditer(r"\bif ((?:(?!\b(?:then|if)\b).)+?) then\b", s, re.S): add(x.start(1), x.end(1), "negb (" + x.group(1) + ")", "test negated")
    for x in re.finditer(r'"([^"\n]*)"', s):
        if x.group(1) and x.group(1)[0].isalpha(): add(x.start(1), x.end(1), x.group(1)[:-1] + ("x" if x.group(1)[-1] != "x" else "y"), "string")
    L = s.split("\n"); off = [0]
    for l in L: off.append(off[-1] + len(l) + 1)
    ARM = re.compile(r"^(\s*)\| (.+?) => (.*?)$")
    for i, l in enumerate(L):
        a = ARM.match(l)
        if not a: continue
        if i + 1 < len(L) and re.match(r"^\s*(\||end)", L[i+1]): add(off[i], off[i] + len(l), "", "arm dropped")
        if i + 1 < len(L):
            b = ARM.match(L[i+1])
            if b and a.group(3) != b.group(3):
                add(off[i], off[i+1] + len(L[i+1]), f"{a.group(1)}| {a.group(2)} => {b.group(3)}\n{b.group(1)}| {b.group(2)} => {a.group(3)}", "right-hand sides swapped")
    for x in re.finditer(r"\(([a-z_0-9']+) ([a-z_][a-z_0-9']*) ([a-z_][a-z_0-9']*)\)", s):
        if x.group(2) != x.group(3): add(x.start(), x.end(), f"({x.group(1)} {x.group(3)} {x.group(2)})", "arguments swapped")
    for d in out: d["id"] = hashlib.sha1((d["file"] + d["text"]).encode()).hexdigest()[:8]
    return out
def sh(cmd, cwd, t=2400):
    try:
        p = subprocess.run(cmd, cwd=cwd, shell=True, stdout=subprocess.PIPE, stderr=subprocess.STDOUT, text=True, timeout=t, errors="replace")
        return p.returncode, p.stdout
    except subprocess.TimeoutExpired: return 99, "TIMEOUT"
def run(d):
    w = f"/tmp/mut/a_{d['id']}"; shutil.rmtree(w, ignore_errors=True)
    r = {k: v for k, v in d.items() if k != "text"}
    r["status"] = "?"
    # compile the edited file alone first
    t = f"/tmp/mut/t_{d['id']}"; shutil.rmtree(t, ignore_errors=True); os.makedirs(t)
    subprocess.run(["cp", "-a", BASE, w], check=True); shutil.rmtree(t)
    open(f"{w}/theories/{d['file']}", "w").write(d["text"])
    ex = []
    for _ in range(12):
        rc, out = sh("make -j1 TIMECMD= 2>&1", w)
        if rc == 0: r["status"] = "SURVIVED"; break
        if out == "TIMEOUT": r["status"] = "timeout"; break
        e = [(f, int(l)) for f, l, k in re.findall(r'File "\./?(theories/[^"]+)", line (\d+), characters [\d-]+:\s*\n(Error)', out)]
        if not e: r["status"] = "failed " + out[-200:]; break
        f, l = e[0]
        if "/Model/" in f or "/Spec/" in f:
            L = open(f"{w}/{f}").read().split("\n"); i = l - 1
            while i >= 0 and not START.match(L[i]): i -= 1
            r["status"] = "discarded" ; r["at"] = f"{f}:{l}"; break
        L = open(f"{w}/{f}").read().split("\n"); i = l - 1
        while i >= 0 and not START.match(L[i]): i -= 1
        g = START.match(L[i]) if i >= 0 else None
        if g and g.group(1) == "Example":
            j = i
            while j < len(L) and not re.search(r"\bProof\b", L[j]): j += 1
            k = j
            while k < len(L) and not re.search(r"\b(Qed|Defined)\.", L[k]): k += 1
            if j <= l - 1 <= k:
                head = L[j][:re.search(r"\bProof\b", L[j]).start()]
                L[j:k+1] = [head + "Admitted."] + [""] * (k - j)
                open(f"{w}/{f}", "w").write("\n".join(L)); ex.append(g.group(2)); continue
        r["status"] = "killed"; r["at"] = f"{f}:{g.group(2) if g else l}"; break
    if r["status"] == "?": r["status"] = "killed by Examples only"
    if ex: r["examples"] = ex
    shutil.rmtree(w, ignore_errors=True)
    with open(OUT, "a") as o: o.write(json.dumps(r) + "\n")
    print(r["id"], r["file"], r["line"], r["kind"], r["status"], r.get("at", ""), flush=True)
def main():
    a = sys.argv[1:]; lst = "--list" in a; a = [x for x in a if x != "--list"]; n = None; seed = 1
    if "--sample" in a: i = a.index("--sample"); n = int(a[i+1]); del a[i:i+2]
    if "--seed" in a: i = a.index("--seed"); seed = int(a[i+1]); del a[i:i+2]
    shutil.rmtree(BASE, ignore_errors=True); subprocess.run(["cp", "-a", SRC, BASE], check=True)
    files = a or sorted("Model/" + f for f in os.listdir(BASE + "/theories/Model") if f.endswith(".v"))
    M = []
    for f in files: M += gen(f, open(f"{BASE}/theories/{f}").read())
    seen = set(); done = set()
    if os.path.exists(OUT): done = {json.loads(l)["id"] for l in open(OUT)}
    M = [d for d in M if not (d["id"] in seen or seen.add(d["id"])) and d["id"] not in done]
    if lst:
        for d in M: print(d["file"], d["line"], d["kind"], repr(d["old"]), "->", repr(d["new"]))
        print(len(M)); return
    random.Random(seed).shuffle(M)
    if n: M = M[:n]
    with cf.ThreadPoolExecutor(int(os.environ.get("W", "2"))) as ex: list(ex.map(run, M))
main()

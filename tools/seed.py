#!/usr/bin/env python3
"""Edit the model in a scratch copy, rebuild, and list the property theorems that no longer follow.

usage: seed.py bugs.json      each bug: {"file": "Model/X.v", "definition": "...", "old": "...", "new": "...", "edit": "...",
                                         "claim": "...", "expect": ["C01"], "tightened": []}
A failing proof is replaced by Admitted and the build goes on; a property theorem counts as failed when its own proof
breaks or when Print Assumptions shows it resting on a broken lemma.
"""
import json, os, re, shutil, subprocess, sys
ROOT = os.environ.get("SEED_ROOT", "/verif/rocq")
TOP = os.environ.get("SEED_SCRATCH", "/tmp/seed")
SCR = TOP + "/rocq"

def deps():
    txt = subprocess.run("coqdep -f _CoqProject 2>/dev/null", shell=True, cwd=ROOT, capture_output=True, text=True).stdout
    d = {}
    for line in txt.splitlines():
        m = re.match(r"(theories/\S+)\.vo .*?: (.*)", line)
        if m:
            d[m[1] + ".v"] = [x[:-3] + ".v" for x in m[2].split() if x.endswith(".vo") and x.startswith("theories/")]
    return d

def order(ds):
    out, seen = [], set()
    def go(f):
        if f in seen: return
        seen.add(f)
        for g in ds.get(f, []): go(g)
        out.append(f)
    for f in ds: go(f)
    return out

def compile_(f):
    r = subprocess.run(["timeout", "600", "coqc", "-Q", "theories", "Verif", f], cwd=SCR, capture_output=True, text=True)
    return r.returncode, r.stdout + r.stderr

def admit_at(path, line):
    """replace the proof containing (or ending before) the given line; return the name"""
    ls = open(path).read().split("\n")
    i = line - 1
    # find the statement start at or before the line
    pat = re.compile(r"^\s*(?:#\[[^\]]*\]\s*)?(?:Theorem|Lemma|Example|Corollary|Fact|Instance|Definition|Fixpoint)\s+([\w']+)")
    while i >= 0 and not (pat.match(ls[i]) and re.match(r"^\s*(?:Theorem|Lemma|Example|Corollary|Fact)", ls[i])):
        i -= 1
    if i < 0: return None
    name = pat.match(ls[i])[1]
    text = "\n".join(ls[i:])
    m = re.search(r"\bProof\b(?: using[^.]*)?\.(.*?)\b(Qed|Defined)\.", text, re.S)
    if not m: return None
    new = text[:m.start()] + "Admitted." + text[m.end():]
    open(path, "w").write("\n".join(ls[:i]) + "\n" + new)
    return name

def run(bug, verbose=True):
    shutil.rmtree(TOP, ignore_errors=True)
    shutil.copytree(ROOT, SCR)
    path = os.path.join(SCR, "theories", bug["file"])
    s = open(path).read()
    if s.count(bug["old"]) < 1:
        return {"error": "pattern not found"}
    if s.count(bug["old"]) > 1 and not bug.get("all"):
        return {"error": "pattern found %d times" % s.count(bug["old"])}
    open(path, "w").write(s.replace(bug["old"], bug["new"]))
    ds = deps()
    dirty = {"theories/" + bug["file"]}
    broken = []
    todo = []
    for f in order(ds):
        if f in dirty or any(g in dirty for g in ds[f]):
            dirty.add(f); todo.append(f)
    for f in todo:
        for _ in range(60):
            rc, out = compile_(f)
            if rc == 0: break
            m = re.search(r"line (\d+), characters [\d-]+:\s*\nError", out) or re.search(r"line (\d+), characters", out)
            if not m: return {"error": "build: " + out[-600:]}
            n = admit_at(os.path.join(SCR, f), int(m[1]))
            if n is None: return {"error": "cannot admit: " + out[-600:]}
            broken.append((f, n))
        else:
            return {"error": "too many"}
    # which property theorems rest on a broken proof
    failed = [n for f, n in broken if f.startswith("theories/Props/")]
    for f in todo:
        if not f.startswith("theories/Props/"): continue
        names = re.findall(r"^(?:Theorem)\s+(C\d+_[\w']+)", open(os.path.join(SCR, f)).read(), re.M)
        mod = "Verif." + f[len("theories/"):-2].replace("/", ".")
        open(SCR + "/q.v", "w").write("From Coq Require Import List. Require Import %s.\n" % mod +
            "\n".join("Definition mark_%s := 0. Print mark_%s. Print Assumptions %s." % (n, n, n) for n in names))
        r = subprocess.run(["coqc", "-Q", "theories", "Verif", "q.v"], cwd=SCR, capture_output=True, text=True)
        parts = re.split(r"mark_(C\d+_[\w']+) = 0", r.stdout)
        bn = {n for _, n in broken}
        for k in range(1, len(parts), 2):
            ax = re.findall(r"^([\w.']+)\s*:", parts[k + 1], re.M)
            if any(a.split(".")[-1] in bn for a in ax) and parts[k] not in failed:
                failed.append(parts[k])
    return {"failed": sorted(set(failed)), "broken_lemmas": sorted({n for f, n in broken if not f.startswith("theories/Props/")})}

if __name__ == "__main__":
    bugs = json.load(open(sys.argv[1]))
    log = os.path.join("/verif", "seeded", "LOG.jsonl")
    for b in bugs:
        r = run(b)
        if "error" in r:
            print("ERROR", b["definition"], b["edit"], r["error"]); continue
        ok = all(any(t.startswith(e + "_") for t in r["failed"]) for e in b["expect"])
        print("ok  " if ok else "WEAK", b["definition"], "|", b["edit"], "|", r["failed"])
        with open(log, "a") as fh:
            fh.write(json.dumps({"definition": b["definition"] + " (rocq/theories/" + b["file"] + ")", "edit": b["edit"], "claim_broken": b["claim"],
                                 "theorems_failed": [t for t in r["failed"] if re.match(r"C\d+_", t)],
                                 "theorems_tightened": b.get("tightened", [])}) + "\n")

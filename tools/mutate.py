#!/usr/bin/env python3
"""Applies a one-place edit to a scratch copy of the model, rebuilds everything that depends on it,
admits each proof that breaks (in the scratch copy only), and reports which theorems broke or rest on
a broken lemma.  Appends the result to seeded/LOG.jsonl.

usage: mutate.py muts.json     (list of {file, definition, old, new, claim, [expect], [tightened]})
"""
import json, os, re, shutil, subprocess, sys
ROOT = "/verif"
SCR = os.environ.get("MUTDIR", "/tmp/mut")
def sh(cmd, t=1200):
    try:
        return subprocess.run(cmd, capture_output=True, text=True, timeout=t, cwd=SCR)
    except subprocess.TimeoutExpired:
        class R: returncode = 1; stdout = ""; stderr = "TIMEOUT"
        return R()
def deps():
    out = subprocess.run("coqdep -Q theories Verif theories/*.v", shell=True, capture_output=True, text=True, cwd=ROOT + "/rocq").stdout
    d = {}
    for l in out.splitlines():
        m = re.match(r"theories/(\w+)\.vo .*?: (.*)", l)
        if m:
            d[m[1]] = [x for x in re.findall(r"theories/(\w+)\.vo", m[2])]
    return d
HEAD = re.compile(rb"^\s*(?:#\[[^\]]*\]\s*)?(?:Local |Global )?(Theorem|Lemma|Corollary|Example|Fact|Remark|Proposition)\s+([\w']+)", re.M)
def admit_at(path, line):
    src = open(path, "rb").read()
    off = sum(len(x) + 1 for x in src.split(b"\n")[:line - 1])
    best = None
    for m in HEAD.finditer(src):
        if m.start() <= off + 200:
            q = re.compile(rb"(Qed|Defined|Admitted)\.").search(src, m.end())
            if q and m.start() <= off + 1 and q.end() >= off: best = (m, q)
    if not best: return None
    m, q = best
    p = re.compile(rb"\bProof\b[^.]*\.").search(src, m.end(), q.end())
    if not p: return None
    if q.group(1) == b"Admitted": return None
    src = src[:p.start()] + b"Proof. Admitted." + b"\n" * src[p.start():q.end()].count(b"\n") + src[q.end():]
    open(path, "wb").write(src)
    return m.group(2).decode()
def run(mut, D):
    if os.path.exists(SCR): shutil.rmtree(SCR)
    shutil.copytree(ROOT + "/rocq", SCR)
    f = SCR + "/theories/" + mut["file"]
    s = open(f).read()
    n = s.count(mut["old"])
    if n != 1:
        return {"error": "pattern occurs %d times" % n}
    open(f, "w").write(s.replace(mut["old"], mut["new"]))
    first = mut["file"][:-2]
    order, seen = [], set()
    dirty = {first}
    changed = True
    while changed:
        changed = False
        for k, v in D.items():
            if k not in dirty and any(x in dirty for x in v): dirty.add(k); changed = True
    def visit(k):
        if k in seen: return
        seen.add(k)
        for x in D[k]: visit(x)
        if k in dirty: order.append(k)
    for k in sorted(dirty): visit(k)
    broken, dead, outs = [], [], ""
    for k in order:
        if any(x in dead for x in D[k]): dead.append(k); continue
        for _ in range(60):
            r = sh(["coqc", "-q", "-Q", "theories", "Verif", "theories/%s.v" % k])
            if r.returncode == 0: outs += r.stdout; break
            m = re.findall(r'line (\d+), characters', r.stdout + r.stderr)
            name = None
            if m:
                name = admit_at(SCR + "/theories/%s.v" % k, int(m[-1]))
            if not name:
                dead.append(k); broken.append("%s.v does not compile: %s" % (k, (r.stdout + r.stderr)[-200:])); break
            broken.append(name)
    # property theorems resting on broken lemmas
    aff = []
    if broken:
        for k in order:
            if not k.endswith("_props") or k in dead: continue
            names = re.findall(r"^\s*Theorem\s+(C\d\d+_[\w']+)", open(SCR + "/theories/%s.v" % k).read(), re.M)
            t = "From Verif Require Import %s.\n" % k + "".join('Fail Fail Print Assumptions %s.\n' % n for n in names)
            t = "From Verif Require Import %s.\n" % k + "".join('Print Assumptions %s.\n' % n for n in names)
            open(SCR + "/q.v", "w").write(t)
            r = sh(["coqc", "-q", "-Q", "theories", "Verif", "q.v"])
            chunks = re.split(r"^(?=Closed under|Axioms:)", r.stdout, flags=re.M)[1:]
            for n, c in zip(names, chunks):
                ax = re.findall(r"^([\w'.]+)\s*(?=:|$)", c, re.M)
                if n in broken or any(a.split(".")[-1] in broken for a in ax): aff.append(n)
    return {"broken": broken, "affected": sorted(set(aff))}
def main():
    D = deps()
    only = set(sys.argv[2:])
    for mut in json.load(open(sys.argv[1])):
        if only and mut["definition"] not in only: continue
        r = run(mut, D)
        if "error" in r:
            print("!!", mut["definition"], r); continue
        if any(b.startswith(mut["file"] + " does not compile") for b in r["broken"]):
            print("!! not a program:", mut["definition"], r["broken"]); continue
        e = {"definition": mut["file"] + ": " + mut["definition"], "edit": mut["old"].strip() + "  ->  " + mut["new"].strip(),
             "claim_broken": mut["claim"], "first_broken_proofs": r["broken"][:6], "theorems_failed": r["affected"],
             "theorems_tightened": mut.get("tightened", [])}
        if mut.get("note"): e["note"] = mut["note"]
        print(json.dumps(e)[:700], flush=True)
        open(ROOT + "/seeded/LOG.jsonl", "a").write(json.dumps(e) + "\n")
main()

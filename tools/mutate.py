#!/usr/bin/env python3
"""usage: mutate.py muts.json   -- each: {"file","old","new","def","edit","claim"}; works in /tmp/mut, appends seeded/LOG.jsonl"""
import sys, json, re, os, shutil, subprocess, glob
root = os.path.dirname(os.path.dirname(os.path.abspath(__file__)))
muts = json.load(open(sys.argv[1]))
dry = "--dry" in sys.argv
W = "/tmp/mut"
def decls(txt):
    out = []
    for m in re.finditer(r"^\s*(?:Local\s+)?(?:Theorem|Lemma|Corollary|Fact|Example|Definition|Fixpoint|Remark)\s+([\w']+)", txt, re.M):
        out.append((txt[:m.start()].count("\n") + 1 + m.group(0).count("\n"), m.group(1)))
    return out
bodies = {}
for f in glob.glob(root + "/rocq/theories/*.v"):
    txt = re.sub(r"Print Assumptions.*", "", open(f).read()); lines = txt.split("\n"); ds = decls(txt)
    for i, (l, n) in enumerate(ds):
        e = ds[i + 1][0] - 1 if i + 1 < len(ds) else len(lines)
        bodies[n] = set(re.findall(r"[\w']+", "\n".join(lines[l - 1:e])))
def dependents(names):
    s = set(names); ch = True
    while ch:
        ch = False
        for n, b in bodies.items():
            if n not in s and b & s: s.add(n); ch = True
    return s
for mu in muts:
    if os.path.exists(W): shutil.rmtree(W)
    shutil.copytree(root + "/rocq", W)
    p = f"{W}/theories/{mu['file']}"
    t = open(p).read()
    if t.count(mu["old"]) < 1: print("!! pattern not found", mu); continue
    k = mu.get("nth", 0); parts = t.split(mu["old"])
    t = mu["old"].join(parts[:k + 1]) + mu["new"] + mu["old"].join(parts[k + 1:])
    open(p, "w").write(t)
    r = subprocess.run(f"cd {W} && coq_makefile -f _CoqProject -o Makefile >/dev/null && timeout 1500 make -k -j4 2>&1", shell=True, capture_output=True, text=True)
    fails = []
    for m in re.finditer(r'File "\./theories/(\w+\.v)", line (\d+)', r.stdout):
        f, l = m.group(1), int(m.group(2))
        ds = [n for (ll, n) in decls(open(f"{W}/theories/{f}").read()) if ll <= l]
        if ds: fails.append((f, ds[-1]))
    # drop warnings: keep only errors
    errs = []
    for m in re.finditer(r'File "\./theories/(\w+\.v)", line (\d+), characters [^\n]*\nError', r.stdout):
        f, l = m.group(1), int(m.group(2))
        ds = [n for (ll, n) in decls(open(f"{W}/theories/{f}").read()) if ll <= l]
        if ds: errs.append((f, ds[-1]))
    names = [n for _, n in errs]
    th = sorted(n for n in dependents(names) if re.match(r"C\d\d", n))
    rec = {"definition": mu["def"], "file": mu["file"], "edit": mu.get("edit") or (mu["old"] + "  ==>  " + mu["new"]), "claim_broken": mu["claim"],
           "first_failures": [f"{f}:{n}" for f, n in errs], "theorems_failed": th, "theorems_tightened": mu.get("tightened", []), "survived": not errs}
    print('SURVIVED' if not errs else 'killed', mu['def'], '|', mu['claim'], '|', rec['first_failures'], th); sys.stdout.flush()
    if not dry: open(root + "/seeded/LOG.jsonl", "a").write(json.dumps(rec) + "\n")

"""Writes a Coq file with Print Assumptions for every theorem in MANIFEST.json, runs it and prints the theorems grouped by axiom set (Markdown)."""
import json,re,subprocess,glob,os,collections
T="/verif/rocq/theories/"
names=[t for c in json.load(open("/verif/MANIFEST.json"))["claims"] for t in c["theorems"]]
where={}
for f in sorted(glob.glob(T+"*.v")):
    for t in re.findall(r"^\s*(?:Theorem|Corollary)\s+(C\d\d_\w+)",open(f).read(),re.M): where.setdefault(t,[]).append(os.path.basename(f)[:-2])
mods=sorted({m for t in names for m in where[t]})
out=collections.defaultdict(list)
for m in mods:
    ts=[t for t in dict.fromkeys(names) if m in where[t]]
    open("/tmp/w/asm/A.v","w").write("From Verif Require %s.\n"%m+"".join('Goal True. idtac "@@%s". Abort.\nPrint Assumptions %s.%s.\n'%(t,m,t) for t in ts))
    r=subprocess.run(["coqc","-Q",T,"Verif","/tmp/w/asm/A.v"],capture_output=True,text=True)
    if r.returncode: print("FAILED",m,r.stderr[:300])
    for part in re.split(r"@@",r.stdout)[1:]:
        t,rest=part.split("\n",1)
        if "Closed under" in rest: ax=()
        else: ax=tuple(sorted(set(re.findall(r"^([A-Za-z][\w.]+)\s*:",rest,re.M))-{"Axioms"}))
        out[ax].append(m+"."+t)
for ax,ts in sorted(out.items()):
    print("* "+("**Closed under the global context** (no axiom)" if not ax else "**"+", ".join("`%s`"%a for a in ax)+"**")+" — %d theorems:"%len(ts))
    d=collections.defaultdict(list)
    for t in ts: d[t.split(".")[0]].append(t.split(".")[1])
    print("  "+"; ".join("%s: %s"%(m," ".join(v)) for m,v in d.items()))

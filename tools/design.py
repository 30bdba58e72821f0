#!/usr/bin/env python3
"""Rebuilds DESIGN.md from tools/design_head.md, the citations in rocq/theories/*.v, tools/claims.txt and tools/assumptions.md (output of tools/assumptions.py)."""
import re,glob,os,json,collections
root=os.path.dirname(os.path.dirname(os.path.abspath(__file__)))
T=root+"/rocq/theories/"
out=open(root+"/tools/design_head.md").read().rstrip()+"\n\n"
# coverage
cov=collections.defaultdict(lambda: collections.defaultdict(set))
for f in sorted(glob.glob(T+"*.v")):
    m=os.path.basename(f)[:-2]
    if not m.endswith("Model"): continue
    s=open(f).read()
    for c in re.finditer(r"spreg/([a-z_0-9]+\.py):([0-9][0-9, +\-]*)",s):
        for r in re.findall(r"\d+(?:-\d+|\+)?",c.group(2)): cov[c.group(1)][m].add(r)
    for c in re.finditer(r"spreg/([a-z_0-9]+\.py)(?!:\d)",s): cov[c.group(1)][m]
out+="## What is modelled: source lines cited by the model\n\nGenerated from the comments of the definitions (a range is the code one definition stands for).\n\n| source file | model file: lines |\n|---|---|\n"
key=lambda r:int(re.match(r"\d+",r).group())
for f in sorted(cov):
    out+="| %s | %s |\n"%(f,"; ".join("%s: %s"%(m,", ".join(sorted(v,key=key)) if v else "(see the file's header)") for m,v in sorted(cov[f].items())))
out+="\n"+open(root+"/tools/design_not.md").read().rstrip()+"\n\n"
out+="## Where the code does not have the property\n\nEach is a theorem `*_refuted` (a concrete input) or an exact characterisation; from tools/claims.txt, the notes of the claims that are partial.\n\n"
for l in open(root+"/tools/claims.txt"):
    if "|" in l:
        c,s,n=[x.strip() for x in l.split("|",2)]
        if s=="partial": out+="* **%s**: %s\n"%(c,n)
out+="\n## Print Assumptions\n\nGenerated by tools/assumptions.py, which runs `Print Assumptions` on every theorem of MANIFEST.json. The axioms are those of Coq's standard library for the real numbers and classical logic; nothing else is assumed.\n\n"
out+=open(root+"/tools/assumptions.md").read()
open(root+"/DESIGN.md","w").write(out)

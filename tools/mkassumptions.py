#!/usr/bin/env python3
"""Write ASSUMPTIONS.md: what Print Assumptions lists for every property theorem.
Needs a compiled /verif/rocq; recompiles the Props files in a scratch directory."""
import glob, os, re, subprocess, tempfile
root = os.path.dirname(os.path.dirname(os.path.abspath(__file__)))
th = os.path.join(root, "rocq/theories")
sets, order = {}, []
missing = []
for f in sorted(glob.glob(th + "/Props_*.v")):
    src = open(f).read()
    thms = re.findall(r"^Theorem (C\d\d_\w+)", src, re.M)
    printed = re.findall(r"^Print Assumptions (\w+)\.", src, re.M)
    with tempfile.TemporaryDirectory() as d:
        out = subprocess.run(["coqc", "-Q", th, "Verif", "-o", os.path.join(d, os.path.basename(f) + "o"), f],
                             capture_output=True, text=True).stdout
    blocks = re.split(r"^(?=Closed under the global context|Axioms:$)", out, flags=re.M)[1:]
    assert len(blocks) == len(printed), (f, len(blocks), len(printed))
    for n, b in zip(printed, blocks):
        ax = () if b.startswith("Closed") else tuple(sorted(set(re.findall(r"^([A-Za-z_][\w.']*)\s*(?::|$)", b[8:], re.M))))
        sets.setdefault(ax, []).append(n)
    missing += [t for t in thms if t not in printed]
with open(os.path.join(root, "ASSUMPTIONS.md"), "w") as o:
    o.write("# What Print Assumptions lists for each property theorem\n\nGenerated by tools/mkassumptions.py from the output of the `Props_*.v` files.\n")
    for ax, ns in sorted(sets.items()):
        o.write("\n## " + (", ".join("`%s`" % a for a in ax) if ax else "No axioms (closed under the global context)") + "\n\n")
        o.write(", ".join(sorted(ns)) + "\n")
print({k: len(v) for k, v in sets.items()}, "missing", missing)

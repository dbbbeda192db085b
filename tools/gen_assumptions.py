#!/usr/bin/env python3
"""Collects the output of `Print Assumptions` of every property theorem into ASSUMPTIONS.md.
Usage: gen_assumptions.py DIR   (DIR/PropX.out = stdout of coqc on PropX.v)"""
import re, sys, glob, os
root = os.path.join(os.path.dirname(os.path.abspath(__file__)), "..")
groups = {}
for f in sorted(glob.glob(os.path.join(root, "rocq/theories/Prop*.v"))):
    src = open(f).read()
    names = re.findall(r"^Print Assumptions (\w+)\.", src, re.M)
    thms = re.findall(r"^Theorem (C\d\d_\w+)", src, re.M)
    missing = [t for t in thms if t not in names]
    if missing: print("no Print Assumptions:", missing)
    out = open(os.path.join(sys.argv[1], os.path.basename(f)[:-2] + ".out")).read()
    blocks = []
    for line in out.splitlines():
        if line.startswith("Closed under"): blocks.append([])
        elif line.startswith("Axioms:"): blocks.append([])
        else:
            m = re.match(r"^([A-Za-z][\w.]*)\s*(:|$)", line)
            if m and blocks is not None and "." in m.group(1): blocks[-1].append(m.group(1))
    assert len(blocks) == len(names), (f, len(blocks), len(names))
    for n, b in zip(names, blocks):
        groups.setdefault(tuple(sorted(b)), []).append(n)
with open(os.path.join(root, "ASSUMPTIONS.md"), "w") as o:
    o.write("# Print Assumptions, per theorem\n\nGenerated by tools/gen_assumptions.py from the build output. All axioms are axioms of\nCoq's standard library.\n")
    for k in sorted(groups, key=len):
        o.write("\n## " + (", ".join("`%s`" % a for a in k) if k else "Closed under the global context (no axioms)") + "\n\n")
        o.write(", ".join(groups[k]) + "\n")
print({len(k): len(v) for k, v in groups.items()})

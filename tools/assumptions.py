#!/usr/bin/env python3
"""Rewrite the assumption table of DESIGN.md: runs Print Assumptions on every theorem named Cxx_* in the *Props.v files
(the project must be built) and groups the theorems by what it lists."""
import glob, os, re, subprocess, tempfile
root = os.path.dirname(os.path.dirname(os.path.abspath(__file__)))
thms = []
for f in sorted(glob.glob(root + "/rocq/theories/*Props.v")):
    mod = os.path.basename(f)[:-2]
    thms += [(mod, m) for m in re.findall(r"^Theorem (C\d+_\w+)", open(f).read(), re.M)]
with tempfile.TemporaryDirectory() as d:
    with open(d + "/A.v", "w") as o:
        for mod in sorted({m for m, _ in thms}):
            o.write(f"Require Verif.{mod}.\n")
        for mod, t in thms:
            o.write(f'Goal True. idtac "@@ {t}". Abort.\nPrint Assumptions Verif.{mod}.{t}.\n')
    out = subprocess.run(["coqc", "-Q", root + "/rocq/theories", "Verif", d + "/A.v"], capture_output=True, text=True, check=True).stdout
groups = {}
for part in out.split("@@ ")[1:]:
    name, _, rest = part.partition("\n")
    ax = tuple(sorted(set(re.findall(r"^([A-Za-z_][\w.]*)\s*(?::|$)", rest, re.M)) - {"Axioms", "Closed"}))
    groups.setdefault(ax, []).append(name.strip())
lines = []
for ax, ts in sorted(groups.items(), key=lambda x: (len(x[0]), x[0])):
    lines.append("- " + ("**Closed under the global context**" if not ax else "Axioms " + ", ".join(f"`{a}`" for a in ax)) + f" ({len(ts)} theorems): " + ", ".join(sorted(ts)) + ".")
p = root + "/DESIGN.md"
s = open(p).read()
b, e = "<!-- assumptions begin -->\n", "<!-- assumptions end -->"
i, j = s.index(b) + len(b), s.index(e)
open(p, "w").write(s[:i] + "\n".join(lines) + "\n" + s[j:])
print(len(thms), "theorems,", len(groups), "groups")

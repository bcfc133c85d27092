#!/usr/bin/env python3
"""Rewrites section 5's table in DESIGN.md: axioms reported by Print Assumptions for every property theorem.
Needs an up-to-date build in rocq/ (the .vo files)."""
import glob, os, re, shutil, subprocess, tempfile
ROOT = os.path.dirname(os.path.dirname(os.path.abspath(__file__)))
TH = os.path.join(ROOT, "rocq", "theories")
tab, total = {}, 0
with tempfile.TemporaryDirectory() as tmp:
    for p in sorted(glob.glob(TH + "/*Props.v")):
        src = re.sub(r"^(\s*)Print Assumptions (\w+)\.", r"\1Check (forall MARK_\2 : Prop, MARK_\2). Print Assumptions \2.",
                     open(p).read(), flags=re.M)
        q = os.path.join(tmp, os.path.basename(p)); open(q, "w").write(src)
        r = subprocess.run(["coqc", "-w", "none", "-Q", TH, "Verif", q], capture_output=True, text=True)
        assert r.returncode == 0, (p, r.stderr)
        for c in re.split(r"(?=^forall MARK_)", r.stdout, flags=re.M)[1:]:
            name = re.match(r"forall MARK_(\w+)", c).group(1); total += 1
            ax = c[c.index("Axioms:"):] if "Axioms:" in c else ""
            names = tuple(sorted(set(re.findall(r"^([A-Za-z_][\w.]*)\s*:", ax, re.M)) - {"Axioms"}))
            tab.setdefault(names, []).append(name)
out = ["%d property theorems. For all but the following `Print Assumptions` reports \"Closed under the global context\"." % total, ""]
for k, v in sorted(tab.items()):
    if k:
        out += ["* " + ", ".join("`%s`" % x for x in v), "  rely on " + ", ".join("`%s`" % x for x in k) + "."]
d = open(ROOT + "/DESIGN.md").read()
a, b = "<!-- assumptions: begin -->\n", "<!-- assumptions: end -->"
i, j = d.index(a) + len(a), d.index(b)
open(ROOT + "/DESIGN.md", "w").write(d[:i] + "\n".join(out) + "\n" + d[j:])

#!/usr/bin/env python3
"""Print Assumptions of every theorem of MANIFEST.json -> ASSUMPTIONS.txt (rocq/ must be built)."""
import json, os, re, subprocess, tempfile
ROOT = os.path.dirname(os.path.dirname(os.path.abspath(__file__)))
SRC = os.path.join(ROOT, "rocq", "theories")
where = {}
for f in sorted(os.listdir(SRC)):
    if f.endswith(".v"):
        for m in re.finditer(r"^\s*(?:Theorem|Lemma|Corollary)\s+([A-Za-z0-9_']+)", open(os.path.join(SRC, f)).read(), re.M): where.setdefault(m.group(1), f[:-2])
thms = [(c["property"], t) for c in json.load(open(os.path.join(ROOT, "MANIFEST.json")))["claims"] for t in c["theorems"]]
with tempfile.TemporaryDirectory() as d:
    with open(os.path.join(d, "Qq.v"), "w") as f:
        for n in sorted({where[t] for _, t in thms}): f.write("From Verif Require %s.\n" % n)
        for i, (_, t) in enumerate(thms): f.write('Redirect "a%d" Print Assumptions %s.%s.\n' % (i, where[t], t))
    subprocess.run(["coqc", "-Q", SRC, "Verif", "Qq.v"], cwd=d, check=True)
    with open(os.path.join(ROOT, "ASSUMPTIONS.txt"), "w") as f:
        for i, (c, t) in enumerate(thms):
            f.write("%s %s.%s: %s\n" % (c, where[t], t, " ".join(open(os.path.join(d, "a%d.out" % i)).read().split())))

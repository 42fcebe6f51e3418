#!/usr/bin/env python3
"""Run Print Assumptions on every theorem named in MANIFEST.json (after `make` in rocq/)."""
import json, os, re, subprocess, tempfile

root = os.path.join(os.path.dirname(os.path.abspath(__file__)), "..")
theories = os.path.join(root, "rocq", "theories")
home = {}
for f in sorted(os.listdir(theories)):
    if f.endswith("Props.v"):
        for m in re.finditer(r"^Theorem (C\d+_\w+)", open(os.path.join(theories, f)).read(), re.M):
            home[m.group(1)] = f[:-2]
names = [t for c in json.load(open(os.path.join(root, "MANIFEST.json")))["claims"] for t in c["theorems"]]
with tempfile.TemporaryDirectory() as d:
    p = os.path.join(d, "Check.v")
    with open(p, "w") as out:
        out.write("From Verif Require %s.\n" % " ".join(sorted(set(home.values()))))
        for n in names:
            out.write("Check %s.%s.\nPrint Assumptions %s.%s.\n" % (home[n], n, home[n], n))
    subprocess.run(["coqc", "-Q", theories, "Verif", p], check=True)

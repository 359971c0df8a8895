#!/usr/bin/env python3
"""Writes ASSUMPTIONS.md: what Print Assumptions answers for every property theorem.
Run after make, from the top of the repository."""
import glob, os, re, subprocess
out = ["# What the property theorems assume", "",
       "Written by `tools/assumptions.py` from the output of `Print Assumptions`.", ""]
total = 0
for f in sorted(glob.glob("rocq/theories/*Props*.v")):
    src = open(f).read()
    names = re.findall(r"^Print Assumptions ([\w']+)\.", src, re.M)
    theorems = re.findall(r"^Theorem ([\w']+)", src, re.M)
    assert set(theorems) <= set(names), (f, set(theorems) - set(names))
    r = subprocess.run(["coqc", "-q", "-Q", "theories", "Verif", "-o", f"/tmp/{os.path.basename(f)}o",
                        f"theories/{os.path.basename(f)}"], cwd="rocq", capture_output=True, text=True)
    assert r.returncode == 0, r.stderr
    answers = re.findall(r"^(Closed under the global context|Axioms:\n(?:.+\n?)*)", r.stdout, re.M)
    assert len(answers) == len(names), (f, len(answers), len(names))
    out.append(f"## {os.path.basename(f)}\n")
    for n, a in zip(names, answers):
        out.append(f"* `{n}`: {' '.join(a.split())}")
        total += 1
    out.append("")
out.insert(3, f"{total} theorems.")
open("ASSUMPTIONS.md", "w").write("\n".join(out))
print(total)

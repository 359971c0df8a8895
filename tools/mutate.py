#!/usr/bin/env python3
"""Mutation test of the model.

usage: mutate.py SPEC.json
SPEC: list of {"file","old","new","claim","definition","edit"}.
Copies rocq/ to a scratch directory, applies one edit to the model, rebuilds the
files depending on it.  A proof that no longer goes through is replaced by
Admitted (in the scratch copy only) so that every property theorem resting on it
can be listed from Print Assumptions.  Prints one JSON line per mutant."""
import json, os, re, shutil, subprocess, sys

SRC = os.environ.get("SRC", "/verif/rocq")
WORK = os.environ.get("MUT", "/tmp/mut")

def deps(files):
    out = {}
    for f in files:
        txt = open(f"{SRC}/theories/{f}.v").read()
        ds = set()
        for m in re.finditer(r"From Verif Require (?:Import|Export) ([^.]*)\.", txt):
            ds |= set(m.group(1).split())
        out[f] = ds
    return out

def coqc(f, timeout=240):
    cmd = ["coqc", "-q", "-Q", "theories", "Verif", f"theories/{f}.v"]
    try:
        r = subprocess.run(cmd, cwd=WORK, capture_output=True, text=True, timeout=timeout)
        return r.returncode, r.stdout, r.stderr
    except subprocess.TimeoutExpired:
        pass
    # a proof runs away: find the sentence after the last finished one
    try:
        out = subprocess.run(cmd[:2] + ["-time"] + cmd[2:], cwd=WORK, capture_output=True, timeout=timeout).stdout
    except subprocess.TimeoutExpired as e:
        out = e.stdout or b""
    ends = re.findall(rb"^Chars \d+ - (\d+)", out, re.M)
    end = int(ends[-1]) if ends else 0
    txt = open(f"{WORK}/theories/{f}.v", "rb").read()
    rest = txt[end:]
    end += len(rest) - len(rest.lstrip())
    return -1, "", f"line {txt[:end].count(10) + 1}, characters 0: runs away"

START = re.compile(r"^[ \t]*(?:Local |Global |#\[.*\] )?(Lemma|Theorem|Example|Corollary|Fact|Remark)\s+([\w']+)", re.M)

def admit(f, line):
    p = f"{WORK}/theories/{f}.v"
    txt = open(p).read()
    lines = txt.split("\n")
    off = sum(len(x) + 1 for x in lines[:line - 1])
    best = None
    for m in START.finditer(txt):
        if m.start() <= off + len(lines[line - 1]):
            best = m
    if best is None:
        return None
    i = txt.find("Proof.", best.start())
    q = re.compile(r"\b(Qed|Defined)\.").search(txt, i)
    if i < 0 or not q or q.end() < off:
        return None
    txt = txt[:i] + "Admitted." + "\n" * txt[i:q.end()].count("\n") + txt[q.end():]
    open(p, "w").write(txt)
    return best.group(2)

def run(m):
    shutil.rmtree(WORK, ignore_errors=True)
    shutil.copytree(SRC, WORK)
    order = [l.strip()[len("theories/"):-2] for l in open(f"{SRC}/_CoqProject") if l.strip().endswith(".v")]
    d = deps(order)
    p = f"{WORK}/theories/{m['file']}.v"
    t = open(p).read()
    if t.count(m["old"]) < 1:
        return {"error": "pattern not found", **m}
    open(p, "w").write(t.replace(m["old"], m["new"], 1))
    affected, failed, broken = {m["file"]}, [], []
    for f in order:
        if f != m["file"] and d[f] & affected:
            affected.add(f)
        if f not in affected:
            continue
        while True:
            rc, out, err = coqc(f)
            if rc == 0:
                break
            mm = re.search(r'line (\d+), characters', err)
            name = admit(f, int(mm.group(1))) if mm else None
            if not name:
                return {**m, "result": "model or statement no longer typechecks", "at": f, "err": err[-300:]}
            broken.append(name)
        if "Props" in f:
            cur = None
            thms = re.findall(r"Print Assumptions ([\w']+)\.", open(f"{WORK}/theories/{f}.v").read())
            blocks = re.split(r"(?=Closed under the global context|Axioms:)", out)
            blocks = [b for b in blocks if b.startswith("Closed") or b.startswith("Axioms")]
            for tname, b in zip(thms, blocks):
                if b.startswith("Axioms"):
                    failed.append(tname)
    return {"definition": m.get("definition", m["file"]), "edit": m.get("edit", m["old"] + " => " + m["new"]),
            "breaks": m["claim"], "failed": failed, "failed_lemmas": broken, "tightened": m.get("tightened", [])}

if __name__ == "__main__":
    for m in json.load(open(sys.argv[1])):
        print(json.dumps(run(m)), flush=True)

#!/usr/bin/env python3
"""Mutation test of the theorems: apply one edit to a model file in a scratch copy of
rocq/, rebuild, record which lemma/theorem breaks first in each file.

usage: mutate.py mutations.json [--log]
mutations.json: list of {"file","definition","old","new","claim"}, optionally
"targets": the Props files to rebuild (default: all)
"""
import json, os, re, shutil, subprocess, sys, datetime

SCR = "/tmp/mut/rocq"
SRC = os.path.join(os.path.dirname(os.path.abspath(__file__)), "..", "rocq")
LOG = os.path.join(os.path.dirname(os.path.abspath(__file__)), "..", "seeded", "LOG.jsonl")

def sync():
    shutil.rmtree(SCR, ignore_errors=True)
    subprocess.run(["mkdir", "-p", os.path.dirname(SCR)], check=True)
    subprocess.run(["cp", "-a", BASE, SCR], check=True)

def enclosing(path, line):
    name = None
    for i, l in enumerate(open(path), 1):
        if i > line: break
        m = re.match(r"\s*(?:#\[.*\]\s*)?(Lemma|Theorem|Example|Definition|Fixpoint|Corollary)\s+([A-Za-z0-9_']+)", l)
        if m: name = m.group(2)
    return name

BASE = "/tmp/mut/base"
def main():
    # snapshot, so that work can go on in /verif meanwhile
    shutil.rmtree(BASE, ignore_errors=True)
    subprocess.run(["mkdir", "-p", os.path.dirname(BASE)], check=True)
    subprocess.run(["cp", "-a", SRC, BASE], check=True)
    muts = json.load(open(sys.argv[1]))
    log = "--log" in sys.argv
    for m in muts:
        sync()
        f = os.path.join(SCR, "theories", m["file"])
        s = open(f).read()
        if s.count(m["old"]) < 1:
            print("NOT FOUND", m["definition"], m["old"]); continue
        s = s.replace(m["old"], m["new"], 1)
        open(f, "w").write(s)
        tg = " ".join("theories/%s.vo" % t for t in m.get("targets", []))
        r = subprocess.run("coq_makefile -f _CoqProject -o Makefile >/dev/null && timeout 1500 make -k -j3 %s 2>&1" % tg, shell=True, cwd=SCR,
                           capture_output=True, text=True)
        fails = []
        for mm in re.finditer(r'File "\./theories/(\w+\.v)", line (\d+).*\n(Error[^\n]*)?', r.stdout):
            if mm.group(3) is None: continue
            fails.append(mm.group(1)[:-2] + "." + str(enclosing(os.path.join(SCR, "theories", mm.group(1)), int(mm.group(2)))))
        deps = {}
        for x in os.listdir(os.path.join(SCR, "theories")):
            if x.endswith(".v"):
                t = open(os.path.join(SCR, "theories", x)).read()
                deps[x[:-2]] = set(w for mm in re.finditer(r"From Verif Require (?:Import|Export) ([^.]*)\.", t) for w in mm.group(1).split())
        bad = set(x.split(".")[0] for x in fails)
        while True:
            more = set(x for x in deps if x not in bad and deps[x] & bad)
            if not more: break
            bad |= more
        blocked = sorted(x + ".v" for x in bad if x.startswith("Props") and x not in set(y.split(".")[0] for y in fails))
        first_invalid = any(f_.startswith(m["file"][:-2] + ".") for f_ in fails) and m["file"] in ("PwPoly.v",)
        rec = {"definition": m["file"][:-2] + "." + m["definition"], "edit": m["old"].strip() + "  =>  " + m["new"].strip(),
               "claim": m["claim"], "failed": fails, "not_rebuilt": [b[:-2] for b in blocked], "tightened": m.get("tightened", [])}
        print(("SURVIVED " if not fails else "killed ") + json.dumps(rec), flush=True)
        if m.get("targets"): rec["rebuilt_only"] = m["targets"]
        if log:
            with open(LOG, "a") as g: g.write(json.dumps(rec) + "\n")
main()

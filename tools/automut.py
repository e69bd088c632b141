#!/usr/bin/env python3
"""Systematic mutation of the model files: one token of one definition at a time (comparison, constant, operator, exception, ...),
dependent files compiled cheapest first in a scratch copy until one fails.  Prints one JSON line per mutant to the given file.

usage: automut.py out.jsonl worker nworkers per_definition budget_s seed file.v ...
"""
import json, os, random, re, shutil, subprocess, sys, time
OUT, WK, NW, PER, BUDGET, SEED = sys.argv[1], int(sys.argv[2]), int(sys.argv[3]), int(sys.argv[4]), float(sys.argv[5]), int(sys.argv[6])
FILES = sys.argv[7:]
SRC = "/tmp/am/base"  # a built copy of rocq/
SCR = "/tmp/am/w%d" % WK
TIMES = "/tmp/am/times.json"
OPS = [(r"<=\?", ["<?"]), (r"(?<!<)<\?", ["<=?"]), (r"(?<![<:!])=\?", ["<=?"]), (r"&&", ["||"]), (r"\|\|", ["&&"]), (r"\bnegb\b", [""]),
       (r"\btrue\b", ["false"]), (r"\bfalse\b", ["true"]), (r"(?<= )\+(?= )", ["-"]), (r"(?<= )-(?= )", ["+"]), (r"(?<= )\*(?= )", ["+"]),
       (r"(?<= )/(?= )", ["*"]), (r"(?<![\w.'%])0(?![\w.'])", ["1"]), (r"(?<![\w.'])1(?![\w.'])", ["2", "0"]), (r"(?<![\w.'])2(?![\w.'])", ["1", "3"]),
       (r"(?<![\w.'])([3-9]|\d\d+)(?![\w.'])", ["INC"]),
       (r"\bfst\b", ["snd"]), (r"\bsnd\b", ["fst"]), (r"\brev\b", [""]), (r"\bfirstn\b", ["skipn"]), (r"\bskipn\b", ["firstn"]),
       (r"\bTypeError\b", ["ValueError"]), (r"\bValueError\b", ["TypeError"]), (r"\bIndexError\b", ["ValueError"]), (r"\bKeyError\b", ["AttributeError"]), (r"\bAttributeError\b", ["KeyError"]),
       (r"\bnle\b", ["nlt"]), (r"\bnlt\b", ["nle"]), (r"\bnleb\b", ["nltb"]), (r"\bnltb\b", ["nleb"]), (r"\bnadd\b", ["nsub"]), (r"\bnsub\b", ["nadd"]), (r"\bnmul\b", ["nadd"]),
       (r"\bRleb\b", ["Rltb"]), (r"\bRltb\b", ["Rleb"]), (r"\bexistsb\b", ["forallb"]), (r"\bforallb\b", ["existsb"]), (r"\bMax\b", ["Min"]), (r"\bcos\b", ["sin"]), (r"\bsin\b", ["cos"]),
       (r"\bn0\b", ["n1"]), (r"\bn1\b", ["n0"]), (r"\bS (?=[a-z(])", [""]), (r"\bmin\b", ["max"]), (r"\bmax\b", ["min"]), (r'"([a-z_ ]+)"', ["STR"]), (r"\bmod\b", ["/"]),
       (r"\bNone\b", ["(Some _)"]), (r"\bif ", ["if negb "]), (r"\bpred\b", [""]), (r"\btl\b", [""]), (r"\bhd\b", ["last"]), (r"\blast\b", ["hd"])]

def strip_comments(s):
    out, d, i = [], 0, 0
    while i < len(s):
        if s.startswith("(*", i): d += 1; out.append("  "); i += 2; continue
        if s.startswith("*)", i) and d: d -= 1; out.append("  "); i += 2; continue
        out.append(s[i] if not d else ("\n" if s[i] == "\n" else " ")); i += 1
    return "".join(out)

def mutants(f):
    s = open(os.path.join(SRC, "theories", f)).read(); t = strip_comments(s)
    rnd = random.Random(f + str(SEED)); res = []
    for m in re.finditer(r"^ *(?:#\[.*?\]\s*)?(Definition|Fixpoint) +([\w']+)", t, re.M):
        e = re.compile(r"\.(?=\s)").search(t, m.end()); body0 = t.find(":=", m.end())
        if body0 < 0 or body0 > e.start(): continue
        cands = []
        for rx, reps in OPS:
            for k in re.finditer(rx, t[body0 + 2:e.start()]):
                a, b = body0 + 2 + k.start(), body0 + 2 + k.end()
                for r in reps:
                    if r == "INC": r = str(int(k.group(0)) + 1)
                    if r == "STR": r = '"' + k.group(1) + 'x"'
                    cands.append((a, b, r))
        rnd.shuffle(cands)
        for a, b, r in cands[:PER]:
            ctx = s[max(0, a - 30):a] + "[[" + s[a:b] + " => " + r + "]]" + s[b:b + 30]
            res.append(dict(file=f, definition=m.group(2), a=a, b=b, r=r, edit=" ".join(ctx.split())))
    return res

def deps():
    d = {}
    for x in os.listdir(os.path.join(SRC, "theories")):
        if x.endswith(".v"):
            t = open(os.path.join(SRC, "theories", x)).read()
            d[x[:-2]] = set(w for mm in re.finditer(r"From Verif Require (?:Import|Export)? ?([^.]*)\.", t) for w in mm.group(1).split())
    return d

def times():
    try: return json.load(open(TIMES))
    except Exception: return {}

def coqc(name, tmo):
    t0 = time.time()
    r = subprocess.run("timeout %d coqc -q -Q theories Verif theories/%s.v 2>&1" % (tmo, name), shell=True, cwd=SCR, capture_output=True, text=True)
    return r.returncode, r.stdout, time.time() - t0

def enclosing(path, line):
    name = None
    for i, l in enumerate(open(path), 1):
        if i > line: break
        m = re.match(r"\s*(?:#\[.*\]\s*)?(Lemma|Theorem|Example|Definition|Fixpoint|Corollary|Instance)\s+([A-Za-z0-9_']+)", l)
        if m: name = m.group(2)
    return name

def main():
    D = deps()
    ms = [m for f in FILES for m in mutants(f)]
    random.Random(SEED).shuffle(ms)
    seen = set()
    if os.path.exists(OUT): seen = set((d["file"], d["definition"], d["edit"]) for d in map(json.loads, open(OUT)))
    ms = [m for i, m in enumerate(ms) if i % NW == WK and (m["file"], m["definition"], m["edit"]) not in seen]
    shutil.rmtree(SCR, ignore_errors=True); subprocess.run(["cp", "-a", SRC, SCR], check=True)
    print(len(ms), "mutants", flush=True)
    for m in ms:
        base = m["file"][:-2]
        down = {base}
        while True:
            more = set(x for x in D if x not in down and D[x] & down)
            if not more: break
            down |= more
        down.discard(base)
        p = os.path.join(SCR, "theories", m["file"]); s = open(os.path.join(SRC, "theories", m["file"])).read()
        open(p, "w").write(s[:m["a"]] + m["r"] + s[m["b"]:])
        touched = [base]; t0 = time.time(); T = times()
        rc, out, dt = coqc(base, 300)
        if rc != 0:
            k = re.search(r'File "[^"]*/(\w+)\.v", line (\d+)[^\n]*\n(?:(?!File)[^\n]*\n)*?Error', out)
            who = enclosing(p, int(k.group(2))) if k else None
            if who and re.search(r"^ *(Lemma|Theorem|Example) +" + who + r"\b", s, re.M): m["result"] = "killed"; m["by"] = base + "." + who
            else: m["result"] = "invalid"
        else:
            m["result"] = "survived"; todo = set(down); done = set(); left = []
            while todo:
                ready = [x for x in todo if not (D[x] & todo)]
                x = min(ready, key=lambda x: (T.get(x, os.path.getsize(os.path.join(SRC, "theories", x + ".v")) / 3000.0)))
                if time.time() - t0 + T.get(x, 10) > BUDGET: left = sorted(todo); m["result"] = "budget"; break
                todo.discard(x); touched.append(x)
                rc, out, dt = coqc(x, int(max(60, 5 * T.get(x, 60))))
                if rc != 0:
                    k = re.search(r'File "[^"]*/(\w+)\.v", line (\d+)[^\n]*\n(?:(?!File)[^\n]*\n)*?Error', out)
                    m["result"] = "killed"; m["by"] = x + "." + str(enclosing(os.path.join(SCR, "theories", x + ".v"), int(k.group(2)))) if k else x + ".(timeout)"; break
                T2 = times(); T2[x] = dt; json.dump(T2, open(TIMES + str(WK), "w")); os.replace(TIMES + str(WK), TIMES)
            if left: m["left"] = left
        m["t"] = round(time.time() - t0); 
        with open(OUT, "a") as g: g.write(json.dumps({k: v for k, v in m.items() if k not in "abr"}) + "\n")
        for x in touched:
            for suf in (".v", ".vo", ".vos", ".vok", ".glob"):
                q = os.path.join(SRC, "theories", x + suf)
                if suf == ".v" or os.path.exists(q): subprocess.run(["cp", "-a", q, os.path.join(SCR, "theories", x + suf)])
main()

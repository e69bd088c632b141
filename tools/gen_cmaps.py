#!/usr/bin/env python3
"""Write rocq/theories/CmapData.v (the colour tables of npplus/pyplotx/mpl2cmaps.py, in
millionths) and rocq/theories/CmapCert.v (approximations checked in PropsCmaps.v)."""
import os, re
here = os.path.dirname(os.path.abspath(__file__))
TH = os.path.join(here, "..", "rocq", "theories")
src = open("/repo/npplus/pyplotx/mpl2cmaps.py").read()
lines = src.split("\n")
names = ["magma", "inferno", "plasma", "viridis"]

def iroot(n, k):
    lo, hi = 0, 1 << (n.bit_length() // k + 1)
    while hi - lo > 1:
        m = (lo + hi) // 2
        if m ** k <= n: lo = m
        else: hi = m
    return lo

def root(n):  # floor(10^7 (x^(1/5))), x = (n+55000)/1055000
    return 0 if n <= 40450 else iroot((n + 55000) * 10 ** 35 // 1055000, 5)
def lin(n):   # 10^7 times the intensity, rounded down
    if n <= 40450: return n * 1000 // 1292
    return (n + 55000) ** 2 * root(n) ** 2 // (1055000 ** 2 * 10 ** 7)

def cube(y):  # floor(10^6 f(y)), y in 10^-11
    if (y + 30000) * 24389 <= 216 * 10 ** 11: return (y * 24389 + 432 * 10 ** 11) // 313200000
    return iroot(y * 10 ** 7, 3)

data, cert = {}, {}
for n in names:
    first = next(i for i, l in enumerate(lines) if l.startswith("_%s_data = [" % n))
    rows, i = [], first
    while True:
        rows.append(re.findall(r"\d\.\d{6}", lines[i]))
        if "]]" in lines[i]: break
        i += 1
    assert all(len(r) == 3 for r in rows)
    data[n] = (first + 1, i + 1, [[int(x.replace(".", "")) for x in r] for r in rows])
    cert[n] = []
    for r in data[n][2]:
        a = [lin(c) for c in r]
        cert[n].append([root(c) for c in r] + a + [cube(2126 * a[0] + 7152 * a[1] + 722 * a[2])])

def table(rows, per):
    t = ["(%s)" % ", ".join(map(str, r)) for r in rows]
    return "\n".join("  " + "; ".join(t[i:i + per]) + (";" if i + per < len(t) else "") for i in range(0, len(t), per))

with open(os.path.join(TH, "CmapData.v"), "w") as f:
    f.write("(* The colour tables of npplus/pyplotx/mpl2cmaps.py: red, green and blue in millionths (the source has six\n"
            "   decimals).  Written by tools/gen_cmaps.py. *)\nFrom Coq Require Import ZArith List.\nImport ListNotations.\nLocal Open Scope Z_scope.\n\n")
    for n in names:
        a, b, rows = data[n]
        f.write("(* mpl2cmaps.py:%d-%d *)\nDefinition %s_data : list (Z * Z * Z) := [\n%s].\n" % (a, b, n, table(rows, 5)))
with open(os.path.join(TH, "CmapCert.v"), "w") as f:
    f.write("(* For each colour of CmapData.v: 10^7 times the fifth root of (c+0.055)/1.055 for red, green and blue (0 for small c),\n"
            "   10^7 times the linear intensities, and 10^6 times the cube root of the luminance, rounded down.  Written by tools/gen_cmaps.py, checked in PropsCmaps.v. *)\n"
            "From Coq Require Import ZArith List.\nImport ListNotations.\nLocal Open Scope Z_scope.\n\n")
    for n in names:
        f.write("Definition %s_cert : list (Z * Z * Z * Z * Z * Z * Z) := [\n%s].\n" % (n, table(cert[n], 2)))
for n in names:
    q = [r[-1] for r in cert[n]]
    lo = min(116 * (b - a - 4) for a, b in zip(q, q[1:]))
    hi = max(116 * (b - a + 4) for a, b in zip(q, q[1:]))
    print(n, len(q), lo, hi)

#!/usr/bin/env python3
"""Write rocq/theories/FermiPieces.v: polynomial approximations of
  al t = exp t (sqrt pi - 2 int_0^sqrt t exp(-u^2)) / sqrt t,   be t = exp(-t) 2 int_0^sqrt t exp(u^2) / sqrt t
on the intervals [2m, 4m], with error bounds that the chains of FermiCert.v accept.
Nothing here is trusted: the Coq development checks every piece."""
import os
from decimal import Decimal as D, getcontext
from fractions import Fraction as F
OUT = os.path.join(os.path.dirname(os.path.abspath(__file__)), '..', 'rocq', 'theories', 'FermiPieces.v')
DEN = 2**60
getcontext().prec = 200

def pi():
    def at(inv):
        s, t, k = D(0), D(1)/inv, 0
        while abs(t) > D(10)**-210:
            s += (t if k % 2 == 0 else -t)/(2*k+1); t /= inv*inv; k += 1
        return s
    return 4*(4*at(5)-at(239))
PI = pi(); SPI = PI.sqrt()

def asym(t, sg):
    s, term, k = D(0), D(1), 0
    while True:
        s += term; nt = sg*term*(2*k+1)/(2*t); k += 1
        if abs(nt) < D(10)**-60 or abs(nt) > abs(term): return s/t
        term = nt

def al(t):
    t = D(t)
    if t > 150: return asym(t, -1)
    getcontext().prec = int(t)+250
    k, s, q = 0, D(0), t.sqrt()
    while True:
        s += (q if k % 2 == 0 else -q)/(2*k+1); k += 1; q = q*t/k
        if k > t and q < D(10)**-190: break
    v = t.exp()*(SPI-2*s)/t.sqrt()
    getcontext().prec = 200
    return v

def be(t):
    t = D(t)
    if t > 150: return asym(t, 1)
    getcontext().prec = int(t)+250
    s, q, k = D(0), D(2), 0
    while True:
        s += q if k % 2 == 0 else -q; k += 1; q = q*2*t/(2*k+1)
        if k > t and q < D(10)**-190: break
    getcontext().prec = 200
    return +s

def cos(x):
    s, t, i = D(1), D(1), 0
    while abs(t) > D(10)**-80:
        t = -t*x*x/((2*i+1)*(2*i+2)); i += 1; s += t
    return s

def solve(M, b):
    n = len(b); A = [r[:]+[v] for r, v in zip(M, b)]
    for i in range(n):
        p = max(range(i, n), key=lambda r: abs(A[r][i])); A[i], A[p] = A[p], A[i]
        for r in range(i+1, n):
            f = A[r][i]/A[i][i]
            if f != 0:
                for c in range(i, n+1): A[r][c] -= f*A[i][c]
    x = [D(0)]*n
    for i in reversed(range(n)):
        x[i] = (A[i][n]-sum(A[i][c]*x[c] for c in range(i+1, n)))/A[i][i]
    return x

def piece(sg, m, d):
    """collocation for 2(1+t)c' + c + sg (2 - 4m(1+t)c) = 0; sg = 1 for al, -1 for be"""
    getcontext().prec = 70
    rows, rhs = [], []
    for k in range(d):
        t = (1+cos(PI*(2*k+1)/(2*d)))/2
        rows.append([2*(1+t)*(j*t**(j-1) if j else D(0))+t**j-sg*4*m*(1+t)*t**j for j in range(d+1)])
        rhs.append(D(-2*sg))
    if sg == 1: rows.append([D(1)]*(d+1)); rhs.append(+al(4*m))
    else: rows.append([D(1)]+[D(0)]*d); rhs.append(+be(2*m))
    getcontext().prec = 70
    return [int((v*DEN).to_integral_value()) for v in solve(rows, rhs)]

def resid(sg, m, c, n=120):
    w = 0
    for k in range(n+1):
        t = F(k, n)
        p = sum(F(v)*t**j for j, v in enumerate(c)); dp = sum(F(v)*j*t**(j-1) for j, v in enumerate(c) if j)
        w = max(w, abs(2*(1+t)*dp+p+sg*(2*DEN-4*m*(1+t)*p))/(4*m*(1+t)-sg))
    return int(w)+1

MS = sorted(list(range(1, 19))+list(range(20, 37, 2))+list(range(40, 73, 4))+list(range(80, 145, 8)))
def deg(m): return 22 if m <= 2 else 20 if m <= 18 else 18

def lst(c): return '['+'; '.join(str(v) for v in c)+']'

def adat(K): return 2**K, [(-1)**i*dfact(i)*2**(K-i) for i in range(K+1)], [dfact(i)*2**(K-i) for i in range(K+1)]
def dfact(i):
    p = 1
    for j in range(i): p *= 2*j+1
    return p

def main():
    A, B = {}, {}
    for m in reversed(MS):
        c = piece(1, m, deg(m)); e = max(2*resid(1, m, c), BIG)
        if 2*m in A:
            e2, c2 = A[2*m]; need = abs(c2[0]-sum(c))+e2
        else: need = abs(int(al(4*m)*DEN)-sum(c))+4+EA
        A[m] = (max(e, need), c)
    for m in MS:
        c = piece(-1, m, deg(m)); e = max(2*resid(-1, m, c), BIG)
        if m == 1: need = abs(int(be(2)*DEN)-c[0])+E0+4
        else:
            pm = m//2 if m % 2 == 0 else m-1
            e2, c2 = B[pm]; t = F(m-pm, pm); need = int(abs(sum(v*t**j for j, v in enumerate(c2))-c[0]))+2+e2
        B[m] = (max(e, need), c)
    with open(OUT, 'w') as f:
        f.write('(* Written by tools/gen_fermi_pieces.py: polynomials over 2^60 for al and be on [2m, 4m].\n'
                '   These are certificates, checked in PropsFermiTail.v; no property of them is assumed. *)\n'
                'From Coq Require Import List ZArith.\nFrom Verif Require Import FermiCert.\nImport ListNotations.\nOpen Scope Z_scope.\n\n')
        f.write('Definition pcsA : list entry := [\n'+';\n'.join('  (%d, %d, %s)' % (m, A[m][0], lst(A[m][1])) for m in reversed(MS))+'].\n')
        f.write('Definition pcsB : list entry := [\n'+';\n'.join('  (%d, %d, %s)' % (m, B[m][0], lst(B[m][1])) for m in MS)+'].\n')
        base = []
        q = F(2)
        for k in range(40):
            base.append(int(round(q*DEN*2**40*(1 if k % 2 == 0 else -1)))); q = q*2/(2*k+3)
        f.write('(* the power series of be, over 2^100 *)\nDefinition serB : list Z := '+lst(base[:34])+'.\n')
        for K, nm in ((12, 'f'), (31, 'n')):
            dq, qa, qb = adat(K)
            f.write('(* asymptotic expansions *)\nDefinition dq%s : Z := %d.\nDefinition qa%s : list Z := %s.\nDefinition qb%s : list Z := %s.\n' % (nm, dq, nm, lst(qa), nm, lst(qb)))
    for nm, T in (('A', A), ('B', B)): print(nm, {m: T[m][0] for m in MS})
EA, E0, BIG = 16, 64, 4000
if __name__ == '__main__': main()

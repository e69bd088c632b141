#!/usr/bin/env python3
"""Write rocq/theories/FermiInvData.v: polynomials close to exp x, to the Fermi-Dirac functions and
to the arguments of their inverses in /repo/npplus/fermi.py, on the intervals where a value below 4
is reached from 2 on (orders -1/2, 1/2), a value from 4 on is reached below 2 (orders 3/2, 5/2) or
both branches for large arguments meet.  Apart from exp they are polynomials in s, -1 <= s <= 1,
and x = centre + halfwidth s.  Nothing here is trusted: the Coq development checks every polynomial.
usage: gen_fermi_inv.py /repo/npplus/fermi.py"""
import os, re, sys
from decimal import Decimal as D, getcontext
from fractions import Fraction as F
getcontext().prec = 60
OUT = os.path.join(os.path.dirname(os.path.abspath(__file__)), '..', 'rocq', 'theories', 'FermiInvData.v')
src = open(sys.argv[1] if len(sys.argv) > 1 else '/repo/npplus/fermi.py').read()
tabs = {}
for m in re.finditer(r'@_fd_integ\((.*?)\)\s*\ndef (\w+)\(', src, re.S):
    tabs[m.group(2)] = [[D(s.strip()) for s in g.split(',') if s.strip()] for g in re.findall(r'\(([^()]*)\)', m.group(1)+')')]

def horn(c, z):
    s = D(0)
    for a in c: s = s*z+a
    return s
def ilo(t, y): return (y*horn(t[0], y)/horn(t[1], y)).ln()
def ihiz(t, z): return horn(t[2], z)/(z*horn(t[3], z))
def bis(f, a, b):
    a, b = D(a), D(b); s = f(a) < 0
    for _ in range(180):
        m = (a+b)/2
        if (f(m) < 0) == s: a = m
        else: b = m
    return (a+b)/2
def cos(x):
    s, t, i = D(1), D(1), 0
    while abs(t) > D(10)**-58:
        t = -t*x*x/((2*i+1)*(2*i+2)); i += 1; s += t
    return s
PI = D('3.14159265358979323846264338327950288419716939937510582097494459')
def solve(M, b):
    n = len(b); A = [r[:]+[v] for r, v in zip(M, b)]
    for i in range(n):
        p = max(range(i, n), key=lambda r: abs(A[r][i])); A[i], A[p] = A[p], A[i]
        for r in range(i+1, n):
            f = A[r][i]/A[i][i]
            for c in range(i, n+1): A[r][c] -= f*A[i][c]
    x = [D(0)]*n
    for i in reversed(range(n)):
        x[i] = (A[i][n]-sum(A[i][c]*x[c] for c in range(i+1, n)))/A[i][i]
    return x
def fit(f, cen, hw, deg, bits):
    """in s for x = cen + hw s"""
    ss = [cos(PI*(2*i+1)/(2*deg+2)) for i in range(deg+1)]
    c = solve([[x**j for j in range(deg+1)] for x in ss], [f(fr(cen)+fr(hw)*x) for x in ss])
    return [int((v*2**bits).to_integral_value()) for v in c]
def fr(q): return D(q.numerator)/D(q.denominator)
def lst(c): return '[%s]%%Z' % '; '.join(map(str, c))
def out(name, c, what):
    return '(* %s *)\nDefinition %s : list Z := %s.\n' % (what, name, lst(c))
def rec(name, typ, what, **kw):
    return '(* %s *)\nDefinition %s : %s := {| %s |}.\n' % (what, name, typ, '; '.join('%s := %s' % i for i in kw.items()))
def q(x): return '%d # %d' % (x.numerator, x.denominator)

s = """(* Written by tools/gen_fermi_inv.py; checked in PropsFermiInv.v. *)
From Coq Require Import List ZArith QArith.
From Verif Require Import FermiInvReg.
Import ListNotations.
"""
def iexp(b, n, bits):
    """interpolation of exp on [0, b] in x"""
    ss = [D(b)/2*(1+cos(PI*(2*i+1)/(2*n+2))) for i in range(n+1)]
    c = solve([[x**j for j in range(n+1)] for x in ss], [x.exp() for x in ss])
    return [int((v*2**bits).to_integral_value()) for v in c]
def oute(name, b, n, bits):
    c = iexp(b, n, bits)
    return '(* %d exp x on [0, %s], without the constant term *)\nDefinition %s : list Z := %s.\nDefinition %s0 : positive := %d%%positive.\n' % (c[0], b, name, lst(c[1:]), name, c[0])
s += oute('iexp', '2', 14, 56)
s += oute('iexpb', '4.25', 16, 60)
for nm, b, deg, dinv, bits in (('m12', F(17, 4), 13, 16, 80), ('12', F(49, 16), 9, 12, 60)):
    cen, hw = (b+2)/2, (b-2)/2
    t = tabs['ifd'+nm]; g = tabs['fd'+nm]
    s += rec('ib'+nm, 'chkb', 'y and the rational factor of fd%s(x) for x = ifd%s(y), x in [2, %s]' % (nm, nm, b), b_cen=q(cen), b_hw=q(hw),
             b_p=lst(fit(lambda x: bis(lambda y: ilo(t, y)-x, '1.5', '4.4' if nm == 'm12' else '5'), cen, hw, deg, 40)),
             b_f=lst(fit(lambda x: horn(g[2], 1/(x*x))/horn(g[3], 1/(x*x)), cen, hw, dinv, 40)),
             b_W='2^40', b_g='2^%d' % (bits-40), b_g2='2^88')
for nm, a, m, deg in (('32', F(3, 2), 5, 7), ('52', F(1, 4), 7, 12)):
    t = tabs['ifd'+nm]; g = tabs['fd'+nm]
    cen, hw = (a+2)/2, (2-a)/2
    def lo(x):
        e = x.exp(); return e*horn(g[0], e)/horn(g[1], e)
    s += rec('ic'+nm, 'chkc', 'fd%s(x) and y^(-2/%d) for x = ifd%s(y), x in [%s, 2]' % (nm, m, nm, a), c_cen=q(cen), c_hw=q(hw),
             c_p=lst(fit(lo, cen, hw, deg, 40)), c_q=lst(fit(lambda x: bis(lambda z: ihiz(t, z)-x, '0.3', '0.8'), cen, hw, deg, 40)), c_W='2^40', c_g='2^16')
for nm, T, m, d1, d2, bits in (('m12', F(121, 512), 1, 14, 9, 72), ('12', F(1, 3), 3, 13, 9, 56), ('32', F(1, 2), 5, 14, 10, 56), ('52', F(1, 2), 7, 14, 11, 56)):
    t = tabs['ifd'+nm]; g = tabs['fd'+nm]
    f = lambda u: t[2][-1]/t[3][-1] if u == 0 else bis(lambda z: z*horn(t[3], z)/horn(t[2], z)-u, 0, '0.8')/u
    fg = lambda u: horn(g[2], u*u)/horn(g[3], u*u)
    for a, b, h, deg in ((F(0), T/2, 'lo', d1), (T/2, T, 'hi', d2)):
        s += rec('id%s_%s' % (nm, h), 'chkd', 'x y^(-2/%d) for x = ifd%s(y) and x^(-%d/2) fd%s(x), 1/x in [%s, %s]' % (m, nm, m, nm, a, b), d_cen=q((a+b)/2), d_hw=q((b-a)/2),
                 d_q=lst(fit(f, (a+b)/2, (b-a)/2, deg, 40)), d_f=lst(fit(fg, (a+b)/2, (b-a)/2, deg+4, 40)), d_W='2^40', d_g='2^%d' % (bits-40), d_g2='2^88')
open(OUT, 'w').write(s)

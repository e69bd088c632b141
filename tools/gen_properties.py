#!/usr/bin/env python3
"""Writes ../properties.jsonl.  One call of P() per property."""
import json, os
OUT = os.path.join(os.path.dirname(os.path.abspath(__file__)), '..', 'properties.jsonl')
rows = []
def P(title, statement, quantifier, why, *anchors):
    rows.append(dict(id="C%02d" % (len(rows)+1), title=title, statement=statement,
                     quantifier=quantifier, why_tests_cant=why, anchors=list(anchors)))

B, PW, SP, L = 'npplus/basic.py', 'npplus/pwpoly.py', 'npplus/solveper.py', 'npplus/lsqfit.py'
IA, PC, RX, FM = 'npplus/itemattr.py', 'npplus/pcwise.py', 'npplus/randomx.py', 'npplus/fermi.py'

# ---- basic.py ------------------------------------------------------------
P("span hits both endpoints with equal steps",
  "span(start, stop, num, axis) with num>=2 returns an array whose shape is the broadcast shape of start and stop with an axis of length num inserted at `axis`; the slice at index 0 of that axis is start, the slice at num-1 is stop, and consecutive slices all differ by (stop-start)/(num-1). The last slice equals stop whatever the rounding behaviour of + - * /.",
  "all conformable start/stop arrays of any rank, all num>=2, all axis in range (negative included)",
  "infinitely many shapes, axes and counts; the endpoint exactness has to hold for every arithmetic",
  B+":span")
P("span(start, stop, 1) starts at start",
  "The documented postcondition samples[0]==start and samples[num-1]==stop holds for every num>=1 (for num==1 whenever start==stop).",
  "all start, stop, num>=1", "the claim quantifies over every num; only one value of num breaks it", B+":span")
P("spanl: geometric spacing, endpoints, signs and rejection",
  "spanl(start, stop, num) with num>=2 and start, stop non-zero of equal sign elementwise returns samples with samples[0]==start, samples[num-1]==stop and a constant ratio of consecutive samples; if some pair is zero or of opposite sign it raises ValueError.",
  "all same-shape start/stop, all num>=2", "real-analysis identity over all positive/negative reals", B+":spanl")
P("spanl puts the new axis where `axis` says",
  "For conformable start and stop, spanl(start, stop, num, axis) has the same shape as span(start, stop, num, axis).",
  "all conformable start/stop of possibly different rank, all legal axis values", "depends on the rank combination of the two operands; tests use equal shapes", B+":spanl")
P("cat_ joins broadcast blocks in order",
  "cat_(a1,...,an, axis=k), when the arguments can be broadcast on all axes but k, returns an array whose length along k is the sum of the arguments' lengths and whose j-th block along k is a_j broadcast over the other axes; nothing is dropped, reordered or overwritten.",
  "any number of arguments, any ranks, any legal axis", "unbounded argument lists and shapes", B+":cat_")
P("a_ stacks broadcast arguments in order",
  "a_(a1,...,an, axis=k) returns an array with a new axis of length n at position k, whose j-th slice is a_j broadcast to the common shape.",
  "any number of arguments, any ranks, any legal axis", "unbounded argument lists and shapes", B+":a_")
P("cat_ and a_ reject instead of truncating",
  "cat_ and a_ raise TypeError on an unknown keyword, ValueError on a non-numeric argument, on an axis out of range and on arguments that cannot be broadcast; in every other case they return a complete result. In particular every argument list that numpy can broadcast is accepted.",
  "all argument lists", "must hold for every combination of shapes, including zero-length axes", B+":cat_", B+":a_")
P("max_/min_ are the elementwise extrema of all arguments",
  "max_(a1,...,an) is elementwise an upper bound of all arguments and equal to one of them, independent of argument order; dually for min_.",
  "all argument counts and values", "n-ary law over unbounded argument lists", B+":max_", B+":min_")
P("abs_ is the Euclidean norm of its arguments",
  "abs_(a1,...,an) is elementwise the non-negative root of the sum of squares of its (broadcast) arguments, and |a1| when called with one argument.",
  "all real argument lists", "unbounded argument lists, all reals", B+":abs_")
P("atan(a, b, branch) returns the polar angle in [branch, branch+2pi)",
  "With b and branch given, the returned angle t satisfies branch <= t < branch+2*pi and (b,a) = r*(cos t, sin t) with r=sqrt(a*a+b*b); the optional out array receives the same value.",
  "all real a, b, branch", "all points of the plane and all branch angles", B+":atan")
P("cum is the inverse of diff",
  "Along any axis, diff(cum(a)) == a, cum(diff(a)) == a - a[0], the output has one more element along the axis and starts with 0; a scalar raises TypeError.",
  "all arrays, all axes, axis=None included", "unbounded lengths and ranks", B+":cum")
P("zcen returns adjacent means",
  "zcen(a, axis) is one shorter along the axis and its i-th slice is the mean of slices i and i+1; scalars and axes with fewer than two elements raise TypeError.",
  "all arrays and axes", "unbounded lengths and ranks", B+":zcen")
P("pcen keeps the endpoints and averages the interior",
  "pcen(a, axis) is one longer along the axis, first and last slices are those of a, interior slices are adjacent means; pcen has the same end slices and zcen(pcen) composes accordingly.",
  "all arrays and axes", "unbounded lengths and ranks", B+":pcen")
P("cum(zcen(f)*diff(x)) is the integral of the polyline",
  "cum(zcen(f)*diff(x))[i] is the exact integral from x[0] to x[i] of the piecewise linear function through (x, f), i.e. pline(x,f).integ(lbnd=x[0])(x[i]).",
  "all strictly increasing x of length >=2 and all f", "unbounded numbers of points", B+":cum", B+":zcen", PW+":pline", PW+":PwPoly.integ")
# ---- pcwise --------------------------------------------------------------
P("pcwise sends every point to exactly one piece and preserves order",
  "For increasing breakpoints, calling the decorated function on an array evaluates each element with the function of the unique piece containing it and stores it at the same position; the result at each position equals the scalar call at that element.",
  "all numbers of pieces, all arrays x", "unbounded pieces and array sizes", PC+":pcwise")
P("pcwise boundaries follow the documented xa<=x<xb convention",
  "fun(x) is funlo(x) for x<xa, funmid(x) for xa<=x<xb and funhi(x) for xb<=x.",
  "all x, the breakpoints included", "only equality with a breakpoint matters; tests sample generic points", PC+":pcwise")
P("pcwise rejects malformed piece lists and raises only for offending points",
  "Decoration raises TypeError unless there is exactly one more function than breakpoints and the breakpoints strictly increase; a string piece raises ValueError(msg) exactly when some point lies in that piece.",
  "all tuples returned by the decorated function, all arrays", "unbounded tuples/arrays", PC+":pcwise", PC+":_value_error_func")
# ---- itemattr -------------------------------------------------------------
P("ADict attribute access is item access",
  "For an ADict x and a name that is not a dict attribute and does not end in '_', x.name, x.name=v and del x.name behave exactly as x['name'], x['name']=v and del x['name']; all other keys are untouched and a missing name raises KeyError.",
  "all dict states, names and operation histories", "unbounded histories", IA+":ADict")
P("trailing-underscore escape of ADict",
  "x.name_ is always x['name'] (exactly one underscore removed), so any key is reachable, except that a trailing underscore is not removed for names beginning with a double underscore.",
  "all names", "all strings", IA+":ADict", IA+":ItemsAreAttrs.name2key")
P("classes decorated with items_are_attrs map attributes to items",
  "For a decorated mapping class, setting and deleting x.name acts on key name (one trailing underscore removed), reading x.name returns the item unless name is a class attribute or starts with '__'; '__' names raise ValueError on set/delete; set followed by get through the escaped name returns the value.",
  "all states, names and histories", "unbounded histories", IA+":items_are_attrs", IA+":ItemsAreAttrs")
P("items_are_attrs(MyAttrMethods) uses the methods of MyAttrMethods",
  "Decorating with @items_are_attrs(MyAttrMethods) installs MyAttrMethods' get, set and delete.",
  "all method containers", "quantifies over every user-supplied container", IA+":items_are_attrs")
P("redict changes classes only",
  "redict(d, cls) has the same keys in the same order and the same leaf values as d at every depth; every nested mapping becomes a cls instance; d itself is unchanged.",
  "all finitely nested dicts", "unbounded nesting", IA+":redict")
P("redict toggles",
  "redict(d) converts a uniformly dict (resp. ADict) tree to ADict (resp. dict), and redict(redict(d)) equals d for such trees.",
  "all finitely nested uniform dicts", "unbounded nesting", IA+":redict")
# ---- solveper --------------------------------------------------------------
P("solve_periodic solves the cyclic banded system",
  "If the inner banded and dense solves return solutions, x=solve_periodic((l,u),ab,b) satisfies A x = b for every right-hand side column, where A is the full periodic matrix with corner elements described by ab.",
  "all sizes n, all l,u with l+u<=n, all matrices and right-hand sides", "unbounded sizes; exact linear algebra", SP+":solve_periodic")
P("symmetric band expansion is faithful",
  "solves_banded/solves_periodic build from either upper or lower form the full band of the symmetric matrix described by the input: entry (i,j) equals entry (j,i), upper and lower forms of one matrix give the same band, and the returned x solves the symmetric (cyclic) system.",
  "all sizes and bandwidths", "unbounded sizes", SP+":_solves_symgen", SP+":solves_banded", SP+":solves_periodic")
P("diagonal-ordered form converts to the normal matrix",
  "The conversion used for the corner blocks satisfies a[i,j]==ab[u+i-j,j] inside the band and 0 outside; inconsistent shapes raise ValueError.",
  "all n,l,u", "unbounded sizes", SP+":_diag_to_norm")
# ---- polynomial kernels ------------------------------------------------------
P("polyfun evaluates the polynomial",
  "polyfun(c, x) == c[0] + c[1]*x + ... + c[n]*x**n for every non-empty coefficient list.",
  "all degrees, coefficients and x", "unbounded degree", PW+":polyfun", PW+":_polysetup")
P("polyddx gives the Taylor coefficients / derivatives",
  "polyddx(c, x, nd)[k] is the k-th derivative at x divided by k! (not divided with norm=True), for all k<=nd, any nd.",
  "all coefficient lists, x and nd", "unbounded degree and nd; real derivative", PW+":polyddx")
P("polyddx translates polynomials",
  "cx=polyddx(c,x) are the coefficients of the translated polynomial: polyfun(cx, y)==polyfun(c, x+y), and polyddx(polyddx(c,x),y-x)==polyddx(c,y).",
  "all c, x, y", "unbounded degree", PW+":polyddx")
# ---- PwPoly ----------------------------------------------------------------
P("PwPoly evaluation uses the polynomial of the interval containing x",
  "For strictly increasing knots, p(x) is the value of exactly one stored polynomial: the one whose knot interval contains x, in powers of x minus the left knot (minus the first knot before the first knot); every real x is covered.",
  "all piecewise polynomials and all x", "unbounded knots/degree, all reals", PW+":PwPoly.__call__")
P("documented interval convention xk[i-1] <= x < xk[i]",
  "For every x and i with xk[i-1] <= x < xk[i], p(x) is the value of the coefficients c[...,i].",
  "all x including the knots", "only equality with a knot matters", PW+":PwPoly", PW+":PwPoly.__call__")
P("p(x, nd) returns the value and the nd true derivatives",
  "p(x, nd) == (p(x), p'(x), ..., nd-th derivative) of the polynomial piece at x.",
  "all piecewise polynomials of any degree, all x and nd", "unbounded degree", PW+":PwPoly.__call__", PW+":polyddx")
P("deriv is differentiation",
  "p.deriv(m)(x) is the m-th derivative of p at every x that is not a knot (one-sided, of the piece, at knots), for all m, also beyond the degree; knots and component shape are unchanged; p.deriv(m) agrees with p(x,m)[m].",
  "all p of degree>=1, m, x", "unbounded degree, order; real derivative", PW+":PwPoly.deriv")
P("integ is the continuous antiderivative with the given constant",
  "F=p.integ(1,k,lbnd) is continuous at every x, has derivative p(x) at every non-knot x, F(lbnd)==k, and F.deriv() has the coefficients of p; so F(b)-F(a) is the integral of p. integ(m,...) iterates this with the m constants in order.",
  "all scalar piecewise polynomials, all m, k, lbnd", "unbounded knots and degree; calculus", PW+":PwPoly.integ")
P("integ works with its default constants for vector-valued p",
  "p.integ() (default k=()) returns the componentwise antiderivative for p of any component shape.",
  "all component shapes", "depends on rank of p", PW+":PwPoly.integ")
P("PwPoly(xk, y, dy, ...) interpolates all given derivatives",
  "The odd-degree constructor with h+1 lists returns, on every interval, a polynomial of degree 2h+1 whose derivatives 0..h at both interval ends equal the given values; outside the knots the polynomial is the degree-h Taylor polynomial at the end knot, so the function is C^h everywhere.",
  "all h, numbers of knots, values", "unbounded h and knots", PW+":PwPoly.__init__", PW+":PwPoly._two_sided_inverse")
P("constructor arguments are Taylor coefficients, as documented",
  "The arguments of the constructor are yk, dydxk, d2ydx2k/2!, ...: the k-th argument is the k-th derivative divided by k!.",
  "all h", "claim over all numbers of arguments; tests stop at first derivatives", PW+":PwPoly.__init__")
P("even-degree constructor and its normalisation",
  "With the last argument one shorter than xk the pieces have degree P=2N, interpolate the N given lists at both ends, and the top coefficient (P-th derivative / P!) on each interval is the value specified.",
  "all N and values", "all N; tests only reach N=1 through reknot values at knots", PW+":PwPoly.__init__")
P("histogram constructor",
  "PwPoly(x, y) with y one shorter than x is y[i] strictly inside interval i and 0 outside; with y one longer it is y[i] on the i-th of the nk+1 intervals.",
  "all knots and values", "unbounded knots", PW+":PwPoly.__init__")
P("knots may be given in decreasing order",
  "Passing strictly decreasing xk with correspondingly ordered values gives the same function as the increasing order.",
  "all equal-length argument lists", "unbounded sizes", PW+":PwPoly.__init__")
P("p+q and p-q are pointwise",
  "(p+q)(x)==p(x)+q(x) and (p-q)(x)==p(x)-q(x) for every x, when p and q have arbitrary degrees and component shapes that broadcast and knots that are pairwise equal or separated by more than the merging tolerance.",
  "all p, q, x", "unbounded degrees and knot lists", PW+":PwPoly.__add__", PW+":PwPoly.__sub__", PW+":PwPoly._binary", PW+":PwPoly.addknots", PW+":PwPoly.allknots")
P("p*q is pointwise",
  "(p*q)(x)==p(x)*q(x) for every x under the same conditions; degrees add.",
  "all p, q, x", "unbounded degrees and knot lists", PW+":PwPoly.__mul__")
P("arithmetic with numbers",
  "For a number s: (p+s)(x)==p(x)+s, (s-p)(x)==s-p(x), (s*p)(x)==s*p(x), (p/s)(x)==p(x)/s; e.g. 3*p*q - p/2 + 0.5 is a PwPoly.",
  "all p, s, x", "all p and s; the test only adds 0", PW+":PwPoly._binary", PW+":PwPoly.__add__", PW+":PwPoly.__truediv__")
P("negation and component selection",
  "(-p)(x)==-p(x); p[key](x)==p(x)[key] and len(p) is the first component dimension, TypeError for scalar p.",
  "all p, x, component indices", "unbounded shapes", PW+":PwPoly.__neg__", PW+":PwPoly.__getitem__", PW+":PwPoly.__len__")
P("addknots does not change the function",
  "For xk containing the existing knots, p.addknots(xk)(x)==p(x) for every x and the result has exactly those knots.",
  "all p, all supersets, all x", "unbounded knots", PW+":PwPoly.addknots")
P("allknots is a sorted union up to tolerance",
  "allknots(q...) is increasing, contains the longer knot list exactly, contains every knot of the other up to the relative tolerance, contains nothing else, and is the exact union when knots are equal or well separated.",
  "all knot lists and any number of arguments", "unbounded lists", PW+":PwPoly.allknots")
P("jumps reports the discontinuities",
  "p.jumps()[k][i] is the jump of the k-th Taylor coefficient at knot i (right minus left limit); p is continuous iff jumps()[0] is zero.",
  "all p of degree>=1 and n<=degree", "unbounded knots/degree", PW+":PwPoly.jumps")
P("reknot matches value and derivatives at the new knots",
  "p.reknot(xk, n) with n odd agrees with p in derivatives 0..(n-1)/2 at every new knot; with n even the n-th derivative at the midpoint of each interval also matches.",
  "all p, new knots and n", "unbounded knots/degree", PW+":PwPoly.reknot")
P("PerPwPoly is periodic and agrees with its base interval",
  "For a PerPwPoly p: p(x+k*period)==p(x) for every x and integer k, on [xk[0], xk[-1]) it is the stored piece, derivatives included; construction needs at least two knots.",
  "all periodic piecewise polynomials, x, k", "all integers and reals", PW+":PerPwPoly")
P("copies and pickles are equivalent to the original",
  "For every piecewise polynomial p (periodic or not), the object restored from p.__getstate__() evaluates like p everywhere.",
  "all p", "all instances of both classes", PW+":PwPoly.__getstate__", PW+":PwPoly.__setstate__", PW+":PerPwPoly")
P("roots returns exactly the zero set (piecewise linear case)",
  "For a continuous piecewise linear p that is not constant on an interval where it equals value, p.roots(value) returns a strictly increasing list; every element is a root, and every root not further than 1/tol neighbouring knot intervals outside the knots is in it up to merging of near duplicates (chains of roots closer than tol knot intervals). If there is no such root ValueError is raised.",
  "all piecewise linear p and values", "unbounded knots", PW+":PwPoly.roots")
P("roots returns all x with p(x)==value, for any degree",
  "Given a correct real polynomial root finder for each piece, p.roots(value) returns all x such that p(x)==value, an empty array when there is none.",
  "all p, value", "unbounded degree/knots", PW+":PwPoly.roots")
# ---- spline -----------------------------------------------------------------
P("spline interpolates with n-1 continuous derivatives",
  "If the banded solve succeeds, s=spline(x,y,n,lo,hi) satisfies s(x[i])==y[i] at every knot and has continuous derivatives up to order n-1 at every interior knot.",
  "all n>=2, all numbers of knots, all boundary specifications", "unbounded degree and knots, index arithmetic of band storage", PW+":spline")
P("spline satisfies the requested boundary conditions",
  "Every derivative given in lo (hi) is attained at x[0] (x[-1]); unspecified ones are filled with zero from the highest order down alternating lo, hi until n-1 are set; over-specified conditions raise.",
  "all n, lo, hi", "all patterns of None/values", PW+":spline")
P("spline extrapolation has the requested degree and continuity",
  "Before x[0] and after x[-1] the result is the Taylor polynomial of degree extrap (default n-1) of the end interval, so continuity of that order holds at the end knots.",
  "all extrap", "all degrees", PW+":spline")
P("periodic spline closes smoothly",
  "spline(..., per=True) interpolates y[:-1], is periodic, and its derivatives up to n-1 match at the first and last knots.",
  "all n>=2 and knots", "unbounded sizes", PW+":spline", SP+":solve_periodic")
P("pline is linear interpolation",
  "pline(x,y)(xp) equals the straight-line interpolant between the neighbouring points, y[0] before x[0], y[-1] after x[-1]; with extrap=1 it continues the end segments; decreasing x gives the same function.",
  "all x,y,xp", "unbounded points", PW+":pline", PW+":spline")
P("plfit is the least-squares optimum",
  "If the tridiagonal solve succeeds, no other knot values (subject to the same lo/hi or periodic constraint) give a smaller chi2=sum(((f(x)-y)/sigy)**2) than plfit's result, for data within the knots.",
  "all data clouds, weights, knots", "unbounded data; minimum over all polylines", PW+":plfit", PW+":_plfitter", PW+":_splfit_args")
P("splfit satisfies constraints and is the constrained optimum",
  "If the symmetric banded solve succeeds, splfit's result has continuous derivatives up to nc at interior knots, satisfies lo/hi, and has minimal chi2 among all such piecewise polynomials of degree n.",
  "all data, n, nc, knots", "unbounded sizes; minimum over all splines", PW+":splfit")
P("splfit/plfit argument handling",
  "Data outside the knots extends the knots by the extreme data points (or raises ValueError if that side has a boundary condition); periodic fits map the data into one period and reject lo, hi, extrap; every data point is assigned to the interval containing it.",
  "all data and knots", "unbounded data", PW+":_splfit_setup", PW+":_splfit_args")
P("binomial table",
  "The coefficient table used by spline and splfit is binomial(j, i) for every degree.",
  "all degrees", "unbounded degree", PW+":_bico")
# ---- lsqfit -----------------------------------------------------------------
P("regress returns the least-squares coefficients",
  "Given a valid SVD in which no non-zero singular value is cut off, p=regress(data,m1,..,mn,errs=e) minimises sum(((sum p_i m_i - data)/e)**2) over all p, and has the smallest norm among minimisers.",
  "all data, models, weights", "unbounded sizes, minimum over all p", L+":regress")
P("regress truncation and statistics",
  "Only singular values above rcond*s[0] (rcond clipped to [1e-13,0.5]) are used; with model=1 the ModelFit returns chi2 per degree of freedom, ndof and pcov consistent with p, and model() returns the fitted data.",
  "all inputs", "all spectra", L+":regress", L+":ModelFit")
P("regress accepts errs conformable with data of any rank",
  "For data of any shape, errs with the shape of data gives the weighted fit.",
  "all data shapes", "rank dependent", L+":regress")
P("levmar never moves fixed parameters",
  "With pfix, every call of f made by levmar and the returned model.p have the fixed components exactly equal to p0.",
  "all f, data, p0, pfix and all iteration histories", "all executions of an iterative algorithm with an arbitrary user function", L+":levmar", L+":numerical_partials")
P("levmar calls f only inside the bounds",
  "With pmin/pmax given, f is never called with (free) parameters outside them, including finite-difference steps, provided p0 is inside; the result is inside.",
  "all f, bounds, histories", "all executions", L+":levmar", L+":numerical_partials")
P("levmar never ends with a worse fit",
  "The chi2 of the returned parameters is at most 1.000001 times the chi2 of the initial guess, and strictly smaller than every accepted iterate before the last; the reported chi2 is that of the returned parameters.",
  "all f, data, histories", "all executions", L+":levmar")
P("levmar terminates",
  "For gain>1 and positive lambda0 levmar returns or raises LevmarError after a number of function evaluations bounded by a function of itmax, lambda0, lambdax and gain only.",
  "all f, data", "termination for arbitrary f", L+":levmar")
P("levmar rejects underdetermined problems",
  "levmar raises ValueError when there are not more data points than free parameters.",
  "all data sizes and parameter counts", "all sizes", L+":levmar")
P("levmar configuration is per call",
  "cfg entries override the defaults for one call only, levmar.config is never modified; prel/pabs keywords take precedence over cfg.",
  "all configurations and call sequences", "histories of calls", L+":levmar")
P("finite-difference partials",
  "numerical_partials perturbs exactly one free parameter at a time by max(prel*|p|,pabs), downwards when the upper bound would be exceeded, raises ValueError on a zero step or when both bounds are too close, and is exact for functions linear in p.",
  "all f, p, bounds, masks", "unbounded parameter counts", L+":numerical_partials")
P("ModelFit evaluates f at the fitted parameters",
  "model(*args) == f(model.p, *args) for plain and generator functions; perr, chi2pcov and chiperr are the roots/scalings of pcov they claim to be.",
  "all f, p, args", "all user functions", L+":ModelFit")
# ---- randomx ----------------------------------------------------------------
P("incircle points lie in the unit disc and are complete",
  "Whatever the random source returns in [0,1), every point of incircle(size) is inside the unit circle and exactly prod(size) points are returned, for both algorithms.",
  "all sizes and all random streams", "all random streams", RX+":incircle")
P("oncircle and onsphere points have norm 1",
  "Every returned point has Euclidean norm exactly 1 (in exact arithmetic).",
  "all random streams", "all random streams", RX+":oncircle", RX+":onsphere")
P("insphere points lie in the unit ball",
  "Every point of insphere(size) has norm at most 1, for small sizes (direct formula) and large sizes (rejection).",
  "all sizes and random streams", "a violation needs particular random draws", RX+":insphere")
P("rotation3 returns rotation matrices",
  "Every returned 3x3 matrix M satisfies M M^T = I and det M = 1.",
  "all random streams", "all real angles", RX+":rotation3")
# ---- fermi ------------------------------------------------------------------
P("Fermi-Dirac functions are evaluated elementwise by the right branch",
  "fdm12, fd12, fd32, fd52 and their inverses return an array of the shape of x whose every element is the small-argument formula below the threshold and the large-argument formula otherwise, independent of the other elements.",
  "all arrays x", "unbounded arrays, every mask pattern", FM+":_fd_integ", FM+":_peval")
P("Fermi-Dirac integrals are positive and well defined",
  "The rational functions never divide by zero on their branch and the direct functions fdm12..fd52 are positive for every real x.",
  "all real x", "all reals", FM+":_peval")
# ---- interactive / plotting glue ----------------------------------------------
P("reloadx publishes the public names of the module",
  "After reloadx(m) every name of the module that is not dunder-named is bound in __main__ to the module's value, every other name of __main__ is untouched, and the module gets `my` bound to __main__ unless it already had one.",
  "all module and main namespaces", "unbounded namespaces", "npplus/interactive.py:reloadx")
P("logxy/xylim/title decision logic",
  "logxy changes only the axes requested (both when islogy is omitted, none when None); title adds y=1.03 exactly when y is not given and ticks point outward, and forwards every other keyword unchanged.",
  "all argument combinations", "claims about all keyword dictionaries", "npplus/pyplotx/pltwraps.py:logxy", "npplus/pyplotx/mpldefaults.py:title")
# ---- later additions (ids stay stable) ------------------------------------------
P("splfit cost values are the derivatives of chi2 with respect to the jumps",
  "With cost=True splfit returns, besides the fit, for every relaxed constraint the partial derivative of the least chi2 with respect to the jump of that Taylor coefficient across the knot: chi2 of every piecewise polynomial is that of the fit plus cost times its jumps plus a sum of squares.",
  "all data, n, nc, knots, lo, hi, periodic or not", "unbounded sizes; the claim is about all competitors", PW+":splfit")
P("levmar accepts data of any rank",
  "With f returning arrays of the shape of data (and dfdp of that shape plus a leading parameter axis), as documented, levmar fits data of any number of axes.",
  "all data of rank 2 or more, all f", "claims about all shapes", L+":levmar")
P("levmar's covariance matrix",
  "pcov of the model returned by levmar is the inverse of the weighted normal matrix of the partial derivatives at the returned parameters, symmetric with positive variances for the free parameters, and zero in every row and column of a fixed parameter.",
  "all generator functions, data, errs, pfix", "unbounded parameter counts; every run of the iteration", L+":levmar")
P("levmar leaves stationary points alone",
  "Started inside the bounds at a point where the gradient of chi2 with respect to the free parameters vanishes and the partial derivatives are independent, levmar returns exactly p0 after at most two evaluations, with the chi2 and covariances of p0.",
  "all deterministic generator functions, data, errs, bounds, pfix, configurations", "exact fixed points of an iteration over the reals", L+":levmar")
P("random points are uniformly distributed",
  "The direct formulas of incircle, oncircle, onsphere and insphere, and the image of the z axis under rotation3, have a constant area, length or volume element as functions of the draws, and cover the disc, circle and sphere exactly once; the rejection method keeps exactly the draws inside.",
  "all draws", "distributional claim about a continuum of draws", RX+":incircle", RX+":oncircle", RX+":insphere", RX+":onsphere", RX+":rotation3")
P("reloadx(module) is reload(module); from module import *",
  "reloadx is shorthand for reload(module) followed by from module import *: it binds in __main__ the names that import * would bind, and no others.",
  "all modules with or without __all__", "unbounded namespaces", "npplus/interactive.py:reloadx")
P("style_npp sets the documented parameters and no others",
  "After style_npp(box, cycle) every rcParams entry of the style has its value (ticks inward with a box, outward without; the colour cycle only if cycle is not empty), every other entry is unchanged, and title adds y=1.03 exactly in the style without a box.",
  "all rcParams, box values, cycles", "claims about all dictionaries", "npplus/pyplotx/mpldefaults.py:style_npp", "npplus/pyplotx/cbqcolors.py:CBQ.set_color_cycle")
P("ColorBrewer sets and set_color_cycle",
  "The colour sets have the documented sizes, are made of distinct valid colours, and the sets ending in ny are the colours of the others without the yellow; set_color_cycle sets the default colour cycle, or that of the given axes if axes are given.",
  "all sets, all rcParams, all axes", "permutations of every set; claims about all dictionaries", "npplus/pyplotx/cbqcolors.py:CBQ")
P("pyplot wrappers return None and change nothing else",
  "Every name of pltwraps.__all__ is bound after import, whatever functions pyplot has; a wrapper calls the pyplot function with the same arguments, has the same effect and exceptions, and returns None.",
  "all pyplot functions, states and arguments", "claims about every function and argument list", "npplus/pyplotx/pltwraps.py:_iwrap")
P("The branches of the Fermi-Dirac functions fit together and have the right asymptotics",
  "At 2 the two formulas of each integral agree to 1e-12, at 4 those of each inverse to 1e-8 (relative); for large x the integral of order j is x^(j+1)/(j+1) times the Sommerfeld expansion 1 + pi^2/6 j(j+1)/x^2 + 7 pi^4/360 (j+1)j(j-1)(j-2)/x^4 up to a multiple of 1/x^6.",
  "all four orders, all x >= 8", "a limit and a half line of reals; a wrong digit of a coefficient shows only near one end", FM+":fdm12", FM+":fd12", FM+":fd32", FM+":fd52", FM+":ifdm12", FM+":ifd12", FM+":ifd32", FM+":ifd52")
P("The Fermi-Dirac integrals are each other's derivatives",
  "The derivative of the integral of order j is j times the integral of order j-1 (j = 1/2, 3/2, 5/2), to a relative error of 1e-9.",
  "all real x other than 2", "a relation between derivatives at every real number", FM+":fdm12", FM+":fd12", FM+":fd32", FM+":fd52")
P("The functions are the Fermi-Dirac integrals",
  "fdm12, fd12, fd32 and fd52 return the improper integral from 0 to infinity of t^j/(exp(t-x)+1) dt, j = -1/2, 1/2, 3/2, 5/2, to a relative error of about 1e-12.",
  "all real x, arrays of every shape", "a relative error at every real number, against an integral without closed form", FM+":fdm12", FM+":fd12", FM+":fd32", FM+":fd52")
P("The inverse functions solve the equation they document",
  "y = ifdm12(x), ifd12(x), ifd32(x), ifd52(x) satisfies x == integral from 0 to infinity of t^j/(exp(t-y)+1) dt, and fd(ifd(x)) == x, to a relative error of about 1e-8.",
  "all positive x, arrays of every shape", "a relative error at every positive number, through the composition of two piecewise functions and an integral without closed form", FM+":ifdm12", FM+":ifd12", FM+":ifd32", FM+":ifd52")
# ---- double precision ----------------------------------------------------
P("span in double precision",
  "In IEEE double precision, span(start, stop, num) returns start and stop exactly as first and last samples; an interior sample i differs from start + i (stop-start)/(num-1) by at most half an ulp of that value plus i + 2 roundings of i steps (num <= 2^53, no overflow); and for start <= stop the samples never decrease, if num <= 2^25 and stop-start is 0 or at least 2^-1000.",
  "all doubles without nan, arrays of any shape, all num", "rounding errors accumulate over unbounded numbers of additions", B+":span")
P("zcen and pcen in double precision",
  "In IEEE double precision the elements computed by zcen and pcen are the correctly rounded means of the two neighbours, and lie between them, whenever the sum of the two does not overflow; pcen leaves the end values exactly as they are.",
  "all doubles, arrays of any rank, any axis", "2^128 pairs of doubles, subnormal numbers included", B+":zcen", B+":pcen")
P("Rounding error of polyfun",
  "In IEEE double precision, if the result of polyfun(c, x) is finite it differs from the exact value of the polynomial with these coefficients by at most ((1+2^-53)^(2n) - 1) sum |c[i]| |x|^i + (1+2^-53)^(2n) 2^-1075 sum_(i<n) |x|^i, n the degree; with integer c and x and sum |c[i]| max(1,|x|)^i <= 2^53 it is exact.",
  "all coefficients, x and degrees", "a bound over all doubles and all degrees", PW+":polyfun", PW+":_polysetup")
P("levmar respects its bounds in double precision",
  "In IEEE double precision, started with p0 not outside the bounds, levmar never calls f with a free parameter below pmin or above pmax, the points displaced for the numerical partial derivatives included, and never returns one; inf and nan may occur anywhere.",
  "all functions, data, bounds, configurations", "rounding can move a clipped or displaced point; all runs of the iteration", L+":levmar", L+":numerical_partials")
P("levmar ends in double precision",
  "In IEEE double precision levmar returns or raises after finitely many calls of f, whatever f, the data and the solver return (infinities and nan included), if gain >= 2, lambda0 > 0 and lambdax is finite.",
  "all functions, data, solvers, configurations", "termination of nested loops; underflow of lambda", L+":levmar")
# ---- colormaps -----------------------------------------------------------
P("The colour tables are valid and perceptually monotone",
  "magma, inferno, plasma and viridis are tables of 256 colours with components between 0 and 1 whose CIE lightness L* increases with every colour, by between 0.075 and 0.49 (viridis: 0.28 to 0.35), so that all colours of a table differ.",
  "all four tables, all pairs of colours", "a wrong digit in one of 3072 numbers; fractional powers of every component", "npplus/pyplotx/mpl2cmaps.py:cmaps")
P("The colormap functions set the default and the current image",
  "magma(), inferno(), plasma() and viridis() make the colormap of that name the default and apply it to the current image if there is one, return None, and change no other parameter and no registered colormap; loading the module registers the four colormaps under their names and leaves all others alone.",
  "all rcParams, registered colormaps, images", "claims about all dictionaries", "npplus/pyplotx/mpl2cmaps.py:cminst")
# ---- the Fermi-Dirac functions in double precision ------------------------
P("The Fermi-Dirac functions in double precision",
  "In IEEE double precision, with an exp accurate to four units in the last place, fdm12, fd12, fd32 and fd52 return finite numbers that differ from the integral of t^j/(exp(t-x)+1) over t > 0 by at most 3.03e-12 (order -1/2) and 1.03e-12 (the others) of it, and arrays of the shape of x; inf gives inf and nan gives nan.",
  "all doubles x from -500 to 1e60, arrays of every shape, every such exp", "rounding errors of every double in the range against an integral without closed form", FM+":fdm12", FM+":fd12", FM+":fd32", FM+":fd52", FM+":_peval")
P("The inverse Fermi-Dirac functions in double precision",
  "In IEEE double precision, with log and power accurate to 2^-50, y = ifdm12(x), ifd12(x), ifd32(x), ifd52(x) is finite, has the shape of x, and the integral of t^j/(exp(t-y)+1) over t > 0 is x to a relative error of 3.3e-9, 1.03e-8, 9.3e-9, 2.53e-8.",
  "all doubles x from 1e-200 to 1e60, arrays of every shape, every such log and power", "cancellation in the coefficient tables amplifies rounding errors up to 10^4 times; every double in the range", FM+":ifdm12", FM+":ifd12", FM+":ifd32", FM+":ifd52")
P("cum in double precision",
  "In IEEE double precision cum(a) starts with 0 and element i+1 differs from a[0]+...+a[i] by at most ((1+2^-53)^i - 1) (|a[0]|+...+|a[i]|) if it is finite; integers are summed exactly up to 2^53; sums of nonnegative numbers never decrease; diff(cum(a)) is a and cum(diff(a)) is a - a[0] up to rounding, and exactly so (the documented inverse).",
  "all doubles, arrays of every shape, every axis", "rounding errors accumulate over unbounded numbers of additions", B+":cum")
P("Evaluation of a piecewise polynomial in double precision",
  "In IEEE double precision PwPoly.__call__ uses the one piece whose half open interval contains x (no rounding in the search) and, if the result is finite, returns the value of that polynomial at x minus the left knot up to ((1+2^-53)^(3n) - 1) sum |c[i]| |x-xk|^i plus the underflow term, n the degree; with integer coefficients, knots and x and all sums below 2^53 the value is exact.",
  "all doubles x, knots, coefficients and degrees", "a bound over all doubles and all degrees", PW+":PwPoly.__call__", PW+":polyfun")
P("pline in double precision",
  "In IEEE double precision pline(x, y)(t) with x[q] < t <= x[q+1], if finite, differs from linear interpolation between the two points by at most 2^-53 max(|y[q]|, |y[q+1]|) + 8 2^-53 (t-x[q])/(x[q+1]-x[q]) |y[q+1]-y[q]| plus an underflow term; it never decreases in an interval where y[q] <= y[q+1] (and conversely), is finite for data up to 1e99, and is constant outside the points; and it passes through the points (the documented equivalence with interp).",
  "all doubles t, points and values, any number of points and components", "every double in every interval; rounding of the slope against the end value", PW+":pline", PW+":PwPoly.__call__")
P("abs_ in double precision",
  "In IEEE double precision abs_(a, b, ...) of n real arrays, whatever the order in which numpy adds the squares, is within ((1+2^-53)^(n+1) - 1) of the norm relatively if the elements are 0 or at least 1e-150 in absolute value, is finite if they are at most 1e140, and is exact for integers whose norm m is an integer with m^2 <= 2^53; abs_(a) is exact.  Half of the exponent range is lost: the norm of (1e200, 1e200) is inf, that of (1e-200, 1e-200) is 0.",
  "all doubles, numbers of arguments, shapes that broadcast, every order of summation", "rounding of every sum in every order; overflow and underflow", B+":abs_")
P("atan with a branch in double precision",
  "In IEEE double precision, with an arctan2 accurate to 4 2^-53, r = atan(a, b, branch=br) is finite, differs from an angle of the point (b, a) by at most (3|br| + 25) 2^-53, is stored in out, and br <= r <= fl(br + fl(2 pi)); and the documented r < br + 2*pi holds.",
  "all finite doubles a and b, |branch| up to 1e299", "the remainder can round up to the modulus; multiples of the rounded 2 pi", B+":atan")
P("A spline of odd degree is the smoothest interpolant",
  "With lo and hi not given, spline(x, y, n=2r-1) has the smallest integral of the squared r-th derivative over [x[0], x[-1]] among all r times continuously differentiable functions through the points (r=2: the natural cubic spline bends least); with the derivatives of order 1..r-1 given at both ends, among those with the same end derivatives; with per=True, among those whose derivatives of order 0..r-1 agree at the two ends.  The excess of any other function is the integral of the squared difference, so with at least r points only the spline reaches the minimum.  A cubic spline (r=2) differs from any such f between two knots at distance h by at most sqrt(h^3/4 times the integral of f''^2), so it converges to f as the knots are refined.",
  "all knots, values, r >= 2, all competing functions", "a minimum over an infinite dimensional space", PW+":spline")
P("The spline is determined by its values and end conditions",
  "spline(x, y, n, lo, hi) equals on (x[0], x[-1]] every function that is a polynomial of degree at most n between neighbouring knots, has n-1 continuous derivatives, takes the values y and meets the end conditions (those given and the zeros filled in): for n = 2 and 3 with any lo and hi, for any n with all conditions at one end, and for n = 2r-1 with none given or with the derivatives 1..r-1 given at both ends.  So a polynomial of degree at most n with its own derivatives as end conditions is returned, and a polynomial of degree less than r is returned by the spline of degree 2r-1 without end conditions.  With per=True and odd n it equals everywhere the only periodic function of this kind.",
  "all knots, values, degrees, end conditions, all competing piecewise polynomials", "uniqueness over all functions; every degree", PW+":spline")
P("The order of accuracy of cubic splines and of pline",
  "If y holds the values of a function f with fourth derivative at most M and no two neighbouring knots are further apart than H, the cubic spline of (x, y) differs from f by at most M H^4/16 on (x[0], x[-1]], its first derivative by M H^3/2 and its second by M H^2/2 - when the slopes of f are given at both ends, when f has no curvature at the ends and nothing is given, and when f is periodic and per=True.  pline differs from f by at most H^2/8 times the bound of the second derivative.",
  "all functions with four (two) derivatives, all knots, however uneven", "an error bound for all smooth functions and all knot sets", PW+":spline", PW+":pline")
P("levmar on models linear in the parameters",
  "For a model linear in the parameters (a generator with its partial derivatives, or a plain function whose derivatives levmar takes by finite differences) with independent derivatives and no bounds, levmar in exact arithmetic raises nothing, accepts every trial step (two evaluations per iteration, lambda divided by gain each time), never increases chi2, and returns the inverse of the normal matrix as pcov.  Iteration k reduces the distance of chi2 from its minimum at least by the factor (mu/(1+mu))^2 with mu = kappa lambda0/gain^k, kappa the sum over the parameters of the normal matrix diagonal times pcov diagonal.  Unless itmax stops it, the final chi2 exceeds the minimum by at most mu^2/(1+2mu) 2 tol/(2-tol) of itself, and it stops as soon as the product of the factors times the initial distance is below tol times the minimum.",
  "all linear models, data, errors, start values, fixed parameters, configurations", "the rate of convergence of an iteration, for all problems", L+":levmar", L+":numerical_partials")
P("Splines are linear in their data and follow affine changes of x",
  "The spline with knots s*x+c (s > 0), whose values are a y1 + b y2 and whose end conditions of order k are (a lo1 + b lo2)/s^k at the same places, has at s*t+c the value a spline1(t) + b spline2(t), for t in (x[0], x[-1]] and end conditions as in C109; for periodic splines of odd degree everywhere.  With the knots -x in reverse order, reversed values and the end conditions exchanged (odd orders negated) the value at -t is spline(t), if enough conditions are given or n is odd and the same orders are given at both ends.",
  "all knots, values, degrees, end conditions, s > 0, c, a, b", "relations between the results of different calls, for all data", PW+":spline")
P("The fits are determined by their data",
  "If only the zero function of the fitted kind vanishes at all data points, splfit and plfit return between the knots the only function that reaches the minimum: so data taken from a spline (polyline) with the given end values return it, the fit to a y1 + b y2 with end values a lo1 + b lo2 is a fit1 + b fit2, neither the order of the points nor a common factor of the errors matters, and splfit of degree 1 is plfit; the same for the periodic fits everywhere.  regress is linear in data always; data made of the model components return their coefficients (if the components are independent; otherwise the fit goes through the data with coefficients of no larger norm).",
  "all data, knots, errors, degrees, end values, model components", "uniqueness of a minimum over all functions; all linear combinations and orders of the data", PW+":splfit", PW+":plfit", L+":regress")
P("chi2prob is the chi square probability",
  "With a gammaincc that is the normalised upper incomplete gamma function, chi2prob(x) of a model with ndof > 0 degrees of freedom is the probability that a chi square variable with ndof degrees of freedom exceeds ndof*x, for x >= 0: a probability that exists, is 1 at 0, decreases strictly and tends to 0.  chi2prob() of the model returned by regress or levmar is the probability of a larger sum of squares than the one found; with two degrees of freedom it is exp(-chi2/2).  If ndof, or both x and chi2, are missing the call raises TypeError.",
  "all models, ndof > 0, x >= 0, all fits", "an integral of the density, for all real arguments", L+":ModelFit.chi2prob", L+":regress", L+":levmar")
P("levmar checks its arguments before it calls the model",
  "If errs does not broadcast with data, levmar raises ValueError; if it does but pmin, pmax, prel or pabs is neither one number nor one per parameter, ValueError (with a single parameter and a wrong pmin or pmax IndexError); if all these fit but pfix is empty or names no parameter, IndexError; in these cases f is not called at all.  If everything fits the first call of f is made with exactly p0 (even if p0 violates the bounds); a generator whose partial derivatives do not have one row per parameter then raises IndexError after this one call.",
  "all functions f, data, start values, keywords", "every combination of lengths and indices; that f is never called is a statement about all f", L+":levmar")
P("The names offered by the packages",
  "Every __all__ names only things its module defines; no name occurs twice, in one list or in two of those that npplus imports.  import npplus binds each exported name to the object of its own module, the submodules basic, solveper, pwpoly, itemattr and lsqfit under their names (pcwise is the function, not the submodule) and nothing else.  from npplus.interactive import * offers all of them whatever numpy exports; in npplus.pyplotx.interactive mpldefaults wins over pltwraps (title is the only common name), pltwraps over pylab, pylab over npplus, so the exports of npplus are there unless pylab has the same name.  A name of __all__ missing in a module raises AttributeError.",
  "all contents of the modules, all names", "a claim about every name, whatever numpy and pylab export", "npplus/__init__.py", "npplus/interactive.py", "npplus/pyplotx/interactive.py", "npplus/pyplotx/pltwraps.py", "npplus/pyplotx/mpldefaults.py")
P("execfile is that of python 2",
  "execfile(name, globals, locals) reads and compiles the file and runs it in the given namespaces; errors of reading and compiling pass through before anything is run, more than three arguments raise TypeError, none IndexError.  Without a namespace it runs the file in the namespace of the caller, as in python 2.",
  "all files, namespaces, callers", "the namespace of the caller is not that of the module the function is defined in", "npplus/interactive.py:execfile")
P("The rules of calculus hold for deriv, integ and the operators",
  "For piecewise polynomials p and q on real numbers whose knots do not nearly coincide, deriv of p+q, p-q and p*q is p'+q', p'-q' and p'q+pq' at every x, knots included; deriv(n) of deriv(m) is deriv(m+n), for periodic functions too.  integ of the derivative of a continuous p is p(x) - p(lbnd) + k, integ of p+q is the sum of the integrals, and for continuous p and q the integral of p'q over any interval is the change of pq less the integral of pq'.",
  "all piecewise polynomials, broadcast shapes, bounds, constants, all x", "identities between functions at all real x, for all operands", PW+":PwPoly.deriv", PW+":PwPoly.integ", PW+":PwPoly.__add__", PW+":PwPoly.__mul__")
P("Calls with arrays are calls for every entry",
  "polyfun(c, x) with arrays has the shape to which c[0] and x broadcast, and every entry is polyfun of its own coefficients at its own x; polyddx(c, x, nd, norm) has nd+1 such entries along a new first axis.  Shapes that do not broadcast raise ValueError, c without rows IndexError.  p(x) of a PwPoly or PerPwPoly has the shape p.shape + x.shape, p(x, nd) the shape (nd+1,) + p.shape + x.shape, and each entry is the value (derivative) of its component at its point; every number type, doubles included.",
  "all shapes of c, x and p, all numbers of derivatives, any arithmetic", "all broadcast combinations of all shapes", PW+":polyfun", PW+":polyddx", PW+":_polysetup", PW+":PwPoly.__call__", PW+":PerPwPoly.__call__")
P("The operators for a PwPoly and a PerPwPoly",
  "p+q, p-q and p*q of a PwPoly and a PerPwPoly have at every x the sum, difference and product of the values of p and q.",
  "all piecewise polynomials with separated knots, all x", "depends on where x lies relative to the period, and on whether degrees and dimensions agree", PW+":PwPoly._binary", PW+":PwPoly.__add__", PW+":PwPoly.__sub__", PW+":PwPoly.__mul__", PW+":PerPwPoly._rawinit")
P("str(p) tells class, knots, degree and shape",
  "str(p) is the class name, the number of knots, the degree and the shape unless it is (); two functions print alike exactly if these four agree.  repr(p) is the class name with the texts of the arrays xk and c in parentheses; repr of an ADict is ADict(...) with the repr of the dict.",
  "all piecewise polynomials, all shapes", "a claim about all pairs of functions", PW+":PwPoly.__str__", PW+":PwPoly.__repr__", "npplus/itemattr.py:ADict.__repr__")
P("repr(p) can be evaluated",
  "As for other python objects, the text repr(p) evaluates to a function equal to p.",
  "all piecewise polynomials", "the constructor reads its arguments differently for different shapes", PW+":PwPoly.__repr__", PW+":PwPoly.__init__")
P("The operators leave their operands unchanged",
  "p+q, p-q and p*q give the same results whether or not the coefficient arrays share memory with the operands, and afterwards p and q have at every x the values they had before.",
  "all piecewise polynomials p, q, all x, also if the operation raises", "depends on which arrays are views of others; the change shows only at a later use of the operand", PW+":PwPoly._binary", PW+":PwPoly.new", PW+":PerPwPoly._rawinit", PW+":PwPoly.__add__", PW+":PwPoly.__mul__")
P("The constructor leaves its arguments unchanged",
  "After PwPoly(xk, y0, ..., yN) the arrays given hold what they held before, so that a second call with them makes the same function.",
  "all float arrays of all shapes, all numbers of lists", "shows only at the second use of the arrays", PW+":PwPoly.__init__")
P("Derivatives in double precision",
  "In IEEE double precision every finite entry k of polyddx(c, x, nd), for c with n+1 >= 2 coefficients, is the k-th Taylor coefficient at x up to two roundings per degree, relative to that coefficient of the polynomial with all signs positive, and underflow; with norm it is the k-th derivative with one rounding more, for k <= 20.  p(x, nd) takes the piece that contains x; entries of a call whose value is finite are the derivatives of that piece up to three roundings per degree and one more.",
  "all coefficients, x, nd, all PwPoly with finite increasing knots, all components", "bounds for all doubles, degrees and numbers of derivatives", PW+":polyddx", PW+":PwPoly.__call__")
P("roots of a periodic function",
  "For a continuous periodic piecewise linear p without a piece on which it is constantly value, p.roots(value) is increasing, consists of points where p takes the value, and contains every such point of the base period up to merging of near duplicates.  If p does not take the value nothing is returned.",
  "all continuous periodic piecewise linear p, all values", "unbounded knots; depends on how the lines of the outer pieces continue", PW+":PwPoly.roots", PW+":PerPwPoly._rawinit")
P("Calls of a periodic function in double precision",
  "Input arguments are reduced to the base period before evaluation, so there is no extrapolation: in IEEE double precision, for knots and x up to 10**298 in size, the reduced argument lies in the base period and is x less a multiple of the period up to a few roundings of the distance of x from the first knot, and a finite result is the value there of the piece containing it up to three roundings per degree.  With first knot 0, arguments in the period are not changed.",
  "all periodic functions with finite increasing knots, all coefficients, all finite x up to 10**298", "bounds for all doubles", PW+":PerPwPoly.__call__", PW+":PwPoly.__call__")
P("Equal ratio samples in double precision",
  "spanl in IEEE double precision rejects start and stop of opposite sign or zero, and returns finite samples with samples[0] == start and samples[num-1] == stop and equal ratios between: for log and exp accurate to one unit in the last place, sample i is start**(1-i/(num-1)) * stop**(i/(num-1)), with the sign of start, up to a relative error of (i+4)*10**-12, and the first and last samples are start and stop.",
  "all array_like start, stop of equal sign with sizes from exp(-680) to exp(680), all num up to 2**25-1, all axes of C03, every log and exp of that accuracy", "bounds for all doubles and every C library", B+":spanl")
P("max_ and min_ of doubles",
  "max_(a, *args) and min_(a, *args) of double arrays have the common broadcast shape; where any argument is nan the result is nan; elsewhere the result is one of the arguments, and no argument is larger (max_) or smaller (min_), infinities included.  The result depends on the order of the arguments at most in the sign of a zero.  Arguments that do not broadcast are rejected.",
  "all double arrays that broadcast, every number of arguments, all values including nan and infinities, every numpy maximum and minimum with the documented behaviour for two numbers", "all combinations of special values and every number of arguments", B+":max_", B+":min_")
P("Random points in double precision",
  "In IEEE double precision, with every source of doubles in [0, 1): the points accepted by the rejection loop of incircle lie inside the unit circle and those of insphere inside the unit sphere; the points incircle returns for few points have squared norm the draw z up to 11 units of 2**-53; the points of oncircle and onsphere have squared norm 1 up to 4 and 13 units of 2**-53 for cos and sin accurate to one unit in the last place.",
  "all draws in [0, 1), all angles, every cos and sin of that accuracy", "points near the boundary are never drawn in tests; bounds for all draws", "npplus/randomx.py:incircle", "npplus/randomx.py:insphere", "npplus/randomx.py:oncircle", "npplus/randomx.py:onsphere")
P("Rotation matrices in double precision",
  "In IEEE double precision, with every source of doubles in [0, 1) and cos and sin accurate to one unit in the last place, every element of a matrix of rotation3 is finite and within 54 units of 2**-53 of that of an exact rotation matrix (orthogonal with determinant 1, with angles those of the draws up to 18 units and the tilt exactly that of the draw), and the rows are orthonormal up to 330 such units.",
  "all draws in [0, 1), every cos and sin of that accuracy, every pi accurate to 4 units", "bounds for all draws, including tilts where the computation cancels", "npplus/randomx.py:rotation3")
P("pcwise of doubles",
  "A pcwise function with increasing double breakpoints other than nan sends every double, nan and infinities included, to exactly one piece: nan to the last, -inf to the first, inf to the last unless a breakpoint is inf; array results hold the scalar results in place, and the array call raises what the call of some entry raises if one does.  The decorator accepts exactly the increasing breakpoints.",
  "all doubles, all shapes, every number of pieces, all element by element piece functions", "nan, infinities, subnormal and overflowing differences of breakpoints", "npplus/pcwise.py:pcwise")
P("Polynomials and piecewise polynomials at nan and infinities",
  "In IEEE double precision polyfun(c, nan) and p(nan) are nan if the degree is 1 or more, and the constant (of the last piece) if it is 0.  polyfun(c, x) and p(x) at x = inf and -inf are the infinity that is the limit of the (last or first) polynomial if its highest coefficient is not 0, and nan if it is 0.  A PerPwPoly of degree 1 or more is nan at all three.",
  "all finite coefficients and knots, every degree, every number of pieces and components", "all combinations of signs, degrees and zero coefficients", "npplus/pwpoly.py:PwPoly.__call__", "npplus/pwpoly.py:polyfun", "npplus/pwpoly.py:_polysetup")
P("ifd* return the argument of fd*",
  "In IEEE double precision ifdm12, ifd12, ifd32 and ifd52 undo fdm12, fd12, fd32 and fd52: ifd(fd(t)) is finite, of the shape of t, and differs from t by at most 640*eps*max(1, t), and by at most 8*eps if t <= 0, where eps is 3.4e-9, 1.04e-8, 9.4e-9 and 2.54e-8.  The same holds for ifd(x) if x is the exact integral at t to a relative error of 1e-11.",
  "all arrays of doubles t from -400 to 60000, of any shape; any exp, log and power accurate to 2^-50", "a continuum of arguments; an error of the value may be magnified in the argument", "npplus/fermi.py:ifdm12", "npplus/fermi.py:ifd12", "npplus/fermi.py:ifd32", "npplus/fermi.py:ifd52")
with open(OUT, 'w') as f:
    for r in rows:
        f.write(json.dumps(r) + "\n")
print(len(rows))

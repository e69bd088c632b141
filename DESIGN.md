# Formal model of npplus in Rocq (Coq 8.16.1)

## Ground rules

* Python exceptions are values: every fallible function returns `res A = Ok a | Err exn`.
* Numbers.  The model is written once, polymorphically over a class `Num K` of operations
  (`+ - * / < <= ==`, integer literals, floor).  It is instantiated at `Q` (normalised
  rationals; used to *run* the model with `vm_compute`, including the repository's own
  unit-test data), at `R` (used for most theorems) and at the IEEE doubles (Flocq's `binary_float 53
  1024`, `Float64.v`; used for C94-C98, C101-C107).  Theorems over `R` say nothing about rounding; theorems proved
  for every `Num` hold for any arithmetic, floats included.
* Transcendental code (`exp log sin cos sqrt`) is modelled directly over `R`.
* numpy arrays: rank-generic code (`basic.py`) uses `nd A = shape + index function`, with
  numpy's documented semantics of broadcast, reshape, repeat, cumsum, slicing and assignment
  written out in `NdArray.v`.  `PwPoly.c` (shape `(n, comp..., nk+1)`) is modelled as
  component index -> list over intervals of coefficient lists, and its calls one point and component at a time;
  `PwArray.v` models the calls with arrays operation by operation and C119 shows that they give the same values.
* External numerical kernels (`solve_banded`, `solve`, `solveh_banded`, `inv`, `svd`, `eigvals`,
  `numpy.random.random`) are function parameters; what is assumed about their result is an
  explicit hypothesis of the theorem using it (never an axiom).
* `searchsorted` on a sorted array is modelled as "index of the first element not < x".

## Layout

| file | content |
|---|---|
| `Num.v`, `PyBase.v`, `NdArray.v` | numbers, exceptions/slices, numpy arrays |
| `PropsSlice.v` | check of the model of slices: `slice_indices` selects the elements python selects, in that order, for every length, bounds and step |
| `Basic.v`, `PcWise.v`, `ItemAttr.v`, `SolvePer.v`, `PwPoly.v`, `Spline.v`, `Fit.v`, `LsqModel.v`, `Levmar.v`, `LmConfig.v`, `RandomX.v`, `Fermi.v`, `Interactive.v`, `Pyplotx.v`, `Roots.v`, `Names.v`, `PwArray.v`, `PwStr.v`, `PwHeap.v` | models only |
| `Spec*.v` | small specifications, independent of the models |
| `*Proofs.v` | lemmas |
| `Props*.v` | the property theorems only, closed by `exact`, each followed by `Print Assumptions` and a non-vacuity `Example` |

A property that is *false* of the code gets a theorem `..._refuted` with a concrete witness and,
where it makes sense, `..._partial` for the part that does hold; its status is `partial`.

## Plan per property

| ids | model | proof |
|---|---|---|
| C01-C04 | `span`, `spanl` over `nd` | index lemma for insert-axis reshape, repeat, cumsum; induction on the cumsum; `exp`/`ln` over R; refutations by witness |
| C05-C07 | `cat_`, `a_` with the loop writing blocks into `result` | loop invariant over the argument list: blocks written so far are correct |
| C08-C10 | `max_`/`min_` fold; `abs_`; `atan` with arctan2 built from stdlib `atan` | induction; trigonometry |
| C11-C14 | `cum`, `zcen`, `pcen` over `nd` | index lemmas, telescoping sums |
| C15-C17 | `pcwise` decoration and call, mask loop | loop invariant: positions of pieces done so far are final |
| C18-C23 | dict as association list with insertion order, strings, class attributes as a parameter | case analysis; induction over operation histories; nested induction on trees |
| C24-C26 | flat strided-slice writes modelled literally | finite sums over R, index arithmetic |
| C27-C29 | Horner loops | induction on the coefficient list; `derivable_pt_lim` |
| C30-C52 | class `PwPoly`/`PerPwPoly` method by method | lemmas on sorted knots; calculus from stdlib Reals |
| C53-C57 | `spline` incl. flat band storage writes | any solution of the banded system yields a C^(n-1) interpolant |
| C58-C61, C81 | `plfit`, `splfit`, `_bico` | normal equations / KKT imply optimality by completing the square |
| C62-C64 | `regress` with SVD oracle | projection argument |
| C65-C72, C82-C84 | `levmar` as a fuelled state machine recording every call of `f` | invariant over all executions; the values of the default options of C70 by computation, as reals and as doubles (`PropsLmDefault.v`) |
| C73-C76, C85 | random draws are arbitrary arrays with elements in [0,1); rejection loop on fuel | algebra, `sin²+cos²=1`, derivatives |
| C77-C78 | template with masks, coefficient tables | list induction; signs of polynomials by a verified check over Z (`PolySign.v`: partial sums of coefficients, bisection), run by `vm_compute` |
| C90-C91 | as C77-C78, over the reals | polynomial inequalities by the check of `PolySign.v`; Taylor polynomials of exp with remainders, Machin's formula (`PolyDer.v`) |
| C92 | as C77, against Coquelicot's improper Riemann integral | moments of exp(-n u^2) from the Gauss integral (`GaussInt.v`).  x < 2: alternating partial sums weighted by the Chebyshev polynomial T_46(1+2v), which is at most 1 on [-1,0] and large at v = exp(-x) (`FermiInt.v`), then a polynomial inequality in exp(x) (`PropsFermiAcc.v`).  x >= 2: the same weights (T_18) on both sides of t = x leave a finite sum of al(nx), be(nx), n <= 18, scaled complementary error functions and Dawson integrals (`FermiTail.v`); both solve first order linear equations, so that a polynomial with a small residual is close to them (`FermiOde.v`); polynomials on [2m,4m] and asymptotic expansions beyond are given as certificates (`FermiPieces.v`, written by `tools/gen_fermi_pieces.py`, not trusted) and checked over Z (`FermiCert.v`); the rational functions are compared with the sums on [2,4], [4,8], [8,16], [16,32] and [32,oo) (`FermiRatio.v`, `PropsFermiTail.v`) |
| C93 | as C77 | four regions: both formulas below their joins (polynomial inequality between the composed rational functions, `FermiInv.v`), inverse below 4 with function above 2 and the reverse (through a polynomial for exp, checked by its differential equation), both above.  Composition is done with Taylor models of integer polynomials, `PolyApprox.v`, whose certificates (`FermiInvData.v`, written by `tools/gen_fermi_inv.py`, not trusted) are checked over Z; a logarithmic distance `lnear` carries the relative errors through products, powers and the monotone substitutions, `FermiInvReg.v`.  With C92 the error with respect to the integral follows |
| C94-C96 | the models of C01, C12, C13, C27 run in double precision (`Float64.v`: round to nearest even, inf, nan, subnormals) | induction over the additions with the relative error of each (Flocq's `relative_error_N_FLT'_ex`, sums of doubles have no underflow error); monotone rounding; scaling by 2 |
| C97, C98 | the model of levmar (C65-C69) run in double precision | C97: the proof of C66 from four laws of addition and comparison valid for all doubles. C98: each rejected step at least doubles lambda up to lambdax < 2^1024, each pass divides it by at most 2^a; refuted by running 332 passes of a fit inside the kernel and then showing that lambda = 0 never changes |
| C101, C102 | fermi.py over any arithmetic (`FermiFloat.v`; the instance over `R` is the model of C77-C93, by computation), run in double precision; exp, log and power are parameters with an accuracy of 2^-50 as hypothesis | relative errors in units of 2^-53 (`FloatErr.v`); Horner's rule is bounded through the table of absolute coefficients, whose ratio to the value is bounded on the whole interval by a sign certificate; the integral at a perturbed argument by substitution (`FermiSens.v`) |
| C103 | `cum` and `diff` (the definitions of the model over any arithmetic) in double precision | error of recursive summation by induction, using that a rounded sum of two doubles never underflows; the exact inverse is refuted |
| C104 | `PwPoly.__call__` in double precision: `searchsorted`, `x - xk`, Horner | comparisons of finite doubles are exact, so the piece is the right one; the bound of C96 is scaled by the rounding of `x - xk` |
| C105 | the model of `pline` (C57) run in double precision, with the evaluation of C104 | product of at most four relative errors on the increment; monotone rounding of `*` and `+`; the documented equivalence with `interp` is refuted at a point |
| C106 | `abs_` over any arithmetic (`FloatElem.v`, over `R` it is the model of C09) in double precision; the sum is any tree of additions (`sums`) | relative errors over the tree, correctly rounded square root |
| C107 | `atan` over any arithmetic (`FloatElem.v`) in double precision, `%` as numpy's `npy_divmod` | `fmod` is exact (the remainder of two integers times a power of 2); 2 pi to 19 digits from Machin's formula; the strict upper bound is refuted |
| C108 | as C53, C56; the integrals are Coquelicot's | integration by parts r times on each piece: the boundary terms telescope because the spline has 2r-2 continuous derivatives and vanish at the ends by the end conditions, so the spline's r-th derivative is orthogonal to that of the difference (`PropsSplineMin.v`); a zero excess makes the difference one polynomial of degree < r with at least r zeros; the error bound follows from the excess by Rolle and Cauchy-Schwarz |
| C109 | as C53, C56; the competing function is any real function with the listed properties (`a_spline`, `a_per_spline`) | its pieces satisfy the equations of the spline; the difference of two solutions has zero data, and the energy argument used for solvability (`cols_zero_odd`, `cols_zero_per`, `march_left`, `march_right`) makes it zero (`PropsSplineUniq.v`) |
| C110 | as C53, C56, C57; f is a list of functions, each the derivative of the one before | on each interval the error minus the cubic with the same second derivatives at the two ends has a second derivative of at most M h^2/8 (Rolle twice), which gives its slopes at the ends; the slopes agree between intervals, so the errors of the second derivative at the knots satisfy a diagonally dominant system (`PropsSplineConv.v`) |
| C111 | as C65-C72, C83; `linear_fun` says that f is c0 + sum p_i A_i | after a damped step the gradient is lambda times the diagonal times the step, so both the decrease of chi2 and its distance from any other value are quadratic forms of the step; the diagonal is bounded by the normal matrix through the covariances (Cauchy-Schwarz); induction over the iterations (`PropsLevmarLin.v`) |
| C112 | as C109 | the combination (mirror image) of splines is again a spline with the combined data and the places filled in are the same, so it is the one returned (C109); `C112_even_degree` shows that even degrees without end conditions are not symmetric, as documented (`PropsSplineLin.v`) |
| C113 | as C58, C59, C62 | the residual of an optimum is orthogonal to every admissible direction (a parabola in the step), hence two optima agree at the data and by the determination hypothesis everywhere; linear combinations and permutations follow, a polyline being a spline of degree 1. regress: the pseudo-inverse is the same for all data of one shape (`PropsFitUniq.v`) |
| C114 | `mf_chi2prob` over R, `gammaincc` a parameter specified by its integral | the chi square tail integral by substitution t = u/2, limits of Riemann integrals (Coquelicot); the statistics of the returned models from C63 and C72 (`PropsChi2.v`) |
| C115 | `levmar_run` (C65) | the checks come first in the run; every later computation only appends to the trace of calls (`PropsLevmarArgs.v`) |
| C116, C117 | the lists `__all__` and the definitions of the modules, star imports as folds over dicts (`Names.v`); `execfile` with reading, compiling and running as parameters | the lists by computation, the imports by induction over the names (`PropsNames.v`) |
| C118 | nothing new: `deriv`, `integ`, `padd`, `psub`, `pmul` of `PwPoly.v` over the reals | the values left of x are polynomials, whose one-sided derivatives are unique; the integrals by the fundamental theorem (Coquelicot) (`PropsCalculus.v`) |
| C119 | `polyfun`, `polyddx`, `__call__` operation by operation on arrays (`PwArray.v`) | every array operation keeps the entries at one index apart; induction over the rows of c (`PropsPwArray.v`) |
| C120 | nothing new: `binary`, `padd`, `psub`, `pmul` for operands of different classes | the padded, reshaped and re-knotted second operand has the pieces of the same operand without its period; witnesses run over Q (`PropsMixed.v`); PerPwPoly first (`PropsMixed2.v`): the result is made periodic again, which changes only the outer pieces |
| C121 | `dec`, `tuple_str`, `pw_str`, `pw_repr`, `adict_repr` (`PwStr.v`); the texts of arrays and dicts are parameters | digits in front of something that is no digit split in one way; decimal numerals are injective (`PropsStr.v`) |
| C122 | `repr_eval`, `repr_star`: the calls that the texts `PwPoly(xk, c)` and `PwPoly(xk, *c)` denote | refuted: the constructor with one argument gives degree 0 (`PropsStr.v`) |
| C123 | the operators with a memory of coefficient arrays, views by `reshape` and the writes of `PerPwPoly._rawinit` (`PwHeap.v`: `hnew`, `hbinary`, `hop`) | a frame for every step; equality with the model without memory for any arithmetic; the one case in which an operand changes is described for all its operands (`PropsHeap.v`) |
| C124 | `ctor_after`: the caller's arrays after the constructor (`PwHeap.v`) | the in-place division of the last array and two calls compared by their top coefficients (`PropsHeap.v`) |
| C125 | `polyddx` and `p(x, nd)` in double precision | one multiply-add with errors in both terms, induction over the loop; the factors k! up to 20! are doubles; Taylor coefficients at an argument with a relative error (`PropsFloatDdx.v`) |
| C126 | `roots` of a PerPwPoly, which does not look at the class | C51 for the PwPoly with the same arrays, which agrees with p on the closed period (`PropsPerRoots.v`) |
| C127 | `freduce`, `fper_call`: the call of a PerPwPoly in double precision with numpy's `%` (`PropsFloatPer.v`) | the exact fmod of C107, errors of the two differences and the sum, C104 for the value |
| C128 | `fspanl`: spanl in double precision, log and exp of the C library as parameters with an accuracy of one unit in the last place (`PropsFloatSpanl.v`) | C94 for the exponents, finiteness of the running sums, errors of exp; correctly rounded log and exp as instances |
| C129 | `fext`: the loops of max_ and min_ over doubles, numpy.maximum and minimum as parameters with their documented behaviour (`PropsFloatMax.v`) | order of the doubles with infinities, induction over the arguments; the C loops as instances |
| C130 | `faccept`, `foncircle`, `fonsphere`: the coordinates of one point in double precision (`PropsFloatRandom.v`); shapes and loops as in C73-C75 | multiples of powers of two and half units in the last place for incircle, error bounds for the others; not treated: the branch of insphere for few points, wrong in any arithmetic (C75) |
| C131 | `frot`, `frotation`: one matrix of rotation3 in double precision (`PropsFloatRot.v`); shapes as in C76 | error bounds in units of 2^-53 against the real rotation of C76; cos, sin and pi of doubles are parameters |
| C132 | `fmultif`: the decorator of C15 for doubles with numpy's documented order in searchsorted, nan last (`PropsFloatPcwise.v`); breakpoints in order | induction over breakpoints and pieces; rounded differences have the sign of the exact ones, overflow included |
| C133 | `polyfun` of C27 at nan and infinities, and `fpw_val`, the call of C30 with numpy's order in searchsorted (`PropsFloatInf.v`), and `fper_val`, that of C127; no derivatives | induction over the coefficients with the rules of IEEE arithmetic for nan and infinities |
| C134 | nothing new: the double precision functions of C101 and C102 (`PropsFermiInvArg.v`) | the integral grows from t to t + d by the factor 1 + c(1 - exp(-d)) at least, with c = 1/(160 max(1, t)), or 1/2 for t <= 0: the derivative of the integrand is integrated where u^2 is between t and t + 1; this turns the error in the value of C102 into one of the argument |
| C79, C86 | module namespaces and `sys.modules` as association lists; reload/import are arbitrary functions of the world | loop invariant of the publishing loop |
| C80, C87-C89 | pyplot as an arbitrary partial function from names to state transformers; rcParams as a dict | case analysis, dict laws |
| C99, C100 | `CmapData.v` (transcribed by `tools/gen_cmaps.py`), `Cmaps.v`: rcParams, registered colormaps and the current image as a record | C99: enclosures of the fifth and cube roots in L* checked by computation; C100: dict laws |

Not expressible: statistical tests of the random source (C85 states uniformity of the maps),
run-time and memory behaviour.  Rounding is treated in C94-C98 and C101-C107 only.

## Trusted base

* Coq 8.16.1's kernel (and `vm_compute` for the concrete examples and the certificate checks of C77-C93); no plugins, no own axioms,
  no `Admitted`.
* Standard-library axioms.  Each property theorem is followed by `Print Assumptions`; the axioms it can
  list are:
  `ClassicalDedekindReals.sig_forall_dec`, `ClassicalDedekindReals.sig_not_dec` (the real numbers),
  `FunctionalExtensionality.functional_extensionality_dep` (used by the Reals library),
  `Classical_Prop.classic` (Reals' limits / Coquelicot's integral), and, only in the non-vacuity
  examples of `Props*.v` that exhibit an inverse or a solver,
  `ClassicalEpsilon.constructive_indefinite_description` (to pick an inverse matrix out of an existence
  proof).
  A checker that looks through sealed modules also lists the members of the standard library's own sealed
  modules `Coq.Reals.Rdefinitions.RbaseSymbolsImpl` (`R`, `Rabst`, `Rrepr`, `Rquot1`, `Rquot2`, `R0`, `R1`,
  `Rplus`, `Rmult`, `Ropp`, `Rlt` and their `_def` equations), `Coq.Reals.Rdefinitions.RinvImpl` (`Rinv`,
  `Rinv_def`) and `Coq.ssr.ssrunder.Under_rel`; these are definitions there, not axioms.
* Coquelicot is used in `PwIntegral.v`, `PropsCalculus.v`, `PropsChi2.v`, `PropsSplineMin.v`, `FermiSens.v` and in `GaussInt.v`, `FermiInt.v`, `PropsFermiAcc.v`, `FermiTail.v`, `FermiOde.v`,
  `FermiCert.v`, `FermiRatio.v`, `PropsFermiTail.v` (the Riemann
  integral, proper and improper, limits, the fundamental theorem of calculus); it adds no axioms beyond the list above.
* Flocq 4.1.0 is used in `Float64.v`, `Float*.v` and `PropsFloat*.v` (the definition of IEEE arithmetic and its correctness theorems); it adds no
  axioms beyond the list above.  That numpy's float64 operations are IEEE's, rounding to nearest even, is trusted.
* The model itself: that the Gallina definitions say what the Python text says.  Each definition cites
  file and lines.  numpy semantics (broadcasting, slicing, `searchsorted`, `reshape`, ...) is written
  down from numpy's documentation and is trusted.
* External kernels, as hypotheses of the theorems using them: `numpy.linalg.inv` returns a right inverse
  of an invertible matrix (`inv_spec`); `numpy.linalg.eigvals` followed by `isreal` lists exactly the
  real eigenvalues of a matrix with finitely many (`eig_spec`, used by C52); `scipy.linalg.solve_banded` and
  `solve` return solutions (`banded_spec`, `dense_spec`) and succeed on nonsingular systems (`banded_complete`,
  `dense_complete`).  `Gauss.v` is an executable solver meeting the last four (`gauss_meets_specs`); it also
  serves to run the models over Q.  For levmar: `numpy.linalg.solve` and `inv` on square matrices are exact on nonsingular
  ones and raise `LinAlgError` on singular ones (`solve_ok`, `inv_ok`; met by `g_solve`, `g_inv`, `linalg_exists`).

## Findings

Documented behaviour that the theorems show to be false of the code (all have `_refuted` theorems):

* C02 `span(start, stop, 1)` returns `stop`.
* C04 `spanl` with `start` of lower rank than `stop`: a negative axis is counted from the rank of `start`, so
  the new axis lands elsewhere; a positive axis inserts the sign axis at the wrong place and raises.
* C07 `cat_`/`a_` take the common shape as a maximum, so an axis of length 0 against one of length 1 raises
  `ValueError` although numpy broadcasts it; `a_` of scalars accepts any axis >= 0; no arguments give
  `AttributeError`.
* C13 `pcen` of an axis of length 0 has length 0, not 1.
* C16 `pcwise` gives a breakpoint to the piece on its left (`xa < x <= xb`), contrary to its documentation.
* C19 `ADict` removes a trailing underscore also from names beginning with `__`.
* C21 `@items_are_attrs(MyAttrMethods)` ignores `MyAttrMethods` (`cls, methods = None, methods`); a container that
  overrides only `name2key`, as a comment suggests, raises `KeyError` (methods are looked up in its own `__dict__`).
* C28/C32 `polyddx` of a single coefficient reports the constant as its first derivative.
* C28/C32/C33/C48 `polyddx(..., norm=True)` multiplies by `arange(1, nd+1).cumprod()`, 64 bit integers (numpy's default on 64 bit
  platforms; 32 bit ones overflow earlier): from 21! on they overflow, so `p(x, 21)[21]` of a polynomial of degree 21 or more is the
  derivative times -4249290049419214848/51090942171709440000, and `reknot` of degree 43 or more passes this on.
* C31 knots belong to the piece on their left, contrary to the documented `xk[i-1] <= x < xk[i]`.
* C35 `integ()` with the default `k=()` raises for non-scalar piecewise polynomials.
* C37 constructor arguments are derivatives, not Taylor coefficients.
* C38 the even-degree constructor divides the last argument by (h+1)...(2h).
* C43 arithmetic of a `PwPoly` with a number always raises `TypeError`.
* C48 `reknot` with even `n` gets the n-th derivative at the midpoints wrong by a constant factor.
* C50 a copied or unpickled `PerPwPoly` cannot be called.
* C52 `roots`: ValueError (concatenate of an empty list) instead of an empty array when nothing is found;
  roots more than one knot interval beyond the last knot are lost unless every piece survives the rule of
  signs; `deg[i]` is indexed by the position among the nonlinear pieces, so after a linear piece a wrong
  companion matrix is used (1/2 is reported for 1+x | 1-2x-x² | -2); knots where p jumps across the value
  are reported.  The effective-degree test also drops roots more than 1/tol intervals outside the knots.
* C53 `spline(..., extrap=-1)` is 0 at `x[0]`, not `y[0]` (the first knot belongs to the extrapolated piece).
* C54 boundary values shaped like the leading dimensions of `y` (rank >= 2) raise `ValueError`; only scalars or
  flattened arrays broadcast.
* C57 a periodic `pline` has derivative 0 at `x[0]` (the first column is cut to degree `extrap`=0 also when periodic).
* C58 `plfit`/`splfit` document "additional leading dimensions" of `y`, but two or more raise `ValueError`
  (`bincount` needs a one-dimensional weight); `plfit` on two knots with both `lo` and `hi` raises `IndexError`,
  a periodic `plfit` on two knots never returns a result.
* C59 a periodic `splfit` on two knots never returns a result either (`solves_periodic` needs two blocks).
* C81 the `cost` values of `splfit` have the opposite of the documented sign: a jump `dc` changes `chi2` by
  `-cost*dc` (fit of (0,0), (1,0) by a line with `lo=(1,)`: derivative 2, cost -2).  In periodic fits the cost of
  order m at the knot after interval q is scaled by `dx[q+1]**m` instead of `dx[q]**m`.
* C64 `regress` ravels `data` and the models but not `errs`: for data of rank >= 2, `errs` of the same shape raises
  `ValueError` (or, for a column, silently returns a 2-d `p`).
* C67 the last step of `levmar` may increase `chi2` (up to a factor 1.000001 per step is accepted, and then counts as
  converged).
* C68 a singular normal matrix makes `levmar` raise `LinAlgError`; f(p) = (p², p²) started at 0.
* C69 `levmar` builds `ValueError("fewer data points than model parameters")` but does not raise it.
* C82 `levmar` ravels `data` and `errs` but not the result of `f`, so that data of rank >= 2 with `f` of the documented
  shape always raises `ValueError`.
* C117 `execfile(name)` runs the file in the namespace of `npplus.interactive` (its `globals()`), not in that of the
  caller as python 2 does: at the terminal the definitions of the file are not visible.
* C120 the sum (difference, product) of a `PwPoly` and a `PerPwPoly` is a `PwPoly` that continues the end pieces of the
  periodic operand outside its base interval; with the `PerPwPoly` first the result is periodic, and if the `PwPoly` has the
  lower degree (or fewer dimensions) `_binary` rebuilds it with `PerPwPoly.new`, which replaces its extrapolation, so that the
  sum is wrong inside the base interval as well, beyond the knots of the `PwPoly`.
* C122 `repr(p)` prints `PwPoly(xk, c)`.  Evaluated, this is a function of degree 0 with the shape `(n,) + p.shape` whose
  components are the coefficients of `p`; `PwPoly(xk, *c)` would give `p` back.
* C123 `p + q` (`-`, `*`) for a `PerPwPoly` `p` and a `PwPoly` `q` with fewer dimensions changes `q`: `_binary` passes a view of
  `q.c` to `PerPwPoly.new`, which writes its end columns, so `q` afterwards continues its first and last inner pieces instead
  of its extrapolation (unless the degree of `q` is lower and the operator is not `*`: then a copy is made).
* C126 `PerPwPoly.roots` is inherited from PwPoly and also searches the outer pieces, which a periodic function never uses: the
  polyline through (0, 1), (1, 2), (2, 1) with period 2 is nowhere below 1, yet its `roots()` are -1 and 3.
* C127 `PerPwPoly.__call__` can evaluate beyond the last knot although its documentation excludes extrapolation: the remainder of a
  small negative number is the period itself, and adding it to the first knot may round up.  With knots 0.3 and 0.9 the function
  x - 0.3 has at the double before 0.3 a value larger than at 0.9.
* C128 `spanl` documents `samples[0] == start`, but computes it as `exp(log(start))`.  `span` repairs its last point ("eliminate
  roundoff error from final point"), spanl repairs neither end.  No log and exp can help: doubles near 2^970 are closer than their
  logs can tell, and of four adjacent ones two have the same log.  The error grows with |log(start)|.
* C130 the rejection test of `insphere` accepts points outside the unit sphere, by less than 3*2^-53 (`C130_insphere_refuted`); that
  of `incircle` never does.
* C132 `pcwise` accepts breakpoints that do not increase if a nan is between them, or if they are equal infinities
  (`C132_decorate_refuted`): the differences are nan, and nan <= 0 is false.
* C133 a PwPoly whose extrapolation has a lower degree than its pieces, as that of splines, is nan at inf and -inf, not its limit
  (`C133_call_inf`, `C133_case`: 0*inf in the highest term).
* C124 `PwPoly(xk, y0, ..., yN, z)` of even degree with N >= 1 divides the caller's array `z` in place by (N+1)...(2N)
  (`argz *=`, pwpoly.py:215); the same call made twice gives two different functions.
* C83 `levmar` returns the inverse of the normal matrix of the second to last iterate as `pcov`: with the default
  options f(x) = (x - 1.002001 x³, 0), data (1, 1), p0 = 0 ends where df/dp = -2 with pcov = 1 instead of 1/4.
* C75, C85 `insphere` with fewer than 70 points takes `s = sqrt(1 - mu)` for the distance from the axis instead of
  `sqrt(1 - mu*mu)`: points outside the unit sphere occur (draws 0, 0, 27/64 give a squared norm of 27/16), and the
  density of the points is not uniform.
* C80 `title(s, y=None)` raises `TypeError` while ticks point outward (`dict(y=1.03, **kwargs)` with `y` in `kwargs`); the
  keyword `ret` is dropped.
* C86 `reloadx` is not "reload; from module import *": it also publishes names with a leading underscore and names that
  `__all__` leaves out, and never dunder names.  C79: the injected `my` is published by the next `reloadx`
  (`C79_my_leaks`).
* C88 `CBQ.set_color_cycle(name, axes)` ignores `axes` and changes the default cycle.

Further observations (no documented claim contradicted):

* `solve_periodic` needs its band part (without corners) to be nonsingular: for the swap matrix it fails although
  the system is uniquely solvable (`C24_needs_nonsingular_band`).
* `solves_periodic`/`solves_banded` use `ab.shape` before `asfarray(ab)`, so a plain list raises `AttributeError`.
* `levmar`: an initial guess outside the bounds is passed to `f` as it is (the documentation says that `f` is not called
  outside the bounds), and bounds of fixed parameters are not looked at; `pfix=[]` raises `IndexError`
  (`RunLevmar.run_empty_pfix`); with all parameters fixed a plain function raises `ValueError` (`run_all_fixed`); a single
  datum with a vector valued `f` is broadcast silently; the iteration limit warning prints a literal `%`.
* `style_npp` with an unknown cycle raises after having changed `image.cmap` (`C87_unknown_cycle`).
* `numerical_partials` called without `f0` calls `f(p)` without `args` and `kwargs`.
* The comment at fermi.py:15, `F_j(x) = -Li_j+1(-exp(x))`, leaves out the factor Gamma(j+1) of the integrals that the
  functions return (C92).  `fd52` steps down by about 1e-13 (relative) where x passes 2, so that it is not monotone there.
  The documented accuracy of about 1e-12 holds for fd12, fd32 and fd52 as a bound on the relative error; for `fdm12`
  the bound is 3e-12 (C92), and at x = 32 the error is more than 2.5e-12 (`C92_m12_sharp`).
* `ifd52` documents an accuracy of about 1e-8; the relative error of `fd52(ifd52(x))` is below 2.5e-8 and is more than 2.1e-8
  at x = (11/1000)^(-7/2), where ifd52(x) is 130 (`C93_52_sharp`).
* In double precision (C103): "cum is the inverse of diff" holds up to rounding only: `diff(cum([1e16, 1]))` is `[1e16, 0]`
  (`C103_inverse_refuted`).
* In double precision (C105): "pline(x,y)(xp) <---> interp(xp, x, y)" fails at the points: `pline([0, 49], [0, 1])(49)` is less than 1
  (`C105_points_refuted`; the slope is rounded and then multiplied by the interval).
* In double precision (C106): `abs_` squares its arguments, so it overflows beyond 1e154 and is 0 below 1e-162, where `hypot` is not.
* In double precision (C107): "branch <= angle < branch+2*pi" fails: `atan(-1e-20, 1, branch=0)` is `2*pi` (the remainder rounds up to the
  modulus); with branch=2.3 the angle can also exceed branch plus the true 2 pi (`C107_upper_refuted`).
* In double precision (C94, C95): `span` can fall at its last step when the step is a subnormal number (`C94_subnormal_refuted`), and
  `zcen` of two large neighbours overflows although their mean is a double (`C95_overflow_refuted`).
* `levmar` divides lambda by gain in every pass without a lower limit (lsqfit.py:372).  After about 320 passes at the default settings it
  is 0.0, and from then on `lamda *= gain` has no effect: the first rejected step is retried for ever (`C98_endless_refuted`, itmax=400).
  With itmax = 100 and the other defaults this cannot happen (`C98_terminates_partial`, `ex_C98`).

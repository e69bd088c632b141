#!/usr/bin/env python3
"""Write MANIFEST.json.  Each row: property, status, theorems, note."""
import json, os

ROWS = []

def c(prop, status, theorems, note=""):
    ROWS.append({"property": prop, "status": status, "theorems": theorems, "note": note})

c("C27", "proved", ["C27_polyfun_evaluates"])
c("C28", "partial", ["C28_polyddx_partial", "C28_polyddx_refuted", "C28_factorial_refuted"],
  "False of the code for one-coefficient (constant) polynomials with nd>=1: the first "
  "derivative is reported as the constant (refuted); with norm, derivatives 21 and up of polynomials of "
  "degree >= 21 are wrong because the 64 bit integer k! overflows (refuted for the 21st); proved for all other inputs.")
c("C29", "proved", ["C29_polyddx_translates"])
c("C30", "proved", ["C30_eval_piece"])
c("C31", "partial", ["C31_interval_convention_partial", "C31_interval_convention_refuted"],
  "Documented convention is false at knots with a jump (refuted); it holds strictly inside "
  "intervals and at knots where the function is continuous.")
c("C32", "partial", ["C32_call_derivatives_partial", "C32_call_derivatives_refuted", "C33_factorial_refuted"],
  "False for piecewise constants with nd>=1, and for derivatives 21 and up when the degree is 21 or more "
  "(refuted, consequences of C28); proved for degree>=1 and derivatives up to 20 or above the degree.")
c("C33", "partial", ["C33_deriv_partial", "C33_factorial_refuted"],
  "deriv(m) is proved to be the m-th derivative for all m and degrees.  That it agrees with p(x,m)[m] is proved for m<=20 and for m "
  "above the degree, and is false for m=21 and degree>=21, where p(x,m) is wrong (refuted).")
c("C34", "proved", ["C34_integ", "C34_integ_iterated", "C34_integ_periodic"])
c("C35", "partial", ["C35_integ_default_partial", "C35_integ_default_refuted"],
  "True for scalar p; for every p with one component axis of length >=2 the default k=() "
  "raises ValueError (refuted).")
c("C41", "proved", ["C41_add_sub_pointwise", "C41_shapes_must_broadcast"])
c("C42", "proved", ["C42_mul_pointwise"])
c("C43", "partial", ["C43_number_arithmetic_refuted", "C43_number_arithmetic_partial", "C43_no_division"],
  "Arithmetic with a number raises TypeError for every p (refuted). The code after the failing "
  "call would be right for * and / and wrong for + and -.")
c("C45", "proved", ["C45_addknots"])
c("C46", "proved", ["C46_allknots", "C46_allknots_exact"])
c("C44", "proved", ["C44_neg_getitem_len"])
c("C47", "proved", ["C47_jumps"])
c("C49", "proved", ["C49_periodic", "C49_needs_two_knots"])
c("C50", "partial", ["C50_copy_partial", "C50_copy_refuted"],
  "True for PwPoly; for every PerPwPoly the copy raises AttributeError when called (refuted).")

c("C36", "proved", ["C36_odd_constructor"])
c("C37", "partial", ["C37_taylor_arguments_partial", "C37_taylor_arguments_refuted"],
  "The k-th argument is the k-th derivative itself, not divided by k!: documentation false for "
  "every k>=2 with a non-zero value (refuted), true for k<=1.")
c("C38", "partial", ["C38_even_constructor_partial", "C38_even_constructor_refuted"],
  "Degree, interpolation and smoothness proved for all N. The top coefficient is the value divided "
  "by (h+1)...(2h), h=N-1: as documented for N=1, wrong for N=2 (refuted).")
c("C39", "proved", ["C39_histogram_short", "C39_histogram_long"])
c("C40", "proved", ["C40_decreasing_knots"])
c("C48", "partial", ["C48_reknot_odd_partial", "C48_reknot_even_partial", "C48_reknot_even_refuted", "C48_order_refuted"],
  "n odd: proved for n<=41, false for n=43 and p of degree>=21 (refuted: overflow of 21!, see C28). n even: derivatives at the knots match, the n-th derivative at the midpoints is off "
  "by the factor n! h!/(2h)! (refuted; factor 2 for n=2).")

c("C51", "proved", ["C51_linear_roots"],
  "Exact arithmetic; the cut-off at 1/tol intervals outside the knots is what the code does (effective degree).")
c("C52", "partial", ["C52_roots_partial", "C52_no_root_refuted", "C52_far_root_refuted",
  "C52_mixed_degree_refuted", "C52_jump_refuted", "C52_vector"],
  "Refuted: without roots ValueError instead of an empty array; roots more than one interval beyond the "
  "last knot are lost; after a linear piece the wrong degree is used and a non-root is reported; jump "
  "crossings are reported. Proved for continuous p of full effective degree >= 2 on every piece: all "
  "reported are roots, all roots up to one interval beyond the last knot are reported.")

c("C01", "proved", ["C01_span_last_exact", "C01_span_equal_steps"],
  "C01_span_last_exact holds for every arithmetic (no algebraic law used); asfarray and dtype= not modelled.")
c("C02", "partial", ["C02_span_one_refuted", "C02_span_ends_partial", "C02_span_none"],
  "num=1 returns stop, not start (refuted whenever start != stop); both ends right for num>=2 and for num=1 with "
  "start=stop. num=0 raises ValueError.")
c("C03", "proved", ["C03_spanl", "C03_spanl_rejects"], "Exact exp/ln over R.")
c("C04", "partial", ["C04_spanl_axis_refuted", "C04_spanl_axis_partial"],
  "False when start has lower rank than stop: a negative axis is resolved against start's rank, and a positive axis "
  "misaligns the signs (ValueError). Proved for axis=0 and whenever rank(start) >= rank(stop).")
c("C05", "proved", ["C05_cat"], "Axes of length 0 joined with axes of length 1 excluded, see C07.")
c("C06", "proved", ["C06_stack"], "Same exclusion, see C07.")
c("C07", "partial", ["C07_unknown_keyword", "C07_non_numeric", "C07_bad_axis", "C07_not_broadcastable",
  "C07_accepts_partial", "C07_rejects_refuted"],
  "Refuted: numpy broadcasts lengths 0 and 1, cat_/a_ raise ValueError; a_ of scalars accepts any axis>=0; no "
  "argument at all raises AttributeError. Everything else as stated is proved.")
c("C08", "proved", ["C08_max_min", "C08_order"])
c("C09", "proved", ["C09_abs"], "Real arrays; lengths 0 against 1 excluded as in C06.")
c("C10", "proved", ["C10_atan_branch", "C10_atan_plain"], "Exact arithmetic, one element; signed zeros not modelled.")
c("C11", "proved", ["C11_cum", "C11_cum_none"])
c("C12", "proved", ["C12_zcen", "C12_zcen_scalar"])
c("C13", "partial", ["C13_pcen", "C13_zcen_pcen", "C13_pcen_empty_refuted"],
  "Proved for every axis of length >= 1; an axis of length 0 stays of length 0 (refuted).")

c("C15", "proved", ["C15_pcwise", "C15_one_piece"], "Piece functions that act element by element; the result array is float.")
c("C16", "partial", ["C16_convention_refuted", "C16_convention_partial"],
  "False at every breakpoint: searchsorted(left) gives a breakpoint to the piece on its left (refuted); true elsewhere.")
c("C17", "proved", ["C17_decorate", "C17_raises", "C17_string_piece", "C17_breakpoints", "C17_number"])
c("C18", "proved", ["C18_attribute_is_item", "C18_history"])
c("C19", "partial", ["C19_escape_partial", "C19_dunder_refuted"],
  "One underscore is always removed, so every key is reachable; but it is removed for names beginning with a double "
  "underscore too (refuted).")
c("C20", "proved", ["C20_decorated"])
c("C21", "partial", ["C21_custom_methods_refuted", "C21_keyword_partial", "C21_name2key_refuted", "C21_default_container"],
  "@items_are_attrs(M) installs the default methods whatever M is (refuted); the keyword form methods=M works if M "
  "itself defines all three methods; overriding only name2key raises KeyError.")
c("C22", "proved", ["C22_redict"], "Heap of dict objects; recursion deep enough is given (fuel); no cycles.")
c("C23", "proved", ["C23_redict_toggles"])

c("C24", "proved", ["C24_solve_periodic", "C24_needs_nonsingular_band", "gauss_meets_specs"],
  "solve_banded and solve are assumed to return solutions, and to succeed on nonsingular systems (the second part only); "
  "exact Gaussian elimination is shown to meet these assumptions.  solve_periodic fails when the band part alone is "
  "singular although the cyclic system has a solution.")
c("C25", "proved", ["C25_symmetric_band", "C25_forms_agree", "C25_solves"])
c("C26", "proved", ["C26_diag_to_norm"])

c("C14", "proved", ["C14_trapezoid"], "Any leading dimensions of f; numpy.linalg.inv (in pline) assumed to invert.")
c("C53", "proved", ["C53_spline", "C53_cubic_succeeds", "C53_oneside_succeeds", "C53_natural_succeeds", "C53_decreasing",
  "C53_extrap_minus1_refuted"],
  "Every n>=2, every boundary specification and every extrap >= 0 (the statement has the default); with extrap=-1 the "
  "value at x[0] is 0 (C53_extrap_minus1_refuted). solve_banded assumed to return a solution. The existence theorems show for which "
  "specifications the system is nonsingular.")
c("C54", "partial", ["C54_boundary", "C54_overspecified", "C54_leading_dims_refuted"],
  "Proved as stated when the boundary values have the flattened shape of y's leading dimensions; an array of boundary values "
  "shaped like the leading dimensions themselves raises ValueError for rank >= 2 (refuted).")
c("C55", "proved", ["C55_extrap"], "extrap >= -1 (-1: zero outside).")
c("C56", "proved", ["C56_periodic", "C56_odd_succeeds", "C56_decreasing", "C56_rejects"],
  "solve_banded and solve assumed to return solutions (to succeed on nonsingular systems for C56_odd_succeeds).")
c("C57", "proved", ["C57_pline", "C57_decreasing", "C57_periodic", "C57_periodic_slope_refuted"],
  "The value statements are proved; extra: the derivative of a periodic pline at x[0] is 0 whatever the slope (refuted).")
c("C58", "proved", ["C58_plfit", "C58_exists", "C58_periodic", "C58_periodic_exists", "C58_leading_dims_refuted", "C58_two_knots_refuted"],
  "Optimality proved for every result; a result exists when the data determine the values at the knots. Extra: y with two or more leading dimensions raises ValueError, two knots with both lo and hi raise IndexError (refuted).")
c("C59", "proved", ["C59_splfit", "C59_exists", "C59_exists_dense", "C59_periodic", "C59_periodic_exists", "C59_periodic_dense"],
  "solve_banded and solve assumed to return solutions (to succeed on nonsingular systems in the existence theorems). Derivatives at the knots from both sides, the boundary values and the optimum over all competing splines are proved, extrap >= 0 on the low side. Extra: a periodic fit on two knots never returns.")
c("C81", "partial", ["C81_cost_partial", "C81_periodic_partial", "C81_sign_refuted"],
  "The identity holds with minus the returned costs: the costs are the derivatives with the opposite sign (refuted by a concrete fit); for periodic fits the cost of order m is also off by the factor (dx[q+1]/dx[q])**m. What is missing is the documented sign, which is false.")
c("C60", "proved", ["C60_per_rejects", "C60_short", "C60_decreasing", "C60_extends", "C60_outside_rejects", "C60_periodic", "C60_interval"])
c("C61", "proved", ["C61_binomial_table"])
c("C62", "proved", ["C62_regress", "C62_total"],
  "scipy.linalg.svd is a parameter assumed to return a thin SVD; also proved that the minimiser of smallest norm is unique")
c("C63", "proved", ["C63_truncation", "C63_statistics", "C63_covariance", "C63_total"],
  "pcov is proved to be L L^T for the linear map L from data/errs to p.  model() returns the raveled fitted data, not the shape of data")
c("C64", "partial", ["C64_refuted", "C64_column_refuted", "C64_partial"],
  "False: errs is not raveled with data.  errs of the shape of data raises ValueError for rank >= 2 data whose last dimension is neither 1 nor the size, and a column of data gives a 2-d p.  Proved for 1-d data and for scalar errs")

c("C65", "proved", ["C65_fixed"], "Every number type; solve is assumed to return a vector of the length of its right-hand side.")
c("C66", "proved", ["C66_bounds"], "Whole-real-line arithmetic; p0 inside the bounds, pmin <= pmax.")
c("C67", "partial", ["C67_partial", "C67_refuted"],
  "Proved: the reported chi2 is that of the returned parameters, accepted iterates before the last are strictly decreasing, the last is below 1.000001 times the previous one. "
  "False as stated: a last accepted step may raise chi2 (refuted by a concrete run that ends worse than it started).")
c("C68", "partial", ["C68_terminates", "C68_exponent", "C68_outcome", "C68_outcome_partial", "C68_refuted"],
  "The bound on the number of calls is proved for every f, data and linear solver.  The outcome (returns or LevmarError) is proved for generator functions with independent derivatives; "
  "a singular normal matrix raises LinAlgError instead (refuted), and C68_outcome_partial shows that this is the only other outcome.")
c("C69", "partial", ["C69_refuted", "C69_partial"],
  "False: the ValueError is built but never raised (refuted: one datum, one parameter).  With fewer data than free parameters levmar still never returns, because the normal matrix is singular.")

c("C70", "proved", ["C70_unmodified", "C70_options", "C70_missing", "C70_sequence", "C70_defaults", "C70_default_doubles"],
  "dict objects in a heap; every number type; sequences of calls of any length.")
c("C71", "proved", ["C71_partials", "C71_linear"],
  "Exact real arithmetic. f may be stateful. For fixed parameters nothing is displaced; nf = 0 gives an array without second axis.")
c("C72", "proved", ["C72_call", "C72_statistics", "C72_missing", "C72_levmar"],
  "Exact real arithmetic for the square roots; C72_levmar connects the model returned by levmar with its chi2.")
c("C82", "partial", ["C82_refuted", "C68_outcome_partial"],
  "False of the code for every data array of rank >= 2 with at least two points: data is raveled but f's result is not, so levmar always raises ValueError. "
  "C68_outcome_partial covers f returning raveled arrays.")
c("C83", "partial", ["C83_partial", "C83_linear", "C83_refuted"],
  "pcov is computed from the partial derivatives of the last pass, which are not those at the returned parameters (refuted: a factor 4 with the default options). "
  "Everything else holds (C83_partial), and all of it for f linear in p (C83_linear) and at stationary points (C84).")
c("C84", "proved", ["C84_stationary"], "Exact real arithmetic; generator functions; numpy.linalg.solve and inv exact on nonsingular matrices.")
c("C73", "proved", ["C73_incircle", "C73_errors", "C73_small", "C73_large", "C73_progress", "C73_diverges"],
  "Exact real arithmetic.  The rejection loop returns only if the source gives enough accepted points: C73_progress bounds "
  "the passes, C73_diverges is a source in [0,1) for which it runs for ever.")
c("C74", "proved", ["C74_oncircle", "C74_onsphere", "C74_errors"], "Exact real arithmetic.")
c("C75", "partial", ["C75_refuted", "C75_partial"],
  "False for fewer than 70 points: the code takes sqrt(1 - mu) for the planar radius instead of sqrt(1 - mu*mu), and points "
  "up to a distance of sqrt 3 occur.  C75_partial: true for 70 or more points, and for the draws with mu >= 0.")
c("C76", "proved", ["C76_rotation3", "C76_isometry", "C76_errors"], "Exact real arithmetic.")
c("C85", "partial", ["C85_incircle_map", "C85_incircle_area", "C85_incircle_onto", "C85_oncircle_speed", "C85_oncircle_onto",
  "C85_onsphere_map", "C85_onsphere_area", "C85_onsphere_onto", "C85_rotation3_area", "C85_rejection",
  "C85_insphere_map", "C85_insphere_volume", "C85_insphere_refuted"],
  "Proved for all but the direct formula of insphere, whose volume element varies by a factor of 3 (C85_insphere_volume, "
  "C85_insphere_refuted).  Uniformity is stated through derivatives and bijectivity, not through measures.")
c("C77", "proved", ["C77_integrals", "C77_inverses", "C77_independent"],
  "Exact real arithmetic; an element computed by a division by zero or a logarithm of a number <= 0 is 'no number'.")
c("C78", "proved", ["C78_positive", "C78_inverses", "C78_inverse_zero"],
  "Exact real arithmetic, coefficients at their decimal values.  The inverses are defined for all x > 0; at 0 they are not "
  "(C78_inverse_zero).")
c("C79", "proved", ["C79_reloadx", "C79_how", "C79_errors", "C79_my_leaks"],
  "reload and import_module are arbitrary functions of the world.  Finding: the injected `my` is itself published by the "
  "next reloadx of the same module and replaces a name `my` of __main__ (C79_my_leaks).")
c("C80", "partial", ["C80_logxy", "C80_only_requested", "C80_logxy_error", "C80_xylim", "C80_title_partial", "C80_title_none",
  "C80_title_ret", "C80_title_value", "C80_title_refuted", "C80_ret_refuted", "C80_title_binding", "C80_title_keyword"],
  "logxy and xylim proved.  title: false for y=None given with outward ticks (TypeError) and for the keyword ret (dropped); "
  "C80_title_partial proves the claim for all other keywords.")
c("C86", "partial", ["C86_partial", "C86_refuted", "C86_all_refuted"],
  "False: names with a leading underscore and names left out of __all__ are published, dunder names of __all__ are not.  "
  "C86_partial: every name import * would bind, except dunder names, is bound to the module's value.")
c("C87", "proved", ["C87_style", "C87_title", "C87_unknown_cycle"],
  "matplotlib's rc is modelled as setting existing entries of a dict; its validation of values is not modelled.")
c("C88", "partial", ["C88_sets", "C88_cycle", "C88_axes_refuted", "C88_axes_ignored"],
  "The sets are as documented.  set_color_cycle ignores its argument axes and always changes the default.")
c("C89", "proved", ["C89_bound", "C89_wrapper", "C89_missing"],
  "pyplot is an arbitrary partial function from names to functions on an arbitrary state.")
c("C90", "proved", ["C90_integrals", "C90_inverses"],
  "Exact real arithmetic, coefficients at their decimal values.  Steps at 2 below 1e-12, at 4 below 5e-9; |remainder| <= 60/x^6 + 1e-12 for x >= 8.")
c("C91", "proved", ["C91_derivatives"], "Exact real arithmetic; the relative error is at most 3e-10.")
c("C92", "proved", ["C92_integrals", "C92_below_two", "C92_m12_sharp"], "All real x, exact real arithmetic; relative error 1e-12 for the orders 1/2, 3/2, 5/2 and 3e-12 for the order -1/2 (1e-12 below 2). C92_m12_sharp: for the order -1/2 the error at x = 32 is more than 2.5e-12, so that 1e-12 would be false there.")
c("C93", "proved", ["C93_round_trip", "C93_52_sharp"], "All positive arguments, exact real arithmetic; relative error 3e-9, 1e-8, 9e-9 and 2.5e-8 for the orders -1/2, 1/2, 3/2, 5/2, both for fd(ifd(x)) and for the integral itself. C93_52_sharp: the error for the order 5/2 reaches more than 2.1e-8 ('about 1e-8' in the docstring).")
c("C94", "proved", ["C94_span_ends", "C94_span_error", "C94_span_monotone", "C94_subnormal_refuted"],
  "The model run in IEEE double precision (Flocq's binary64).  C94_subnormal_refuted: without the lower limit on stop-start the samples can decrease "
  "at the end (span(0, 6*2^-1074, 11)).")
c("C95", "proved", ["C95_zcen", "C95_pcen", "C95_overflow_refuted"],
  "IEEE double precision.  C95_overflow_refuted: the mean of two finite neighbours 2^1023 is inf, so the condition is needed.")
c("C96", "proved", ["C96_polyfun_error", "C96_polyfun_integers"], "IEEE double precision; a finite result is the only assumption of the error bound.")
c("C97", "proved", ["C97_bounds"], "IEEE double precision, from four laws of addition and comparison that hold for all doubles.")
c("C98", "partial", ["C98_terminates_partial", "C98_endless_refuted"],
  "False when lambda can underflow to 0: the fit of 1/p + p/1e80 to 0, 0 from p0 = 1e-60 with itmax=400 and the default configuration otherwise never ends "
  "(C98_endless_refuted).  Proved when lambda0/gain^itmax cannot underflow (2 <= gain <= 2^a, lambda0 >= 2^(a*itmax - 1074)), which the defaults satisfy, with the number of calls.")
c("C99", "proved", ["C99_tables", "C99_increasing"], "The tables are transcribed by tools/gen_cmaps.py.  L* is defined from the sRGB and CIE 1976 formulas over the reals; its values are enclosed by a checked certificate.")
c("C100", "proved", ["C100_install", "C100_register"], "rc, register_cmap, gci and set_cmap are modelled on dictionaries, a colormap as its list of colours.")
c("C101", "proved", ["C101_integrals", "C101_special", "C101_same_code"],
  "Over Flocq binary64, literals, sqrt, + * / correctly rounded; exp is any function accurate to 2^-50 on [-500, 2] (met by the correctly rounded exp, exp_ok_round).")
c("C102", "proved", ["C102_inverse", "C102_same_code"],
  "Over Flocq binary64; log and power are any functions accurate to 2^-50 (met by the correctly rounded ones); the exponent is the rounded quotient -2./m, as in the code.")
c("C103", "partial", ["C103_cum_error", "C103_cum_integers", "C103_cum_monotone", "C103_diff_cum", "C103_cum_diff", "C103_inverse_refuted"],
  "IEEE double precision (Flocq), the model of C11 run at binary64.  All clauses but the last proved; the exact inverse is false in double precision and refuted with a witness (cum of [1e16, 1]), the two theorems before it give what holds instead.")
c("C104", "proved", ["C104_call_error", "C104_call_integers"],
  "IEEE double precision (Flocq), non-periodic; the sum of the rounding errors is bounded by the polynomial with absolute coefficients.")
c("C105", "partial", ["C105_pline", "C105_monotone", "C105_finite", "C105_points_refuted"],
  "IEEE double precision (Flocq), non-periodic; numpy's inverse of the 1 by 1 matrix [1] is taken to be [1].  All clauses but the last proved; passing through the points is false in double precision: pline([0, 49], [0, 1])(49) is less than 1.")
c("C106", "proved", ["C106_abs_error", "C106_integers", "C106_single", "C106_half_range"],
  "IEEE double precision (Flocq), real arrays; the sum over axis 0 is any bracketing and order of additions (pairwise summation included).")
c("C107", "partial", ["C107_branch", "C107_upper", "C107_upper_refuted"],
  "IEEE double precision (Flocq); % is numpy's, from an exact fmod.  All clauses but the last proved (C107_upper: r <= br + 2*pi as computed); the strict inequality is false: atan(-1e-20, 1, branch=0) is 2*pi, and with branch=2.3 the result can exceed branch plus the true 2 pi.")
c("C108", "proved", ["C108_natural", "C108_complete", "C108_periodic"],
  "Exact arithmetic; the solvers are parameters that solve their systems (as C53, C56); integrals are Riemann integrals (Coquelicot).")
c("C109", "proved", ["C109_unique", "C109_reproduces", "C109_natural", "C109_periodic"],
  "Exact arithmetic; the solvers are parameters that solve their systems (as C53, C56).")
c("C110", "proved", ["C110_complete", "C110_natural", "C110_periodic", "C110_pline"],
  "Exact arithmetic; the solvers are parameters that solve their systems (as C53, C56, C57).")
c("C111", "proved", ["C111_linear"],
  "Exact arithmetic; numpy's solve and inv are parameters that solve and invert nonsingular matrices (as C68, C83).")
c("C112", "proved", ["C112_linear", "C112_periodic", "C112_mirror"],
  "Exact arithmetic; the solvers are parameters that solve their systems (as C53, C56).")
c("C113", "proved", ["C113_splfit", "C113_splfit_reproduces", "C113_splfit_linear", "C113_splfit_order", "C113_splfit_periodic", "C113_plfit", "C113_plfit_linear",
  "C113_plfit_is_splfit", "C113_plfit_periodic", "C113_regress_reproduces", "C113_regress_linear"],
  "Exact arithmetic; the solvers and svd are parameters with the specifications of C58-C63.")
c("C114", "proved", ["C114_distribution", "C114_chi2prob", "C114_missing", "C114_regress", "C114_levmar", "C114_two"],
  "Exact arithmetic; scipy's gammaincc is a parameter equal to the integral that defines it.")
c("C115", "proved", ["C115_levmar", "C115_partials"],
  "Nothing is claimed about prel or pabs of a wrong length with a single parameter (simplified in the model).")
c("C116", "proved", ["C116_all", "C116_npplus", "C116_interactive", "C116_interactive_exports", "C116_plotx", "C116_missing"],
  "Python 3.  What numpy, pylab and the modules contain is arbitrary.")
c("C117", "partial", ["C117_execfile_partial", "C117_execfile_refuted"],
  "Without a namespace the file runs in the namespace of npplus.interactive, not of the caller (refuted with a witness).")
c("C118", "proved", ["C118_deriv", "C118_deriv_deriv", "C118_integ_deriv", "C118_integ_add", "C118_parts"],
  "over the reals; compatible is the hypothesis of C41: both well formed, of the same class, no two knots closer than the merge tolerance unless equal")
c("C119", "proved", ["C119_polyfun", "C119_polyddx", "C119_call", "C119_call_errors"],
  "for every Num K; the array operations are modelled one by one with broadcasting and in-place updates (PwArray.v) and proved equal to the scalar models used elsewhere")
c("C120", "partial", ["C120_mixed_partial", "C120_periodic_partial", "C120_mixed_refuted"],
  "proved for a PwPoly op a PerPwPoly on the base interval of the latter, and for a PerPwPoly op a PwPoly of no lower degree and dimension with its knots in the base interval; refuted outside it, and refuted inside it for a PerPwPoly + PwPoly of lower degree")
c("C121", "proved", ["C121_str", "C121_str_reads", "C121_repr_text", "C121_adict"],
  "decimal numerals and tuples as python prints them; the texts of arrays and dicts are parameters")
c("C122", "partial", ["C122_repr_refuted", "C122_repr_partial"],
  "refuted: repr prints PwPoly(xk, c), which is a histogram with one more axis holding the coefficients; PwPoly(xk, *c) would give p back")
c("C123", "partial", ["C123_values", "C123_operators", "C123_operands_partial", "C123_operands_refuted"],
  "results proved independent of sharing, operands proved unchanged except for one case; refuted there: a PerPwPoly with more dimensions than the PwPoly on its right overwrites the extrapolation of the latter")
c("C124", "partial", ["C124_arguments_partial", "C124_arguments_refuted"],
  "proved for odd degrees, for one or two lists and for decreasing knots; refuted for even degrees with three or more lists: the last array is divided in place, so a second call makes another function")
c("C125", "proved", ["C125_polyddx_error", "C125_polyddx_norm_error", "C125_call_error"],
  "beyond k = 20 the code's factor k! overflows (C28)")
c("C126", "partial", ["C126_period_partial", "C126_outside_refuted"],
  "proved for the base period: the list is increasing, its elements in the period are roots, all roots of the period are found, and ValueError means that there is none.  Refuted outside: roots of a periodic function that is never below 1 returns zeros of the lines with which the outer pieces continue")
c("C127", "partial", ["C127_call_partial", "C127_exact", "C127_extrapolation_refuted"],
  "proved with an excess of a few roundings over the last knot; refuted without it: the reduced argument of the double before 0.3, for the knots 0.3 and 0.9, is the double after 0.9")
c("C128", "partial", ["C128_error", "C128_relative", "C128_ends_partial", "C128_ends_refuted", "C128_rejects"],
  "error bounds proved for every sample; exact equality of the first sample refuted for every log accurate to one unit in the last place and every exp: of four adjacent doubles at 2^970 two have the same log, so one of them is not returned")
c("C129", "proved", ["C129_max", "C129_min", "C129_order", "C129_rejects"],
  "numpy.maximum and minimum are parameters with their documented behaviour; the C loops are shown to have it")
c("C130", "partial", ["C130_incircle", "C130_incircle_keeps", "C130_incircle_few", "C130_oncircle", "C130_onsphere", "C130_insphere_partial", "C130_insphere_refuted"],
  "incircle is exact; insphere accepts a point outside the sphere (refuted, with the bound 1 + 3*2^-53 proved); element by element, shapes and loops are those of C73-C75; the branch of insphere for few points is wrong in any arithmetic (C75_refuted); rotation3 is C131")
c("C131", "proved", ["C131_elements", "C131_orthogonal", "C131_draws"],
  "one matrix, element by element; shapes and axes are those of C76; angles are any finite doubles in C131_elements")
c("C132", "partial", ["C132_pcwise", "C132_nan", "C132_infinities", "C132_decorate_partial", "C132_decorate_refuted"],
  "the check for increasing breakpoints is exact for finite ones, but lets nan and equal infinities pass (refuted)")
c("C133", "proved", ["C133_polyfun_nan", "C133_polyfun_constant", "C133_polyfun_inf", "C133_polyfun_inf_nan", "C133_model", "C133_call_nan", "C133_call_inf", "C133_call_periodic", "C133_periodic_model"],
  "values without derivatives")
c("C134", "proved", ["C134_argument", "C134_round_trip"],
  "the error of exp, log and power is a hypothesis; the constant 640 is not sharp")
ROWS.sort(key=lambda r: r["property"])
here = os.path.dirname(os.path.abspath(__file__))
with open(os.path.join(here, "..", "MANIFEST.json"), "w") as f:
    f.write('{"claims": [\n' + ",\n".join(" " + json.dumps(r) for r in ROWS) + "\n]}\n")

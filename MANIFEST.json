{"claims": [
 {"property": "C01", "status": "proved", "theorems": ["C01_span_last_exact", "C01_span_equal_steps"], "note": "C01_span_last_exact holds for every arithmetic (no algebraic law used); asfarray and dtype= not modelled."},
 {"property": "C02", "status": "partial", "theorems": ["C02_span_one_refuted", "C02_span_ends_partial", "C02_span_none"], "note": "num=1 returns stop, not start (refuted whenever start != stop); both ends right for num>=2 and for num=1 with start=stop. num=0 raises ValueError."},
 {"property": "C03", "status": "proved", "theorems": ["C03_spanl", "C03_spanl_rejects"], "note": "Exact exp/ln over R."},
 {"property": "C04", "status": "partial", "theorems": ["C04_spanl_axis_refuted", "C04_spanl_axis_partial"], "note": "False when start has lower rank than stop: a negative axis is resolved against start's rank, and a positive axis misaligns the signs (ValueError). Proved for axis=0 and whenever rank(start) >= rank(stop)."},
 {"property": "C05", "status": "proved", "theorems": ["C05_cat"], "note": "Axes of length 0 joined with axes of length 1 excluded, see C07."},
 {"property": "C06", "status": "proved", "theorems": ["C06_stack"], "note": "Same exclusion, see C07."},
 {"property": "C07", "status": "partial", "theorems": ["C07_unknown_keyword", "C07_non_numeric", "C07_bad_axis", "C07_not_broadcastable", "C07_accepts_partial", "C07_rejects_refuted"], "note": "Refuted: numpy broadcasts lengths 0 and 1, cat_/a_ raise ValueError; a_ of scalars accepts any axis>=0; no argument at all raises AttributeError. Everything else as stated is proved."},
 {"property": "C08", "status": "proved", "theorems": ["C08_max_min", "C08_order"], "note": ""},
 {"property": "C09", "status": "proved", "theorems": ["C09_abs"], "note": "Real arrays; lengths 0 against 1 excluded as in C06."},
 {"property": "C10", "status": "proved", "theorems": ["C10_atan_branch", "C10_atan_plain"], "note": "Exact arithmetic, one element; signed zeros not modelled."},
 {"property": "C100", "status": "proved", "theorems": ["C100_install", "C100_register"], "note": "rc, register_cmap, gci and set_cmap are modelled on dictionaries, a colormap as its list of colours."},
 {"property": "C101", "status": "proved", "theorems": ["C101_integrals", "C101_special", "C101_same_code"], "note": "Over Flocq binary64, literals, sqrt, + * / correctly rounded; exp is any function accurate to 2^-50 on [-500, 2] (met by the correctly rounded exp, exp_ok_round)."},
 {"property": "C102", "status": "proved", "theorems": ["C102_inverse", "C102_same_code"], "note": "Over Flocq binary64; log and power are any functions accurate to 2^-50 (met by the correctly rounded ones); the exponent is the rounded quotient -2./m, as in the code."},
 {"property": "C103", "status": "partial", "theorems": ["C103_cum_error", "C103_cum_integers", "C103_cum_monotone", "C103_diff_cum", "C103_cum_diff", "C103_inverse_refuted"], "note": "IEEE double precision (Flocq), the model of C11 run at binary64.  All clauses but the last proved; the exact inverse is false in double precision and refuted with a witness (cum of [1e16, 1]), the two theorems before it give what holds instead."},
 {"property": "C104", "status": "proved", "theorems": ["C104_call_error", "C104_call_integers"], "note": "IEEE double precision (Flocq), non-periodic; the sum of the rounding errors is bounded by the polynomial with absolute coefficients."},
 {"property": "C105", "status": "partial", "theorems": ["C105_pline", "C105_monotone", "C105_finite", "C105_points_refuted"], "note": "IEEE double precision (Flocq), non-periodic; numpy's inverse of the 1 by 1 matrix [1] is taken to be [1].  All clauses but the last proved; passing through the points is false in double precision: pline([0, 49], [0, 1])(49) is less than 1."},
 {"property": "C106", "status": "proved", "theorems": ["C106_abs_error", "C106_integers", "C106_single", "C106_half_range"], "note": "IEEE double precision (Flocq), real arrays; the sum over axis 0 is any bracketing and order of additions (pairwise summation included)."},
 {"property": "C107", "status": "partial", "theorems": ["C107_branch", "C107_upper", "C107_upper_refuted"], "note": "IEEE double precision (Flocq); % is numpy's, from an exact fmod.  All clauses but the last proved (C107_upper: r <= br + 2*pi as computed); the strict inequality is false: atan(-1e-20, 1, branch=0) is 2*pi, and with branch=2.3 the result can exceed branch plus the true 2 pi."},
 {"property": "C108", "status": "proved", "theorems": ["C108_natural", "C108_complete", "C108_periodic"], "note": "Exact arithmetic; the solvers are parameters that solve their systems (as C53, C56); integrals are Riemann integrals (Coquelicot)."},
 {"property": "C109", "status": "proved", "theorems": ["C109_unique", "C109_reproduces", "C109_natural", "C109_periodic"], "note": "Exact arithmetic; the solvers are parameters that solve their systems (as C53, C56)."},
 {"property": "C11", "status": "proved", "theorems": ["C11_cum", "C11_cum_none"], "note": ""},
 {"property": "C110", "status": "proved", "theorems": ["C110_complete", "C110_natural", "C110_periodic", "C110_pline"], "note": "Exact arithmetic; the solvers are parameters that solve their systems (as C53, C56, C57)."},
 {"property": "C111", "status": "proved", "theorems": ["C111_linear"], "note": "Exact arithmetic; numpy's solve and inv are parameters that solve and invert nonsingular matrices (as C68, C83)."},
 {"property": "C112", "status": "proved", "theorems": ["C112_linear", "C112_periodic", "C112_mirror"], "note": "Exact arithmetic; the solvers are parameters that solve their systems (as C53, C56)."},
 {"property": "C113", "status": "proved", "theorems": ["C113_splfit", "C113_splfit_reproduces", "C113_splfit_linear", "C113_splfit_order", "C113_splfit_periodic", "C113_plfit", "C113_plfit_linear", "C113_plfit_is_splfit", "C113_plfit_periodic", "C113_regress_reproduces", "C113_regress_linear"], "note": "Exact arithmetic; the solvers and svd are parameters with the specifications of C58-C63."},
 {"property": "C114", "status": "proved", "theorems": ["C114_distribution", "C114_chi2prob", "C114_missing", "C114_regress", "C114_levmar", "C114_two"], "note": "Exact arithmetic; scipy's gammaincc is a parameter equal to the integral that defines it."},
 {"property": "C115", "status": "proved", "theorems": ["C115_levmar", "C115_partials"], "note": "Nothing is claimed about prel or pabs of a wrong length with a single parameter (simplified in the model)."},
 {"property": "C116", "status": "proved", "theorems": ["C116_all", "C116_npplus", "C116_interactive", "C116_interactive_exports", "C116_plotx", "C116_missing"], "note": "Python 3.  What numpy, pylab and the modules contain is arbitrary."},
 {"property": "C117", "status": "partial", "theorems": ["C117_execfile_partial", "C117_execfile_refuted"], "note": "Without a namespace the file runs in the namespace of npplus.interactive, not of the caller (refuted with a witness)."},
 {"property": "C118", "status": "proved", "theorems": ["C118_deriv", "C118_deriv_deriv", "C118_integ_deriv", "C118_integ_add", "C118_parts"], "note": "over the reals; compatible is the hypothesis of C41: both well formed, of the same class, no two knots closer than the merge tolerance unless equal"},
 {"property": "C119", "status": "proved", "theorems": ["C119_polyfun", "C119_polyddx", "C119_call", "C119_call_errors"], "note": "for every Num K; the array operations are modelled one by one with broadcasting and in-place updates (PwArray.v) and proved equal to the scalar models used elsewhere"},
 {"property": "C12", "status": "proved", "theorems": ["C12_zcen", "C12_zcen_scalar"], "note": ""},
 {"property": "C120", "status": "partial", "theorems": ["C120_mixed_partial", "C120_periodic_partial", "C120_mixed_refuted"], "note": "proved for a PwPoly op a PerPwPoly on the base interval of the latter, and for a PerPwPoly op a PwPoly of no lower degree and dimension with its knots in the base interval; refuted outside it, and refuted inside it for a PerPwPoly + PwPoly of lower degree"},
 {"property": "C121", "status": "proved", "theorems": ["C121_str", "C121_str_reads", "C121_repr_text", "C121_adict"], "note": "decimal numerals and tuples as python prints them; the texts of arrays and dicts are parameters"},
 {"property": "C122", "status": "partial", "theorems": ["C122_repr_refuted", "C122_repr_partial"], "note": "refuted: repr prints PwPoly(xk, c), which is a histogram with one more axis holding the coefficients; PwPoly(xk, *c) would give p back"},
 {"property": "C123", "status": "partial", "theorems": ["C123_values", "C123_operators", "C123_operands_partial", "C123_operands_refuted"], "note": "results proved independent of sharing, operands proved unchanged except for one case; refuted there: a PerPwPoly with more dimensions than the PwPoly on its right overwrites the extrapolation of the latter"},
 {"property": "C124", "status": "partial", "theorems": ["C124_arguments_partial", "C124_arguments_refuted"], "note": "proved for odd degrees, for one or two lists and for decreasing knots; refuted for even degrees with three or more lists: the last array is divided in place, so a second call makes another function"},
 {"property": "C125", "status": "proved", "theorems": ["C125_polyddx_error", "C125_polyddx_norm_error", "C125_call_error"], "note": "beyond k = 20 the code's factor k! overflows (C28)"},
 {"property": "C126", "status": "partial", "theorems": ["C126_period_partial", "C126_outside_refuted"], "note": "proved for the base period: the list is increasing, its elements in the period are roots, all roots of the period are found, and ValueError means that there is none.  Refuted outside: roots of a periodic function that is never below 1 returns zeros of the lines with which the outer pieces continue"},
 {"property": "C127", "status": "partial", "theorems": ["C127_call_partial", "C127_exact", "C127_extrapolation_refuted"], "note": "proved with an excess of a few roundings over the last knot; refuted without it: the reduced argument of the double before 0.3, for the knots 0.3 and 0.9, is the double after 0.9"},
 {"property": "C128", "status": "partial", "theorems": ["C128_error", "C128_relative", "C128_ends_partial", "C128_ends_refuted", "C128_rejects"], "note": "error bounds proved for every sample; exact equality of the first sample refuted for every log accurate to one unit in the last place and every exp: of four adjacent doubles at 2^970 two have the same log, so one of them is not returned"},
 {"property": "C129", "status": "proved", "theorems": ["C129_max", "C129_min", "C129_order", "C129_rejects"], "note": "numpy.maximum and minimum are parameters with their documented behaviour; the C loops are shown to have it"},
 {"property": "C13", "status": "partial", "theorems": ["C13_pcen", "C13_zcen_pcen", "C13_pcen_empty_refuted"], "note": "Proved for every axis of length >= 1; an axis of length 0 stays of length 0 (refuted)."},
 {"property": "C130", "status": "partial", "theorems": ["C130_incircle", "C130_incircle_keeps", "C130_incircle_few", "C130_oncircle", "C130_onsphere", "C130_insphere_partial", "C130_insphere_refuted"], "note": "incircle is exact; insphere accepts a point outside the sphere (refuted, with the bound 1 + 3*2^-53 proved); element by element, shapes and loops are those of C73-C75; the branch of insphere for few points is wrong in any arithmetic (C75_refuted); rotation3 is C131"},
 {"property": "C131", "status": "proved", "theorems": ["C131_elements", "C131_orthogonal", "C131_draws"], "note": "one matrix, element by element; shapes and axes are those of C76; angles are any finite doubles in C131_elements"},
 {"property": "C132", "status": "partial", "theorems": ["C132_pcwise", "C132_nan", "C132_infinities", "C132_decorate_partial", "C132_decorate_refuted"], "note": "the check for increasing breakpoints is exact for finite ones, but lets nan and equal infinities pass (refuted)"},
 {"property": "C133", "status": "proved", "theorems": ["C133_polyfun_nan", "C133_polyfun_constant", "C133_polyfun_inf", "C133_polyfun_inf_nan", "C133_model", "C133_call_nan", "C133_call_inf", "C133_call_periodic", "C133_periodic_model"], "note": "values without derivatives"},
 {"property": "C134", "status": "proved", "theorems": ["C134_argument", "C134_round_trip"], "note": "the error of exp, log and power is a hypothesis; the constant 640 is not sharp"},
 {"property": "C14", "status": "proved", "theorems": ["C14_trapezoid"], "note": "Any leading dimensions of f; numpy.linalg.inv (in pline) assumed to invert."},
 {"property": "C15", "status": "proved", "theorems": ["C15_pcwise", "C15_one_piece"], "note": "Piece functions that act element by element; the result array is float."},
 {"property": "C16", "status": "partial", "theorems": ["C16_convention_refuted", "C16_convention_partial"], "note": "False at every breakpoint: searchsorted(left) gives a breakpoint to the piece on its left (refuted); true elsewhere."},
 {"property": "C17", "status": "proved", "theorems": ["C17_decorate", "C17_raises", "C17_string_piece", "C17_breakpoints", "C17_number"], "note": ""},
 {"property": "C18", "status": "proved", "theorems": ["C18_attribute_is_item", "C18_history"], "note": ""},
 {"property": "C19", "status": "partial", "theorems": ["C19_escape_partial", "C19_dunder_refuted"], "note": "One underscore is always removed, so every key is reachable; but it is removed for names beginning with a double underscore too (refuted)."},
 {"property": "C20", "status": "proved", "theorems": ["C20_decorated"], "note": ""},
 {"property": "C21", "status": "partial", "theorems": ["C21_custom_methods_refuted", "C21_keyword_partial", "C21_name2key_refuted", "C21_default_container"], "note": "@items_are_attrs(M) installs the default methods whatever M is (refuted); the keyword form methods=M works if M itself defines all three methods; overriding only name2key raises KeyError."},
 {"property": "C22", "status": "proved", "theorems": ["C22_redict"], "note": "Heap of dict objects; recursion deep enough is given (fuel); no cycles."},
 {"property": "C23", "status": "proved", "theorems": ["C23_redict_toggles"], "note": ""},
 {"property": "C24", "status": "proved", "theorems": ["C24_solve_periodic", "C24_needs_nonsingular_band", "gauss_meets_specs"], "note": "solve_banded and solve are assumed to return solutions, and to succeed on nonsingular systems (the second part only); exact Gaussian elimination is shown to meet these assumptions.  solve_periodic fails when the band part alone is singular although the cyclic system has a solution."},
 {"property": "C25", "status": "proved", "theorems": ["C25_symmetric_band", "C25_forms_agree", "C25_solves"], "note": ""},
 {"property": "C26", "status": "proved", "theorems": ["C26_diag_to_norm"], "note": ""},
 {"property": "C27", "status": "proved", "theorems": ["C27_polyfun_evaluates"], "note": ""},
 {"property": "C28", "status": "partial", "theorems": ["C28_polyddx_partial", "C28_polyddx_refuted", "C28_factorial_refuted"], "note": "False of the code for one-coefficient (constant) polynomials with nd>=1: the first derivative is reported as the constant (refuted); with norm, derivatives 21 and up of polynomials of degree >= 21 are wrong because the 64 bit integer k! overflows (refuted for the 21st); proved for all other inputs."},
 {"property": "C29", "status": "proved", "theorems": ["C29_polyddx_translates"], "note": ""},
 {"property": "C30", "status": "proved", "theorems": ["C30_eval_piece"], "note": ""},
 {"property": "C31", "status": "partial", "theorems": ["C31_interval_convention_partial", "C31_interval_convention_refuted"], "note": "Documented convention is false at knots with a jump (refuted); it holds strictly inside intervals and at knots where the function is continuous."},
 {"property": "C32", "status": "partial", "theorems": ["C32_call_derivatives_partial", "C32_call_derivatives_refuted", "C33_factorial_refuted"], "note": "False for piecewise constants with nd>=1, and for derivatives 21 and up when the degree is 21 or more (refuted, consequences of C28); proved for degree>=1 and derivatives up to 20 or above the degree."},
 {"property": "C33", "status": "partial", "theorems": ["C33_deriv_partial", "C33_factorial_refuted"], "note": "deriv(m) is proved to be the m-th derivative for all m and degrees.  That it agrees with p(x,m)[m] is proved for m<=20 and for m above the degree, and is false for m=21 and degree>=21, where p(x,m) is wrong (refuted)."},
 {"property": "C34", "status": "proved", "theorems": ["C34_integ", "C34_integ_iterated", "C34_integ_periodic"], "note": ""},
 {"property": "C35", "status": "partial", "theorems": ["C35_integ_default_partial", "C35_integ_default_refuted"], "note": "True for scalar p; for every p with one component axis of length >=2 the default k=() raises ValueError (refuted)."},
 {"property": "C36", "status": "proved", "theorems": ["C36_odd_constructor"], "note": ""},
 {"property": "C37", "status": "partial", "theorems": ["C37_taylor_arguments_partial", "C37_taylor_arguments_refuted"], "note": "The k-th argument is the k-th derivative itself, not divided by k!: documentation false for every k>=2 with a non-zero value (refuted), true for k<=1."},
 {"property": "C38", "status": "partial", "theorems": ["C38_even_constructor_partial", "C38_even_constructor_refuted"], "note": "Degree, interpolation and smoothness proved for all N. The top coefficient is the value divided by (h+1)...(2h), h=N-1: as documented for N=1, wrong for N=2 (refuted)."},
 {"property": "C39", "status": "proved", "theorems": ["C39_histogram_short", "C39_histogram_long"], "note": ""},
 {"property": "C40", "status": "proved", "theorems": ["C40_decreasing_knots"], "note": ""},
 {"property": "C41", "status": "proved", "theorems": ["C41_add_sub_pointwise", "C41_shapes_must_broadcast"], "note": ""},
 {"property": "C42", "status": "proved", "theorems": ["C42_mul_pointwise"], "note": ""},
 {"property": "C43", "status": "partial", "theorems": ["C43_number_arithmetic_refuted", "C43_number_arithmetic_partial", "C43_no_division"], "note": "Arithmetic with a number raises TypeError for every p (refuted). The code after the failing call would be right for * and / and wrong for + and -."},
 {"property": "C44", "status": "proved", "theorems": ["C44_neg_getitem_len"], "note": ""},
 {"property": "C45", "status": "proved", "theorems": ["C45_addknots"], "note": ""},
 {"property": "C46", "status": "proved", "theorems": ["C46_allknots", "C46_allknots_exact"], "note": ""},
 {"property": "C47", "status": "proved", "theorems": ["C47_jumps"], "note": ""},
 {"property": "C48", "status": "partial", "theorems": ["C48_reknot_odd_partial", "C48_reknot_even_partial", "C48_reknot_even_refuted", "C48_order_refuted"], "note": "n odd: proved for n<=41, false for n=43 and p of degree>=21 (refuted: overflow of 21!, see C28). n even: derivatives at the knots match, the n-th derivative at the midpoints is off by the factor n! h!/(2h)! (refuted; factor 2 for n=2)."},
 {"property": "C49", "status": "proved", "theorems": ["C49_periodic", "C49_needs_two_knots"], "note": ""},
 {"property": "C50", "status": "partial", "theorems": ["C50_copy_partial", "C50_copy_refuted"], "note": "True for PwPoly; for every PerPwPoly the copy raises AttributeError when called (refuted)."},
 {"property": "C51", "status": "proved", "theorems": ["C51_linear_roots"], "note": "Exact arithmetic; the cut-off at 1/tol intervals outside the knots is what the code does (effective degree)."},
 {"property": "C52", "status": "partial", "theorems": ["C52_roots_partial", "C52_no_root_refuted", "C52_far_root_refuted", "C52_mixed_degree_refuted", "C52_jump_refuted", "C52_vector"], "note": "Refuted: without roots ValueError instead of an empty array; roots more than one interval beyond the last knot are lost; after a linear piece the wrong degree is used and a non-root is reported; jump crossings are reported. Proved for continuous p of full effective degree >= 2 on every piece: all reported are roots, all roots up to one interval beyond the last knot are reported."},
 {"property": "C53", "status": "proved", "theorems": ["C53_spline", "C53_cubic_succeeds", "C53_oneside_succeeds", "C53_natural_succeeds", "C53_decreasing", "C53_extrap_minus1_refuted"], "note": "Every n>=2, every boundary specification and every extrap >= 0 (the statement has the default); with extrap=-1 the value at x[0] is 0 (C53_extrap_minus1_refuted). solve_banded assumed to return a solution. The existence theorems show for which specifications the system is nonsingular."},
 {"property": "C54", "status": "partial", "theorems": ["C54_boundary", "C54_overspecified", "C54_leading_dims_refuted"], "note": "Proved as stated when the boundary values have the flattened shape of y's leading dimensions; an array of boundary values shaped like the leading dimensions themselves raises ValueError for rank >= 2 (refuted)."},
 {"property": "C55", "status": "proved", "theorems": ["C55_extrap"], "note": "extrap >= -1 (-1: zero outside)."},
 {"property": "C56", "status": "proved", "theorems": ["C56_periodic", "C56_odd_succeeds", "C56_decreasing", "C56_rejects"], "note": "solve_banded and solve assumed to return solutions (to succeed on nonsingular systems for C56_odd_succeeds)."},
 {"property": "C57", "status": "proved", "theorems": ["C57_pline", "C57_decreasing", "C57_periodic", "C57_periodic_slope_refuted"], "note": "The value statements are proved; extra: the derivative of a periodic pline at x[0] is 0 whatever the slope (refuted)."},
 {"property": "C58", "status": "proved", "theorems": ["C58_plfit", "C58_exists", "C58_periodic", "C58_periodic_exists", "C58_leading_dims_refuted", "C58_two_knots_refuted"], "note": "Optimality proved for every result; a result exists when the data determine the values at the knots. Extra: y with two or more leading dimensions raises ValueError, two knots with both lo and hi raise IndexError (refuted)."},
 {"property": "C59", "status": "proved", "theorems": ["C59_splfit", "C59_exists", "C59_exists_dense", "C59_periodic", "C59_periodic_exists", "C59_periodic_dense"], "note": "solve_banded and solve assumed to return solutions (to succeed on nonsingular systems in the existence theorems). Derivatives at the knots from both sides, the boundary values and the optimum over all competing splines are proved, extrap >= 0 on the low side. Extra: a periodic fit on two knots never returns."},
 {"property": "C60", "status": "proved", "theorems": ["C60_per_rejects", "C60_short", "C60_decreasing", "C60_extends", "C60_outside_rejects", "C60_periodic", "C60_interval"], "note": ""},
 {"property": "C61", "status": "proved", "theorems": ["C61_binomial_table"], "note": ""},
 {"property": "C62", "status": "proved", "theorems": ["C62_regress", "C62_total"], "note": "scipy.linalg.svd is a parameter assumed to return a thin SVD; also proved that the minimiser of smallest norm is unique"},
 {"property": "C63", "status": "proved", "theorems": ["C63_truncation", "C63_statistics", "C63_covariance", "C63_total"], "note": "pcov is proved to be L L^T for the linear map L from data/errs to p.  model() returns the raveled fitted data, not the shape of data"},
 {"property": "C64", "status": "partial", "theorems": ["C64_refuted", "C64_column_refuted", "C64_partial"], "note": "False: errs is not raveled with data.  errs of the shape of data raises ValueError for rank >= 2 data whose last dimension is neither 1 nor the size, and a column of data gives a 2-d p.  Proved for 1-d data and for scalar errs"},
 {"property": "C65", "status": "proved", "theorems": ["C65_fixed"], "note": "Every number type; solve is assumed to return a vector of the length of its right-hand side."},
 {"property": "C66", "status": "proved", "theorems": ["C66_bounds"], "note": "Whole-real-line arithmetic; p0 inside the bounds, pmin <= pmax."},
 {"property": "C67", "status": "partial", "theorems": ["C67_partial", "C67_refuted"], "note": "Proved: the reported chi2 is that of the returned parameters, accepted iterates before the last are strictly decreasing, the last is below 1.000001 times the previous one. False as stated: a last accepted step may raise chi2 (refuted by a concrete run that ends worse than it started)."},
 {"property": "C68", "status": "partial", "theorems": ["C68_terminates", "C68_exponent", "C68_outcome", "C68_outcome_partial", "C68_refuted"], "note": "The bound on the number of calls is proved for every f, data and linear solver.  The outcome (returns or LevmarError) is proved for generator functions with independent derivatives; a singular normal matrix raises LinAlgError instead (refuted), and C68_outcome_partial shows that this is the only other outcome."},
 {"property": "C69", "status": "partial", "theorems": ["C69_refuted", "C69_partial"], "note": "False: the ValueError is built but never raised (refuted: one datum, one parameter).  With fewer data than free parameters levmar still never returns, because the normal matrix is singular."},
 {"property": "C70", "status": "proved", "theorems": ["C70_unmodified", "C70_options", "C70_missing", "C70_sequence", "C70_defaults", "C70_default_doubles"], "note": "dict objects in a heap; every number type; sequences of calls of any length."},
 {"property": "C71", "status": "proved", "theorems": ["C71_partials", "C71_linear"], "note": "Exact real arithmetic. f may be stateful. For fixed parameters nothing is displaced; nf = 0 gives an array without second axis."},
 {"property": "C72", "status": "proved", "theorems": ["C72_call", "C72_statistics", "C72_missing", "C72_levmar"], "note": "Exact real arithmetic for the square roots; C72_levmar connects the model returned by levmar with its chi2."},
 {"property": "C73", "status": "proved", "theorems": ["C73_incircle", "C73_errors", "C73_small", "C73_large", "C73_progress", "C73_diverges"], "note": "Exact real arithmetic.  The rejection loop returns only if the source gives enough accepted points: C73_progress bounds the passes, C73_diverges is a source in [0,1) for which it runs for ever."},
 {"property": "C74", "status": "proved", "theorems": ["C74_oncircle", "C74_onsphere", "C74_errors"], "note": "Exact real arithmetic."},
 {"property": "C75", "status": "partial", "theorems": ["C75_refuted", "C75_partial"], "note": "False for fewer than 70 points: the code takes sqrt(1 - mu) for the planar radius instead of sqrt(1 - mu*mu), and points up to a distance of sqrt 3 occur.  C75_partial: true for 70 or more points, and for the draws with mu >= 0."},
 {"property": "C76", "status": "proved", "theorems": ["C76_rotation3", "C76_isometry", "C76_errors"], "note": "Exact real arithmetic."},
 {"property": "C77", "status": "proved", "theorems": ["C77_integrals", "C77_inverses", "C77_independent"], "note": "Exact real arithmetic; an element computed by a division by zero or a logarithm of a number <= 0 is 'no number'."},
 {"property": "C78", "status": "proved", "theorems": ["C78_positive", "C78_inverses", "C78_inverse_zero"], "note": "Exact real arithmetic, coefficients at their decimal values.  The inverses are defined for all x > 0; at 0 they are not (C78_inverse_zero)."},
 {"property": "C79", "status": "proved", "theorems": ["C79_reloadx", "C79_how", "C79_errors", "C79_my_leaks"], "note": "reload and import_module are arbitrary functions of the world.  Finding: the injected `my` is itself published by the next reloadx of the same module and replaces a name `my` of __main__ (C79_my_leaks)."},
 {"property": "C80", "status": "partial", "theorems": ["C80_logxy", "C80_only_requested", "C80_logxy_error", "C80_xylim", "C80_title_partial", "C80_title_none", "C80_title_ret", "C80_title_value", "C80_title_refuted", "C80_ret_refuted", "C80_title_binding", "C80_title_keyword"], "note": "logxy and xylim proved.  title: false for y=None given with outward ticks (TypeError) and for the keyword ret (dropped); C80_title_partial proves the claim for all other keywords."},
 {"property": "C81", "status": "partial", "theorems": ["C81_cost_partial", "C81_periodic_partial", "C81_sign_refuted"], "note": "The identity holds with minus the returned costs: the costs are the derivatives with the opposite sign (refuted by a concrete fit); for periodic fits the cost of order m is also off by the factor (dx[q+1]/dx[q])**m. What is missing is the documented sign, which is false."},
 {"property": "C82", "status": "partial", "theorems": ["C82_refuted", "C68_outcome_partial"], "note": "False of the code for every data array of rank >= 2 with at least two points: data is raveled but f's result is not, so levmar always raises ValueError. C68_outcome_partial covers f returning raveled arrays."},
 {"property": "C83", "status": "partial", "theorems": ["C83_partial", "C83_linear", "C83_refuted"], "note": "pcov is computed from the partial derivatives of the last pass, which are not those at the returned parameters (refuted: a factor 4 with the default options). Everything else holds (C83_partial), and all of it for f linear in p (C83_linear) and at stationary points (C84)."},
 {"property": "C84", "status": "proved", "theorems": ["C84_stationary"], "note": "Exact real arithmetic; generator functions; numpy.linalg.solve and inv exact on nonsingular matrices."},
 {"property": "C85", "status": "partial", "theorems": ["C85_incircle_map", "C85_incircle_area", "C85_incircle_onto", "C85_oncircle_speed", "C85_oncircle_onto", "C85_onsphere_map", "C85_onsphere_area", "C85_onsphere_onto", "C85_rotation3_area", "C85_rejection", "C85_insphere_map", "C85_insphere_volume", "C85_insphere_refuted"], "note": "Proved for all but the direct formula of insphere, whose volume element varies by a factor of 3 (C85_insphere_volume, C85_insphere_refuted).  Uniformity is stated through derivatives and bijectivity, not through measures."},
 {"property": "C86", "status": "partial", "theorems": ["C86_partial", "C86_refuted", "C86_all_refuted"], "note": "False: names with a leading underscore and names left out of __all__ are published, dunder names of __all__ are not.  C86_partial: every name import * would bind, except dunder names, is bound to the module's value."},
 {"property": "C87", "status": "proved", "theorems": ["C87_style", "C87_title", "C87_unknown_cycle"], "note": "matplotlib's rc is modelled as setting existing entries of a dict; its validation of values is not modelled."},
 {"property": "C88", "status": "partial", "theorems": ["C88_sets", "C88_cycle", "C88_axes_refuted", "C88_axes_ignored"], "note": "The sets are as documented.  set_color_cycle ignores its argument axes and always changes the default."},
 {"property": "C89", "status": "proved", "theorems": ["C89_bound", "C89_wrapper", "C89_missing"], "note": "pyplot is an arbitrary partial function from names to functions on an arbitrary state."},
 {"property": "C90", "status": "proved", "theorems": ["C90_integrals", "C90_inverses"], "note": "Exact real arithmetic, coefficients at their decimal values.  Steps at 2 below 1e-12, at 4 below 5e-9; |remainder| <= 60/x^6 + 1e-12 for x >= 8."},
 {"property": "C91", "status": "proved", "theorems": ["C91_derivatives"], "note": "Exact real arithmetic; the relative error is at most 3e-10."},
 {"property": "C92", "status": "proved", "theorems": ["C92_integrals", "C92_below_two", "C92_m12_sharp"], "note": "All real x, exact real arithmetic; relative error 1e-12 for the orders 1/2, 3/2, 5/2 and 3e-12 for the order -1/2 (1e-12 below 2). C92_m12_sharp: for the order -1/2 the error at x = 32 is more than 2.5e-12, so that 1e-12 would be false there."},
 {"property": "C93", "status": "proved", "theorems": ["C93_round_trip", "C93_52_sharp"], "note": "All positive arguments, exact real arithmetic; relative error 3e-9, 1e-8, 9e-9 and 2.5e-8 for the orders -1/2, 1/2, 3/2, 5/2, both for fd(ifd(x)) and for the integral itself. C93_52_sharp: the error for the order 5/2 reaches more than 2.1e-8 ('about 1e-8' in the docstring)."},
 {"property": "C94", "status": "proved", "theorems": ["C94_span_ends", "C94_span_error", "C94_span_monotone", "C94_subnormal_refuted"], "note": "The model run in IEEE double precision (Flocq's binary64).  C94_subnormal_refuted: without the lower limit on stop-start the samples can decrease at the end (span(0, 6*2^-1074, 11))."},
 {"property": "C95", "status": "proved", "theorems": ["C95_zcen", "C95_pcen", "C95_overflow_refuted"], "note": "IEEE double precision.  C95_overflow_refuted: the mean of two finite neighbours 2^1023 is inf, so the condition is needed."},
 {"property": "C96", "status": "proved", "theorems": ["C96_polyfun_error", "C96_polyfun_integers"], "note": "IEEE double precision; a finite result is the only assumption of the error bound."},
 {"property": "C97", "status": "proved", "theorems": ["C97_bounds"], "note": "IEEE double precision, from four laws of addition and comparison that hold for all doubles."},
 {"property": "C98", "status": "partial", "theorems": ["C98_terminates_partial", "C98_endless_refuted"], "note": "False when lambda can underflow to 0: the fit of 1/p + p/1e80 to 0, 0 from p0 = 1e-60 with itmax=400 and the default configuration otherwise never ends (C98_endless_refuted).  Proved when lambda0/gain^itmax cannot underflow (2 <= gain <= 2^a, lambda0 >= 2^(a*itmax - 1074)), which the defaults satisfy, with the number of calls."},
 {"property": "C99", "status": "proved", "theorems": ["C99_tables", "C99_increasing"], "note": "The tables are transcribed by tools/gen_cmaps.py.  L* is defined from the sRGB and CIE 1976 formulas over the reals; its values are enclosed by a checked certificate."}
]}

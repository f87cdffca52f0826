# Design

Subject: `/repo` (srmagura/potential, pinned commit), a Python solver for the
Helmholtz equation on a "pizza" domain by the method of difference potentials.
The sources were read as text; nothing in `/repo` was run or changed.

Language: Rocq/Coq 8.16.1, Coquelicot for derivatives and complex numbers.

## Layout of `rocq/theories`

* `Model_*.v`  – definitions only, each citing file and lines of `/repo`.
* `Spec_*.v`   – small independent specifications.
* `Lib_*.v`, `Proof_*.v` – lemmas.
* `Prop_*.v`   – the property theorems: statement, `exact lemma`,
  `Print Assumptions`, and beside each an `Example …` showing a concrete case
  that meets its hypotheses.

## Modelling conventions (apply to every file)

1. **Numbers.** Python floats/complex are modelled by exact reals `R` and
   Coquelicot's `C`; Python ints by `Z`. Rounding, overflow, NaN propagation are
   not modelled, except that operations which divide by zero or raise have
   explicit error branches where a property mentions them.
2. **Arrays.** numpy arrays are functions on `Z` indices with an explicit shape;
   subscripts go through a model of Python index normalisation (negative
   indices wrap, out of range raises) wherever a subscript is not syntactically
   a loop variable in range.
3. **Exceptions** are values (`option` or a `result` type naming the exception).
4. **Loops** are structural recursion; `while` loops take fuel, and theorems
   exclude running out of fuel or show that no fuel is enough.
5. **Sets.** `list(set)` has unspecified order: theorems quantify over every
   duplicate-free enumeration.
6. **External routines** (`scipy.fftpack.dst`, `brentq`, `lstsq`, `jv`,
   `odeint`, `spsolve`, sympy differentiation) are either defined from their
   documentation (`dst` type 1) or appear as function arguments constrained by
   the documented contract. Each such use is listed under "Trusted base".

## Plan per property

| Id | What is modelled | How it is proved |
|----|------------------|------------------|
| C01 | `APSolver` with DST-I from scipy's documentation, eigenvalue table filled by the double loop | discrete orthogonality of sines for every N by telescoping; scaling bookkeeping |
| C02 | spectral `apply_L`, `linop.apply_L` on a zero-padded array | sine modes are eigenvectors of the stencil (sum-to-product), linearity, C01 |
| C03 | `get_potential` with literal array writes | C01 and zeroing on the exterior |
| C04 | `get_potential`, `get_trace`, grid sets | support argument on the stencil sets |
| C05 | `calc_ap_sol_f`, `run` | C01, C03 |
| C06 | `get_Q`, `get_var`, `run` | linearity of potential, trace and C22 |
| C07 | `construct_grids`, `ps_construct_grids` (lists as sets) | membership lemmas |
| C08 | the same with Python index semantics | stencil geometry; disc lemma; witness for the negative part |
| C09 | `get_etype`, distances, `placed` for the arc | first-exit argument on the segment joining two nodes |
| C10 | the same | distance estimates |
| C11 | `Multivalue` | induction on nodes |
| C12 | `reduce` | computation + witness |
| C13 | `setup_basis` loop | induction on the two loops |
| C14 | `calc_c0`, `eval_dn_B_arg` | list indexing |
| C15 | `chebyshev.py` formulas | derivative computation with Coquelicot |
| C16 | `get_chebyshev_roots` | zeros of cosine, monotonicity |
| C17 | `get_span_center`, `eval_g`, `eval_g_inv`, args passed by `do_extend_*` | algebra, interval reasoning |
| C18 | `eval_dn_B_arg` | chain rule, C15 |
| C19 | `extend_arbitrary`, `extend_radius` | differentiate the PDE in boundary-fitted coordinates; Taylor–Lagrange |
| C20 | `convert_d*`, `d*_th_s` | chain rule (Faà di Bruno) |
| C21 | `inhomo_extend_*` | as C19 |
| C22 | `mv_extend_boundary`, `extend_basis`, `reduce` | linearity by cases on segment and extension type |
| C23 | `do_extend_taylor` | polynomial identity, Taylor–Lagrange |
| C24 | `cart_to_polar`, `get_polar` | `atan2` modelled by cases on `atan` |
| C25 | `arg_to_polar*`, `wrap_func` | cases |
| C26 | `get_sid` | cases |
| C27 | radius geometry | algebra |
| C28 | `do_extend_*` coordinates | algebra with C27 |
| C29 | `linop` | Taylor–Lagrange to order six |
| C30 | `calc_ap_sol_f` | support argument; witness |
| C31 | `get_N_list` with fuel | induction |
| C32 | `get_n_basis` with fuel | induction; fixed point of halving |
| C33 | index maps | arithmetic |
| C34 | `eval_error` | max over list |
| C35 | `PolarFD` numbering and assembly | arithmetic |
| C36 | assembled triplets | induction over rows |
| C37 | coefficients | field identity; Taylor |
| C38 | `_convert_ab` | list induction |
| C39 | `arc_dst` | C01's orthogonality |
| C40 | `calc_a_coef` | normal equations with orthogonal columns |
| C41 | `eval_deriv` | derivative algebra |
| C42 | `do_algebra` | derivative algebra |
| C43 | tapering polynomial | factorised derivative |
| C44 | series partial sums | telescoping |
| C45 | boundary curves and data | trigonometric evaluation |
| C46 | smooth problems | derivative computation |
| C47 | gradient/Hessian formulas | chain rule |
| C48 | `eval_f_polar` at 0 | algebra; refutation |
| C49 | `get_boundary_coord` | derivative; sign analysis of sin |
| C50 | tangent, normal, curvature | derivative algebra |
| C51 | `extend_f` | geometry of interior test |
| C52 | `do_extend_inhomo_0_standard` | error branch witness |
| C53 | object state machine | history induction |
| C54 | `runz` loop and cache | induction over runs |
| C55 | `run` loop | induction over runs |
| C56 | coordinates | algebra |
| C57 | import graph | computation |
| C58 | `chebfit` at roots | discrete orthogonality |
| C59 | `do_u_BVP`, `do_algebra` | linearity of the polar operator; equivalence of the two boundary value problems |
| C60 | the singular parts `eval_v` | Bessel equation as hypothesis on `jv` (met by the power series, proved), separation of variables |
| C61 | `do_z_BVP` | C36 applied to the posed problem; series evaluated on the arc |
| C62 | `create_v_interp` | list bookkeeping; bounds of the curves |
| C63 | `get_v_error` | maximum over nested lists, with the empty-list exception |
| C64 | `problems/singular.py` | derivative computation |
| C65 | `problems/functions.py` | piecewise polynomials, smoothness at the joints |
| C66 | default evaluators | refutation: mutual recursion that never ends |
| C67 | `calc_a_coef`, `get_expected_a_coef` | C38, C40 |
| C68 | multivalued convergence | list induction |
| C69 | the ODE step with an exact integrator | uniqueness of the linear ODE (energy estimate), sine coefficients |
| C70 | the five boundary curves | trigonometric and polynomial bounds |
| C71 | boundary sample, `c0_test`, `c1_test`, `calc_c1_exact`, `etype_filter` | list induction, exactness of the expansions |
| C72 | `PizzaSolver.__init__` and `run` as a whole | composition of C03–C06, C09, C10, C22, C51 |
| C73 | `run.py` on the smooth problems | C72 with the eigenvalues bounded away from 0 by verified cosine tables |
| C74 | `ZMethod.run` and `runz.py` | C59–C63, C67, C72 |
| C75 | `run.py` on all five boundary curves | curves with bounded slope and curvature: nearest points, source expansion; C72; Taylor remainders (C29) for the residual |
| C76 | `ps/ode.py`, `zm_z1_fourier` | trapezoidal sums with two vanishing odd derivatives; energy estimate for each mode; Picard iteration for existence; tails of the Bessel series |
| C77 | `ps_run` (whole run), `get_potential` | Parseval for the sine transform, hence norms of the discrete operator and its inverse; Minkowski's inequality; Gram-Schmidt for the stability constant |
| C78 | `scripts/resonance.py` | sine modes of the square; Taylor bounds of the symbols of the two schemes |
| C79 | `scripts/extend_basis_test.py` | linearity of the extension (C13) |
| C80 | `scripts/test_extend_f.py` | the source stored by the solver (C75) |
| C81 | `scripts/optimize_basis.py` | sorted list of pairs, running minimum; C75 for termination |
| C82 | `do_extend`, `extend_boundary`, `ps_u_act` on the five curves | derivatives of traces along a curve as combinations of partial derivatives, hence uniform bounds; Taylor remainders along the boundary and along the normal; C77 and C29 for the solution |
| C83 | `scripts/extension_test.py`: `run_test`, the loop; `eval_d_u_outwards` | uniqueness of the family of partial derivatives; boundary data equal traces; C22 for the entries; C82 and C85 for the bound |
| C84 | `scripts/c0_basis.py` | C71 for c0_test, C75 for the constructor |
| C85 | `do_extend_inhomo`, `extend_boundary`, `ps_run` with a source term | the estimates of C82 with the source and its derivatives carried along; the terms of both extensions recombined into the Taylor polynomial; C77 for the solution |
| C86 | `do_z_BVP`, `polarfd.py`, `get_v_error` | consistency of the scheme (C37) on v; stability from uniqueness by Gram-Schmidt; uniqueness for N = 16 and 32 by the sine transform in the angle and ball arithmetic at 30 bits on the pivots of the tridiagonal systems, evaluated in the kernel; fewer equations than unknowns have a non-zero solution, hence existence |
| C87 | `abcoef.py`, `calc_a_coef`, `create_v_interp` | Bessel factors non-zero by exact partial sums of their series and a halving tail, evaluated in the kernel; on the arc the least-squares fit is the discrete sine transform (C74), whose norm is at most 2; on the curves Gram-Schmidt bounds the inverse of the fit |
| C88 | `v_asympt`, `get_tapering_func`, `_nterms` near the tip | the remainder of each mode as r^(p + 4) times an entire series in r^2; its derivatives by the operator c + 2 t d/dt on the coefficients |
| C89 | `PolarFD.solve`, the sparse matrix | columns of each row distinct (C35), hence positions distinct; conversion of the entries to columns keeps the product |
| C90 | `io_util.py`, argument parsing of `run.py` and `runz.py`, `scripts/multirun.py` | command lines as lists of parts; the parser accepts exactly their renderings; uniqueness of the meaning |
| C91 | `test/ps/test_multivalue.py` | induction over the dictionaries; C11 for the sums; evaluation of the four tests |
| C92 | `scripts/polarfd/sym.py`, `scripts/polarfd/test.py`, `scripts/zmethod/interp_test.py` | C44 with three terms; the power series of the remainder (as C88); consistency (C37) on the exact solution with a stability constant (as C86); evaluation of the calls |
| C93 | `calc_eigenvals`, `ap_solve`, the smooth runs, the runs of `runz.py` | eigenvalues decrease in both modes, so the sign changes along a staircase; on it Taylor bounds of the cosine and a Horner check for all step sizes at once; fixed-point enclosures for N = 16 and 32; Parseval; C85 |
| C94 | `plot_domain.py`, `plot_domain2.py`, `print_c1` | the node sets of C07 and the placement of C75 through the injective map to the square; the sample of C71 with the bounds on the curves; a Taylor bound for the cubic at pi/6 |
| C95 | `codegen/rhs_derivs.py`, `codegen/chebyshev_derivs.py`, `apply_helmholtz.py`, `abcoef/generate_data.py` | sympy's diff is the derivative; chain rule for total derivatives in polar coordinates; C15 for the Chebyshev formulas; induction over the list of column numbers |
| C96 | `solver.py:calc_rel_convergence` as called by `run.py` and `runz.py` | the nodes of the three grids coincide on the square; triangle inequality at the nodes where the maxima are attained; C68 for Multivalues |
| C97 | `abcoef/generate_data2.py`, `bet_generate.py`, `run_test.py`, `expansion_error.py` | induction over the lists of column numbers; powers of .95; evaluation of the calls |

## Status

All properties of `properties.jsonl` have theorems and count as proved (see
`MANIFEST.json`); no theorem is `_partial`. Names ending in `_refuted` state that
the code does *not* have the property one would expect; they are listed under
"Disagreements" below.

`seeded/LOG.jsonl` records the mutation tests. `theorems_failed` lists the theorems
(and examples) whose own proof no longer checks, or which refer, possibly through
other lemmas, to a lemma whose proof no longer checks; references are found by the
names occurring in the proofs. So a listed theorem need not
be false of the mutant: its proof is gone. In the later batches the run
stopped at the first file in which a theorem was hit, so the list may be incomplete.
Mutants that do not compile are not logged.
Two survivors are not equivalent and not excluded by a theorem: m7522 (the theorems on the
command line take the table from problem names to problems as given) and m7508 (the
branch `extended=True` of `plot_Gamma`, which no called function takes).

## Trusted base

* Coq's kernel (8.16.1). No check is switched off, no plugin is loaded.
* Four axioms of the standard library, and no others:
  F = `ClassicalDedekindReals.sig_forall_dec`,
  N = `ClassicalDedekindReals.sig_not_dec`,
  X = `FunctionalExtensionality.functional_extensionality_dep`,
  C = `Classical_Prop.classic`. The first three come with the reals, the last
  with lemmas of Coquelicot and the standard library's analysis. The table at
  the end of this file gives, from `Print Assumptions`, the axioms of every theorem
  (`-`: closed under the global context).
* The transcription of the Python sources into the `Model_*.v` files.
* Exact arithmetic: floats are reals. All statements about results, errors and
  maxima are about the exact values of the formulas.
* External routines. Those that are *defined* in the model: `scipy.fftpack.dst`
  (type 1, from its documentation), `numpy.linspace`, `numpy.arctan2`, `sympy.diff`
  (the derivative, Coquelicot's `Derive`), `sympy.lambdify` and `subs` (application),
  `numpy.max`. Those that are *arguments* of the model, with the contract assumed in
  the theorems that need one (other theorems hold whatever they return):

| Routine | Called at | Contract assumed |
|---|---|---|
| `scipy.optimize.brentq` | `problems/boundary.py:151` | `brentq_contract`: for a continuous function, no result for end values of equal sign, else a zero in the interval |
| `numpy…chebfit` | `ps/basis.py:108` | length (`fit_sizes`); C58, C71: least-squares fit |
| `numpy.linalg.lstsq` | `ps/ps.py:215`, `abcoef.py:31` | none for C72_equation, C73, C74; a least-squares solution in C40, C67, C72_best, C72_exact, C74_fit_* (met by `gs_lstsq` of `Proof_Lstsq.v`) |
| iteration over a `set` | `ps/grid.py:197`, `ps/ps.py:69`, `ps/inhomo.py:43`, `solver.py:103` | each element once, in any order (`enumerating`) |
| `scipy.special.jv` | `problems/…`, `abcoef.py` | Bessel's equation for the orders used (`bessel_like`); the power series is proved to meet it |
| `scipy.special.gamma` | `problems/sing_ihz.py` | functional equation (`gamma_like`); C76: with `jv` the Bessel series (`bessel_series`) |
| `scipy.integrate.odeint` | `ps/ode.py:65` | C69: exact solution of the initial value problem, or within a given distance of it; C76: end of the trajectory where it exists and is unique (`odeint_contract`) |
| `scipy.sparse.linalg.spsolve` | `ps/polarfd.py:237` | C36, C61, C86: a solution of the assembled system; C86_run: the solution where it exists and is unique (`spsolve_contract`) |
| `argparse` | `run.py:31-41`, `runz.py:34-47` | transcribed in `Model_Cli.v` for options written in full (no contract) |
| `scipy.interpolate.interp2d` | `ps/zmethod.py:336` | C62: reproduces the table at its nodes; C87: a table within D of v gives values within Lam D + eta of v between the knots, zeros give zero (`interp2d_close`, `interp2d_zero`) |

## Code modelled

Every definition of a `Model_*.v` file cites the lines it transcribes.

| File | Modelled | Not modelled |
|---|---|---|
| `abcoef.py`, `domain_util.py`, `linop.py`, `extend.py`, `chebyshev.py` | all | – |
| `fourier.py` | all | – |
| `solver.py` | all | `calc_rel_convergence` with arguments of different kinds (a TypeError in the model; never happens) |
| `ps/ps.py`, `ps/basis.py`, `ps/extend.py`, `ps/inhomo.py`, `ps/multivalue.py`, `ps/ode.py` | all | progress printing |
| `ps/grid.py` | 178-end | 7-177 is a string literal (dead code) |
| `ps/polarfd.py` | all; `spsolve` an argument | printing (216-218, 232); sorting of the rows within a column of the sparse matrix (235) |
| `ps/zmethod.py` | all | printed reports (116-120, 173-174, 266-273), the string literal 134-147 |
| `ps/debug.py` | sample, `c0_test`, `c1_test`, `calc_c1_exact`, `etype_filter`, `Q_residual`, `print_c1` before rounding | plots, files written |
| `problems/boundary.py`, `problem.py`, `smooth.py`, `sing_ihz.py`, `singular.py`, `functions.py`, `sympy_problem.py` | all but the set-up of sympy expressions, which are given as functions | – |
| `problems/__init__.py` | import graph and the dictionary (C57, C73, C74) | – |
| `run.py`, `runz.py` | all, for the smooth and for the singular problems respectively | command lines with abbreviated or attached options (`-N16`), `-h` |
| `io_util.py` | all | rounding to five digits in the output |
| `scripts/multirun.py` | the commands | directories, redirection, process pool |
| `scripts/resonance.py`, `extend_basis_test.py`, `test_extend_f.py`, `optimize_basis.py`, `extension_test.py`, `c0_basis.py` | all but argument parsing | – |
| `test/ps/test_multivalue.py` | all | – |
| `scripts/polarfd/sym.py` | all; sympy's `diff` is the derivative, `gamma` an argument | – |
| `scripts/polarfd/test.py` | 13-45, 64-66 | 47-54 and 67-95, never reached (an argument of the model) |
| `scripts/zmethod/interp_test.py` | 13-16, 30-35 | 18-28 and 36-64, never reached (an argument of the model) |
| `scripts/plot_domain.py`, `plot_domain2.py` | the points and labels handed to matplotlib | argument parsing, colours, markers, axes, legends, files written; `plot_Mplus`, and `plot_gamma` of the second (never called) |
| `scripts/codegen/*`, `scripts/apply_helmholtz.py` | all, with a sympy expression taken as the function it denotes | the text sympy prints for an expression |
| `scripts/abcoef/generate_data.py` | 16, 23, 30-32, 59-72: the error of the coefficients and the search for the column number, for a `SingularKnown` problem | the two problem classes (not in the repository), the series error of the arc (49-57), the file written |
| `scripts/abcoef/generate_data2.py` | 19-65, 67-74 | the problem classes (not in the repository), `calc_a_coef` (an argument here; modelled for itself), the entries m_max, k, a, bet, the progress printed, json |
| `scripts/abcoef/bet_generate.py` | 28, 45-67, 71 | argument parsing, the entries k, a, M, the progress printed, json |
| `scripts/abcoef/run_test.py` | 36-44, 68-91 | argument parsing, the digits printed, `do_test` (never called) |
| `scripts/abcoef/expansion_error.py` | 16, 28-35 | the loop over the problems (not in the repository) |
| other `scripts/` | – | plots and experiments. Some scripts no longer fit the code: `scripts/abcoef/k_test.py` imports a removed module |

Also not modelled: floating-point rounding, overflow, NaN, running time.

## Disagreements between code and expectation

* C08, C30: negative array indices wrap silently; the second-order scheme samples
  the source where it was not set up (`C08_wrap_refuted`, `C30_order2_refuted`).
* C10: on a coarse grid a node can belong to all three segments and `reduce` asserts.
* C12, C91: `reduce` is a plain average, not weighted by `elen` as documented, and the
  shipped unit test `test_reduce_mv1` fails.
* C26, C71: `get_sid` is not total and its tolerance is one-sided; `c0_test` does
  not see imaginary parts.
* C31, C32, C73, C74: `get_N_list` with N0 <= 0 and `get_n_basis` for sizes whose five leading
  binary digits are not 10000 do not end.
* C48: the Taylor step used for the source at the origin has the wrong
  coefficient.
* C52: `extend_inhomo_f` raises ZeroDivisionError for a node on the circle.
* C53: the gradient of smooth-e depends on earlier calls.
* C57: some advertised problems cannot be constructed.
* C63: `get_v_error` compares at most seven entries of each row.
* C66: the default evaluators of a problem call each other for ever.
* C70: the constant `cubic_C` belongs to the angle pi/6 while the program uses
  pi/4, so the cubic boundary does not stay within `bet` of the arc.
* C78: `resonance.py` lists only modes with both numbers odd and at most 9.
* C81: `optimize_basis.py` does all its runs before failing when the true solution
  is not known.
* C74: `ZMethod.run` raises AttributeError unless `z1_fourier` was set from
  outside or `z1cheat` is given.
* C90: the default of the positional argument `boundary` has no effect; a bare `-c`
  before the problem name takes it as its value.
* C88: with two terms (`_nterms`) the regularised solution has only four bounded
  derivatives at the tip, fewer than fourth-order consistency (C29, C75) needs.
* C92: `scripts/polarfd/test.py` and `scripts/zmethod/interp_test.py` call `PolarFD` with
  too few arguments and end with a TypeError.
* C93: with `-o 2` and 32 cells the auxiliary problem of the smooth problems is almost
  resonant (an eigenvalue below 0.00225, against 0.18 for the default scheme).
* C94: `scripts/plot_domain2.py:134` constructs the second boundary of each figure without
  the angle. In the first figure the cubic therefore misses the corner by at least 0.03
  (in the second `sine7` happens to meet it).
* C96: the docstring of `calc_rel_convergence` says u0, u1, u2 are the solutions on
  N//4, N//2 and N; the code expects and `run.py` passes them the other way round,
  and the ratio is log2(|u1-u2| / |u0-u1|), the inverse of the one stated.
* C97: `scripts/abcoef/run_test.py` calls `problem.eval_expected_`, which no class defines, and
  ends with an AttributeError after its first header; `scripts/abcoef/expansion_error.py` reads 500
  coefficients of the 300 that `SingularKnown` keeps (IndexError, unless a subclass not in the
  repository raises `m_max`).

## Axioms per theorem

<!-- ASSUMPTIONS -->
| Property | Theorems and axioms used |
|---|---|
| C01 | `solve_apply` FNX, `apply_solve` FNX, `solvable_k0` FNX |
| C02 | `stencil` FNX |
| C03 | `potential` FNX, `potential_unique` FNX |
| C04 | `trace` FNX, `projection` FNX, `idempotent` FNX, `exterior` FNX |
| C05 | `discrete_equation` FNX, `ap_sol_f` FNX |
| C06 | `residual` FNX, `reproduces` FNX |
| C07 | `partition` -, `partition_within` -, `discrete_boundary` -, `Nplus` -, `Kplus` -, `closed_grid` - |
| C08 | `index` -, `no_wrap` F, `total` FNX, `disc` FX, `wrap_refuted` FX, `index_error_refuted` FNX |
| C09 | `claim_iff` CFNX, `placed` CFNX, `interior` CFNX |
| C10 | `at_most_two` CFNX, `coarse_refuted` CFNX |
| C11 | `reachable_wf` F, `getitem` F, `add_ok_iff` F, `add_error` F, `add_value` F, `add_comm` FX, `reduce_add` FX |
| C12 | `reduce_average` FX, `reduce_fails_iff` FX, `elen_irrelevant` FX, `weighted_average_refuted` FX |
| C13 | `length` -, `bijection` -, `JJ_list` - |
| C14 | `alignment` FNX, `expansion` CFNX, `total` FNX |
| C15 | `derivatives` CFNX, `recurrence` CFNX, `past_table` CFNX |
| C16 | `roots` CFNX |
| C17 | `inverse` FNX, `orientation` FNX, `ends` FNX, `strictly_inside` FNX, `evaluated_inside` CFNX, `derivatives` CFNX |
| C18 | `derivative` CFNX, `step` CFNX, `other_segment` CFNX |
| C19 | `taylor` CFNX, `remainder` CFNX, `polar` CFNX, `node_straight` CFNX, `node_curve` CFNX |
| C20 | `chain_rule` CFNX, `arclength` CFNX |
| C21 | `taylor` CFNX, `d2_f_s` CFNX, `polar` CFNX, `node_curve` CFNX, `node_corner` CFNX, `node_straight` CFNX, `node_right` CFNX |
| C22 | `basis` CFNX, `linear` CFNX, `homogeneous_only` CFNX, `source_zero` CFNX, `source_error` CFNX, `unit` CFNX, `arc_solver` CFNX |
| C23 | `exact` CFNX, `remainder` CFNX, `starting_values` CFNX |
| C24 | `cart_to_polar` CFNX, `get_polar` CFNX, `left_inverse` CFNX |
| C25 | `same_point` FNX, `abs_same` FNX, `abs_nonneg` FNX, `wrap_func` FNX |
| C26 | `classifies` CFNX, `total_refuted` CFNX, `table` FNX, `overshoot` FNX |
| C27 | `projection` FNX, `dist` FNX, `signed_dist` FNX |
| C28 | `straight` CFNX, `curve` CFNX, `curve_point` CFNX |
| C29 | `consistency` CFNX, `exact` CFNX |
| C30 | `order4` FX, `order2_value` FX, `order2_refuted` FX |
| C31 | `get_N_list` -, `get_N_list_None` -, `termination_refuted` - |
| C32 | `get_n_basis` -, `get_n_basis_diverges` -, `default_table_terminates_iff` -, `termination_refuted` - |
| C33 | `same_points` FNX, `maxima` FNX, `polar_same_points` FNX, `polar_maxima` FNX |
| C34 | `max_error` FNX, `unknown` -, `empty` - |
| C35 | `bijection` -, `rows` FNX, `square` FNX |
| C36 | `system` FNX |
| C37 | `coefficients` FX, `residual` CFNX |
| C38 | `inverse` FX |
| C39 | `recovers` FNX, `linear` FNX, `alias_plus` FNX, `alias_minus` FNX, `alias_zero` FNX |
| C40 | `arc` FNX, `exact_data` FNX |
| C41 | `solves` CFNX, `source` FNX |
| C42 | `correction` CFNX, `source` CFNX, `remainder` CFNX |
| C43 | `taper` CFNX |
| C44 | `residual` CFNX, `ih_series` CFNX, `quad_series` CFNX, `source` CFNX, `quad_source` CFNX |
| C45 | `curves` FNX, `corners` FNX, `v_data` FNX, `g_line` FNX, `g_quadratic` FNX, `mode_sign` FNX, `u_bvp` FNX, `u_bvp_tip` FNX, `z_bvp` CFNX |
| C46 | `sine` CFNX, `e` CFNX, `ycos` CFNX, `outwards` CFNX, `dirichlet` FNX |
| C47 | `gradient` CFNX, `hessian` CFNX |
| C48 | `value` CFNX, `quadratic` CFNX, `taylor_refuted` CFNX |
| C49 | `dist_deriv` CFNX, `reconstruct` CFNX, `arc` FNX |
| C50 | `frame` CFNX, `curvature` CFNX, `arc_curv` CFNX, `arc_normal` CFNX |
| C51 | `never_aborts` CFNX, `quadratic_exact` CFNX, `gives_up` CFNX, `only_then` CFNX |
| C52 | `on_curve` CFNX, `defined_refuted` CFNX, `radius_guarded` CFNX, `radius_on_line` CFNX, `off_curve` CFNX |
| C53 | `history` CFNX, `first_call_refuted` FNX |
| C54 | `cache_sound` -, `cheat` - |
| C55 | `run_loop_known` -, `run_loop_unknown` - |
| C56 | `inverse` FX, `doubling` FX, `spacing` FX |
| C57 | `problems_importable_refuted` - |
| C58 | `fit_recovers` CFNX, `unique_minimiser` CFNX |
| C59 | `equation` CFNX, `boundary` FNX, `asympt` CFNX, `iz_expected` CFNX |
| C60 | `line` CFNX, `quadratic` CFNX, `line_remainder` CFNX, `quadratic_remainder` CFNX |
| C61 | `system` FNX, `arc` FNX, `expected` FNX, `acheat` F |
| C62 | `curves` FNX, `nodes` FNX, `tables` FNX, `range` FNX |
| C63 | `max` FNX, `modes` FNX, `zero` FNX, `seven_refuted` FNX |
| C64 | `total` FNX, `equation` CFNX, `edges` FNX, `arc` FNX, `none` FNX |
| C65 | `hat` CFNX, `hat_angle` FNX, `parabola` FNX, `linesine` FNX, `linesine_data` FNX |
| C66 | `expected` CFNX, `roundtrip` CFNX, `expected_polar` CFNX, `source` CFNX, `source_polar` CFNX, `homogeneous` CFNX, `neither_loops` CFNX |
| C67 | `arc` FNX, `bessel` F, `same` FNX, `curve` FNX, `rest` FNX |
| C68 | `differences` FNX, `defined_iff` FNX, `key_error` FNX, `maxima` FNX |
| C69 | `stable` CFNX, `exact` CFNX, `program` CFNX |
| C70 | `ends` FNX, `sines` FNX, `sides` FNX, `cubic_sixth` FNX, `cubic_quarter` FNX, `cubic_peak_refuted` FNX, `cubic_band_refuted` FNX, `margin` CFNX, `program` CFNX |
| C71 | `points` FNX, `length` FNX, `default` FNX, `cover` FNX, `sorted` FNX, `recomputed` CFNX, `tolerance_refuted` CFNX, `c0_test` CFNX, `c1_test` CFNX, `gap` CFNX, `span` CFNX, `span_c1` CFNX, `imaginary_refuted` CFNX, `filter` FNX, `extended` FNX |
| C72 | `source` CFNX, `basis` CFNX, `one_size` CFNX, `equation` CFNX, `error` CFNX, `total` CFNX, `arc` CFNX, `candidate` CFNX, `best` CFNX, `exact` CFNX, `quadratic` CFNX, `residual` CFNX |
| C73 | `solvable` CFNX, `source` CFNX, `boundary` FNX, `basis` -, `options` CFNX, `run` CFNX, `main` CFNX, `tables` -, `ends_refuted` CFNX, `sizes` CFNX |
| C74 | `problems` CFNX, `run` CFNX, `attribute_refuted` CFNX, `equation` CFNX, `equivalence` CFNX, `iz` CFNX, `table` CFNX, `fit_arc` CFNX, `fit_curve` CFNX, `v_error` CFNX, `cache` CFNX, `main` CFNX, `ends_refuted` CFNX, `sizes` CFNX |
| C75 | `placed` CFNX, `source` CFNX, `run` CFNX, `main` CFNX, `extended` CFNX, `consistent` CFNX, `z_run` CFNX, `z_main` CFNX |
| C76 | `accurate` CFNX, `trajectory` CFNX, `start` CFNX, `run` CFNX, `cheat` CFNX, `first` CFNX |
| C77 | `error` CFNX, `gap` CFNX, `run` CFNX, `delta` FNX, `kappa` CFNX, `smooth` CFNX |
| C78 | `values` FNX, `total` FNX, `resonance` CFNX, `complete_refuted` CFNX, `discrete` CFNX |
| C79 | `success` CFNX, `smooth` CFNX |
| C80 | `measured` CFNX, `bound` CFNX, `main` CFNX |
| C81 | `best` CFNX, `smooth` CFNX, `unknown` CFNX |
| C82 | `node` CFNX, `boundary` CFNX, `error` CFNX |
| C83 | `measured` CFNX, `bound` CFNX, `main` CFNX |
| C84 | `printed` CFNX |
| C85 | `node` CFNX, `boundary` CFNX, `error` CFNX |
| C86 | `table` CFNX, `v_error` CFNX, `stable` CFNX, `one_solution` CFNX, `run` CFNX |
| C87 | `factors` CFNX, `interp` CFNX, `arc` CFNX, `data` CFNX, `grid` CFNX, `curve` CFNX |
| C88 | `order` CFNX, `unbounded` CFNX, `leading` CFNX, `source` CFNX, `source_order` CFNX, `source_unbounded` CFNX |
| C89 | `shape` FNX, `once` FNX, `columns` FNX, `solve` FNX, `accepts` F, `sums` FX, `negative` FNX |
| C90 | `int` -, `parse` -, `required` -, `default_refuted` -, `bare_c` -, `run` CFNX, `runz` CFNX, `k` CFNX, `stuck` CFNX, `multirun` - |
| C91 | `is_equal` FNX, `symmetric_refuted` FNX, `add` FNX, `pass` FNX, `getitem` FX, `reduce0` FNX, `allclose` FNX, `reduce_mv1_refuted` FNX, `weighted` FNX |
| C92 | `source` CFNX, `derivatives` CFNX, `solution` CFNX, `tip` CFNX, `error` CFNX, `scripts_fail` FNX, `scripts_repaired` FNX |
| C93 | `gap` CFNX, `gap_quadratic` CFNX, `coarse` CFNX, `sharp` CFNX, `order2` CFNX, `stable` CFNX, `runs` CFNX, `zruns` CFNX, `stable_quadratic` CFNX, `error` CFNX |
| C94 | `gamma` CFNX, `nodes` CFNX, `plot2` CFNX, `corner_refuted` CFNX, `print` – |
| C95 | `generated` CFNX, `polar` CFNX, `operator` CFNX, `script` CFNX, `chebyshev` CFNX, `search` FX, `arc` FNX |
| C96 | `run` CFNX, `array` CFNX, `multi` CFNX, `runz` CFNX |
| C97 | `trend` FNX, `bet` FNX, `run_test_fails` FNX, `run_test_marks` FNX, `run_test_complex` FNX, `expansion` FNX, `expansion_fails` FNX |
<!-- END ASSUMPTIONS -->

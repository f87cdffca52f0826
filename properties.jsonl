{"id": "C01", "title": "The auxiliary-problem solver inverts the operator L", "statement": "APSolver.solve(APSolver.apply_L(v)) == v and APSolver.apply_L(APSolver.solve(g)) == g for every complex (N-1)x(N-1) array, both scheme orders, every side length AD_len != 0 and wavenumber k for which no entry of the eigenvalue table is zero (exact arithmetic).", "quantifier": "all N >= 2, all complex arrays v and g, both orders, all real AD_len != 0, all real k with a non-vanishing eigenvalue table", "why_tests_cant": "A test fixes one N, one k and one array; the identity rests on discrete sine orthogonality for every N.", "anchors": ["fourier.py:APSolver._fourier", "fourier.py:APSolver.solve", "fourier.py:APSolver.apply_L", "fourier.py:APSolver.calc_eigenvals"]}
{"id": "C02", "title": "Spectral apply_L equals the finite-difference operator", "statement": "APSolver.apply_L(v) equals linop.apply_L applied to v padded with a border of zeros, entry by entry: the 5-point scheme for order 2, the 9-point compact scheme for order 4.", "quantifier": "all N >= 2, all complex arrays, both orders, all AD_len != 0, all real k, every grid node", "why_tests_cant": "The spectral path and the stencil path share no code, tests can only compare them on sample arrays.", "anchors": ["fourier.py:APSolver", "linop.py:apply_L"]}
{"id": "C03", "title": "A difference potential solves the homogeneous discrete equation inside the domain", "statement": "For any boundary density ext, get_potential(ext) is annihilated by L at every node of the interior grid set; and away from the discrete boundary's extension it keeps the value of L w.", "quantifier": "all densities, all grids (any interior predicate), any enumeration order of the discrete boundary, both orders, all N, k, AD_len with no zero eigenvalue", "why_tests_cant": "Quantifies over all densities and all domain shapes.", "anchors": ["ps/ps.py:PizzaSolver.get_potential", "fourier.py:APSolver"]}
{"id": "C04", "title": "Boundary projection: a discrete solution is reproduced by the potential of its trace; the projection is idempotent", "statement": "If u is any grid function with L u = 0 on the interior nodes, then get_potential(get_trace(u)) equals u on every node reached by the stencil from an interior node and is zero elsewhere. Consequently trace(potential(.)) is a projection.", "quantifier": "all grid functions u, all densities, any interior predicate whose discrete boundary stays inside the square, both orders", "why_tests_cant": "This is the central theorem of the method of difference potentials; sampling cannot establish it for every domain and every u.", "anchors": ["ps/ps.py:PizzaSolver.get_potential", "ps/ps.py:PizzaSolver.get_trace", "ps/grid.py:PsGrid.ps_construct_grids"]}
{"id": "C05", "title": "The reported solution satisfies the discrete equation whatever the least-squares step returned", "statement": "For every coefficient vector c1 and every boundary extension, u_act = get_potential(ext) + ap_sol_f satisfies L u_act = B f at every interior node.", "quantifier": "all ext, all source grids f, all grids and orders", "why_tests_cant": "The least-squares output is arbitrary data as far as the equation is concerned; the claim ranges over all of it.", "anchors": ["ps/ps.py:PizzaSolver.run", "ps/ps.py:PizzaSolver.calc_ap_sol_f", "linop.py:apply_B"]}
{"id": "C06", "title": "The least-squares residual is exactly the trace mismatch of the reported solution", "statement": "For every c0 and c1, Q1 c1 - rhs (as returned by get_var) equals trace(u_act) - ext, so a zero residual holds exactly when the reported solution takes the extended boundary values on the discrete boundary.", "quantifier": "all c0, c1, all basis sizes, all source terms, all boundaries", "why_tests_cant": "An identity between two pipelines for every coefficient vector.", "anchors": ["ps/ps.py:PizzaSolver.get_Q", "ps/ps.py:PizzaSolver.get_var", "ps/ps.py:PizzaSolver.run"]}
{"id": "C07", "title": "Grid sets: interior and exterior partition the grid, and the discrete boundary is where both stencils meet", "statement": "After grid construction the interior and exterior sets partition the open grid {1..N-1}^2 according to the point-in-domain test; a node is in the discrete boundary exactly when it lies in the stencil of some interior and of some exterior node; the stencil of an interior node stays in Nplus; Kplus is the interior plus (order 4 only) its 4-neighbours.", "quantifier": "all N, all interior predicates, both orders", "why_tests_cant": "Ranges over all domain shapes and grid sizes.", "anchors": ["solver.py:Solver.construct_grids", "ps/grid.py:PsGrid.ps_construct_grids"]}
{"id": "C08", "title": "Discrete-boundary indices never leave the array (and are reported where they can)", "statement": "If the interior nodes keep a one-node margin from the border of the open grid, every discrete-boundary node indexes the (N-1)x(N-1) array in range, so get_potential/get_trace neither raise IndexError nor wrap around; disc-shaped domains of radius rho with rho < AD_len/2 - AD_len/N satisfy this. Without the margin the claim is false: an index wraps or raises.", "quantifier": "all N, all interior predicates, all radii and side lengths", "why_tests_cant": "The failing cases depend on the geometry of every domain/grid combination; wrap-around is silent.", "anchors": ["ps/ps.py:PizzaSolver.get_potential", "ps/ps.py:PizzaSolver.get_trace", "ps/grid.py:PsGrid.ps_construct_grids"]}
{"id": "C09", "title": "Every discrete-boundary node is attributed to a segment (assert placed never fires) on the arc domain", "statement": "For the circular-arc boundary, every node of the discrete boundary is within sqrt(2) h of the piece of segment 0, 1 or 2 selected by its extension type, so PizzaSolver construction cannot trip the 'placed' assertion.", "quantifier": "all N, all R > 0, all AD_len > 0, wedge angle a in (0, pi/2), both orders, every node", "why_tests_cant": "A geometric crossing argument over a continuum of configurations.", "anchors": ["ps/grid.py:PsGrid.ps_construct_grids", "ps/extend.py:PsExtend.get_etype"]}
{"id": "C10", "title": "At most two segments claim a node on fine enough grids, so reduce() cannot assert", "statement": "For the arc boundary, if R is large enough relative to h = AD_len/N, no node is within sqrt(2) h of all three segments; hence every multivalue list has one or two entries and reduce() succeeds. On coarse grids the bound fails.", "quantifier": "all N, R, AD_len, a satisfying the bound; every node", "why_tests_cant": "Depends on all grid placements.", "anchors": ["ps/grid.py:PsGrid.ps_construct_grids", "ps/multivalue.py:Multivalue.reduce"]}
{"id": "C11", "title": "Multivalue addition and reduction are compatible", "statement": "For two multivalue functions with matching setypes, reduce(m1 + m2) = reduce(m1) + reduce(m2); addition is commutative up to elen and fails (AssertionError/KeyError/IndexError) exactly when nodes, lengths or setypes mismatch.", "quantifier": "all node lists and all contents", "why_tests_cant": "Needs all shapes, including mismatching ones.", "anchors": ["ps/multivalue.py:Multivalue.__add__", "ps/multivalue.py:Multivalue.reduce"]}
{"id": "C12", "title": "reduce() is the plain average, not the documented elen-weighted average", "statement": "reduce() returns, per node in node order, the value or the arithmetic mean of the two values independently of elen; the documented elen-weighted average (and the shipped test test_reduce_mv1) is refuted.", "quantifier": "all multivalue contents; a witness for the refutation", "why_tests_cant": "The documented contract ranges over every pair of extension lengths.", "anchors": ["ps/multivalue.py:Multivalue.reduce", "test/ps/test_multivalue.py:TestMultivalue.test_reduce_mv1"]}
{"id": "C13", "title": "Basis descriptors enumerate (segment, degree) pairs bijectively and contiguously", "statement": "After setup_basis(nc, nr): len(B_desc) = nc + 2 nr; each JJ in range carries exactly one (sid, J) with J < n_basis(sid), every such pair occurs once, and JJ_list of a segment lists exactly its JJ in increasing J.", "quantifier": "all nc, nr >= 0", "why_tests_cant": "All basis sizes.", "anchors": ["ps/basis.py:PsBasis.setup_basis"]}
{"id": "C14", "title": "Dirichlet coefficients line up with the basis descriptors", "statement": "calc_c0 concatenates the three segment fits so that c0[JJ] is the degree-J coefficient of segment sid where B_desc[JJ] = (sid, J), and the expansion of the data evaluated on segment sid uses only that segment's coefficients.", "quantifier": "all basis sizes, all boundary data, any fitting routine returning n_basis coefficients per segment", "why_tests_cant": "All sizes and data.", "anchors": ["ps/basis.py:PsBasis.calc_c0", "ps/basis.py:PsBasis.eval_dn_B_arg"]}
{"id": "C15", "title": "Generated Chebyshev derivative formulas are the derivatives", "statement": "For every degree J and t in (-1,1), eval_d_T_t ... eval_d5_T_t are the first to fifth derivatives of eval_T(J, .), and eval_T satisfies the Chebyshev recurrence.", "quantifier": "all J, all t in (-1,1)", "why_tests_cant": "Identity over a continuum.", "anchors": ["chebyshev.py:eval_T", "chebyshev.py:eval_d5_T_t", "chebyshev.py:eval_dn_T_t"]}
{"id": "C16", "title": "get_chebyshev_roots returns exactly the roots, in increasing order", "statement": "For J >= 1 the list has J entries, strictly increasing, all in (-1,1); t in [-1,1] is a root of eval_T(J, .) if and only if it is in the list.", "quantifier": "all J >= 1, all t", "why_tests_cant": "All degrees.", "anchors": ["chebyshev.py:get_chebyshev_roots"]}
{"id": "C17", "title": "Basis functions are only evaluated strictly inside (-1,1)", "statement": "eval_g and eval_g_inv are mutually inverse on each segment, and every argument at which the homogeneous extension evaluates the basis lies in the physical segment, so its image under eval_g_inv is strictly inside (-1,1) and no derivative formula divides by zero.", "quantifier": "all segments, all parameters R > 0, a in (0,2pi), all nodes of every extension type", "why_tests_cant": "All nodes and geometries.", "anchors": ["ps/basis.py:PsBasis.eval_g", "ps/basis.py:PsBasis.eval_g_inv", "ps/basis.py:PsBasis.get_span_center", "ps/extend.py:PsExtend.do_extend_0_standard"]}
{"id": "C18", "title": "eval_dn_B_arg is the n-th derivative of the basis function in the boundary parameter", "statement": "For n = 0..4, d/d arg of eval_dn_B_arg(n, JJ, ., sid) is eval_dn_B_arg(n+1, JJ, ., sid) at every arg mapped into (-1,1); it vanishes on the other segments.", "quantifier": "all basis functions, segments, arguments", "why_tests_cant": "Continuum.", "anchors": ["ps/basis.py:PsBasis.eval_dn_B_arg", "ps/basis.py:PsBasis.eval_d_g_inv_arg"]}
{"id": "C19", "title": "Homogeneous extension is the degree-4 Taylor polynomial of the Helmholtz solution along the normal", "statement": "If u solves the homogeneous Helmholtz equation in boundary-fitted coordinates (n,s), then extend_arbitrary fed with the traces of u and their tangential derivatives returns the fourth-degree Taylor polynomial of u in n at the boundary, hence u(n,s) up to O(n^5).", "quantifier": "all smooth solutions (complex valued), all curvatures, all k, all n", "why_tests_cant": "Identity over all solutions and curves.", "anchors": ["extend.py:SolverExtend.extend_arbitrary", "ps/extend.py:PsExtend.extend_radius"]}
{"id": "C20", "title": "Conversion of angular to arclength derivatives is the chain rule", "statement": "extend_polar's convert_d / convert_d2 / convert_d4 applied to the angular derivatives of xi give the first, second and fourth arclength derivatives of xi(th(s)); Boundary's d_th_s ... d4_th_s are the first four derivatives of the inverse of the arclength function.", "quantifier": "all smooth functions and all smooth arclength parametrisations with non-zero speed", "why_tests_cant": "Identity over all functions.", "anchors": ["extend.py:SolverExtend.extend_polar", "problems/boundary.py:Boundary.do_algebra"]}
{"id": "C21", "title": "Inhomogeneous extension is the degree-4 Taylor polynomial of the particular solution", "statement": "If u solves the inhomogeneous Helmholtz equation with zero Cauchy data on the boundary, inhomo_extend_arbitrary returns its fourth-degree Taylor polynomial in n; inhomo_extend_polar's d2_f_s is the second arclength derivative of f along the boundary.", "quantifier": "all smooth f, u, curves, k, n", "why_tests_cant": "Identity over all sources.", "anchors": ["extend.py:SolverExtend.inhomo_extend_arbitrary", "extend.py:SolverExtend.inhomo_extend_polar"]}
{"id": "C22", "title": "The boundary extension is linear in the coefficients", "statement": "extend_boundary() with coefficients c0, c1 equals the sum over JJ of c0[JJ] extend_basis(JJ,0) + c1[JJ] extend_basis(JJ,1) plus (for inhomogeneous problems) extend_inhomo_f(), node by node; extend_basis agrees with extend_boundary on unit coefficient vectors.", "quantifier": "all coefficient vectors, all nodes, all basis sizes, all extension types", "why_tests_cant": "scripts/extend_basis_test.py samples unit vectors at N=16 only.", "anchors": ["ps/extend.py:PsExtend.mv_extend_boundary", "ps/extend.py:PsExtend._ext_calc_xi_derivs", "ps/basis.py:PsBasis.extend_basis"]}
{"id": "C23", "title": "Tangential Taylor step is exact on quartic boundary data", "statement": "do_extend_taylor's table of shifted derivatives equals the true derivatives at arg + delta for every polynomial of degree at most 4, and for general smooth data differs by the Lagrange remainder.", "quantifier": "all polynomials of degree <= 4, all deltas, all derivative orders 0..4", "why_tests_cant": "Continuum of inputs.", "anchors": ["ps/extend.py:PsExtend.do_extend_taylor"]}
{"id": "C24", "title": "Cartesian to polar conversion is a right inverse with the promised range", "statement": "cart_to_polar returns r >= 0 and th in (0, 2pi] with (r cos th, r sin th) = (x,y); the solver's get_polar returns th in [a/2, 2pi + a/2) for the same point.", "quantifier": "all points of the plane, all a in (0, 2pi)", "why_tests_cant": "All quadrants, axes and branch cuts.", "anchors": ["domain_util.py:cart_to_polar", "ps/ps.py:PizzaSolver.get_polar", "solver.py:Solver.get_polar"]}
{"id": "C25", "title": "Boundary parametrisation: arg_to_polar and arg_to_polar_abs name the same point", "statement": "For sid in {0,1,2} and every signed argument both functions denote the same Cartesian point; the _abs variant always has non-negative radius on segments 1 and 2; wrap_func returns a non-negative argument on segments 1,2.", "quantifier": "all args, all a, all boundary curves", "why_tests_cant": "Continuum incl. negative arguments.", "anchors": ["domain_util.py:arg_to_polar", "domain_util.py:arg_to_polar_abs", "domain_util.py:wrap_func"]}
{"id": "C26", "title": "Segment classification of boundary samples", "statement": "get_sid maps the polar angle of every point sampled on segment sid (away from the corners) back to sid; the complete table of results is given; it is not total: angles up to a - 1e-12 get no segment.", "quantifier": "all sample points on each segment; witness for non-totality", "why_tests_cant": "Continuum.", "anchors": ["domain_util.py:get_sid", "ps/debug.py:PsDebug.get_boundary_sample_by_sid", "ps/debug.py:PsDebug.c0_test"]}
{"id": "C27", "title": "get_radius_point is the orthogonal projection and signed_dist_to_radius the signed distance", "statement": "For wedge angles in (0,pi), get_radius_point(2,x,y) is the closest point of the line at angle a, and signed_dist_to_radius equals x sin a - y cos a (also at a = pi/2).", "quantifier": "all points, all a in (0,pi)", "why_tests_cant": "Continuum.", "anchors": ["ps/ps.py:PizzaSolver.get_radius_point", "ps/ps.py:PizzaSolver.dist_to_radius", "ps/ps.py:PizzaSolver.signed_dist_to_radius"]}
{"id": "C28", "title": "Extension coordinates reconstruct the node", "statement": "For each segment and extension type the starting parameter, tangential step and normal distance used by the extension satisfy: node = point(arg + delta) + n * outward normal (segments 1, 2; and segment 0 on the arc).", "quantifier": "all nodes, all types", "why_tests_cant": "All geometric cases.", "anchors": ["ps/extend.py:PsExtend.do_extend_1_left", "ps/extend.py:PsExtend.do_extend_2_right", "ps/extend.py:PsExtend.do_extend_0_left"]}
{"id": "C29", "title": "Fourth-order consistency of the compact scheme", "statement": "For every smooth u with Laplacian(u) + k^2 u = f, the nine-point operator applied to samples of u differs from apply_B applied to samples of f by at most C h^4, with C depending only on bounds of sixth derivatives; exact equality for polynomials of degree <= 5.", "quantifier": "all smooth u with bounded sixth derivatives, all h > 0, all k", "why_tests_cant": "Asymptotic claim over all functions and meshes.", "anchors": ["linop.py:apply_L", "linop.py:apply_B"]}
{"id": "C30", "title": "Which source samples the right-hand side reads", "statement": "With order 4 the right-hand side B f at interior nodes reads only samples that setup_f/extend_f defined; with order 2 it also reads samples that are silently zero (refuted), perturbing the right-hand side by f/12 per missing neighbour.", "quantifier": "all domains; witness for order 2", "why_tests_cant": "All domains.", "anchors": ["ps/ps.py:PizzaSolver.calc_ap_sol_f", "solver.py:Solver.construct_grids", "solver.py:Solver.setup_f", "linop.py:apply_B"]}
{"id": "C31", "title": "Grid-size schedule of the convergence test", "statement": "get_N_list(N0, c) for N0 >= 1 terminates and returns exactly N0, 2 N0, 4 N0, ... not exceeding c (just [N0] when c is None); for N0 <= 0 with c >= N0 it never terminates.", "quantifier": "all integers N0, c", "why_tests_cant": "Termination for all inputs.", "anchors": ["run.py:get_N_list", "runz.py:get_N_list"]}
{"id": "C32", "title": "Basis-size lookup", "statement": "get_n_basis(N) returns the entry of the first of N, N//2, N//4, ... present in the table and terminates exactly when one is present; the documented 'largest N in the table' fallback and termination for every N are refuted (e.g. N = 24, N < 16).", "quantifier": "all integer tables and all N", "why_tests_cant": "Termination for all inputs.", "anchors": ["problems/problem.py:PizzaProblem.get_n_basis", "problems/problem.py:PizzaProblem.get_n_basis_dict"]}
{"id": "C33", "title": "Relative convergence compares the same physical points", "statement": "In calc_rel_convergence on grids N, N/2, N/4 every pair compared denotes the same Cartesian point, all indices are in range, and the point is interior on each grid; likewise for PolarFD.calc_rel_convergence.", "quantifier": "all N divisible by 4, all nodes", "why_tests_cant": "All grid sizes.", "anchors": ["solver.py:Solver._array_calc_rel_convergence", "ps/polarfd.py:PolarFD.calc_rel_convergence", "solver.py:Solver.get_coord"]}
{"id": "C34", "title": "eval_error is the maximum-norm error on the interior grid", "statement": "When the exact solution is known and the interior set non-empty, eval_error returns a value attained at some interior node and bounding the error at every interior node; None when unknown.", "quantifier": "all arrays, all interior sets", "why_tests_cant": "All inputs.", "anchors": ["solver.py:Solver.eval_error"]}
{"id": "C35", "title": "PolarFD numbering is a bijection and the assembled system is square", "statement": "get_index is a bijection from {0..N}^2 to {0..(N+1)^2-1}; solve assembles exactly (N+1)^2 rows, one per node; all column indices are in range; every row is written.", "quantifier": "all N >= 1", "why_tests_cant": "All sizes.", "anchors": ["ps/polarfd.py:PolarFD.get_index", "ps/polarfd.py:PolarFD.solve", "ps/polarfd.py:PolarFD.copy_local"]}
{"id": "C36", "title": "A solution of the assembled PolarFD system satisfies the boundary conditions and the scheme at every interior node", "statement": "z solves the assembled sparse system iff z[index(m,0)] = phi2(r_m), z[index(m,N)] = phi1(r_m), z[index(0,l)] = phi_initial, z[index(N,l)] = phi0 and the 9-point equation holds at all interior (m,l).", "quantifier": "all N, all data functions, all vectors z", "why_tests_cant": "All sizes and data; negative-index storage of the local stencil.", "anchors": ["ps/polarfd.py:PolarFD.set_fd4", "ps/polarfd.py:PolarFD.copy_local", "ps/polarfd.py:PolarFD.set_bc_wedge", "ps/polarfd.py:PolarFD.set_bc_origin", "ps/polarfd.py:PolarFD.set_bc_arc"]}
{"id": "C37", "title": "PolarFD's stencil is a fourth-order compact scheme for the polar Helmholtz equation", "statement": "The nine coefficients equal the composition of second-order polar difference operators with their fourth-order corrections, and for every smooth solution the residual of the scheme is O(hr^4 + hth^4).", "quantifier": "all r, hr, hth, k; all smooth solutions", "why_tests_cant": "Algebraic identity / asymptotic claim over all inputs.", "anchors": ["ps/polarfd.py:PolarFD.set_fd4"]}
{"id": "C38", "title": "a/b coefficient conversions are mutually inverse", "statement": "a_to_b(b_to_a(c)) = c = b_to_a(a_to_b(c)) whenever the Bessel factors are non-zero; length preserved.", "quantifier": "all complex coefficient lists", "why_tests_cant": "All inputs.", "anchors": ["abcoef.py:a_to_b", "abcoef.py:b_to_a", "abcoef.py:_convert_ab"]}
{"id": "C39", "title": "arc_dst recovers sine coefficients exactly", "statement": "If func(th) = sum_{m=1..N} b_m sin(m nu (th-a)) then arc_dst(a, func, N)[m-1] = b_m for every m <= N; arc_dst is linear, and higher modes alias as stated.", "quantifier": "all N, all coefficient vectors, all a < 2pi", "why_tests_cant": "All N and coefficients.", "anchors": ["fourier.py:arc_dst"]}
{"id": "C40", "title": "On the arc, calc_a_coef equals b_to_a of arc_dst", "statement": "For the arc boundary the least-squares coefficients returned by calc_a_coef equal the directly transformed and rescaled coefficients b_to_a(arc_dst(bc0)), for every boundary function; for general boundaries exact data in the span are recovered when the matrix has full column rank.", "quantifier": "all boundary functions, all M <= m1 <= 2048 with non-zero Bessel factors, any least-squares minimiser", "why_tests_cant": "All functions.", "anchors": ["abcoef.py:calc_a_coef", "ps/zmethod.py:ZMethod.get_expected_a_coef"]}
{"id": "C41", "title": "The Fourier ODE system is the separated polar Helmholtz equation", "statement": "eval_deriv's right-hand side is such that (z_m, z_m') following it make sum z_m(r) sin(m nu (th-a)) satisfy the polar Helmholtz equation with source sum f_m sin(m nu (th - a)); state interleaving is consistent between initial data, derivative and output.", "quantifier": "all M, all smooth trajectories, all r > 0", "why_tests_cant": "All solutions.", "anchors": ["ps/ode.py:calc_z1_fourier"]}
{"id": "C42", "title": "The correction q makes the ODE source vanish on both wedge edges", "statement": "With p the quintic blending polynomial, f1 = f0 - L q vanishes at th = a and th = 2pi for every r, for every smooth f0, and q and its theta-slope vanish on both edges.", "quantifier": "all smooth f0, all r > 0, all a < 2pi, all k", "why_tests_cant": "All sources.", "anchors": ["ps/zmethod.py:ZMethod.do_algebra"]}
{"id": "C43", "title": "Tapering function: C^6 monotone cutoff", "statement": "get_tapering_func(R)(r) is 1 for r <= R0, 0 for r >= R, monotonically decreasing between, with values in [0,1], and its six derivatives vanish at both joints.", "quantifier": "all r, all R > R0", "why_tests_cant": "Continuum.", "anchors": ["problems/sing_ihz.py:get_tapering_func"]}
{"id": "C44", "title": "Truncated Bessel series satisfies Helmholtz up to its last term", "statement": "The n-term v_series = get_v_asympt0 * sin((K+1/2) nu (th-a)) satisfies Laplacian + k^2 = k^2 times its last term, for every n; so the residual is of order r^(2n-2+alpha). For the ten terms of the problems, and for the source left by the two tapered terms near the tip, the residual is given with its constant.", "quantifier": "all n >= 1, all r > 0, all th, any function satisfying the Gamma recurrence", "why_tests_cant": "All truncations and radii.", "anchors": ["problems/sing_ihz.py:get_v_asympt0", "problems/sing_ihz.py:IH_Bessel"]}
{"id": "C45", "title": "Boundary data are continuous at the corners", "statement": "Every boundary curve has r(a) = r(2pi) = R for every bet; the arc data and the two radius data agree at both outer corners for iz-bessel, ihz-bessel-line, ihz-bessel-quadratic; v takes the values phi1, phi2 on the wedge edges and g agrees with v there.", "quantifier": "all bet, all R, all Bessel functions J", "why_tests_cant": "Parametric in bet, R, k.", "anchors": ["problems/boundary.py:OuterSine", "problems/boundary.py:Cubic", "problems/sing_ihz.py:IHZ_Bessel_Quadratic", "problems/sing_ihz.py:IHZ_Bessel_Line", "problems/sing_ihz.py:IZ_Bessel"]}
{"id": "C46", "title": "The smooth problems' reference solutions satisfy their PDE and their gradients are correct", "statement": "smooth-sine, smooth-e and smooth-ycos: Laplacian(u) + k^2 u = f with the problem's f, get_grad is the gradient, eval_d_u_outwards is the derivative along the outward unit normal.", "quantifier": "all points, all k", "why_tests_cant": "Continuum.", "anchors": ["problems/smooth.py:Smooth_Sine", "problems/smooth.py:Smooth_E", "problems/smooth.py:Smooth_YCos", "problems/smooth.py:SmoothProblem.eval_d_u_outwards"]}
{"id": "C47", "title": "Cartesian gradient and Hessian from polar derivatives", "statement": "SympyProblem.eval_grad_f / eval_hessian_f return the Cartesian gradient and Hessian of f at every point other than the origin, given correct polar derivatives.", "quantifier": "all smooth f, all points r > 0", "why_tests_cant": "Continuum.", "anchors": ["problems/sympy_problem.py:SympyProblem.eval_grad_f_polar", "problems/sympy_problem.py:SympyProblem.eval_hessian_f_polar"]}
{"id": "C48", "title": "Value of f at the origin: the second-order Taylor claim is false", "statement": "SympyProblem.eval_f at r = 0 claims a Taylor approximation from (-h, 0); it is exact for affine f but for quadratic f it is off by h^2 f_xx because the already-corrected gradient is used together with the quadratic term.", "quantifier": "all quadratic f; all h > 0", "why_tests_cant": "The discrepancy is O(h^2) with h = AD_len/10000 and hides below test tolerances.", "anchors": ["problems/sympy_problem.py:SympyProblem.eval_f_polar"]}
{"id": "C49", "title": "Boundary coordinates of a node", "statement": "eval_dist_deriv is the derivative of half the squared distance to the boundary curve; on the arc every node with r > 0 whose angle is in [a/2, 2pi + a/2) gets coordinates (r - R, th), for any root finder meeting the brentq contract; the node is curve(th0) + n * normal(th0).", "quantifier": "all curves, all nodes, any root returned", "why_tests_cant": "Continuum.", "anchors": ["problems/boundary.py:Boundary.get_boundary_coord"]}
{"id": "C50", "title": "Curvature and frame of the boundary", "statement": "eval_tangent/eval_normal form an orthonormal frame with outward normal; eval_curv is the signed curvature (derivative of the unit tangent along arclength equals curv times the outward normal), -1/R on the arc.", "quantifier": "all smooth curves with non-zero speed", "why_tests_cant": "Continuum.", "anchors": ["problems/boundary.py:Boundary.do_algebra", "problems/boundary.py:Boundary.eval_normal", "problems/boundary.py:Boundary.eval_tangent"]}
{"id": "C51", "title": "Source extension on the arc domain never aborts and is exact on quadratics", "statement": "For the arc boundary and order 4, every node that extend_f must fill has cached boundary coordinates when it needs them (no 'Aborting extend_f'), a non-zero displacement, and the value stored equals f exactly when f is quadratic. On any domain the loop stops, silently, exactly at the first node on or outside the curve without cached coordinates.", "quantifier": "all N, R, AD_len with h <= R, all quadratic f", "why_tests_cant": "All nodes and geometries; the abort is silent and iteration-order dependent.", "anchors": ["ps/inhomo.py:PsInhomo.extend_f", "ps/inhomo.py:PsInhomo._extend_f_get_sid"]}
{"id": "C52", "title": "Inhomogeneous extension from the outer boundary is undefined for nodes on the curve", "statement": "do_extend_inhomo_0_standard normalises the displacement without guarding zero length, so a node lying exactly on the outer curve yields an undefined value, while the radius variants guard it; off the curve, d_f_n is the outward normal derivative.", "quantifier": "all nodes; witness on the curve", "why_tests_cant": "Measure-zero inputs tests never hit.", "anchors": ["ps/inhomo.py:PsInhomo.do_extend_inhomo_0_standard", "ps/inhomo.py:PsInhomo._calc_inhomo_radius"]}
{"id": "C53", "title": "smooth-e gradient depends on call history", "statement": "Smooth_E.get_grad returns the gradient only after some eval_expected call on the same object; called first it raises AttributeError. After any history containing an eval_expected call it returns the correct gradient.", "quantifier": "all call histories", "why_tests_cant": "History-dependent.", "anchors": ["problems/smooth.py:Smooth_E.get_grad", "problems/smooth.py:Smooth_E.eval_expected"]}
{"id": "C54", "title": "Caching of the ODE result across grid sizes is sound", "statement": "Over any sequence of grid sizes, each run of the z-method uses the same Fourier coefficients it would have computed itself, and the ODE solver is called at most once (never with z1cheat).", "quantifier": "all run sequences, all grid-size lists", "why_tests_cant": "All histories.", "anchors": ["runz.py", "ps/zmethod.py:ZMethod.calc_z1_fourier"]}
{"id": "C55", "title": "Convergence driver pairs consecutive results", "statement": "In run.py's loop, at the n-th grid the printed convergence uses the errors of grids n-1 and n and the printed relative convergence uses the solutions of grids n, n-1, n-2 in that order; nothing is printed before enough results exist.", "quantifier": "all lists of grid sizes and results", "why_tests_cant": "All histories.", "anchors": ["run.py", "runz.py"]}
{"id": "C56", "title": "Grid coordinates", "statement": "get_coord_inv is the inverse of get_coord; coordinates are invariant under grid doubling; grid nodes are spaced h = AD_len/N and cover the square exactly.", "quantifier": "all N != 0, AD_len != 0, all nodes", "why_tests_cant": "All sizes.", "anchors": ["solver.py:Solver.get_coord", "solver.py:Solver.get_coord_inv"]}
{"id": "C57", "title": "Advertised problems can be constructed", "statement": "Every problem name offered on the command line resolves to an importable class. Refuted: the package imports modules that are not in the repository, so importing it raises and neither CLI can start.", "quantifier": "all advertised names; the import graph of the repository", "why_tests_cant": "The test-suite imports only ps.multivalue and never touches the package.", "anchors": ["problems/__init__.py"]}
{"id": "C58", "title": "Chebyshev fit recovers expansions", "statement": "If the boundary data on a segment is a combination of the first n_basis <= 1024 basis functions, any least-squares minimiser on the 1024 Chebyshev nodes returns exactly its coefficients (discrete orthogonality).", "quantifier": "all coefficient vectors, all n_basis <= 1024, any minimiser", "why_tests_cant": "All data.", "anchors": ["ps/basis.py:PsBasis.get_chebyshev_coef"]}
{"id": "C59", "title": "The regularised problem is equivalent to the original one", "statement": "u solves the problem posed by ZMethod.do_u_BVP (source f, boundary data eval_bc on the three segments) exactly when u + v_asympt + the Fourier-Bessel part with the computed coefficients solves the homogeneous Helmholtz equation with the original data phi0, phi1, phi2; for iz-bessel the expected solution used in the report solves that problem.", "quantifier": "all coefficient lists, all k > 0, all wedge angles, all curves, all twice differentiable v_asympt, any jv solving Bessel's equation", "why_tests_cant": "An equivalence of boundary value problems over the continuum.", "anchors": ["ps/zmethod.py:ZMethod.do_u_BVP", "ps/zmethod.py:ZMethod.do_algebra"]}
{"id": "C60", "title": "The singular parts solve the homogeneous equation and the remainder solves the ODE step's equation", "statement": "eval_v of the line and quadratic problems solves the homogeneous Helmholtz equation away from the tip, and v - (g + q) solves it with the source f1 used by the ODE step and vanishes on both edges.", "quantifier": "all k > 0, all wedge angles, all r > 0, any jv solving Bessel's equation", "why_tests_cant": "Continuum.", "anchors": ["problems/sing_ihz.py:IH_Bessel.eval_v", "problems/sing_ihz.py:IHZ_Bessel_Quadratic.eval_v", "ps/zmethod.py:ZMethod.do_algebra"]}
{"id": "C61", "title": "The z problem", "statement": "A table v comes from a solution of the system assembled by do_z_BVP exactly when it has phi1 and phi2 on the edges, v_series on the inner circle, the transported sine series plus g + q on the arc and zero compact residual inside; with exact coefficients it equals v on the arc; the comparison coefficients are exact for data of at most M modes; with acheat the table is zero.", "quantifier": "all N >= 1, all radii and angles, all coefficient lists, any sparse solver returning a solution", "why_tests_cant": "All sizes and data.", "anchors": ["ps/zmethod.py:ZMethod.do_z_BVP", "ps/zmethod.py:ZMethod.calc_z1_fourier", "ps/polarfd.py:PolarFD.solve"]}
{"id": "C62", "title": "Interpolation of v", "statement": "create_v_interp hands interp2d strictly increasing tables of at least 6 radii and angles in matching order, so an interpolating interp2d reproduces v at every kept grid point, and every radius in [R - 4/3 bet, R + bet] lies between two kept radii.", "quantifier": "all N >= 5, all R, bet with bet <= R/3, all tables v", "why_tests_cant": "All sizes, including both sides of the cut at N = 128.", "anchors": ["ps/zmethod.py:ZMethod.create_v_interp"]}
{"id": "C63", "title": "The reported error of v", "statement": "get_v_error returns the largest absolute value among the first M sine coefficients of the difference on the inner circles. With all modes compared, 0 means equality; with the program's M = 7 it does not (refuted for N = 16).", "quantifier": "all tables, all exact v, all N >= 2, all M", "why_tests_cant": "All tables.", "anchors": ["ps/zmethod.py:ZMethod.get_v_error"]}
{"id": "C64", "title": "Problems with a known singular solution", "statement": "SingularKnown's expected solution solves the equation solved by eval_expected__no_w, has its data on the edges, and adds to_dst on the circle when to_dst has at most m_max modes; without to_dst it adds nothing.", "quantifier": "all k > 0, all angles, all to_dst with at most m_max modes, all no_w", "why_tests_cant": "Continuum.", "anchors": ["problems/singular.py:SingularKnown"]}
{"id": "C65", "title": "The shape functions", "statement": "eval_hat_x lies in [0, 1/e], is even, and vanishes outside (-1, 1); eval_hat_th vanishes on both edges, peaks in the middle and is symmetric; eval_parabola vanishes exactly on the edges and is positive exactly between them; eval_linesine vanishes on the edges and is the line problem's datum minus its singular part.", "quantifier": "all real arguments", "why_tests_cant": "Continuum.", "anchors": ["problems/functions.py"]}
{"id": "C66", "title": "Default evaluators of a problem", "statement": "A problem overriding one of eval_expected / eval_expected_polar gets the other at the same point, with the angle in [a/2, 2pi + a/2); likewise eval_f / eval_f_polar (0 if homogeneous). One overriding neither never returns.", "quantifier": "all points, all overriding patterns", "why_tests_cant": "All points, including the branch of the angle.", "anchors": ["problems/problem.py:Problem.eval_expected", "problems/problem.py:Problem.eval_f"]}
{"id": "C67", "title": "Fourier-Bessel coefficients of the regularisation", "statement": "get_expected_a_coef returns the rescaled sine coefficients of phi0 - v on the circle; on a circle the least-squares coefficients coincide with them; on any curve a difference of at most M modes is recovered, and the regularised data on the curve are then v - v_asympt.", "quantifier": "all data of at most M modes, any least-squares minimiser, all curves with independent columns", "why_tests_cant": "Any minimiser, all data.", "anchors": ["ps/zmethod.py:ZMethod.calc_a_coef", "ps/zmethod.py:ZMethod.get_expected_a_coef", "abcoef.py"]}
{"id": "C68", "title": "Relative convergence of multivalued functions", "statement": "Multivalue.calc_rel_convergence compares exactly the values with a common setype at nodes common to two grids, takes the maxima, and raises KeyError exactly when such a node is missing.", "quantifier": "all multivalued functions and node sets", "why_tests_cant": "All histories of appends.", "anchors": ["ps/multivalue.py:Multivalue.calc_rel_convergence"]}
{"id": "C69", "title": "Stability and exactness of the ODE step", "statement": "If the remainder z1 has at most N sine modes and odeint returns the end value of a trajectory, calc_z1_fourier returns the coefficients of z1 at R1 exactly; errors d0, d1, d2 in the initial values, initial derivatives and source give a squared coefficient error of at most 4 (d0^2 + d1^2 + d2^2 (R1-R0)) exp(L (R1-R0)). On the program's data this bounds the difference between the ODE vector and get_expected_z1_fourier by the error of the truncated series at R0.", "quantifier": "all k, a < 2 pi, 0 < R0 < R1, M <= N, all z1 with at most N modes, all perturbations", "why_tests_cant": "Continuum of solutions and perturbations.", "anchors": ["ps/ode.py:calc_z1_fourier", "ps/zmethod.py:ZMethod.calc_z1_fourier", "ps/zmethod.py:ZMethod.get_expected_z1_fourier"]}
{"id": "C70", "title": "Boundary curves", "statement": "All five curves start and end on the circle of radius R; the sine curves deviate by at most bet; OuterSine runs outside the circle and InnerSine inside; every one of the program's curves leaves the node border free from N = 16 on and stays within the table of v. The Cubic constant makes bet the largest outward deviation for a = pi/6 but not for the pi/4 in use.", "quantifier": "all R, bet, angles; all N >= 16", "why_tests_cant": "Continuum; a stale constant changes no pass/fail outcome of the tests.", "anchors": ["problems/boundary.py", "domain_util.py", "ps/ps.py:PizzaSolver.is_interior"]}
{"id": "C71", "title": "Boundary sample and expansion tests", "statement": "The sampled points lie on the segment and at the parameter they are recorded with, 5n of them, leaving no stretch out and in increasing order; segment and parameter computed again from x, y agree; c0_test and c1_test never fail and print the largest difference of real parts between the data and the function the coefficients stand for, zero when the data are in the span of the basis. At a point in the removed sector c1_test compares with 0. The tests do not see imaginary parts, and the tolerance of get_sid guards one side only.", "quantifier": "all boundary curves, R, a, sample sizes, coefficient lists, boundary data", "why_tests_cant": "Continuum of data; the diagnostics themselves are untested.", "anchors": ["ps/debug.py:PsDebug", "domain_util.py:get_sid", "chebyshev.py"]}
{"id": "C72", "title": "Construction and run of the solver", "statement": "PizzaSolver.__init__ followed by run, with brentq, chebfit, lstsq and the set order as arguments: the result satisfies the difference equation at every inside node whatever those routines return; on the arc domain both end without an exception on a fine enough grid; with a least-squares solution no other Neumann coefficients bring the result closer to its own boundary data, and a discrete solution whose boundary values come from the basis is reproduced exactly when the discrete boundary determines the coefficients; for a quadratic source the equation holds with the source itself; the reported error is the maximum over the inside nodes. The basis has the sizes of the problem's table unless both are given as options.", "quantifier": "all options, libraries, boundary data, sources; any least-squares minimiser", "why_tests_cant": "Unbounded grids, data and library behaviour; tests run a handful of configurations with one library.", "anchors": ["ps/ps.py:PizzaSolver.__init__", "ps/ps.py:PizzaSolver.run", "ps/ps.py:PizzaSolver.get_var", "ps/ps.py:PizzaSolver.solve_var", "solver.py:Solver.eval_error", "ps/debug.py:PsDebug.Q_residual"]}
{"id": "C73", "title": "The program on its smooth problems", "statement": "For k = 6.75 and 10.75, AD_len = 2 pi and every tabulated N = 16 ... 1024 no eigenvalue of the auxiliary problem vanishes, for either scheme, so that on all five boundary curves the solver's requirements hold; on the arc domain the run of every smooth problem ends, reports the largest difference from the exact solution, and satisfies the difference equation; run.py with -c below 2048 prints exactly the errors and rates of these runs. The source methods generated from the polar expression return the function, its gradient, Hessian and polar derivatives; each boundary curve deviates from the circle in proportion to its amplitude; the tabulated basis sizes grow with N. For an N whose leading binary digits are not 10000 the command does not end.", "quantifier": "all tabulated N, both schemes, three problems, any library meeting its contracts", "why_tests_cant": "The tests run a few grids with one library; non-termination cannot be tested.", "anchors": ["run.py", "problems/smooth.py", "problems/problem.py:Problem.get_n_basis", "problems/sing_ihz.py:_n_basis_dict", "problems/boundary.py", "fourier.py"]}
{"id": "C74", "title": "The regularisation run as a whole", "statement": "ZMethod.run and runz.py for the three singular problems, with jv, gamma, odeint, spsolve, interp2d and the solver's routines as arguments: on the arc domain every run on a tabulated grid ends, and u satisfies the difference equation with the source of the regularised problem; on all boundaries u solves the problem posed to the solver iff u + v_asympt + the Fourier-Bessel part with the computed coefficients solves the original problem; with acheat the solution compared with solves the posed problem; the table v is the compact scheme's solution with the data of the run; the reported errors are the maxima they claim to be; the fitted coefficients are on the arc the rescaled sine transform of phi0 - v on 2048 nodes and on the other curves those of phi0 - v when it is a sum of up to 200 terms; passing on the cached coefficients changes nothing; runz.py prints the report of the runs N0, 2 N0, ... up to c. False: that a ZMethod can be run without runz.py's assignment of z1_fourier; that runz.py ends for every N >= 16.", "quantifier": "three problems, five boundaries, all tabulated N, both schemes, all flags, any libraries meeting their contracts", "why_tests_cant": "Continuum of solutions and library results; non-termination cannot be tested.", "anchors": ["ps/zmethod.py:ZMethod.run", "ps/zmethod.py:ZMethod.do_u_BVP", "ps/zmethod.py:ZMethod.calc_z1_fourier", "runz.py", "problems/sing_ihz.py", "problems/problem.py:Problem.get_m1"]}
{"id": "C75", "title": "The smooth problems on all boundary curves", "statement": "For each of the five boundary curves with R = 2.3 and a = pi/4: on every grid of at least 16 cells the placement of the grid boundary succeeds, a node being put on a piece iff the piece comes within h sqrt 2 of it, never on all three, with its signed distance to the curve and the parameter of the nearest curve point; the fourth-order source extension reaches every node and stores the second-order expansion from a boundary point within h sqrt 2; the run of every smooth problem on every tabulated grid ends, reports the largest difference from the exact solution and satisfies the difference equation, for smooth-ycos if no node lies on the curve; run.py prints the errors and rates of these runs; the fourth-order source of smooth-ycos is within 45 (h sqrt 2)^3 of the true one at the inside nodes and their neighbours; the difference of computed and exact solution satisfies the homogeneous difference equation up to a residual of order h^4 (h^3 for smooth-ycos) with explicit constants; the regularisation run and runz.py end on every curve that meets no node.", "quantifier": "five curves, all N >= 16 (placement) or all tabulated N (runs), both schemes, any library meeting its contracts", "why_tests_cant": "The nearest-point search runs on a continuum of curve points; tests use few grids and one root finder.", "anchors": ["problems/boundary.py", "ps/ps.py:PizzaSolver.get_boundary_coord", "ps/grid.py", "ps/extend.py", "ps/inhomo.py", "run.py", "problems/smooth.py"]}
{"id": "C76", "title": "Accuracy of the z1 coefficients", "statement": "The coefficients z1_fourier of a regularisation run are the sine coefficients of v - (g + q) on the arc r = R + bet up to an explicit error: a multiple of the fourth power of the angular step (1024 nodes for the ODE right-hand side, 2048 with z1cheat), plus the amplified error of the initial data, the ten terms of v_series at r = 0.1 reproducing v to 1e-18 and its derivative to 1e-15. The ODE system of each problem has exactly one trajectory. In numbers: the first coefficient of iz-bessel and ihz-bessel-line is right to 1e-4/Gamma(9/7) on every boundary.", "quantifier": "three problems, five boundaries, all N, any jv and gamma with the Bessel series, any odeint returning the end of the trajectory", "why_tests_cant": "The statement is about integrals and an ODE on a continuum; tests compare a few numbers with a reference of unknown accuracy.", "anchors": ["ps/ode.py", "ps/zmethod.py:ZMethod.calc_z1_fourier", "problems/sing_ihz.py", "fourier.py:arc_dst"]}
{"id": "C77", "title": "Error bound of a run", "statement": "Let v be any grid function whose residual in the difference equation is at most eta at the inside nodes. A solution formed from boundary data at l2 distance eps from v on the discrete boundary differs from v by at most A eps + (N-1) eta/delta, where delta is the distance of the eigenvalues of the auxiliary problem from 0 and A = 1 + (k^2 + 8/h^2)/delta. If some Neumann coefficients come within eps of v, the computed solution differs from v by at most A (eps + 2 kappa ((A+1) eps + (N-1) eta/delta)) + (N-1) eta/delta, where kappa is the stability constant of the Neumann data, which exists whenever they are determined. For the smooth problems the reported error is bounded by the distance of the run's boundary data from the exact solution and a term of the order of the scheme.", "quantifier": "all options the constructor accepts, all grid functions v and boundary data; the five curves and seven tabulated grids for the smooth problems", "why_tests_cant": "Tests compare errors on successive grids; they do not bound the error in terms of the data, and cannot quantify over all data.", "anchors": ["ps/ps.py:PizzaSolver.run", "ps/ps.py:PizzaSolver.get_potential", "fourier.py:APSolver.solve", "linop.py:apply_L"]}
{"id": "C78", "title": "Resonances listed by resonance.py", "statement": "For side length s the script prints, in increasing order, the fifteen numbers pi sqrt(a^2+b^2)/|s| with a and b odd and 1 <= a <= b <= 9, and fails for s = 0 only. Each is a wavenumber for which the Helmholtz equation on the square of side s has a non-zero solution vanishing on the sides. Other resonances between them are not listed. For N >= 10 the difference scheme of order 2 or 4 on that square is singular for some wavenumber k' with |k^2 - k'^2| <= k^4 h^2/12 or k^6 h^4/10.", "quantifier": "all real side lengths, all N >= 10, both orders", "why_tests_cant": "There is no test of the script; the claim about solutions of the differential equation and about all N is not testable by runs.", "anchors": ["scripts/resonance.py", "fourier.py:APSolver.calc_eigenvals"]}
{"id": "C79", "title": "extend_basis_test.py succeeds", "statement": "For every solver whose discrete boundary was attributed to segments the script prints SUCCESS, and all differences between the extension of a basis function and the extension of the unit coefficient vector are exactly zero; in particular for the smooth problems on the five curves and the tabulated grids.", "quantifier": "all such solvers; all library routines within their contracts", "why_tests_cant": "The script runs N = 16 and one problem and boundary at a time, and tolerates 1e-14.", "anchors": ["scripts/extend_basis_test.py", "ps/basis.py:PsBasis.extend_basis", "ps/extend.py:PsExtend.extend_boundary"]}
{"id": "C80", "title": "Accuracy measured by test_extend_f.py", "statement": "With all segments allowed run_test returns the largest difference, over the inside nodes and their four neighbours, between the source of smooth-ycos and the source stored by the solver; for any choice of segments what it returns is at most (k^2-1)(sqrt(2) h)^3. The script visits N = 16, 32, 64, 128, 256 and compares each error with the one before.", "quantifier": "the seven tabulated grids, all choices of segments, all set orders", "why_tests_cant": "The script prints numbers to be judged by eye.", "anchors": ["scripts/test_extend_f.py", "ps/inhomo.py:PsInhomo.extend_f"]}
{"id": "C81", "title": "optimize_basis.py picks the best sizes", "statement": "When the script finishes, the triple printed last is a pair of the sizes tried (30, 35, ..., 95 on the curve; 17, 21, ... below that on the radii) with the error of the run with those sizes; no pair tried has a smaller error and no earlier pair an equal one. It finishes for the smooth problems on the outer sine on the tabulated grids. If the true solution is not known and all runs finish it raises TypeError.", "quantifier": "all options, all library routines; tabulated grids for termination", "why_tests_cant": "A run of the script shows one outcome; minimality over the pairs and the failure mode are not checked.", "anchors": ["scripts/optimize_basis.py", "ps/ps.py:PizzaSolver.run"]}
{"id": "C82", "title": "Accuracy of the extension and of the solution", "statement": "For each of the five curves and each wavenumber there is a constant K, the same for all grids, coefficients and solutions, such that: if the Chebyshev coefficients represent the values and the normal derivatives of a solution of the homogeneous Helmholtz equation up to eps, with four derivatives, then the value extended to a node from any of its segments (standard, left or right), and the boundary data formed from these, differ from the solution at the node by at most K (eps + M h^5), M bounding the derivatives up to order 6. The solution the fourth-order solver forms from such data differs from the true one, at every node it reaches, by at most A sqrt(#gamma) K (eps + M h^5) + (N-1)/delta * M h^4/15.", "quantifier": "five curves, all wavenumbers, all N >= 16, all coefficients, all solutions with six derivatives, all brentq and set orders within their contracts", "why_tests_cant": "extension_test.py prints errors and rates for single problems; a bound uniform over solutions, coefficients and grids is beyond any number of runs.", "anchors": ["ps/extend.py:PsExtend.do_extend_0_standard", "ps/extend.py:PsExtend.do_extend_1_left", "ps/extend.py:PsExtend.mv_extend_boundary", "extend.py:SolverExtend.extend_polar", "ps/ps.py:PizzaSolver.run"]}
{"id": "C83", "title": "extension_test.py measures the extension, of fifth order", "statement": "For every smooth problem and each of the five curves (smooth-ycos: no grid node on the curve), run_test fits the values and normal derivatives of the true solution with 115 and 30 Chebyshev functions, extends the fits and returns the largest difference to the solution over the entries of the extension with the setypes asked for; ValueError if there is none, and without setypes there always are some. For each curve there is a constant K with error <= K (eps + h^5) for the three problems, every grid, every setype selection and fits accurate to eps. The program visits the grids 16, 32, 64, 128 and compares each error with the previous one.", "quantifier": "three smooth problems, five curves, all table sizes N, all setype selections, all library calls within their contracts", "why_tests_cant": "The script is itself a test that prints one number per grid; that this number is the maximum claimed and falls with the fifth power of h on all grids cannot be seen from its output.", "anchors": ["scripts/extension_test.py", "problems/smooth.py:SmoothProblem.eval_d_u_outwards", "ps/debug.py:PsDebug.calc_c1_exact", "ps/extend.py:PsExtend.mv_extend_boundary"]}
{"id": "C84", "title": "c0_basis.py prints the misfit of the boundary values", "statement": "For every smooth problem on the outer sine the script ends after the sizes 10, 15, ..., 95 on the curve with floor(3n/4) functions on each radius, and prints for each the largest difference between the real parts of the true solution and of its Chebyshev expansion over the boundary sample, on the curve and on the whole boundary.", "quantifier": "three smooth problems, all table sizes N, all library calls within their contracts", "why_tests_cant": "No test runs the script; termination for all N and what the printed numbers mean are not observable from its output.", "anchors": ["scripts/c0_basis.py", "ps/debug.py:PsDebug.c0_test", "ps/basis.py:PsBasis.calc_c0"]}
{"id": "C85", "title": "Accuracy with a source term", "statement": "For each of the five curves and each wavenumber there is a constant K such that, if no grid node lies on the curve, the extension of boundary data fitted to eps plus the extension of the source differs from the solution of the inhomogeneous Helmholtz equation at every node of the discrete boundary by at most K (eps + M h^5), M bounding the derivatives of the solution up to order six on the square. The error reported by the fourth-order runs of all smooth problems, smooth-ycos included, is at most the amplification of the discrete operator times the l2 norm of this quantity, plus the consistency error of the scheme; with a minimising least-squares solver this holds with the stability constant of the Neumann system whatever coefficients fit the normal derivative.", "quantifier": "all table sizes N, orders 2 and 4 of the scheme, all smooth solutions and sources, all library calls within their contracts", "why_tests_cant": "Convergence tables on a few grids show a rate for one solution; that the bound holds on every grid for every solution and source is not testable.", "anchors": ["ps/extend.py:PsExtend.extend_boundary", "ps/inhomo.py:PsInhomo.do_extend_inhomo_0_standard", "ps/inhomo.py:PsInhomo._extend_inhomo_0_lr", "ps/inhomo.py:PsInhomo._calc_inhomo_radius", "ps/inhomo.py:PsInhomo.mv_extend_inhomo_f", "ps/ps.py:PizzaSolver.run", "problems/smooth.py:Smooth_YCos"]}
{"id": "C86", "title": "Accuracy of the table v on the polar grid", "statement": "For each singular problem and boundary there is a constant K such that every entry of the table v computed by the polar solver differs from the function v of the problem by at most sigma (K (hr^4 + hth^4) + d + the errors of the seven coefficients + 10^-18 times the size of v), where sigma is a stability constant of the difference equations and d the part of v - (g + q) on the arc outside the seven sine modes; the error printed for v is at most twice that. For N = 16 and N = 32 the assembled system has exactly one solution and the difference equations have a stability constant, so with library calls that keep their contracts the bound holds with the coefficient errors of C76.", "quantifier": "all N in the bound, N = 16 and 32 in the statement without a stability hypothesis; all three problems, five boundaries, both settings of z1cheat", "why_tests_cant": "A test sees the error of one grid; it cannot show that the system of every problem and boundary is solvable nor bound the error by the fourth power of the steps.", "anchors": ["ps/polarfd.py:PolarFD.solve", "ps/polarfd.py:PolarFD.set_fd4", "ps/zmethod.py:ZMethod.do_z_BVP", "ps/zmethod.py:ZMethod.get_v_error", "ps/zmethod.py:ZMethod.run"]}
{"id": "C87", "title": "Accuracy of the Fourier-Bessel coefficients", "statement": "None of the first 200 Bessel factors J_{4m/7}(2.3 k) is zero for the two wavenumbers of the singular problems. On the arc the fitted coefficient a_m differs from the exact one by at most 2 delta / |J_{4m/7}(2.3 k)|, where delta is the error of the interpolant of v on the arc, and the boundary values used for u by at most 14 delta. A table within D of v and an interpolation of norm Lam and error eta give delta <= Lam D + eta on every curve; for N = 16 and 32 D is the bound of C86. On the other curves the fit of 200 modes is stable with a constant depending only on problem and curve, whenever the modes are independent at the nodes.", "quantifier": "all three problems, both settings of z1cheat, every delta; all runs, N = 16 and 32 where C86 is used", "why_tests_cant": "A test compares printed coefficients of one run; it cannot show how an error of v reaches every coefficient, nor that a Bessel factor is non-zero rather than small.", "anchors": ["abcoef.py:calc_a_coef", "abcoef.py:b_to_a", "ps/zmethod.py:ZMethod.calc_a_coef", "ps/zmethod.py:ZMethod.create_v_interp", "ps/zmethod.py:ZMethod.run"]}
{"id": "C88", "title": "What the regularisation leaves at the tip", "statement": "Between the tip and r = 1/10 the regular part v - v_asympt of each singular problem has radial derivatives of every order; the one of order j is O(r^(4 + 2/7 - j)) uniformly in the angle, so the first four vanish at the tip. Its leading term is the first term of the series left out by _nterms = 2. The fifth radial derivative is unbounded along every ray other than the edge theta = a: the function handed to the fourth-order scheme does not have the six bounded derivatives its consistency needs there. The source of the regularised equation has a closed form there; its radial derivative of order j is O(r^(2 + 2/7 - j)), so that the second derivatives used by the source extension are bounded, and the third is unbounded along every ray other than that edge.", "quantifier": "all three problems, all angles, all orders of derivative, all Gamma and Bessel functions with the stated series", "why_tests_cant": "Finitely many samples of a function never show the order of a singularity or that a derivative is unbounded.", "anchors": ["problems/sing_ihz.py:IH_Bessel.v_asympt", "problems/sing_ihz.py:IHZ_Bessel_Quadratic.v_asympt", "problems/sing_ihz.py:get_v_asympt0", "problems/sing_ihz.py:get_tapering_func"]}
{"id": "C89", "title": "The sparse matrix handed to spsolve", "statement": "For N >= 1 the list of entries built by PolarFD.solve gives a matrix of shape (N+1)^2 x (N+1)^2, matching the right-hand side; no position is entered twice and there are 4N + 9(N-1)^2 entries; the compressed columns hold exactly these entries and their system is the one of the boundary conditions and stencils. For N < 0 the call fails at max of an empty list. For any list of entries the matrix is accepted exactly if its greatest row and column agree and match the right-hand side (ValueError otherwise), and values given for the same position are added up.", "quantifier": "all N, all data", "why_tests_cant": "A test sees one N; a position entered twice would be added up silently by scipy and a missing last column would shrink the matrix only for some N.", "anchors": ["ps/polarfd.py:PolarFD.solve"]}
{"id": "C90", "title": "From the command line to the run", "statement": "A command line of run.py or runz.py (options written in full) is accepted exactly when it consists of the two names and well-formed options in any order, a bare -c not directly before a name; each option has the value given last or its default. Both names are required: the default 'arc' of the boundary never takes effect. A bare -c before the problem name is never accepted. The accepted values reach the listing of the options and the solver: on the arc, for tabulated sizes, the driver lists k, R, a, bet, m1 and the basis sizes of all grids and prints what C73 and C74 describe. For a single grid of a size with other leading digits the listing never ends. The five commands of scripts/multirun.py are accepted and ask for tabulated grids only.", "quantifier": "all argument lists in the stated forms, all option values, all dates", "why_tests_cant": "Tests never call the argument parser; the ineffective default and the greedy -c show only for particular orders of the arguments.", "anchors": ["io_util.py:add_arguments", "io_util.py:print_options", "run.py:parser", "runz.py:parser", "scripts/multirun.py:worker"]}
{"id": "C91", "title": "The project's unit tests", "statement": "The comparison used by the unit tests of Multivalue accepts exactly when the nodes agree and every value of the first object has at its place in the second a value of the same type within 1e-13; it is not symmetric, since surplus values of the second object go unnoticed. What test_add checks for one pair holds for all pairs of objects with the same nodes and types: both sums exist and pass the comparison. Of the four shipped tests three pass; test_reduce_mv1 fails, although the documented weighted average would pass it. test_getitem and test_reduce0 accept exactly the implementations with the stated values on their fixtures.", "quantifier": "all well-formed objects for the comparison and for addition; the four shipped tests", "why_tests_cant": "The statement is about the tests themselves: that they accept all sums, and which differences they cannot see.", "anchors": ["test/ps/test_multivalue.py:is_equal", "test/ps/test_multivalue.py:TestMultivalue", "ps/multivalue.py:Multivalue.__add__", "ps/multivalue.py:Multivalue.reduce"]}
{"id": "C92", "title": "The convergence test of the polar scheme", "statement": "The source that scripts/polarfd/sym.py derives from three terms of the Bessel series, and its three derivatives, have a closed form; the function scripts/polarfd/test.py takes as exact solution solves the Helmholtz equation with that source away from the tip and vanishes on the edge a. Its radial derivative of order j is O(r^(6 + 3/11 - j)), so the six derivatives a fourth-order scheme needs are bounded. With the present PolarFD, started at any radius R0 > 0, every solution of the assembled system is within sigma K (hr^4 + hth^4) of it, sigma a stability constant. As shipped, this script and scripts/zmethod/interp_test.py end with a TypeError on their first grid, since PolarFD is called with too few arguments; with a constructor that accepted them, both would go through the grids 16, 32, 64 and 128 and end well exactly when the rest does on each.", "quantifier": "all radii and angles, all starting radii R0, all N, all Gamma and Bessel functions with the stated series", "why_tests_cant": "The script is a test that cannot run any more; that the data it uses belong to one exact solution, and that the error falls with the fourth power of the steps on every grid, is not observable from it.", "anchors": ["scripts/polarfd/sym.py", "scripts/polarfd/test.py", "scripts/zmethod/interp_test.py", "ps/polarfd.py:PolarFD"]}
{"id": "C93", "title": "Uniform stability of the auxiliary problem", "statement": "For the wave number 27/4 of the smooth problems on the square of side 2 pi, every eigenvalue of the fourth-order scheme is at least 9/50 away from zero on every grid with N >= 32, and 12/125 for N = 16; for the wave number 43/4 the distances are 13/100 for N >= 64, 63/1000 for N = 32 and 4 for N = 16. The mode (9, 10) never gets further away than 5/16. Hence APSolver.solve is bounded in the discrete l2 norm with one constant for all grids, and the error a fourth-order run of a smooth problem reports is at most K (eps / h^3 + h^2) when its coefficients fit the data within eps, K depending on the boundary curve only. The fourth-order runs of runz.py have the same distances, on every curve and with any coefficients. The second-order scheme on the grid of 32 cells has an eigenvalue below 9/4000.", "quantifier": "all N from 32 (64) on, all modes; all right-hand sides; the three smooth problems, the five curves and the grid sizes of the table for the error", "why_tests_cant": "A run sees one grid; an eigenvalue near zero on some other grid shows only as a loss of digits there.", "anchors": ["fourier.py:APSolver.calc_eigenvals", "fourier.py:APSolver.solve", "problems/smooth.py:SmoothProblem", "problems/sing_ihz.py:IHZ_Bessel_Quadratic", "ps/ps.py:PizzaSolver.run"]}
{"id": "C94", "title": "What the plotting scripts show", "statement": "For each of the five curves and every tabulated grid size each figure of scripts/plot_domain.py shows what its labels claim: M+ the inside nodes, M- the other nodes of the open grid, K+ the inside nodes and their four neighbours, N+ and N- the nodes touched by a 3 x 3 block of an inside (outside) node, gamma_1, gamma_2, gamma_3 the nodes in both that are within h sqrt 2 of the upper radius, the lower radius and the curve; every node is drawn once, at its coordinates. The outline consists of 500 boundary points, one within 1/20 of any boundary point. In scripts/plot_domain2.py all curves join the ends of the two radii except the cubic, which misses the corner. print_c1 shows every coefficient once, in the slice of its segment.", "quantifier": "all five curves, all tabulated grid sizes, every iteration order of the sets; all basis sizes and coefficient vectors for print_c1", "why_tests_cant": "A figure is judged by eye; a missing or doubled node among thousands, or a curve off by one per cent, is not seen.", "anchors": ["scripts/plot_domain.py", "scripts/plot_domain2.py", "ps/debug.py:PsDebug.print_c1"]}
{"id": "C95", "title": "The code generators", "statement": "For every solution with four total derivatives scripts/codegen/rhs_derivs.py prints f = Laplacian(u) + k^2 u, the gradient and the symmetric Hessian of f, and the five derivatives of f in polar coordinates, which are the ones the chain rule gives from gradient and Hessian; the generator for polar coordinates prints the same source and derivatives away from the origin. The operator of scripts/apply_helmholtz.py is the Helmholtz operator; for u = r it prints 1/r + k^2 r and the unit radial vector. The five expressions of scripts/codegen/chebyshev_derivs.py have the values of the formulas in chebyshev.py, for every degree. The search of scripts/abcoef/generate_data.py keeps the smallest even column number from 8 to 248 with the least error; on the arc the coefficients of a SingularKnown problem are exact for every column number from 7 to 300, so it keeps 8.", "quantifier": "all k, all four (two) times differentiable functions, all points (off the origin where stated), all degrees, all error functions", "why_tests_cant": "The generators print formulas; whether a formula is right for all functions and points cannot be sampled.", "anchors": ["scripts/codegen/rhs_derivs.py", "scripts/codegen/chebyshev_derivs.py", "scripts/apply_helmholtz.py", "scripts/abcoef/generate_data.py"]}
{"id": "C96", "title": "What the relative convergence says about the errors", "statement": "For three successful runs of a smooth problem on M, 2M and 4M cells with printed errors e2, e1, e0 on any of the five curves, the two maxima whose ratio calc_rel_convergence uses are taken over exactly the inside nodes of the coarser grid of each pair, at coinciding points, and lie within [e2 - e1, e2 + e1] and [e1 - e0, e1 + e0]. If the errors decrease the result v is a number with (e2 - e1)/(e1 + e0) <= 2^v <= (e2 + e1)/(e1 - e0); if they decrease by a factor q it differs from log2 q by at most log2((q + 1)/(q - 1)). The same holds for any arrays, expected function and set of points, and for the solver of a run of runz.py with any function in the place of the unknown remainder. Multivalues with one value of one sort per node give the same result as the arrays.", "quantifier": "all smooth problems, five curves, tabulated grid sizes, both orders; all arrays, functions and sets of points", "why_tests_cant": "A test compares two printed numbers; that the relative convergence is tied to the true one for every solution is a statement about all arrays.", "anchors": ["solver.py:Solver.calc_rel_convergence", "solver.py:Solver._array_calc_rel_convergence", "ps/multivalue.py:Multivalue.calc_rel_convergence"]}
{"id": "C97", "title": "The experiments with the Fourier-Bessel coefficients", "statement": "generate_data2.py writes twelve differently named files, one per problem and boundary, each with the column numbers 10, 15, ..., 275, the errors of the seven coefficients and the singular values for each; its counter ends at n_tests. bet_generate.py produces 100 results, the one of number i for bet = .5 (.95)^i (always between .003 and .5), all with the column number of the first boundary. run_test.py raises AttributeError after the header of m1 = 10, as no problem has a method eval_expected_; with one that returns and real coefficients it goes through 10, 12, ..., 248 and marks exactly the errors below all earlier ones, and the first coefficient that is not real ends it with an AssertionError. The sum of 500 terms in expansion_error.py raises IndexError for the 300 coefficients SingularKnown keeps, and for every list shorter than 500.", "quantifier": "all results of calc_a_coef, all problems and boundaries, all angles", "why_tests_cant": "The scripts are experiments that no test runs; the problems they name are not in the repository, so a test could not run them.", "anchors": ["scripts/abcoef/generate_data2.py", "scripts/abcoef/bet_generate.py", "scripts/abcoef/run_test.py", "scripts/abcoef/expansion_error.py", "problems/singular.py:SingularKnown"]}

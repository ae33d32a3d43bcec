{"id": "C01", "title": "Splines form a partition of unity", "statement": "For a clamped or periodic SplineBasis(n,p,type) with default knots (p<n), the values s(x,0),...,s(x,n-1) sum to exactly 1 at every x in [0,1] (clamped) resp. [0,1) (periodic), for every degree.", "quantifier": "every degree p, every number n of splines within the knot-spacing tolerance, every real x", "why_tests_cant": "degrees, sizes and evaluation points are unbounded; a test samples a few p, n and a grid of x", "anchors": ["mrx/spline_bases.py: SplineBasis.evaluate", "mrx/spline_bases.py: SplineBasis._p_spline", "mrx/spline_bases.py: SplineBasis._init_knots"]}
{"id": "C02", "title": "Splines are non-negative, bounded by 1, and locally supported", "statement": "Every value s(x,i) is in [0,1] and vanishes when x is outside the (p+1)-cell support of spline i; at every x at most p+1 clamped splines are non-zero.", "quantifier": "every p, n, i, and real x", "why_tests_cant": "unbounded degrees, sizes and points", "anchors": ["mrx/spline_bases.py: SplineBasis.evaluate", "mrx/spline_bases.py: SplineBasis._evaluate"]}
{"id": "C03", "title": "DerivativeSpline spans exact derivatives", "statement": "At every x in the interior of a knot cell the derivative of s(.,i) exists and equals d(x,i-1)-d(x,i) (clamped, with out-of-range terms zero; periodic with indices mod n), where d=DerivativeSpline(s).", "quantifier": "every p>=1, n, spline index i and non-knot x", "why_tests_cant": "autodiff tests sample few points; this is an identity between functions", "anchors": ["mrx/spline_bases.py: DerivativeSpline.evaluate", "mrx/spline_bases.py: SplineBasis.evaluate"]}
{"id": "C04", "title": "Clamped splines interpolate at the end points", "statement": "s(0,i) is 1 for i=0 and 0 otherwise; s(1,i) is 1 for i=n-1 and 0 otherwise.", "quantifier": "every p>=1, n>p, i<n", "why_tests_cant": "unbounded p and n", "anchors": ["mrx/spline_bases.py: SplineBasis.evaluate"]}
{"id": "C05", "title": "Periodic splines close up", "statement": "For periodic splines of degree >=1, s(0,i)=s(1,i) for every i.", "quantifier": "every p>=1, n>p, i<n", "why_tests_cant": "unbounded p and n", "anchors": ["mrx/spline_bases.py: SplineBasis.evaluate"]}
{"id": "C06", "title": "Large bases silently vanish (limit of C01)", "statement": "The partition of unity of C01 does not hold for every n accepted by the constructor: the isclose tolerance makes all splines identically zero for very large n.", "quantifier": "existence of an accepted (n,p) for which the sum is 0 everywhere", "why_tests_cant": "the failing size is far outside what tests instantiate", "anchors": ["mrx/spline_bases.py: SplineBasis._const_spline", "mrx/spline_bases.py: SplineBasis.__init__"]}
{"id": "C07", "title": "DerivativeSpline at the right end point", "statement": "The one-sided derivative identity of C03 does not extend to x=1 for clamped splines: the last derivative spline evaluates to 0 there and another one carries its value.", "quantifier": "every p>=2, n at x=1", "why_tests_cant": "single-point anomaly at the end point, not visited by Gauss nodes", "anchors": ["mrx/spline_bases.py: DerivativeSpline.evaluate", "mrx/spline_bases.py: SplineBasis.evaluate"]}
{"id": "C08", "title": "Constructor validation", "statement": "SplineBasis(n,p,type) succeeds exactly when type is one of the four known types and (p<n or p=1) (and knots can be built); otherwise it raises ValueError. TensorBasis accepts exactly three bases.", "quantifier": "every n, p, type string", "why_tests_cant": "all inputs incl. the p=1 escape", "anchors": ["mrx/spline_bases.py: SplineBasis.__init__", "mrx/spline_bases.py: TensorBasis.__init__"]}
{"id": "C09", "title": "Linear and vector indices are inverse", "statement": "For k in {0,1,2,3,-1}, _vector_index maps 0..n-1 bijectively onto the triples (component, i,j,k) of the component shapes, and _ravel_index inverts it on both sides.", "quantifier": "every shape (dr,dt,dz,nr,nt,nz) and every index", "why_tests_cant": "unbounded sizes; off-by-one at component boundaries", "anchors": ["mrx/differential_forms.py: DifferentialForm._vector_index", "mrx/differential_forms.py: DifferentialForm._ravel_index"]}
{"id": "C10", "title": "Dimensions of form spaces", "statement": "The dimension of the k-form space is the number of its index triples; n0-n1+n2-n3 equals the Euler characteristic of the periodicity type (1 for three clamped directions, 0 as soon as one is periodic).", "quantifier": "every n per direction, every type combination", "why_tests_cant": "unbounded sizes", "anchors": ["mrx/differential_forms.py: DifferentialForm.__init__"]}
{"id": "C11", "title": "Tensor-product evaluation of form basis functions", "statement": "Evaluating basis form i of degree k gives the product of the correct univariate splines/derivative splines in the correct vector component and zero in the other components.", "quantifier": "every k, sizes, index, point", "why_tests_cant": "all indices and points", "anchors": ["mrx/differential_forms.py: DifferentialForm.evaluate", "mrx/spline_bases.py: TensorBasis.evaluate"]}
{"id": "C12", "title": "DiscreteFunction evaluation is linear in the DoFs", "statement": "DiscreteFunction(a*u+b*v) evaluates to a*DiscreteFunction(u)+b*DiscreteFunction(v) and a unit vector of DoFs reproduces the extracted basis form.", "quantifier": "every extraction matrix, DoFs, point", "why_tests_cant": "all DoF vectors", "anchors": ["mrx/differential_forms.py: DiscreteFunction.__call__"]}
{"id": "C13", "title": "Tensor quadrature pairs points and weights consistently", "statement": "QuadratureRule enumerates every triple (node_x,node_y,node_z) exactly once and pairs it with the product of its weights; hence quadrature of a product of univariate functions is the product of the univariate quadratures.", "quantifier": "all numbers of nodes per direction", "why_tests_cant": "orderings (meshgrid xy) for non-cubic shapes and all sizes", "anchors": ["mrx/quadrature.py: QuadratureRule.__init__"]}
{"id": "C14", "title": "Composite quadrature covers the mesh", "statement": "composite_quad yields, for an increasing breakpoint list, m nodes inside each open cell, positive weights adding up to the total length, in increasing order of cells.", "quantifier": "all breakpoint lists and orders", "why_tests_cant": "unbounded breakpoints", "anchors": ["mrx/quadrature.py: composite_quad"]}
{"id": "C15", "title": "Gauss quadrature exactness", "statement": "With order m (1..10) the composite rule integrates every polynomial of degree <=2m-1 exactly on any mesh, up to the rounding of the tabulated constants (relative 1e-14).", "quantifier": "all meshes and polynomials up to degree 2m-1, for all tabulated m", "why_tests_cant": "all polynomials and meshes; wrong digit in table", "anchors": ["mrx/quadrature.py: nodes_and_weights", "mrx/quadrature.py: composite_quad"]}
{"id": "C16", "title": "Trapezoidal rule on the circle", "statement": "The trapezoidal rule with n points integrates 1 exactly and annihilates cos(2 pi k x), sin(2 pi k x) for all k not divisible by n-1 (the rule has n points, n-1 cells).", "quantifier": "all n and k", "why_tests_cant": "all n,k", "anchors": ["mrx/quadrature.py: trapezoidal_quad"]}
{"id": "C17", "title": "Silent quadrature order cap", "statement": "nodes_and_weights silently returns the 10-point rule for every order above 10 (so exactness 2m-1 fails for m>10).", "quantifier": "every order", "why_tests_cant": "orders outside the table are never tested", "anchors": ["mrx/quadrature.py: nodes_and_weights", "mrx/quadrature.py: select_quadrature"]}
{"id": "C18", "title": "Boundary operator selects exactly the free DoFs", "statement": "For k in {0,1,2,3} the LazyBoundaryOperator matrix B has one 1 per row, at most one per column, keeps exactly the DoFs with vanishing trace on the Dirichlet faces, so B B^T = I and B^T B is the projector on free DoFs.", "quantifier": "every shape and type combination", "why_tests_cant": "sizes/boundary types unbounded", "anchors": ["mrx/boundary.py: LazyBoundaryOperator"]}
{"id": "C19", "title": "Boundary operator for vector fields (k=-1)", "statement": "For k=-1 with Dirichlet in r, the matrix is not the selection of the interior DoFs.", "quantifier": "existence of a shape", "why_tests_cant": "only the k=-1 path", "anchors": ["mrx/boundary.py: LazyBoundaryOperator"]}
{"id": "C20", "title": "Polar extraction rows are well defined", "statement": "The extraction operator E_k has the advertised number of rows, every interior DoF has exactly one unit row, and rows of the axis block are combinations of the first two rings only.", "quantifier": "all sizes nr,nt,nz", "why_tests_cant": "unbounded sizes", "anchors": ["mrx/polar.py: LazyExtractionOperator"]}
{"id": "C21", "title": "Extracted 0-forms are single valued at the axis", "statement": "Every function spanned by the extracted 0-forms has a value at r=0 independent of theta; the extracted 0-forms form a partition of unity with convex weights near the axis; an extracted 0-form has on the second ring its axis value plus a first harmonic in theta (a well-defined gradient at the axis), and all such forms are extracted.", "quantifier": "all sizes, DoFs, angles", "why_tests_cant": "all DoFs and angles", "anchors": ["mrx/polar.py: LazyExtractionOperator", "mrx/polar.py: get_xi"]}
{"id": "C22", "title": "Derivative getters compute the exterior derivative", "statement": "For (clamped, periodic, periodic) splines with nr=nt>=nz (or Dirichlet and nt>=nr), the tabulated d of every basis 0-,1-,2-form equals its exterior derivative.", "quantifier": "all sizes satisfying the side condition; all indices and quadrature points", "why_tests_cant": "unbounded sizes", "anchors": ["mrx/derham_sequence.py: DeRhamSequence.get_d_Lambda_0_ijk", "mrx/derham_sequence.py: DeRhamSequence.get_d_Lambda_1_ijk", "mrx/derham_sequence.py: DeRhamSequence.get_d_Lambda_2_ijk"]}
{"id": "C23", "title": "Derivative getters are wrong when nr differs from nt", "statement": "For nt<nr the gradient of an interior basis function is wrong; for nt>nr the gradient of the boundary function is wrong.", "quantifier": "existence of shapes", "why_tests_cant": "tests always use equal sizes", "anchors": ["mrx/derham_sequence.py: DeRhamSequence.get_d_Lambda_0_ijk"]}
{"id": "C24", "title": "Discrete complex: curl grad = 0 and div curl = 0", "statement": "strong_curl @ strong_grad = 0 and strong_div @ strong_curl = 0 for every metric and quadrature, and the strong derivatives are integer (metric-free) matrices whenever mass matrices are invertible.", "quantifier": "all sizes, all maps, all quadrature rules", "why_tests_cant": "tests sample one map and check to tolerance", "anchors": ["mrx/derham_sequence.py: DeRhamSequence.assemble_all", "mrx/derham_sequence.py: DeRhamSequence"]}
{"id": "C25", "title": "Weak derivatives are the negative mass-adjoints and form a complex", "statement": "<weak_grad p, u>_{M2} = -<p, div u>_{M3} etc. for all DoFs, weak_div@weak_curl=0, weak_curl@weak_grad=0.", "quantifier": "all DoFs, maps, sizes", "why_tests_cant": "for all DoFs", "anchors": ["mrx/derham_sequence.py: DeRhamSequence"]}
{"id": "C26", "title": "Mass matrices are symmetric positive (semi-)definite", "statement": "M_k is symmetric, x^T M_k x >= 0 whenever weights and Jacobian are positive, and x^T M_k x equals the quadrature of |form|^2.", "quantifier": "all DoFs, all positive weights and maps", "why_tests_cant": "all DoFs and maps", "anchors": ["mrx/derham_sequence.py: DeRhamSequence.assemble_M1", "mrx/lazy_matrices.py: LazyMassMatrix"]}
{"id": "C27", "title": "Hodge Laplacians are self-adjoint and positive semidefinite", "statement": "For k=0..3, M_k dd_k is symmetric and PSD; x^T M_k dd_k x=0 iff x is closed and co-closed (harmonic).", "quantifier": "all DoFs, maps, sizes", "why_tests_cant": "all DoFs", "anchors": ["mrx/derham_sequence.py: DeRhamSequence"]}
{"id": "C28", "title": "Leray projection", "statement": "P_Leray u is discretely divergence free for every u; P is idempotent, M2-self-adjoint, the identity on divergence-free fields, and u-P u is a weak gradient.", "quantifier": "all DoFs", "why_tests_cant": "for every vector field", "anchors": ["mrx/derham_sequence.py: DeRhamSequence.assemble_leray_projection"]}
{"id": "C29", "title": "L2 projections reproduce discrete functions and are best approximations", "statement": "Solving M_k c = P_k(f) for f a discrete k-form with DoFs a returns a; the result minimises the quadrature distance.", "quantifier": "all DoFs and functions f", "why_tests_cant": "all functions", "anchors": ["mrx/projectors.py: Projector"]}
{"id": "C30", "title": "Cross-product projections represent the physical cross product", "statement": "Each supported (n,m,k) combination tests against the pushforward of (w x u); it is bilinear and antisymmetric where both arguments live in the same space; unsupported combinations raise.", "quantifier": "all DoFs, Jacobians, combinations", "why_tests_cant": "all fields and maps", "anchors": ["mrx/nonlinearities.py: CrossProductProjection"]}
{"id": "C31", "title": "Inter-space mass matrices", "statement": "M12, M03 represent the L2 pairing of proxies: <B_1-form, B_2-form>, metric free, and their projections are mutually adjoint.", "quantifier": "all DoFs", "why_tests_cant": "all DoFs", "anchors": ["mrx/derham_sequence.py: DeRhamSequence.assemble_P12"]}
{"id": "C32", "title": "inv33 inverts", "statement": "For every 3x3 real matrix with |det| above the threshold inv33(M) M = M inv33(M) = I; det33 is the determinant; below the threshold inv33 is 0.", "quantifier": "all real 3x3 matrices", "why_tests_cant": "infinite domain", "anchors": ["mrx/utils.py: inv33", "mrx/utils.py: jacobian_determinant"]}
{"id": "C33", "title": "Push-forward and pull-back are mutually inverse and commute with pairings", "statement": "Pullback(Pushforward(f)) = f for k=0..3; the physical inner product of pushforwards is the reference formula used in the mass matrices.", "quantifier": "all maps, points, degrees", "why_tests_cant": "all maps", "anchors": ["mrx/differential_forms.py: Pushforward", "mrx/differential_forms.py: Pullback"]}
{"id": "C34", "title": "Metric inverse silently vanishes for tiny Jacobians", "statement": "There are orientation-preserving maps with positive Jacobian for which the inverse metric used in the mass matrix is 0.", "quantifier": "existence", "why_tests_cant": "threshold never hit in tests", "anchors": ["mrx/utils.py: inv33", "mrx/derham_sequence.py: DeRhamSequence"]}
{"id": "C35", "title": "Jacobians of the coordinate maps", "statement": "For all parameters and points: each analytic map factory (toroid, polar, cylinder, both drumshapes, rotating ellipse, Cerfon) is differentiable with the Jacobian determinant given in closed form, which vanishes on the polar axis and is positive off it under the stated parameter ranges; the maps have period one in the angular variables (the rotating ellipse turns by 2 pi/nfp per period and closes after nfp), collapse r=0 to a curve, and coincide with each other at special parameters; sequences built on them satisfy the regularity hypothesis of the discretisation theorems. The rotating ellipse raises exactly for nfp<=0 or eps<=0. The 'Frenet frame' of helical_map is refuted: its first normal is not orthogonal to the tangent, and is 0/0 at inflection points; the image still stays within epsilon r of the axis curve.", "quantifier": "all parameters and points", "why_tests_cant": "continuous parameters and points", "anchors": ["mrx/mappings.py: cerfon_map", "mrx/mappings.py: toroid_map", "mrx/mappings.py: polar_map", "mrx/mappings.py: cylinder_map", "mrx/mappings.py: drumshape_map", "mrx/mappings.py: drumshape_map_modified", "mrx/mappings.py: rotating_ellipse_map", "mrx/mappings.py: helical_map"]}
{"id": "C36", "title": "Inverse of the circular torus", "statement": "approx_inverse_map(toroid_map(eps,1,R0)(r,theta,zeta)) is (r, theta mod 1, zeta mod 1) for 0<r, eps r<R0, and toroid_map after approx_inverse_map is the identity on every physical point off the axis circle, with coordinates in range; hence toroid_map is injective up to the periods for every elongation.", "quantifier": "all eps, R0, logical and physical points", "why_tests_cant": "continuous domain", "anchors": ["mrx/mappings.py: approx_inverse_map", "mrx/mappings.py: toroid_map"]}
{"id": "C37", "title": "gvec_stellarator_map turns half the angle", "statement": "The data that interpolate_map_from_GVEC collocates for toroidal angle zeta are placed by gvec_stellarator_map at toroidal angle zeta/2: the image at logical zeta=1 is that at 0 turned by pi/nfp, not 2 pi/nfp, so field periods do not join and nfp of them cover half a torus.", "quantifier": "all nfp and all periodic X1, X2", "why_tests_cant": "every nfp and every interpolant; needs the geometric meaning of the coordinates", "anchors": ["mrx/mappings.py: gvec_stellarator_map", "mrx/gvec_interface.py: interpolate_map_from_GVEC"]}
{"id": "C38", "title": "Divergence of B is preserved by the relaxation", "statement": "If B0 is discretely divergence-free, so is B after any number of steps, whatever the velocities, time steps, rejections.", "quantifier": "all histories of steps", "why_tests_cant": "all histories", "anchors": ["mrx/relaxation.py: MRXDiagnostics", "mrx/relaxation.py: TimeStepper", "mrx/utils.py: run_relaxation_loop"]}
{"id": "C39", "title": "Energy dissipation of the relaxation", "statement": "With the Newton option off, an exact fixed point of the midpoint map has energy at most E(B) - dt*(||u||^2 + eta*||J||^2), for every regularisation order and with or without the Leray projection; for an inexact solve the deviation is bounded by the residual; over whole runs an accepted step with recorded velocity v has E(B') <= E(B) - dt v^2 + |B'-B| tol/2 and ||B_n|| <= ||B_0|| + n*tol + perturbations; current-free fields are equilibria.", "quantifier": "all states, dt>0, histories", "why_tests_cant": "all states and histories", "anchors": ["mrx/relaxation.py: TimeStepper.midpoint_residuum", "mrx/relaxation.py: MRXDiagnostics.energy", "mrx/utils.py: run_relaxation_loop"]}
{"id": "C40", "title": "Helicity and harmonic part", "statement": "The electric field of a step is L2-orthogonal to H up to resistivity; whenever dd1 is invertible harmonic_component is a projection that vanishes exactly on curls and is conserved by every run without perturbation; the assembled pairing of 1- and 2-forms obeys integration by parts (the curl is symmetric, gradients are orthogonal to divergence-free fields) for every map and field, up to a defect proportional to the 1e-14 accuracy of the tabulated Gauss rules; hence, on every polar Dirichlet sequence, the helicity change of every accepted step of every run is -2 dt eta <J,H> plus dt <E,P12 r>, r the Picard residual, up to that explicit defect, and an ideal step solved exactly conserves helicity up to the defect.", "quantifier": "all states, runs", "why_tests_cant": "all states and histories", "anchors": ["mrx/relaxation.py: MRXDiagnostics.helicity", "mrx/relaxation.py: MRXDiagnostics.harmonic_component", "mrx/relaxation.py: TimeStepper"]}
{"id": "C41", "title": "TimeStepper picard loop", "statement": "picard_solver terminates within the iteration cap; leaving before the cap means a finite residual within tolerance; B_n, dt, eta and the Hessian are unchanged; a finite residual is the distance of the last two iterates; NaN keeps the loop going until the cap; with cap 0 or tolerance >= 1 nothing is computed and residual 1 is reported.", "quantifier": "all residual functions, tolerances, states, floating-point faults", "why_tests_cant": "all traces of floats incl. NaN", "anchors": ["mrx/relaxation.py: TimeStepper.picard_solver", "mrx/relaxation.py: TimeStepper.midpoint_residuum"]}
{"id": "C42", "title": "Accept/reject and dt control", "statement": "In run_relaxation_loop, a non converged step leaves B_n unchanged, resets the guess, halves dt and records nothing; an accepted step sets B_n to the guess and multiplies dt by dt_factor when iterations are few and by dt_factor^-2 otherwise; after every history dt = dt0 * product of the factors, and stays positive; without floating-point faults the loop cannot reject forever.", "quantifier": "all histories", "why_tests_cant": "all histories", "anchors": ["mrx/utils.py: run_relaxation_loop"]}
{"id": "C43", "title": "The final field is lost by the scripts", "statement": "run_relaxation_loop returns None and the caller's State still holds the initial field; the B_final and p_final that solovev.py, stell.py and iter_islands.py save are the initial field and its pressure, whatever the run did. In particular B_final is not the last field recorded in B_fields as soon as one accepted step moves the field.", "quantifier": "every run, configuration, initial state and pattern of floating-point faults", "why_tests_cant": "tests only check that a dataset called B_final exists; the statement is about all runs", "anchors": ["mrx/utils.py: run_relaxation_loop", "mrx/relaxation.py: State", "scripts/config_scripts/solovev.py: run"]}
{"id": "C44", "title": "Trace invariants", "statement": "All trace lists have equal lengths, iterations are strictly increasing multiples recorded exactly at accepted iterations selected by save_every or last.", "quantifier": "all histories", "why_tests_cant": "all histories", "anchors": ["mrx/utils.py: run_relaxation_loop"]}
{"id": "C45", "title": "Early stop", "statement": "The loop runs the iterations up to the first break, or maxit of them; it breaks at the first accepted iteration at which the last recorded force is below force_tol.", "quantifier": "all histories", "why_tests_cant": "all histories", "anchors": ["mrx/utils.py: run_relaxation_loop"]}
{"id": "C46", "title": "Trace dictionaries share their lists", "statement": "default_trace_dict.copy() is shallow: in every program of copies, item assignments and append_to_trace_dict calls, each copy reads under every list key all values appended through any copy, so a second run in one session ends with the first run's traces followed by its own; scalar entries are private to each copy; recording before start_time is assigned raises; no dictionary ever holds a key twice.", "quantifier": "every program (sequence of operations), every handle, every list key", "why_tests_cant": "aliasing over unbounded histories of operations", "anchors": ["mrx/utils.py: default_trace_dict", "mrx/utils.py: append_to_trace_dict", "scripts/config_scripts/solovev.py: run"]}
{"id": "C47", "title": "picard_solver", "statement": "picard_solver stops within max_iter iterations; if at least one iteration was made, the reported residual is the norm of the difference of the last two iterates, the last one being the image of the previous one; a contraction with factor q<1 converges to its fixed point at the geometric rate; with zero iterations the returned point is unchecked.", "quantifier": "every map, norm, tolerance, starting point (including maps producing nan)", "why_tests_cant": "all functions and all iteration counts", "anchors": ["mrx/iterative_solvers.py: picard_solver"]}
{"id": "C48", "title": "newton_solver", "statement": "newton_solver stops within max_iter iterations; stationary points of the iteration are exactly the zeros of the map; it is exact after one step for affine maps; the reported residual is the size of the last update, not the norm of the map at the result.", "quantifier": "every map with its Jacobian, every starting point", "why_tests_cant": "all functions", "anchors": ["mrx/iterative_solvers.py: newton_solver"]}
{"id": "C49", "title": "invert_map", "statement": "The Newton inversion of a mapping stops within its cap, is exact for affine maps after one step, and the error it tests is that of the previous iterate, not of the returned point.", "quantifier": "every mapping, target point and starting guess", "why_tests_cant": "all maps", "anchors": ["mrx/mappings.py: invert_map"]}
{"id": "C50", "title": "parse_args", "statement": "The dictionary maps each key to the typed value of its last key=value argument (value = everything after the first '='; unsigned decimal digits -> int, true/false in any case -> bool, else float(v) if it parses, else the string); arguments without '=' are ignored; it raises exactly when a value is made of digits one of which is a superscript, or of more digits than int() accepts.", "quantifier": "every list of (Latin-1) argument strings, every float parser", "why_tests_cant": "all strings and argument orders", "anchors": ["mrx/io.py: parse_args"]}
{"id": "C51", "title": "update_config", "statement": "The returned object is the CONFIG passed in, no other dictionary changes; afterwards its keys are the old ones and those of the preset named by device, each with the value from the parameters, else the preset, else before; other parameters are dropped; it raises iff device is truthy and not a string; it is idempotent; device names are matched up to letter case against the five presets, and the tokamak presets give n_zeta=1, p_zeta=0 unless overridden; a boundary is built only for the three known boundary types. Limits: a device never changes boundary_type (device=ITER still builds a rotating ellipse), and results depend on earlier calls on the same CONFIG.", "quantifier": "every store of dictionaries, every parameters, presets and history of calls", "why_tests_cant": "all dictionaries and call histories", "anchors": ["mrx/utils.py: update_config", "mrx/utils.py: DEVICE_PRESETS", "mrx/utils.py: DEFAULT_CONFIG"]}
{"id": "C52", "title": "load_sweep", "statement": "The three returned lists are aligned and contain, in directory order, exactly the readable .h5 files each of whose config keys is run_name, a sweep parameter, or equal in the reference; runs saved with configurations differing only in sweep parameters are loaded. Limits: keys missing from a file are not compared (not symmetric), and the iteration counts are always one shorter than the traces of a complete run.", "quantifier": "every directory, file content, reference and list of sweep parameters; every complete run", "why_tests_cant": "all configuration sets", "anchors": ["mrx/io.py: load_sweep", "mrx/utils.py: save_trace_dict_to_hdf5"]}
{"id": "C53", "title": "Polygonal plane intersections", "statement": "Every point returned by trajectory_plane_intersections_list lies on the plane and on one of the segments; every segment whose ends are not strictly on the same side and whose step across the plane is at least 1e-12 contributes one; when no vertex is on the plane the number of points returned is the number of sign changes. Limits: a crossing at a vertex is returned twice; a crossing whose step across the plane is below 1e-12 is lost.", "quantifier": "every trajectory (any length) and every plane", "why_tests_cant": "all trajectories and planes", "anchors": ["mrx/plotting.py: trajectory_plane_intersections_list"]}
{"id": "C54", "title": "Jitted plane intersections", "statement": "For a plane value other than 0 trajectory_plane_intersections_jit marks exactly the segments that meet the plane, and returns for each transversal one its unique intersection point (NaN for segments inside the plane and for unmarked ones). Limits: for plane value 0 no crossing of a trajectory in (0,1) is ever marked, and after the reduction mod 1 done by poincare_plot a segment that wraps around is marked although the trajectory does not meet the plane.", "quantifier": "every trajectory, dimension, axis and plane value", "why_tests_cant": "all trajectories and planes", "anchors": ["mrx/plotting.py: trajectory_plane_intersections_jit", "mrx/plotting.py: poincare_plot"]}
{"id": "C55", "title": "Sampling grids", "statement": "get_1d_grids and the cuts of axis 0 and 1 of get_2d_grids return at position (i,j) the image of grid point (i,j). Limits: the cut of axis 2 (the default) and get_3d_grids return the image of the grid point with the first two indices swapped when nx = ny, and are scrambled (neither arrangement) otherwise.", "quantifier": "every map, sizes, ranges, tolerances and inversion flags", "why_tests_cant": "all sizes; nx = ny in every existing use hides the defect", "anchors": ["mrx/plotting.py: get_1d_grids", "mrx/plotting.py: get_2d_grids", "mrx/plotting.py: get_3d_grids"]}
{"id": "C56", "title": "Perturbation is lost when its step is rejected", "statement": "The configured perturbation is added in iteration apply_pert_after only if that iteration is accepted; if it is rejected (or apply_pert_after is 0) the field is never perturbed.", "quantifier": "all histories", "why_tests_cant": "all histories", "anchors": ["mrx/utils.py: run_relaxation_loop"]}
{"id": "C57", "title": "intersect_with_plane (quadratic interpolation)", "statement": "Every row that is not NaN lies on the plane n.x = c|n|; an isolated crossing between two samples (not in the first segment) is found, between these samples; the segment indices used are the strictly increasing crossing segments padded with N, and padding never yields a point. Limits: that is the documented plane n.x = c only for unit normals or c = 0; when two consecutive segments cross, the row of the second repeats the crossing of the first; a crossing in the first segment gives NaN.", "quantifier": "every trajectory, plane normal and offset", "why_tests_cant": "all trajectories", "anchors": ["mrx/plotting.py: intersect_with_plane"]}
{"id": "C58", "title": "Topology of the discretisation", "statement": "On every supported sequence the space of harmonic k-forms (kernel of dd_k) has the dimension the topology of the domain prescribes: solid torus (polar) 1,1,0,0 without and 0,0,1,1 with boundary conditions; thickened torus 1,2,1,0 and 0,1,2,1. Hence dd0 is invertible iff dirichlet, dd1 iff polar and dirichlet, dd2 iff polar and not dirichlet, dd3 iff not dirichlet; closed forms are exact in the degrees without cohomology; the divergences are the 3-forms of zero total mass (all 3-forms without boundary conditions); every divergence-free 2-form is uniquely harmonic plus curl, orthogonally; with polar and dirichlet the harmonic 2-forms are one line.", "quantifier": "all supported sizes, degrees, maps and both boolean options", "why_tests_cant": "a rank statement about matrices of every size and metric", "anchors": ["mrx/derham_sequence.py:DeRhamSequence", "mrx/polar.py:LazyExtractionOperator", "mrx/boundary.py:LazyBoundaryOperator"]}
{"id": "C59", "title": "Clamped theta or zeta: derivatives are wrong at the boundary", "statement": "On a box (all directions clamped, polar=False) the constructor succeeds, the gradient getter is the partial derivative for functions interior in that direction, but it is wrong for the first and last function in theta and zeta; as a consequence every box has a 2-form with zero discrete divergence (and zero reported divergence norm) whose divergence is not zero.", "quantifier": "every box discretisation (sizes, degrees, quadrature orders), map, boundary condition, basis function and quadrature point", "why_tests_cant": "all discretisations; tests only use periodic angles", "anchors": ["mrx/derham_sequence.py: get_d_Lambda_0_ijk", "mrx/derham_sequence.py: get_d_Lambda_2_ijk", "scripts/config_scripts/hopf.py: run"]}
{"id": "C60", "title": "Lazy matrices agree with the assembled sequence", "statement": "On every supported sequence the lazily assembled matrices (automatic differentiation of the basis functions, Jacobian applied pointwise) equal those DeRhamSequence assembles from its tables: LazyMassMatrix is M_k (k=0..3), LazyDerivativeMatrix is D_0, D_1, D_2, LazyProjectionMatrix is M12 and M03, LazyStiffnessMatrix is M0 dd0, and LazyDoubleCurl/LazyDoubleDivergence are the curl-curl and div-div parts of the energies of dd1 and dd2. The vector mass matrix (k=-1) is the quadrature of the dot product of the pushed-forward fields, symmetric and non-negative. LazyDerivativeMatrix on a 3-form is a zero matrix only if both spaces have the same dimension.", "quantifier": "all supported sizes, degrees, quadrature orders, regular maps, polar/dirichlet options", "why_tests_cant": "two independent assembly paths compared for every size and every map", "anchors": ["mrx/lazy_matrices.py: LazyMassMatrix", "mrx/lazy_matrices.py: LazyDerivativeMatrix", "mrx/lazy_matrices.py: LazyProjectionMatrix", "mrx/lazy_matrices.py: LazyDoubleCurlMatrix", "mrx/lazy_matrices.py: LazyStiffnessMatrix", "mrx/lazy_matrices.py: LazyDoubleDivergenceMatrix"]}
{"id": "C61", "title": "What the driver scripts start from and report", "statement": "solovev.py starts from the lowest eigenvector of M2 dd2; on every supported polar Dirichlet sequence such a vector exists, is discretely divergence free and current free, has norm 1 after normalisation and is unique up to sign. In exact arithmetic the run never moves: each step is accepted after one Picard iteration with zero force and returns the same field, and with a positive force tolerance the loop ends after its first iteration, so a later perturbation is never applied; the report after the loop then divides by the recorded iteration 0 and raises unless save_every or maxit is 1. In general the report raises exactly when no iteration after 0 was recorded. stell.py and iter_islands.py start from the L2 projection of the given field on the divergence-free fields, normalised (within pert_strength of it if perturbed at once), and stay divergence free. The alignment of a divergence-free unit field with the eigenvector (test_helmholtz_decomposition) is at most 1, with equality iff its vector potential is 0.", "quantifier": "all supported sequences, maps, configurations, initial fields, choices of the eigenvector, and all iterations of the run", "why_tests_cant": "a statement about every run; eigenvectors, sizes and maps are arbitrary", "anchors": ["scripts/config_scripts/solovev.py: run", "scripts/config_scripts/stell.py: run", "scripts/config_scripts/iter_islands.py: run", "mrx/utils.py: run_relaxation_loop"]}
{"id": "C62", "title": "Spectra of the Hodge Laplacians and of the cavity problems", "statement": "Eigenvalues of dd_k (generalised with M_k) are real and non-negative, there is an M_k-orthonormal eigenbasis, 0 occurs as often as the Betti number of the domain, eigenvectors of different eigenvalues are orthogonal, and grad/curl/div map eigenvectors to eigenvectors; non-zero eigenvalues of 1-forms are those of 0-forms plus those of the double curl, of 2-forms those of the double curl plus those of 3-forms. The saddle-point cavity pencil of cylinder_cavity.py has exactly the divergence-free double-curl eigenfields as eigenvectors with vanishing multiplier; with Dirichlet conditions no spurious values (0 only b1 times), without them it is singular. eigh-based pseudo-inverse Poisson solvers solve the problem exactly for sources orthogonal to the harmonic fields, provided the cut-off lies below the non-zero eigenvalues. Refuted: the tests' cavity pencil (dd1 in place of M1(dd1 + grad weak_div)) has the wrong scaling; cylinder_vector_poisson.py's L is not M2 dd2; deflating one vector does not make the hollow-domain problem solvable; generalized_eigh leaves a residual 1e-12 * lambda.", "quantifier": "Every supported constructor call, map, degree and eigenpair; every value eigh may return.", "why_tests_cant": "Tests compare the first few eigenvalues of one domain with Bessel roots.", "anchors": ["mrx/derham_sequence.py: assemble_dd0, assemble_dd1, assemble_dd2, assemble_dd3", "scripts/interactive/cylinder_cavity.py", "scripts/interactive/toroid_cavity.py", "scripts/interactive/drumshape.py: generalized_eigh", "scripts/interactive/cylinder_vector_poisson.py", "test/test_cylinder_cavity.py", "test/test_cylinder_vector_poisson_projection.py"]}
{"id": "C63", "title": "Scaling law: magnifying the domain by a", "statement": "Replacing the map F by a*F (a > 0, both maps regular at the quadrature points) changes only the geometry arrays of the sequence. M_k scales with a^(3-2k), the strong derivatives do not change, the weak derivatives and Hodge Laplacians scale with a^-2, P12 with a^-1, P03 with a^-3, the Leray projection does not change; projecting the same physical field multiplies k-form coefficients by a^k; energy scales with a^-1, helicity, potential and harmonic component do not change, pressure scales with a^-4. With dt in units of a^6, eta in units of a^-4 and the tolerances in units of the norms a whole relaxation run (adaptive steps, acceptance, early stop, traces) is the same run.", "quantifier": "Every supported constructor call and map, every a > 0, every configuration with gamma = 0 and without preconditioner or perturbation, every start state and number of iterations.", "why_tests_cant": "A test compares two sizes for one map and one run.", "anchors": ["mrx/derham_sequence.py: DeRhamSequence", "mrx/relaxation.py: TimeStepper, MRXDiagnostics", "mrx/utils.py: run_relaxation_loop", "mrx/projectors.py: Projector"]}
{"id": "C64", "title": "Poisson solvers and their manufactured solutions", "statement": "On every supported Dirichlet sequence solve(M0 dd0, P0 f) is the unique discrete function whose gradient, tested against every discrete gradient in the physical inner product, gives the integral of f times the test function; it is the strict minimiser of the Dirichlet energy and its gradient is the strictly best approximation of every field that satisfies the exact weak form (Cea). Without Dirichlet conditions that matrix is singular and some right-hand side has no solution. Without Dirichlet conditions solve(M3 dd3, P3 f), with flux sigma = weak_grad u, is the unique solution of the mixed equations, div sigma = -(L2 projection of f) holds exactly, and sigma has the least norm among fields of that divergence; with Dirichlet conditions that matrix is singular and solvable exactly for projected right-hand sides of total mass 0. The manufactured pairs u, f of polar_poisson.py, mixed_polar_poisson.py, toroid_poisson.py (every epsilon) satisfy -Laplace(u) = f in the physical coordinates of their map and vanish at r = 1; the Z-pinch test field satisfies curl B x B = grad p. Limits: the docstring formula of mixed_polar_poisson.py is 1/24 at r = 1; the pair of test_cylinder_vector_poisson.py is a Poisson pair as azimuthal components, but is handed to P2 as Cartesian components, as which it is not.", "quantifier": "every supported sequence, regular map, right-hand side; every point of the domain off the axis", "why_tests_cant": "all inputs; analytic identities at all points", "anchors": ["scripts/tutorials/polar_poisson.py", "scripts/tutorials/toroid_poisson.py", "scripts/tutorials/mixed_polar_poisson.py", "test/test_cylinder_vector_poisson.py", "test/test_z_pinch.py", "mrx/projectors.py: Projector"]}
{"id": "C65", "title": "Force, pressure, energy variations and the Hessian", "statement": "On every supported sequence: the J x B force computed by the diagnostics and by the time stepper is the L2 projection of the pointwise cross product of the current (the weak curl of B) with the projected field, and exists uniquely. With Dirichlet conditions the pressure is the unique discrete function satisfying (grad v, grad p) = -(v, div f) for every discrete v, and its gradient is, up to the quadrature defect of the integration-by-parts identity (C40), the best approximation of the force by discrete gradients. Moving B along curl(u x B) changes the energy by -t (f, u) + t^2/2 |curl(u x B)|^2 exactly and keeps div B; all divergence-free displacements leave the energy stationary exactly if the Leray-projected force vanishes. The force-free pressure is the best approximation of J.B/|B|^2, for B vanishing at no quadrature point, and equals lambda if J = lambda B with a discrete lambda. Refuted: the matrix of MRXHessian.assemble is symmetric, but its quadratic form is |dB|^2 + (u x J, field with coefficients M2 dB) where the second variation of the energy is |dB|^2 - (u x J, dB); the two terms even scale differently (a^-7 and a^-8) if the domain is magnified by a.", "quantifier": "every supported sequence and regular map, every B and displacement u, every step length t", "why_tests_cant": "The variational meaning quantifies over all test functions and displacements; a test can compare one direction by finite differences at most.", "anchors": ["mrx/relaxation.py: MRXDiagnostics.pressure, MRXHessian.assemble, TimeStepper.midpoint_residuum", "mrx/derham_sequence.py: weak_curl, P12, P03"]}
{"id": "C66", "title": "GVEC interface", "statement": "interpolate_map_from_GVEC returns a map that can be evaluated exactly if the sequence was built with polar=False and dirichlet=False (not the defaults); then its two functions are discrete 0-forms minimising the sum over all data points of the squared misfit to X1 (X2) over all discrete 0-forms, and of the minimisers those with the smallest coefficients. Data sampled from discrete 0-forms are reproduced at the data points, and the forms themselves are recovered if the data points contain the quadrature points; the point with toroidal angle zeta is turned by zeta/2 only. interpolate_B_from_GVEC returns the discrete 2-form whose push-forward by Phi has the least sum of squared misfits to B over the data points with 1e-3 < rho < 1-1e-3 (smallest coefficients among those), and that misfit; it reproduces and recovers discrete fields likewise. Refuted: exclude_axis_tol selects the points (it has no effect).", "quantifier": "every data set (grid sizes, values), nfp, supported sequence, map Phi and tolerance", "why_tests_cant": "best approximation quantifies over all discrete forms; tests evaluate one data set and check shapes", "anchors": ["mrx/gvec_interface.py: interpolate_map_from_GVEC", "mrx/gvec_interface.py: interpolate_B_from_GVEC"]}
{"id": "C67", "title": "Discrete fields are as smooth as their degree, also on knot planes", "statement": "Splines of degree >= 1 are continuous on the whole of [0,1] and splines of degree >= 2 are continuously differentiable with the derivative DerivativeSpline represents, knots included; hence every 0-form is continuous on the closed cube, tangential components of 1-forms and normal components of 2-forms are continuous across knot planes for every degree >= 1, components built from derivative splines are continuous when the degree is >= 2, and strong_grad/strong_curl/strong_div are the pointwise gradient/curl/divergence at every interior point, including knot planes of directions of degree >= 2. Degree 1 is not enough: every interior hat function has a kink.", "quantifier": "all n, p within the tolerance bounds, all splines, all points; all supported sequences, all dof vectors, all points of the cube", "why_tests_cant": "tests sample finitely many points, almost never exactly on a knot, and continuity is a statement about all neighbourhoods", "anchors": ["mrx/spline_bases.py: SplineBasis, DerivativeSpline", "mrx/differential_forms.py: DifferentialForm, DiscreteFunction", "mrx/derham_sequence.py: strong_grad, strong_curl, strong_div"]}
{"id": "C68", "title": "Boundary traces, Stokes, Gauss, and conservation of magnetic flux", "statement": "Derivative splines have unit integral, so the sum of the coefficients of a 3-form is its integral over the cube. With dirichlet=True the boundary traces of 0-forms, the tangential traces of 1-forms and the normal traces of 2-forms vanish at every point of r=1 (and of r=0 for hollow domains); with polar=True 0-forms are single-valued and theta components vanish on the axis. Stokes' and Gauss' theorems hold exactly, as statements about integrals of the evaluated fields, for strong_curl and strong_div. A divergence-free field has the same radial flux through every surface, and under Dirichlet conditions the same toroidal and poloidal flux through every cross-section; curls carry no toroidal flux (nor poloidal flux in hollow domains); a divergence-free field has a vector potential exactly when these fluxes vanish; harmonic fields are determined by their fluxes and realise any prescribed ones. Relaxation without perturbation conserves the fluxes of the initial field at every step. The fluxes are the physical ones: the pushed-forward field dotted with the area element of a coordinate surface is the logical component.", "quantifier": "all supported sequences and regular maps, all dof vectors, all cross-sections, all relaxation configurations without perturbation and all step counts", "why_tests_cant": "a test integrates one field over one cross-section by quadrature; the identities concern every field, every surface and every step of every run", "anchors": ["mrx/derham_sequence.py: strong_curl, strong_div, DeRhamSequence", "mrx/polar.py: LazyExtractionOperator", "mrx/boundary.py: LazyBoundaryOperator", "mrx/spline_bases.py: DerivativeSpline", "mrx/utils.py: run_relaxation_loop", "mrx/relaxation.py: TimeStepper"]}
{"id": "C69", "title": "The Newton/preconditioned relaxation step: what it computes and when it dissipates", "statement": "With newton=True (CONFIG precond) the velocity is the Leray projection of the least-norm least-squares solution z of Hessian z = P^T M2 v for the (smoothed) force v; it is divergence-free whatever the Hessian. Without smoothing the work done against J x H equals the Hessian's quadratic form at z exactly, so an exact step with a positive semidefinite Hessian never increases the energy and keeps it only if the velocity vanishes, while a negative semidefinite Hessian never decreases the energy of an ideal step. Hessian = M2 (what the scripts pass) makes the velocity, the evaluation and the whole run identical to the run without the option until the Hessian is first recomputed. Current-free fields are equilibria also with the option; the Hessian assembled at a current-free field is positive semidefinite. In preconditioned runs whose Hessians are positive semidefinite the energy gain of an accepted step is bounded by the solver tolerance and the norm of B grows by at most the tolerance per iteration.", "quantifier": "all sequences with the properties of C38, all fields, Hessians, time steps, resistivities, stepper options, configurations, step counts", "why_tests_cant": "the tests only check that a newton step returns finite numbers; dissipation and equivalence concern every Hessian, field and step", "anchors": ["mrx/relaxation.py: TimeStepper.midpoint_residuum, MRXHessian.assemble, TimeStepper.update_hessian", "mrx/utils.py: run_relaxation_loop"]}
{"id": "C70", "title": "lcfs_fit/get_lcfs_F: what is fitted, when a fit can exist, and the returned map", "statement": "The radius function is the periodic spline with the returned coefficients: it stays between their minimum and maximum and closes up at chi = 0, 1. The loss is the composite Gauss quadrature, on the spline's own mesh, of the squared residual of the Solov'ev flux function along the curve, divided by (2 R0^2 k0 q0)^2; it is non-negative, vanishes exactly when every quadrature angle lies on the level set through (R0 + aR, 0), and its minimisers are those of its square (what least_squares minimises); q0 only scales it. The start value is the circle of radius aR. The level set is met by every ray from (R0, 0) at R > 0 iff (R0 + aR)^2 < 2 R0^2; above that bound it is unbounded, and no curve with radii in [0, R0] has zero loss once the mesh is fine enough - which is the case for the default arguments R0 = 1, aR = 0.5 (refutation: there is no last closed flux surface to fit). Whatever the optimiser returns, if all coefficients lie in (0, R0), the returned map has positive Jacobian for 0 < r <= 1, is injective, closes in theta, has a polar axis, and its boundary r = 1 is the fitted curve.", "quantifier": "all n_map > p_map >= 1, q_map, R0, k0, q0, aR, all coefficient vectors, all optimisers, all logical points", "why_tests_cant": "the tests check shapes and finiteness of the result for a few parameters, and that the fit lowers the loss; they cannot show that a fit exists or that the map is one-to-one", "anchors": ["mrx/mappings.py: lcfs_fit, get_lcfs_F, drumshape_map_modified", "mrx/quadrature.py: QuadratureRule", "mrx/spline_bases.py: SplineBasis"]}
{"id": "C71", "title": "The relaxation converges: below a threshold of solver_tol every run reaches its force tolerance in a bounded number of iterations", "statement": "For a sequence built by the constructor, given gamma, force_free, a bound of the initial L2 norm of B, a bound of the resistivity and a force tolerance tau > 0, there is a threshold for solver_tol such that for each solver_tol below it, each initial dt and each dt_factor >= 1 there is a number N with: every run of run_relaxation_loop without Newton option, perturbation or floating-point faults (solver_critit > 1, solver_maxit > 0) has an accepted iteration with force below tau among its first N, for every field within the bound, whatever the remaining settings. If every iteration is recorded (save_every = 1) and maxit >= N, the loop ends through its tolerance test: the last recorded force is below force_tol, it is the force of the final state, and at most N iterations were recorded. The threshold is needed: with solver_tol >= 1 the inner solver never evaluates the step, every iteration is accepted, and field and force stay what they were.", "quantifier": "all supported sequences, all gamma, all tolerances, all initial fields of bounded norm, all time steps and factors, all run lengths", "why_tests_cant": "a test runs a fixed number of steps from a few initial fields; that no field and no schedule of rejected steps can stall the iteration above the tolerance is a statement about all histories", "anchors": ["mrx/utils.py: run_relaxation_loop", "mrx/relaxation.py: TimeStepper.picard_solver, TimeStepper.midpoint_residuum"]}
{"id": "C72", "title": "The discrete spaces approximate Lipschitz forms uniformly to first order, and so does the L2 projection", "statement": "For a sequence built by the constructor and every k-form whose logical components are Lipschitz and periodic in theta and zeta and satisfy the essential boundary conditions and the regularity on the polar axis, some element of the discrete space differs from it, at every point of the domain and in every component, by at most the Lipschitz constants times the support widths (p+1)/(number of elements) of the splines. Consequently the L2 projection (Projector followed by a mass solve) of its push-forward has a squared L2 error of at most G * (sum of squared mesh errors) * volume, where sqrt G bounds the stretching of the push-forward; with degrees at most P, N elements per direction and Lipschitz constants at most Lam it is at most 3 G (3 Lam (P+1)/N)^2 * volume.", "quantifier": "all supported sequences (any sizes and degrees, polar or not, Dirichlet or free), all degrees k of forms, all Lipschitz forms, all maps", "why_tests_cant": "tests measure convergence rates for a few manufactured solutions on a few meshes; the bound for every function and every mesh is a universally quantified inequality", "anchors": ["mrx/derham_sequence.py: DeRhamSequence", "mrx/projectors.py: Projector", "mrx/spline_bases.py: SplineBasis, DerivativeSpline", "mrx/polar.py: LazyExtractionOperator"]}
{"id": "C73", "title": "The implicit midpoint rule: solvability for small time steps, geometric convergence of the inner Picard iteration, accuracy of an accepted step", "statement": "For every bound of the field and of the resistivity there is a time step threshold below which the implicit midpoint rule (rate curl(u x B - eta J) at the mean of old and new field, u the projected and smoothed force J x B) has exactly one solution within distance 1 of the current field; it differs from the explicit step by O(dt^2). Each Picard iteration of the stepper halves the distance to it. For every tolerance in (0,1) there is a number n, independent of the time step, such that a stepper admitting at least n iterations stops within n iterations by its tolerance, and the field it returns is within the residual it reports of the solution. In a run (no Newton option, perturbation or floating-point fault) every iteration with a time step below the threshold is accepted and its new field is within solver_tol of the solution of the midpoint rule. A guess is reproduced by one evaluation exactly if it solves the rule.", "quantifier": "all supported sequences, all states and guesses within distance 1, all smoothing exponents, force_free on or off, all tolerances in (0,1), all runs", "why_tests_cant": "existence and uniqueness of the solution and the convergence of the iteration are statements about all fields in a ball and all time steps below a threshold", "anchors": ["mrx/relaxation.py: TimeStepper.midpoint_residuum, TimeStepper.picard_solver", "mrx/utils.py: run_relaxation_loop"]}
{"id": "C74", "title": "Field line tracing: unit-speed right-hand side, confinement by a Dirichlet field, Poincare sections, unwrapped turning angles and the rotational transform", "statement": "The right-hand side handed to the ODE solver is the field rescaled to unit physical speed (so the trace depends only on the direction of the field), periodic in theta and zeta, and evaluated at the point itself for 0 <= r < 1; on the wall it is evaluated on the axis and for r < 0 at the wall (refuted). An exact field line of a discrete Dirichlet 2-form that does not vanish near the outer wall never reaches the wall, its distance decaying at most exponentially. The event function vanishes exactly on the plane through the z axis at the target angle; for the target 1/4 the section is x = 0, plotted with signed R = y. Unwrapping keeps every angle modulo full turns with steps of at most half a turn and recovers exactly every true angle sampled with steps below half a turn; the reported iota, poloidal and toroidal turns are then the true ones about the mean position. With steps between a half and a full turn the rotation is counted in the opposite direction (refuted).", "quantifier": "all fields, Jacobians, points, trajectories (exact solutions of any duration), all supported Dirichlet sequences and coefficient vectors, all lists of samples", "why_tests_cant": "confinement quantifies over all times and all discrete fields; the turn counts over all sample sequences", "anchors": ["scripts/plotting/solovev_poincare.py: vector_field, get_crossings, F_cyl_signed, toroidal_unwrapped, poloidal_unwrapped, get_iota", "scripts/plotting/iter_plots.py", "scripts/plotting/helix_plots.py", "scripts/plotting/stell_plots.py", "mrx/plotting.py: poincare_plot"]}
{"id": "C75", "title": "The discrete spaces approximate a form and its derivative together; the gradient computed by the Poisson solver converges at first order up to the quadrature residual", "statement": "In a sequence without polar axis, for every periodic scalar with Lipschitz gradient that satisfies the Dirichlet conditions, one discrete 0-form is uniformly within (Lipschitz constants) x (support widths) of the scalar while its discrete gradient is within (Lipschitz constants of the derivatives) x (support widths) of the gradient; likewise for vector potentials and their curls (the discrete curl being exactly divergence free) and for fluxes and their divergences. The gradient returned by the primal Poisson solver then has a squared L2 error of at most (metric constant) x (sum of the squared mesh errors) x (volume) plus delta, where delta bounds the residual of the exact solution in the discrete weak form; the smallest such delta always exists and is the energy of the discrete response to that residual.", "quantifier": "all supported sequences without polar axis (sizes, degrees, quadrature orders, maps regular at the quadrature points), all C^{1,1} scalars, vector fields and fluxes with the boundary conditions, all sources", "why_tests_cant": "quantifies over all smooth functions, all grids and all points of the domain", "anchors": ["mrx/derham_sequence.py: assemble_d0, assemble_d1, assemble_d2", "mrx/differential_forms.py: DifferentialForm", "scripts/tutorials/polar_poisson.py", "scripts/tutorials/toroid_poisson.py"]}
{"id": "C76", "title": "The magnetic energy is bounded below by the flux and by the helicity; force-free states stay; least-energy states exist and are force-free up to the pairing defect", "statement": "In the polar Dirichlet sequences of the relaxation scripts the vector potential behind helicity and harmonic_component is in Coulomb gauge, the harmonic component carries no current, is orthogonal to every curl, and the energies of the two parts add up. Among the divergence-free fields with a given toroidal flux the harmonic component has the least energy and is the only one. Every field satisfies 3 l helicity^2 <= 16 energy^2 (l helicity^2 <= 4 energy^2 without harmonic part), where l is the lowest eigenvalue of the cavity problem; so does every pair of values recorded during a run, and without perturbation no recorded energy is below that of the initial harmonic component. A field whose current is a multiple of it has zero force and is changed by a midpoint evaluation only through the resistive term. For every helicity attained without flux there is a state of least energy, whose current is 2 energy / helicity times the field up to the defect of the discrete integration by parts.", "quantifier": "all supported polar Dirichlet sequences and maps regular at the quadrature points, all fields, all run configurations, fault schedules and iteration counts", "why_tests_cant": "quantifies over all fields and all run histories; the bounds involve the spectrum of the assembled matrices", "anchors": ["mrx/relaxation.py: helicity, harmonic_component, energy, midpoint_residuum", "mrx/relaxation.py: run_relaxation_loop", "mrx/derham_sequence.py: DeRhamSequence"]}
{"id": "C77", "title": "Accepted discretisations whose mass matrices are singular", "statement": "DeRhamSequence accepts arguments for which its mass matrices are singular, so every operator that solves with them is meaningless: (a) when a form has more degrees of freedom than values at the quadrature points, whatever the map and the extraction; (b) without polar extraction and boundary conditions, when m Gauss points on each of the n_r - p_r radial cells are fewer than n_r (in particular q <= p_r on a single cell), M0, M1 and M2 are singular whatever the resolution in theta and zeta; (c) the spline types 'fourier' and 'constant' evaluate every function to 1: with two or more of them in theta or zeta there are non-zero degrees of freedom of every degree k whose field is zero at every point, and M0..M3 are singular.", "quantifier": "all maps (regular or not), sizes, degrees, quadrature orders, spline types in the other directions, boundary conditions in (c), all extraction matrices in (a)", "why_tests_cant": "a statement about the kernel of matrices of every size, for every map", "anchors": ["mrx/derham_sequence.py: DeRhamSequence", "mrx/spline_bases.py: SplineBasis.evaluate", "mrx/quadrature.py: select_quadrature"]}
{"id": "C78", "title": "The integral theorems hold on every coordinate segment, rectangle and box", "statement": "For every supported sequence and all degrees of freedom: the line integral of the field of strong_grad y along any coordinate segment of the logical cube is the difference of the potential at its end points; the flux of strong_curl a through any coordinate rectangle is the circulation of a around its boundary; the flux of b out of any coordinate box is the integral of strong_div b over the box. None of them needs to be aligned with the mesh, and they may touch the axis, the outer boundary and the periodic seam. Hence a curl-free field does no work around any rectangle, a divergence-free field has no net flux out of any box, and this stays so after any number of relaxation steps.", "quantifier": "all supported sequences (polar or not, with or without Dirichlet conditions), all degrees of freedom, all sub-intervals of [0,1] in each direction, all positions; all relaxation configurations, faults and iteration numbers", "why_tests_cant": "a continuum of segments, rectangles and boxes for every field of every size of discretisation; quadrature in a test only approximates the integrals across knots", "anchors": ["mrx/derham_sequence.py: strong_grad, strong_curl, strong_div", "mrx/differential_forms.py: DiscreteFunction", "mrx/spline_bases.py: DerivativeSpline", "mrx/relaxation.py: run_relaxation_loop"]}
{"id": "C79", "title": "Harmonic-field tests: exact fields, the alignment identity and the field of two prescribed currents", "statement": "The field (sin phi, -cos phi, 0)/R that the Helmholtz test samples is curl-free, divergence-free and tangential on the rotating ellipse for every eps < 1 and nfp exactly in the case kappa = 1 (refuted for every other kappa in (0,2) with eps < 1/2). The field the hollow-toroid test compares with has the constant 1-form (0, mu0 Ip, mu0 It) but divergence -pi eps mu0 Ip sin(2 pi theta), so it is harmonic iff mu0 Ip = 0; the circulations computed for it with any positive number of samples are exactly mu0 Ip and mu0 It, and the integrand is the Cartesian field times the derivative of the contour in space. For every supported polar Dirichlet sequence and whatever kernel vector eigh returned, alignment^2 plus the energy of the curl part of the normalised projected field is 1; alignment 1 holds iff the vector potential vanishes, and lambda |A|^2 <= 1 - alignment^2 for the lowest cavity eigenvalue lambda. On a sequence without axis the field solved from two currents is divergence-free and current-free, has the prescribed computed circulations, is the only such field, and does not depend on the pair of kernel vectors; the 2x2 system is regular for some pair iff no non-zero harmonic field has both circulations zero, and for the identity geometry such contours exist for every number of samples.", "quantifier": "all parameters of the maps and currents; all supported sequences; all Cartesian fields projected; all eigenvector choices; all contours and numbers of samples", "why_tests_cant": "the tests compare one geometry and one resolution with tolerances; uniqueness and independence of the eigenvector choice range over all bases eigh may return", "anchors": ["test/test_helmholtz_decomposition.py", "test/test_harmonic_fields_hollow_toroid.py", "mrx/mappings.py: rotating_ellipse_map", "mrx/derham_sequence.py: DeRhamSequence", "mrx/differential_forms.py: Pullback, Pushforward"]}
{"id": "C80", "title": "A discrete field is determined by its integrals; curl-free and divergence-free are exactly vanishing circulations and outfluxes", "statement": "For every supported sequence: a discrete 0-form whose values vanish on the logical cube, a 1-form whose line integrals along all coordinate segments vanish, a 2-form whose fluxes through all coordinate rectangles vanish, and a 3-form whose integrals over all coordinate boxes vanish have only zero degrees of freedom. Hence strong_curl a = 0 if and only if the circulation of a around every coordinate rectangle is zero, strong_div b = 0 if and only if the outflux of b from every coordinate box is zero, and strong_grad y = 0 if and only if the field of y takes one value on the cube.", "quantifier": "all supported sequences (polar or not, with or without Dirichlet conditions), all degrees of freedom, all segments, rectangles and boxes", "why_tests_cant": "uniqueness over all fields and a continuum of integrals; a test compares finitely many samples", "anchors": ["mrx/derham_sequence.py: strong_grad, strong_curl, strong_div", "mrx/differential_forms.py: DiscreteFunction", "mrx/spline_bases.py: SplineBasis, DerivativeSpline"]}
{"id": "C81", "title": "The table of exact cavity eigenvalues lists every mode with its multiplicity, and its first 26 entries do not depend on the cut-off", "statement": "get_true_evs(N_max) of the cube-cavity script returns a sorted list in which every integer s occurs exactly as often as there are independent modes with indices 0..N_max and nx^2+ny^2+nz^2 = s: two for three positive indices, one for exactly one zero index, none otherwise. These multiplicities are the dimensions of the spaces of solenoidal standing waves with perfectly conducting walls, and every such wave satisfies curl curl E = pi^2 (nx^2+ny^2+nz^2) E. Every prefix of the list with entries up to (N_max+1)^2 is unchanged by any larger cut-off, so the 26 reference values the script plots are final; the bound is sharp: (N_max+1)^2 + 1 always occurs too rarely.", "quantifier": "all cut-offs, all eigenvalues, all prefixes, all index triples and amplitudes", "why_tests_cant": "the claims quantify over all larger cut-offs and over all amplitudes and points; a test compares finitely many lists", "anchors": ["scripts/deprecated/cube_cavity.py: get_true_evs, true_evs"]}
{"id": "C82", "title": "The Hopf initial field is solenoidal, its lines wind uniformly and close for integer winding numbers", "statement": "The analytic field that the Hopf script projects as its initial condition is the documented formula at the image of the logical point under an affine bijection of the unit cube onto [-4,4]x[-4,4]x[-10,10]. It is divergence-free at every point of space for all scales and winding numbers; for s > 0 its strength has a closed form and it has no null point if and only if both winding numbers are nonzero. Along every field line the two complex stereographic coordinates on the unit sphere of R^4 turn uniformly, at rates 2 omega_2 and 2 omega_1 of one common clock; so for integer winding numbers every field line off the z-axis returns to each of its points, while lines on the axis stay on it and never return.", "quantifier": "all scales, winding numbers, points of space and field lines", "why_tests_cant": "divergence at every point and the global behaviour of every field line for all time; integrating some lines numerically tests finitely many to finite accuracy", "anchors": ["scripts/config_scripts/hopf.py: F, B_xyz"]}
{"id": "C83", "title": "The analytic initial fields of the tokamak and stellarator scripts are exact equilibria that cross the wall", "statement": "The field of iter_islands.py is, at every image point off the z-axis, (z x - tau y/R^2, z y + tau x/R^2, -(kappa^2/2 (R^2-1) + z^2)); that of stell.py is the case kappa = 1. It is divergence free and satisfies J x B = grad p with p = -(1+kappa^2) psi, psi = kappa^2/8 (R^2-1)^2 + R^2 z^2/2, for all kappa and tau. Every field line off the axis stays on its surface psi = const, inside kappa^2 (R^2-1)^2 <= 8 psi, and goes round the axis with constant areal velocity tau. For kappa nonzero the unit circle in the midplane is the only place without poloidal field and the only zero of psi; the safety factor there is q_star (1+kappa^2)/(1+kappa) for the tau of the script. But for no parameters is the boundary of the Cerfon map a flux surface: psi is larger at the outboard than at the inboard midplane point, and somewhere on the boundary the poloidal field is not tangential, so the projected initial field is never this equilibrium.", "quantifier": "all kappa, tau, q_star, points off the axis and field lines; all eps in (0,1), kappa nonzero and alpha for the wall", "why_tests_cant": "an identity between derivatives at every point, all field lines for all time, and a non-tangency for every map parameter", "anchors": ["scripts/config_scripts/iter_islands.py: B_0, tau", "scripts/config_scripts/stell.py: B_xyz", "mrx/mappings.py: cerfon_map"]}
{"id": "C84", "title": "The island perturbation is radial and single-valued, and is lost on axisymmetric grids", "statement": "The perturbation of iter_islands.py and stell.py with integer mode numbers has a single-valued amplitude on the torus, has no effect if either mode number is zero, and on a regular map its 2-form components are (amplitude times det DF, 0, 0). But on every sequence that is constant in zeta (what the scripts build for n_zeta = 1) it is zero at every quadrature point whatever its mode numbers, location and width, so its projected and cleaned coefficient vector is zero and the scripts divide that vector by a norm that is exactly 0.", "quantifier": "all locations, widths, integer mode numbers, maps and points; all constructed sequences constant in zeta, of every size and degree", "why_tests_cant": "holds for every resolution, map and mode number; a run with a perturbed axisymmetric configuration only shows NaN or noise", "anchors": ["scripts/config_scripts/iter_islands.py: dB_xyz", "scripts/config_scripts/stell.py: dB_xyz", "mrx/quadrature.py: spectral_quad"]}
{"id": "C85", "title": "What the convergence-rate assertion of the stellarator script shows", "statement": "The script asserts that the mean of the rates between consecutive resolutions is at least p + 1. On every increasing grid, errors that are exactly C n^-s are given the rate s throughout and pass iff s >= p + 1. Whenever positive errors pass, between some two consecutive resolutions the error fell at least like n^-(p+1). On a grid with constant ratio the check is equivalent to that bound between the first and the last error. But it is not the decrease its comment announces: on every grid whose first two ratios differ (all ranges of consecutive integers, as in the script), for every p there are positive errors that pass it and end above the first error.", "quantifier": "all degrees, all increasing positive grids of any length, all positive error sequences", "why_tests_cant": "a statement about every error history and grid, not about one run", "anchors": ["scripts/interactive/test_gvec_stellarator.py: rates"]}
{"id": "C86", "title": "The plotting helpers: equal axes, distinguishable styles, and what the helicity curves show", "statement": "set_axes_equal gives the three axes one length, that of the longest, keeps their midpoints, hides nothing that was visible and is idempotent; an inverted axis does not stay inverted next to a normal one. The markers of converge_plot tell at most 20 polynomial orders apart, and repeat with period 20. In force_multiplot.py the colour parameter of a run is in [0,1) and strictly increasing in its swept value, so equal colours mean equal values; the line styles tell the values of the second parameter apart iff there are at most five. But the curves labelled |H - H_0| are |H_k - H_first run| at equal samples: the first run is always drawn as 0 whatever its helicity does, and runs conserving helicity exactly are drawn as changing as soon as they start apart. In trace_plot the helicity curve is the change since the first sample, and the energy curve of a run whose energy never increases starts at 0 and never decreases; but the curve labelled ||div B|| is its excess over the first sample: equal to it iff the run started exactly divergence free, and invisible on the log axis wherever it does not exceed the first sample.", "quantifier": "all axis limits, all numbers of orders, all sweeps over any ordered parameter, all trace arrays", "why_tests_cant": "statements over all sweeps and limits; tests look at single figures", "anchors": ["mrx/plotting.py: set_axes_equal, converge_plot, base_markers, trace_plot", "scripts/plotting/force_multiplot.py: plot_traces"]}
{"id": "C87", "title": "The spectral self-checks hold on every supported sequence", "statement": "test_sequences.py and the GVEC scripts compute jnp.linalg.eigvalsh(M_k @ dd_k) and assert that no eigenvalue is negative and that 0 is one exactly for the expected k. In exact arithmetic both assertions hold for every sequence with a polar axis the constructor supports, with the pattern the tests use ([F,F,T,T] with and [T,T,F,F] without Dirichlet conditions), and so do curl grad = 0 and div curl = 0. On hollow domains the pattern is different: k = 1 and k = 2 always have a zero eigenvalue.", "quantifier": "all supported sizes, degrees, quadrature orders and regular maps, all four combinations of polar axis and boundary condition", "why_tests_cant": "the tests run two degrees on one 3x3x3 grid and one map", "anchors": ["test/test_sequences.py: test_derham_sequence_eigen_and_exactness", "scripts/interactive/test_gvec_tokamak.py: expected_nulls", "mrx/derham_sequence.py: DeRhamSequence.assemble_all"]}

# Formal model of ToBlick/mrx in Rocq (Coq 8.16.1)

## Layout

* `rocq/theories/Model/`: Gallina models of the Python code; every definition cites file:lines of /repo.
* `rocq/theories/Spec/`: small specifications that do not use the model's helpers (B-splines by the
  Cox-de Boor recursion and knot positions, cochains, polar-smooth spaces, partial derivatives, physical inner
  products, planes and segments, Python dictionaries as finite maps, ...).
* `rocq/theories/Proof/`: lemmas.
* `rocq/theories/Props/`: the property theorems (`Cnn_...`), their `Print Assumptions`, and next to them an
  `Example ..._nonvacuous` (or named instance) showing that concrete data meet the hypotheses.
* `properties.jsonl`: the English properties; `MANIFEST.json`: property -> theorems; `seeded/LOG.jsonl`: wrong
  programs tried against the theorems.

Suffix `_refuted`: the theorem is the negation of what a user would expect (documentation, name or use in the
scripts); the corresponding positive statement, with the restriction that makes it true, is in the same or a
neighbouring property.

## Trusted base

1. Coq's kernel (including `vm_compute`, used for the Gauss tables) and the correctness of `coqc`.
2. The axioms below, all from Coq's standard library; nothing else is assumed. mathcomp and Coquelicot add none.
   D `ClassicalDedekindReals.sig_forall_dec`, N `ClassicalDedekindReals.sig_not_dec` (both come with the type `R`),
   F `functional_extensionality_dep`, C `Classical_Prop.classic`,
   E `ClassicalEpsilon.constructive_indefinite_description` (used to make `R` a mathcomp `realFieldType`, i.e. to have
   its matrices; Coquelicot's `Derive`).
   Theorems stated over an arbitrary `realFieldType` or over nat/strings/lists have none.
3. The reading of the Python source as the definitions in `Model/` (comments cite the lines). The model was not
   extracted or run against the program: the sandbox has no Python dependencies.
4. The modelling decisions listed next.

### Axioms per theorem (`Print Assumptions`)

* C01: **DF** clamped_partition_of_unity, periodic_partition_of_unity
* C02: **DF** clamped_bounds_and_support, clamped_at_most_p_plus_1_active, periodic_bounds_and_support
* C03: **DNFC** clamped_derivative_exact, periodic_derivative_exact
* C04: **DF** clamped_endpoints
* C05: **DF** periodic_closure
* C06: **DF** partition_of_unity_large_n_refuted
* C07: **DNFC** derivative_at_right_end_refuted
* C08: **DF** spline_constructor, degenerate_clamped_refuted; **none** tensor_constructor
* C09: **none** index_round_trip
* C10: **none** dimension_counts, euler_full, euler_polar, euler_dirichlet
* C11: **DFCE** basis_evaluation, tables_agree
* C12: **DFCE** discrete_function, no_extraction
* C13: **D** tensor_points; **DF** product_rule, point_order
* C14: **DF** nodes_in_cells, weights, spline_mesh, degree_zero_refuted
* C15: **DNFC** gauss_exact
* C16: **DNF** trapezoid
* C17: **DNFC** order_cap_refuted
* C18: **none** rows_select_free, free_selected_once, BBt, BtB_projector
* C19: **none** vector_boundary_refuted
* C20: **none** row_space, rank
* C21: **none** axis_single_valued, partition_of_unity; **DNF** convex_weights; **DNFCE** axis_first_harmonic
* C22: **none** strong_grad_exact, strong_curl_exact, strong_div_exact; **DFCE** discrete_form; **DNFCE** gradient, curl, divergence
* C23: **DNFCE** radial_derivative_refuted
* C24: **none** strong_grad_incidence, strong_curl_incidence, strong_div_incidence, curl_grad, div_curl; **DNFCE** sequence_complex
* C25: **none** weak_adjoint, weak_complex; **DNFCE** sequence
* C26: **none** symmetric, quadrature, psd, definite; **DNFCE** constructor_total, sequence
* C27: **none** selfadjoint, energy, psd_kernel; **DNFCE** sequence
* C28: **none** divergence_free, identity_on_divfree, idempotent, complement_is_gradient, selfadjoint_orthogonal; **DNFCE** sequence
* C29: **none** projector_tests, reproduces, best_approximation; **DNFCE** sequence
* C30: **none** tests_cross_product, bilinear, antisymmetric, supported
* C31: **none** pairings, projections
* C32: **none** inv33_inverts, inv33_below_threshold, det33
* C33: **none** mutually_inverse, mass_is_physical_l2; **DNFCE** sequence
* C34: **none** inverse_metric_vanishes, M1_vanishes
* C35: **DNFCE** toroid_jacobian, polar_jacobian, cylinder_jacobian, drumshape_jacobian, drumshape_modified_jacobian, rotating_ellipse_jacobian, cerfon_jacobian, orientation, regular_sequences, toroid_sequence, toroid_has_jacobian, toroid_instance; **DNF** rotating_ellipse_raises, rotating_ellipse_closes, helical_tube; **DNFC** cerfon_closed_form, periodicity, coincidences, helical_frame_refuted, helical_inflection, helical_periodicity; **DF** supported_instance, supported_axisymmetric
* C36: **DNFC** left_inverse, right_inverse, toroid_injective
* C37: **DNF** gvec_map_turns_half, gvec_field_period_refuted
* C38: **none** divergence_free, run; **DNFCE** sequence_ok, sequence_divergence
* C39: **none** energy_balance, fixed_point_dissipates, inexact_step, equilibrium, run
* C40: **DNFCE** integration_by_parts, helicity_step, ideal_conservation, helicity_run, sequence_harmonic_component, sequence_harmonic_conserved; **none** E_dot_H, curl_free_is_gradient, harmonic_component, helicity_step_exact_quadrature, harmonic_conserved
* C41: **none** terminates, fuel_irrelevant, frame, converged, residual_is_last_distance, no_iteration, nan_runs_to_cap
* C42: **none** accept_iff, reject, accept, dt_product, dt_positive; **DNFCE** progress
* C43: **none** caller_sees_initial, B_final_is_final_refuted
* C44: **none** recorded, lengths
* C45: **none** first_break_or_maxit, break_condition
* C46: **none** lists_shared, second_run, scalars_private, needs_start_time, unique_keys, fresh_copy_empty_refuted
* C47: **none** terminates, reported_residual, zero_iterations; **DFCE** zero_iterations_unchecked_refuted, contraction_converges; **DF** rate_below_one
* C48: **DNFCE** terminates, stationary_iff_fixed, affine_exact, residual_is_defect_refuted
* C49: **none** terminates; **DNFCE** affine_exact, residual_of_result_refuted
* C50: **none** dictionary, deterministic, unique_keys, raises_iff, int_only_digits, total_refuted
* C51: **none** update, raises_iff, idempotent, device_sets_geometry_refuted, iter_is_not_a_tokamak, history_independent_refuted, case, names, tokamak_axisymmetric, boundary
* C52: **none** selects, raises_iff, saved_runs, missing_keys_refuted, symmetric_refuted, iter_counts_match_refuted
* C53: **DF** sound, complete, exactly_once, vertex_twice_refuted, small_step_refuted
* C54: **DF** shapes, plane_nonzero, plane_zero_refuted, wrap_spurious_refuted
* C55: **DF** 3d_entry, 3d_square_transposed, 3d_arrangement_refuted, 2d_cut0_cut1, 2d_cut2_entry, 2d_cut2_square, 2d_cut2_arrangement_refuted, 1d
* C56: **none** perturbation_iff_accepted, lost_when_rejected
* C57: **DNF** plane, documented_plane, unnormalized_refuted, isolated_crossing, consecutive_crossings_refuted, first_segment_refuted, indices
* C58: **none** betti, invertible, exact, hodge_decomposition, harmonic_line; **DNFCE** sequence_betti, sequence_invertible, sequence_exact, sequence_hodge, sequence_harmonic_line
* C59: **DNFCE** constructor, divergence_refuted, gradient_interior, gradient_boundary_refuted
* C60: **DNFCE** dimensions, mass, derivative, threeform, projection, second_order, vector_mass
* C61: **DNFCE** solovev_start, solovev_stationary, solovev_run, solovev_report_raises, report, projected_field, projected_start, projected_run, alignment
* C62: **DNFCE** real, eigenbasis, orthogonal, commute, multiplicities, cavity, cavity_dirichlet, cavity_positive, cavity_singular, vector_poisson, one_vector_deflation_refuted, deflation, cavity_lowest, generalized_eigh_total; **DFCE** vector_poisson_cutoff; **none** cavity_scaling, test_cavity_scaling, test_cavity_refuted, script_laplacian_refuted, generalized_eigh
* C63: **none** operators, projection; **DNFCE** sequence, pinv, diagnostics, similarity
* C64: **DNFCE** primal, cea, neumann_singular, mixed, mixed_dirichlet; **DNFC** polar_data, mixed_data, toroid_data, vector_data, vector_refuted, zpinch_data; **DF** mixed_docstring_refuted
* C65: **DNFCE** force, pressure, energy_variation, equilibrium, hessian_refuted, force_free; **none** hessian_units
* C66: **none** lstsq; **DNFCE** map_needs_full_space, map_best_fit, map_reproduces_data, map_recovers_forms, quadrature_grid_determines, B_best_fit, B_reproduces_data, B_recovers_form, axis_tolerance_refuted
* C67: **DNFC** clamped_continuous, periodic_continuous, clamped_C1, periodic_C1; **DNFCE** gradient, curl, divergence, conforming, continuous; **DF** degree_one_sharp
* C68: **DNFC** clamped_unit_integral, periodic_unit_integral; **DNF** unique; **DNFCE** total_mass, dirichlet_traces, axis_traces, fluxes_exist, stokes, gauss, radial_flux, flux_constant, curl_no_flux, flux_potential, harmonic_flux, polar_poloidal_flux, flux_conserved; **none** physical_flux_density
* C69: **none** velocity, mass_hessian, work, descent, ascent, exact_steps, equilibrium, assembled, run, same_run
* C70: **DFCE** radius; **DNFCE** loss, loss_zero, fit, safety_factor, start, no_fit, defaults_refuted, map; **DNFC** closed
* C71: **DNFCE** force_reached, run_converges, large_solver_tol, large_solver_tol_run
* C72: **DNFCE** uniform, projection, first_order
* C73: **DNFCE** fixed_points, solvable, solver, geometric, run
* C74: **DNF** unit_speed, direction_only, periodic, radial_wrap_refuted, restart, unwrap, unwrap_exact, total_turns; **DF** evaluation, plotted; **DNFC** confined, crossing, section, poloidal, alias_refuted, iota; **DNFCE** radial_component, dirichlet_confined
* C75: **DNFCE** grad, curl, div, residual, strang, poisson
* C76: **DNFCE** split, flux_minimum, projection_contracts, arnold, beltrami, taylor_exists, taylor_beltrami, run
* C77: **none** counting, not_invertible; **DNFCE** radial, not_a_basis, one_cell
* C78: **DNF** unique, unique_boundary; **DNFCE** gradient, stokes, gauss, solenoidal, irrotational, relaxation
* C79: **DNFCE** helmholtz_field, helmholtz_field_refuted, hollow_field, hollow_field_refuted, integrand, circulation, alignment, currents, currents_regular, currents_exist
* C80: **DNFCE** values, work, flux, content, irrotational, solenoidal, constant
* C81: **none** count, complete, script, sharp; **DNFC** modes, polarisations
* C82: **DF** map; **DNF** formula, strength; **DNFC** solenoidal, windings, closed, axis
* C83: **DNFC** formula, equilibrium, stell, surfaces, magnetic_axis, axis_rotation, boundary_refuted, crosses_wall_refuted
* C84: **DNFCE** axisymmetric_refuted, radial
* C85: **DNFC** power_law, some_step, geometric_grid, decrease_refuted
* C86: **DF** axes_equal, inverted_axis; **none** markers, colours, linestyles, helicity_curves, helicity_refuted, trace_plot, divergence_refuted
* C87: **DNFCE** spectra, tests_pass

## Idealisations

* **Floats are real numbers** (`R`, or any `realFieldType`). Rounding is not modelled. Where control flow depends on
  special values (picard loop, accept/reject, solvers, plotting) the model has an explicit NaN/inf or `None`, or an
  oracle that may turn any residual into a non-finite one at any iteration. The tabulated Gauss constants are the
  decimal numbers in the file, so exactness statements carry their 1e-14 error explicitly (C15, C40).
* `jnp.linalg.solve(M, X)` is `invmx M *m X`. Theorems about it assume M invertible in the abstract (mathcomp) form; for
  constructed sequences invertibility is proved (C26_sequence, C58_sequence_invertible), not assumed.
* `jnp.linalg.pinv(dd3)` (Leray projection) is any matrix P with `dd3 P dd3 = dd3`; `jnp.linalg.lstsq` in the Newton
  option is an arbitrary function in C38-C45 and the pseudo-inverse solution in C69.
* `jnp.isclose(a, b)` is `|a-b| <= 1e-8 + 1e-5 |b|`.
* JAX indexing: negative indices wrap once, out-of-range gathers clamp to the last element, `dynamic_slice` clamps its
  start. This is what makes C23 and C59 go wrong silently.
* Automatic differentiation (`jacfwd`, `grad`) is the mathematical derivative (Coquelicot `is_derive`, `Derive`). C60
  proves that quadrature points are off the knots, where the basis functions are differentiable.
* `jit`, `vmap`, `scan`, `lax.map`, batching, precision, performance are semantically transparent.
* Python dictionaries and lists are heap objects with identity where aliasing matters (C43, C46, C51); elsewhere they
  are values.

## What is modelled, and how each property is proved

**Splines** (`Model/Spline.v`, `Model/SplineCtor.v`; spline_bases.py). `_p_spline`, `_evaluate`, `evaluate`, `_init_knots`,
the constructors and `DerivativeSpline`, for the four types. C01-C05: the recursion with `isclose` guards is linked
to the specification's B-splines on distinct knots (`Proof/SplineLink`), then induction on the degree (telescoping for
the partition of unity, support by intervals, derivative recursion with Coquelicot). The bounds n-p <= 99900, n <= 49000
come from the isclose tolerance. C06: with n large every knot difference is "close", so everything is 0. C07, C08: limits.
Not covered: Fourier splines (evaluation modelled, no property), n or p negative.

**Forms and indices** (`Model/Forms.v`, `Model/FormEval.v`; differential_forms.py, boundary.py, polar.py). C09-C12: div/mod
reasoning and big-operator algebra for all shapes. C18, C19: boundary selection compared with an independent
description of which dofs are free. C20, C21: the extraction matrices span exactly the space of fields that are
smooth at the polar axis (`Spec/PolarSpace.v`), with rank and first-harmonic condition at the axis.

**Quadrature** (`Model/Quad.v`; quadrature.py). C13, C14 by induction on meshes; C15 by `vm_compute` on the rational tables and
linearity; C16 by geometric sums; C17 the silent cap.

**De Rham sequence** (`Model/DeRham.v` over any real field, `Model/SeqR.v` the constructor over R; derham_sequence.py, utils.py).
Two layers: an abstract one, where tables, metric and Jacobian are arbitrary (C24-C31 in `Props/DeRham.v`, no axioms), and
the constructor `new_sequence` on concrete arguments (`Props/SequenceR.v`). `supported` (`Spec/SeqRSpec.v`) is the set of
arguments for which the theorems hold: r clamped, theta periodic, zeta periodic or constant, q at least max(p) as in
the scripts, nt >= nr with equality unless dirichlet, nt >= nz; `regular_map` asks det DF >= 1e-5 at the quadrature points
(inv33's threshold). C23 and C59 show that the restriction on sizes and types is needed; C34 that the one on the determinant is.
C22: `strong_grad`, `strong_curl`, `strong_div` are the partial derivatives of `DiscreteFunction` at every point off the knots.
C24-C29, C31: complex, adjointness, mass matrices, Hodge Laplacians, Leray and L2 projections. C30: nonlinearities.py.
C58: Betti numbers for all four (polar, dirichlet) combinations by explicit cochain homotopies and rank counting.

**Driver scripts** (`Model/Scripts.v`; scripts/solovev.py, scripts/interactive/*.py). C61: the start fields (lowest eigenvector of
M2 dd2, projected field through P_Leray), the run of solovev.py from its start field is stationary, and its report divides by zero.
Plotting, file output and the command line of the scripts are not modelled.

**Scaling law** (`Spec/ScaleSpec.v`, `Proof/ScaleProofs.v`, `Proof/ScaleRun.v`). C63 is a relational property of two runs of the same
model on F and a F; proved by a simulation relation on states and traces carried through midpoint evaluation, Picard loop, acceptance
and the outer loop. `regeom` (same spaces, other geometry arrays) is the only vocabulary; `C63_sequence` shows that the constructor
produces it.

**Spectra** (`Model/Eigen.v`; the eigenproblems of scripts/interactive/cylinder_cavity.py, toroid_cavity.py,
cylinder_vector_poisson.py, drumshape.py and of test_cylinder_cavity.py, test_cylinder_vector_poisson*.py). C62: LAPACK's
eigh/cholesky are any decomposition satisfying their specification; that one exists is the spectral theorem, proved in
`Proof/Spectral.v` over every real closed field (Householder deflation, one real eigenvalue from the algebraic closure), and R is
shown to be one. Multiplicities are ranks of kernels, related through explicit isomorphisms (`Proof/SpectrumAlg.v`), the number of
zeros comes from C58. The wrong pencils are refuted through the scaling law C63. `sp.linalg.eig` on the singular pencil, sorting and
filtering of the eigenvalues, and plots are not modelled.

**Poisson** (`Model/Poisson.v`; tutorials and tests). C64: Galerkin orthogonality and the quadratic-functional argument on the stiffness
matrix G^T M1 G (invertible by C58), the mixed problem through C25/C28/C58. The manufactured data are real functions; the Laplacian is
`Spec/LaplaceSpec.v` (second partial derivatives of a function on physical space, Coquelicot), computed with
`Proof/LaplaceProofs.v` for functions of the distance to an axis. The refutation for the vector problem uses that polar coordinates
cover the punctured plane, so the physical function is determined. Convergence loops, errors and plots are not modelled.

**Force, pressure, Hessian** (`Model/Relaxation.v`, `Model/Pressure.v`). C65: the forces, induced fields and currents are specified in
`Props/Pressure.v` by their L2 pairings with all discrete test fields (physical fields, physical volume) and shown to be what the code
computes; energy variations are exact polynomial identities from the adjointness of weak and strong curl and the antisymmetry of the triple
product; the pressure's gradient is compared with the force by the discrete Green identity with the explicit defect of C40. The Hessian's
quadratic form is computed and compared with the second variation, and both are put on a magnified domain (C63).

**GVEC interface** (`Model/Gvec.v`; gvec_interface.py). C66: lstsq is the pseudo-inverse (full-rank factorisation), proved to be the
least-squares solution of least norm for every matrix; the matrices of the code are shown to evaluate the discrete forms (their
push-forwards) at the data points, so that the fit is specified by `misfit`/`misfit_B` (Spec/GvecSpec.v), sums over the data grid. A
form vanishing at all quadrature points is zero (C26), which gives recovery.

**Smoothness** (C67; Spec/SmoothSpec.v, Proof/SplineSmooth.v, Proof/SplineCont.v, Proof/SeqSmooth.v, Props/Smooth.v). No new model. The polynomial pieces of a B-spline on adjacent cells agree in value (degree >= 1) and derivative (degree >= 2) at a simple knot; gluing gives continuity / differentiability of the code's splines at knots, and the derivative identities of C03/C22 are re-proved at every interior point. Continuity is stated in epsilon-delta form on [0,1] and on boxes.

**Traces and fluxes** (C68; Spec/FluxSpec.v, Proof/SplineInt.v, Proof/SeqFlux.v, Props/Flux.v). No new model. The specification defines iterated Riemann integrals over coordinate surfaces (Coquelicot's is_RInt) and the fluxes/circulations of component functions; the splines are integrated by telescoping antiderivatives across cells (C67 gives continuity at the knots), so the integrals of evaluated fields become sums of coefficients, on which the incidence structure of the strong derivatives acts; the converse (zero fluxes imply a potential) combines this with the Hodge decomposition and Betti numbers of C58.

**Newton option** (C69; Proof/RelaxNewton.v, Props/Newton.v). No new model: Model/Relaxation.v takes lstsq as a parameter, here it is instantiated with the pseudo-inverse solution of Model/Gvec.v. For symmetric H and z = H^+ g, z^T g = z^T H z because z lies in the range of H; with the adjointness of the Leray projector this turns the energy balance of C39 into a statement about the Hessian's quadratic form. The run equivalence is an induction over the solver loop and the outer loop.

**LCFS fit** (C70; Model/Lcfs.v, Spec/LcfsSpec.v, Proof/LcfsAlg.v, Props/Lcfs.v). The radius spline, the flux function, the loss and the map are modelled; `optimistix.least_squares` is an arbitrary function of the loss and the start value. The loss is reduced to the composite rule of C14; existence of the closed surface is the intermediate value theorem along rays; the refutation is an estimate near the inboard midplane; injectivity follows from C36 because the map is the torus map with radius a(chi) r.

**Convergence of the relaxation** (C71; Proof/RelaxBound.v, Proof/RelaxConverge.v, Props/Converge.v). Operator bounds in finite dimension (coordinates are functionals, Cauchy-Schwarz) give one constant for induction, diffusion, force and smoothing; the energy balance of C39 then yields a fixed decrease per unit of dt while the force is above tau and solver_tol is small; a step with dt * rate <= solver_tol is accepted after one evaluation, so the controller cannot push dt below an explicit bound; a counting argument (accepted steps by energy, rejected steps by dt) bounds the number of iterations.

**Approximation** (C72; Spec/ApproxSpec.v, Proof/ApproxSplines.v, Proof/ApproxSeq.v, Props/Approx.v). Every univariate factor (B-spline, scaled derivative spline, constant) is a nonnegative partition of unity after multiplication by explicit weights and is supported within (p+1)h of an explicit node; the tensor product of point values at the nodes is a coefficient cochain that satisfies the boundary and polar constraints when the function does (the nodes of the constrained rings are r=0 and r=1), hence is realised by degrees of freedom; a convex-combination argument bounds the error, and C29 (best approximation) transfers it to the L2 projection.

**Implicit midpoint rule** (C73; Proof/MidpointSolve.v, Props/Midpoint.v). The rule is specified by weak equations between physical fields (is_rate, implicit_midpoint in Props/Midpoint.v, independent of the solver's matrices) and shown to be what the stepper evaluates. The rate is a cubic plus a linear map of the field; the operator bounds of C71 make it Lipschitz on balls, so that below dt_max the Picard map is a 1/2-contraction of the unit ball around B_n; the fixed point is the coordinatewise limit (completeness of R). The while loop is unfolded to iterates of that map.

**Field lines** (C74; Model/FieldLines.v, Spec/FieldLineSpec.v, Proof/FieldLineProofs.v, Props/FieldLines.v, Props/FieldLinesSeq.v). The right-hand side, event function, signed cylindrical coordinates and jnp.unwrap are modelled over the reals; diffrax is not. Confinement: all clamped basis functions but the last vanish linearly at 1 (the last polynomial piece has a bounded derivative), the last coefficient of the radial component of a Dirichlet 2-form is zero, so the radial speed is at most K(1 - r); a first-hitting-time argument with the monotone quantity (1 - r) exp(Kt) concludes. Unwrap: two reals congruent modulo 2 pi and closer than 2 pi coincide; induction over the list.

**Simultaneous approximation and convergence** (C75; Spec/DerivApproxSpec.v, Proof/Greville.v, Proof/GrevilleSeq.v, Props/Commuting.v). Quasi-interpolation at the Greville abscissae: the differences of the nodes are exactly the weights of the derivative basis, so by the mean value theorem the differences of the coefficients (which are the coefficients of the discrete derivative, C24) are weights times values of the true derivative at intermediate points, and the convex-combination argument of C72 applies to the derivative as well. Poisson: first Strang lemma in the quadrature inner product (energy identity plus 2 rho <= delta + |grad w|^2).

**Energy bounds and force-free states** (C76; Proof/Arnold.v, Props/Arnold.v). dd1 A = weak_curl B gives the Coulomb gauge (apply weak_div, C25) and hence the orthogonal split. The flux minimum is the split plus C68_flux_potential. Arnold's inequality: Rayleigh bound on Coulomb fields from the diagonalised curl-curl pencil (the eigenvectors with eigenvalue 0 are gradients, orthogonal to Coulomb fields), Cauchy-Schwarz, and the contraction of P12, which holds because M1, M2 and M12 are one quadrature inner product of physical fields (C33, ip12). Taylor states: the helicity of curl x is a quadratic form in x, maximised relative to the definite form M1 dd1 by a pencil; the Euler-Lagrange equation comes from a non-negative quadratic function with a zero.

**Singular mass matrices** (C77; Proof/Singular.v, Props/Singular.v). Degrees of freedom whose values vanish at the quadrature points are annihilated by the mass matrix (null_mass). Such degrees of freedom are found by counting (rank of the value matrix), as u (x) e_0 (x) e_0 with u in the kernel of the radial table, or as the difference of two basis functions that evaluate equally; realise turns them into degrees of freedom after boundary extraction (boundary_span).

**Integral theorems on segments, rectangles and boxes** (C78; Spec/SegSpec.v, Proof/SplineSeg.v, Proof/SeqSeg.v, Props/Segments.v). Every basis spline agrees on each closed cell between knots with a continuously differentiable function (c1_on, from the one-cell polynomials bv and their matching at the knots), so the fundamental theorem holds on every sub-interval of [0,1] (cells_int). The integrals of the derivative splines over the sub-interval then satisfy the same difference rule as the splines at its end points (seg_open, seg_per), and the three theorems follow from the incidence matrices.

**Harmonic-field tests** (C79; Model/HarmonicTests.v, Spec/HarmonicSpec.v, Proof/HarmonicFields.v, Props/HarmonicTests.v). The exact fields of test_helmholtz_decomposition.py and test_harmonic_fields_hollow_toroid.py are pulled back with the proved Jacobians of the maps; curl and divergence are then derivatives of explicit components. The alignment identity follows from the energy split of C40 and the one-dimensional kernel of C58; the currents-to-field solve from the two-dimensional kernel of C58 for a sequence without axis. Regular 2x2 systems are shown to exist from the fluxes of C68: were every pair of contours degenerate, integrating over the contours would make the period matrix degenerate.

**Fields are determined by their integrals** (C80; Proof/SeqSep.v, Props/Determined.v). The rows of the spline tables are linearly independent on the quadrature nodes (Proof/SplineTables.v), so point values separate the splines; integrals over sub-intervals separate the derivative splines, because a primitive of the coefficients gives a spline that is constant on [0,1]. Tensor products of separating families separate (sep3), and the coefficient map is injective (seq_coefs_inj). With C78 this turns the integral theorems into equivalences.

**Cavity eigenvalues** (C81; Model/CubeCavity.v, Spec/CavitySpec.v, Props/CubeCavity.v). get_true_evs of scripts/deprecated/cube_cavity.py is modelled with its dictionary as an association list. Invariants of the loops give the multiplicities; a mode outside the cut-off with a nonzero multiplicity has a second positive index, so its eigenvalue exceeds (N_max+1)^2, and sorted lists with equal counts below a bound have equal prefixes. The fields are functions with Coquelicot derivatives. Not modelled: completeness of the Fourier system, and the script's discrete eigenvalue problem (covered as far as the library goes by the properties of its matrices).

**The Hopf field** (C82; Model/Hopf.v, Spec/HopfSpec.v, Props/Hopf.v). The map and B_xyz of scripts/config_scripts/hopf.py over the reals. Divergence by explicit partial derivatives; the lines by showing that the inverse stereographic projection turns the flow into two rotations with a common clock (the integral of the prefactor), that the clock runs at least at a positive constant rate off the axis (the torus coordinate is conserved and bounds the distance), and the intermediate value theorem. The rest of the script calls methods that the library no longer has (assemble_grad_0, P2_0) and is not modelled; its discretisation is C59.

**The Solov'ev initial fields** (C83; Model/SolovevField.v, Spec/EquilibriumSpec.v, Props/SolovevField.v). B_0 of iter_islands.py and B_xyz of stell.py with sqrt and arctan2 as in the code; off the axis they equal a rational closed form, from which the derivatives are transferred locally. The flux function is conserved along lines by its zero derivative; on the boundary curve of the Cerfon map its derivative is R times the normal component of the poloidal field, and the mean value theorem between the two midplane points gives a point where that is not zero.

**The island perturbation** (C84; Model/Perturbation.v, Props/Perturbation.v). dB_xyz as in the scripts. The single quadrature node of a direction of type constant is zeta = 1/2, where sin(2 pi n zeta) = 0 for every integer n, so the load vector of the projection is 0.

**The convergence-rate assertion** (C85; Model/RateCheck.v, Props/RateCheck.v). The list of rates and its mean as in test_gvec_stellarator.py. With logarithms of the single quantities each rate is a difference quotient; the mean bounds the maximum, on a geometric grid the sum telescopes, and on any other grid the two first quotients can be chosen so that the mean is prescribed while the error grows.

**Plotting helpers** (C86; Model/PlotHelpers.v, Props/PlotHelpers.v). Axis limits as pairs of reals; styles as positions in the marker list, the colour map and the list of line styles, with sorted(set(...)) as sort of undup over any ordered type; the sweep's array of traces as a list of rows. The order of indices in a strictly sorted list is the order of the values.

**Spectral self-checks** (C87; Model/SpectralCheck.v, Props/SpectralCheck.v). Membership in eigvalsh(A) as an eigenpair of the symmetric part of A. M_k dd_k is symmetric (C27), so its eigenvalues have the sign of its quadratic form, and 0 is one iff dd_k is singular, which C58 decides. Rounding thresholds are not modelled.

**Lazy matrices** (`Model/Lazy.v`; lazy_matrices.py). C60: the bilinear forms of both assembly paths are the same quadrature
of physical fields, for all vectors, hence the matrices are equal.

**Geometry** (`Model/Geometry.v`): C32-C34 (inv33, det33, pushforward/pullback, projectors).

**Maps** (`Model/Maps.v`; mappings.py): all factories; `lcfs_fit`/`get_lcfs_F` in `Model/Lcfs.v` (without the optimiser).
C35-C37 with Coquelicot derivatives and trigonometry; `C35_regular_sequences` links them to `regular_map`.

**Relaxation** (`Model/Relaxation.v`; relaxation.py and run_relaxation_loop): state, diagnostics, midpoint residuum with all
options, picard loop, accept/reject, step control, recording, perturbation, early stop. A run is a fuel-free recursion on maxit with
an oracle of floating-point faults; C38-C45, C56 by induction over runs. C40's helicity balance uses integration by
parts for the assembled matrices (`Proof/SplineIBP*`, `HelicityIBP`) with an explicit quadrature defect. In these properties lstsq
is an arbitrary function; C69 instantiates it.

**Session, dictionaries, IO** (`Model/Session.v`, `Model/PyHeap.v`, `Model/IO.v`): C43, C46, C50-C52. Latin-1 strings; argparse
is reduced to the list of strings; `float()` is an oracle on strings; int()'s digit limit is a parameter; HDF5 is the map of
attributes and datasets; wall-clock values are opaque.

**Solvers** (`Model/Solvers.v`; iterative_solvers.py, invert_map): C47-C49, loops over an arithmetic with NaN; contraction and affine
exactness over R.

**Plotting helpers** (`Model/Plotting.v`): C53-C55, C57. Trajectories are lists of points; polyfit/roots of degree 2 are the exact parabola.

**Box discretisations**: C59 (`Model/DeRham.v` with all directions clamped).

## Not modelled

GVEC file parsing, the optimiser in `lcfs_fit`, matplotlib/plotly output, field-line integration (diffrax), timing, random run
names, HDF5 binary format, floating-point rounding, random perturbations other than as arbitrary vectors.
These have no property in the list because their meaning is in external libraries.

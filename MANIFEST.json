{
 "claims": [
  {
   "property": "C01",
   "status": "proved",
   "theorems": [
    "C01_clamped_partition_of_unity",
    "C01_periodic_partition_of_unity"
   ],
   "note": "Under the size bound n-p<=99900 (clamped) / n<=49000 (periodic) forced by the isclose tolerance; C06 shows a bound is needed."
  },
  {
   "property": "C02",
   "status": "proved",
   "theorems": [
    "C02_clamped_bounds_and_support",
    "C02_clamped_at_most_p_plus_1_active",
    "C02_periodic_bounds_and_support"
   ],
   "note": "Same size bounds as C01."
  },
  {
   "property": "C03",
   "status": "proved",
   "theorems": [
    "C03_clamped_derivative_exact",
    "C03_periodic_derivative_exact"
   ],
   "note": "For every non-knot x; C07 shows x=1 is excluded for a reason."
  },
  {
   "property": "C04",
   "status": "proved",
   "theorems": [
    "C04_clamped_endpoints"
   ],
   "note": ""
  },
  {
   "property": "C05",
   "status": "proved",
   "theorems": [
    "C05_periodic_closure"
   ],
   "note": ""
  },
  {
   "property": "C06",
   "status": "proved",
   "theorems": [
    "C06_partition_of_unity_large_n_refuted"
   ],
   "note": "The unrestricted version of C01 is refuted."
  },
  {
   "property": "C07",
   "status": "proved",
   "theorems": [
    "C07_derivative_at_right_end_refuted"
   ],
   "note": "Extension of C03 to x=1 is refuted."
  },
  {
   "property": "C08",
   "status": "proved",
   "theorems": [
    "C08_spline_constructor",
    "C08_tensor_constructor",
    "C08_degenerate_clamped_refuted"
   ],
   "note": "n,p>=0; negative integers not modelled."
  },
  {
   "property": "C09",
   "status": "proved",
   "theorems": [
    "C09_index_round_trip"
   ],
   "note": ""
  },
  {
   "property": "C10",
   "status": "proved",
   "theorems": [
    "C10_dimension_counts",
    "C10_euler_full",
    "C10_euler_polar",
    "C10_euler_dirichlet"
   ],
   "note": ""
  },
  {
   "property": "C11",
   "status": "proved",
   "theorems": [
    "C11_basis_evaluation",
    "C11_tables_agree"
   ],
   "note": ""
  },
  {
   "property": "C12",
   "status": "proved",
   "theorems": [
    "C12_discrete_function",
    "C12_no_extraction"
   ],
   "note": ""
  },
  {
   "property": "C13",
   "status": "proved",
   "theorems": [
    "C13_tensor_points",
    "C13_product_rule",
    "C13_point_order"
   ],
   "note": ""
  },
  {
   "property": "C14",
   "status": "proved",
   "theorems": [
    "C14_nodes_in_cells",
    "C14_weights",
    "C14_spline_mesh",
    "C14_degree_zero_refuted"
   ],
   "note": "Includes the negative result for degree 0 bases (empty rule)."
  },
  {
   "property": "C15",
   "status": "proved",
   "theorems": [
    "C15_gauss_exact"
   ],
   "note": "Explicit bound 1e-14 * (sum of |coefficients|) for meshes inside [0,1]: tables have 16 digits."
  },
  {
   "property": "C16",
   "status": "proved",
   "theorems": [
    "C16_trapezoid"
   ],
   "note": ""
  },
  {
   "property": "C17",
   "status": "proved",
   "theorems": [
    "C17_order_cap_refuted"
   ],
   "note": "Refutes exactness for order > 10."
  },
  {
   "property": "C18",
   "status": "proved",
   "theorems": [
    "C18_rows_select_free",
    "C18_free_selected_once",
    "C18_BBt",
    "C18_BtB_projector"
   ],
   "note": ""
  },
  {
   "property": "C19",
   "status": "proved",
   "theorems": [
    "C19_vector_boundary_refuted"
   ],
   "note": "Property as first stated (vector fields too) is refuted: theorem is the negative result for k=-1; C18 is the positive result for k=0..3."
  },
  {
   "property": "C20",
   "status": "proved",
   "theorems": [
    "C20_row_space",
    "C20_rank"
   ],
   "note": ""
  },
  {
   "property": "C21",
   "status": "proved",
   "theorems": [
    "C21_axis_single_valued",
    "C21_partition_of_unity",
    "C21_convex_weights",
    "C21_axis_first_harmonic"
   ],
   "note": ""
  },
  {
   "property": "C22",
   "status": "proved",
   "theorems": [
    "C22_strong_grad_exact",
    "C22_strong_curl_exact",
    "C22_strong_div_exact",
    "C22_discrete_form",
    "C22_gradient",
    "C22_curl",
    "C22_divergence"
   ],
   "note": "C22_gradient/curl/divergence: true partial derivatives (Coquelicot) of DiscreteFunction at every point off the knot planes, for every sequence the constructor builds from supported arguments; plus the abstract table versions."
  },
  {
   "property": "C23",
   "status": "proved",
   "theorems": [
    "C23_radial_derivative_refuted"
   ],
   "note": "Negative result: the getter differs from the partial derivative at some quadrature point whenever nr<>nt."
  },
  {
   "property": "C24",
   "status": "proved",
   "theorems": [
    "C24_strong_grad_incidence",
    "C24_strong_curl_incidence",
    "C24_strong_div_incidence",
    "C24_curl_grad",
    "C24_div_curl",
    "C24_sequence_complex"
   ],
   "note": ""
  },
  {
   "property": "C25",
   "status": "proved",
   "theorems": [
    "C25_weak_adjoint",
    "C25_weak_complex",
    "C25_sequence"
   ],
   "note": ""
  },
  {
   "property": "C26",
   "status": "proved",
   "theorems": [
    "C26_symmetric",
    "C26_quadrature",
    "C26_psd",
    "C26_definite",
    "C26_constructor_total",
    "C26_sequence"
   ],
   "note": ""
  },
  {
   "property": "C27",
   "status": "proved",
   "theorems": [
    "C27_selfadjoint",
    "C27_energy",
    "C27_psd_kernel",
    "C27_sequence"
   ],
   "note": ""
  },
  {
   "property": "C28",
   "status": "proved",
   "theorems": [
    "C28_divergence_free",
    "C28_identity_on_divfree",
    "C28_idempotent",
    "C28_complement_is_gradient",
    "C28_selfadjoint_orthogonal",
    "C28_sequence"
   ],
   "note": ""
  },
  {
   "property": "C29",
   "status": "proved",
   "theorems": [
    "C29_projector_tests",
    "C29_reproduces",
    "C29_best_approximation",
    "C29_sequence"
   ],
   "note": ""
  },
  {
   "property": "C30",
   "status": "proved",
   "theorems": [
    "C30_tests_cross_product",
    "C30_bilinear",
    "C30_antisymmetric",
    "C30_supported"
   ],
   "note": ""
  },
  {
   "property": "C31",
   "status": "proved",
   "theorems": [
    "C31_pairings",
    "C31_projections"
   ],
   "note": ""
  },
  {
   "property": "C32",
   "status": "proved",
   "theorems": [
    "C32_inv33_inverts",
    "C32_inv33_below_threshold",
    "C32_det33"
   ],
   "note": ""
  },
  {
   "property": "C33",
   "status": "proved",
   "theorems": [
    "C33_mutually_inverse",
    "C33_mass_is_physical_l2",
    "C33_sequence"
   ],
   "note": ""
  },
  {
   "property": "C34",
   "status": "proved",
   "theorems": [
    "C34_inverse_metric_vanishes",
    "C34_M1_vanishes"
   ],
   "note": ""
  },
  {
   "property": "C35",
   "status": "proved",
   "theorems": [
    "C35_toroid_jacobian",
    "C35_polar_jacobian",
    "C35_cylinder_jacobian",
    "C35_drumshape_jacobian",
    "C35_drumshape_modified_jacobian",
    "C35_rotating_ellipse_raises",
    "C35_rotating_ellipse_jacobian",
    "C35_cerfon_closed_form",
    "C35_cerfon_jacobian",
    "C35_orientation",
    "C35_periodicity",
    "C35_rotating_ellipse_closes",
    "C35_coincidences",
    "C35_helical_tube",
    "C35_helical_frame_refuted",
    "C35_helical_inflection",
    "C35_helical_periodicity",
    "C35_regular_sequences",
    "C35_toroid_sequence",
    "C35_toroid_has_jacobian",
    "C35_supported_instance",
    "C35_supported_axisymmetric",
    "C35_toroid_instance"
   ],
   "note": "Reals; jax derivatives are mathematical derivatives. helical_map: frame, tube, periodicity; no closed form of its determinant."
  },
  {
   "property": "C36",
   "status": "proved",
   "theorems": [
    "C36_left_inverse",
    "C36_right_inverse",
    "C36_toroid_injective"
   ],
   "note": "r > 0 (the code divides by r)."
  },
  {
   "property": "C37",
   "status": "proved",
   "theorems": [
    "C37_gvec_map_turns_half",
    "C37_gvec_field_period_refuted"
   ],
   "note": "States the defect: half the angle, periods do not join."
  },
  {
   "property": "C38",
   "status": "proved",
   "theorems": [
    "C38_divergence_free",
    "C38_run",
    "C38_sequence_ok",
    "C38_sequence_divergence"
   ],
   "note": "For all histories including rejections, floating-point faults (inf/nan residuals) and the perturbation; end to end for constructed sequences (true divergence off the knot planes). Rounding not modelled."
  },
  {
   "property": "C39",
   "status": "proved",
   "theorems": [
    "C39_energy_balance",
    "C39_fixed_point_dissipates",
    "C39_inexact_step",
    "C39_equilibrium",
    "C39_run"
   ],
   "note": "Newton option off (with it no dissipation follows from the code: lstsq is arbitrary)."
  },
  {
   "property": "C40",
   "status": "proved",
   "theorems": [
    "C40_integration_by_parts",
    "C40_helicity_step",
    "C40_ideal_conservation",
    "C40_helicity_run",
    "C40_E_dot_H",
    "C40_curl_free_is_gradient",
    "C40_harmonic_component",
    "C40_helicity_step_exact_quadrature",
    "C40_harmonic_conserved",
    "C40_sequence_harmonic_component",
    "C40_sequence_harmonic_conserved"
   ],
   "note": "E.H, harmonic part and exactness; helicity balance of every accepted step on every polar Dirichlet sequence with the explicit defect pairing_defect ps of the tabulated quadrature. Real arithmetic."
  },
  {
   "property": "C41",
   "status": "proved",
   "theorems": [
    "C41_terminates",
    "C41_fuel_irrelevant",
    "C41_frame",
    "C41_converged",
    "C41_residual_is_last_distance",
    "C41_no_iteration",
    "C41_nan_runs_to_cap"
   ],
   "note": ""
  },
  {
   "property": "C42",
   "status": "proved",
   "theorems": [
    "C42_accept_iff",
    "C42_reject",
    "C42_accept",
    "C42_dt_product",
    "C42_dt_positive",
    "C42_progress"
   ],
   "note": "Progress for constructed sequences over R, without floating-point faults."
  },
  {
   "property": "C43",
   "status": "proved",
   "theorems": [
    "C43_caller_sees_initial",
    "C43_B_final_is_final_refuted"
   ],
   "note": "C43_B_final_is_final_refuted: existence of a losing run for every sequence with non-zero discrete curl."
  },
  {
   "property": "C44",
   "status": "proved",
   "theorems": [
    "C44_recorded",
    "C44_lengths"
   ],
   "note": "Wall-clock stamps not modelled."
  },
  {
   "property": "C45",
   "status": "proved",
   "theorems": [
    "C45_first_break_or_maxit",
    "C45_break_condition"
   ],
   "note": ""
  },
  {
   "property": "C46",
   "status": "proved",
   "theorems": [
    "C46_lists_shared",
    "C46_second_run",
    "C46_scalars_private",
    "C46_needs_start_time",
    "C46_unique_keys",
    "C46_fresh_copy_empty_refuted"
   ],
   "note": ""
  },
  {
   "property": "C47",
   "status": "proved",
   "theorems": [
    "C47_terminates",
    "C47_reported_residual",
    "C47_zero_iterations",
    "C47_zero_iterations_unchecked_refuted",
    "C47_contraction_converges",
    "C47_rate_below_one"
   ],
   "note": ""
  },
  {
   "property": "C48",
   "status": "proved",
   "theorems": [
    "C48_terminates",
    "C48_stationary_iff_fixed",
    "C48_affine_exact",
    "C48_residual_is_defect_refuted"
   ],
   "note": "Includes the refuted reading of the residual."
  },
  {
   "property": "C49",
   "status": "proved",
   "theorems": [
    "C49_terminates",
    "C49_affine_exact",
    "C49_residual_of_result_refuted"
   ],
   "note": "Includes the refuted reading of the error."
  },
  {
   "property": "C50",
   "status": "proved",
   "theorems": [
    "C50_dictionary",
    "C50_deterministic",
    "C50_unique_keys",
    "C50_raises_iff",
    "C50_int_only_digits",
    "C50_total_refuted"
   ],
   "note": "Latin-1 argument strings; argparse itself not modelled; float() is an oracle."
  },
  {
   "property": "C51",
   "status": "proved",
   "theorems": [
    "C51_update",
    "C51_raises_iff",
    "C51_idempotent",
    "C51_device_sets_geometry_refuted",
    "C51_iter_is_not_a_tokamak",
    "C51_history_independent_refuted",
    "C51_case",
    "C51_names",
    "C51_tokamak_axisymmetric",
    "C51_boundary"
   ],
   "note": "params and CONFIG distinct objects."
  },
  {
   "property": "C52",
   "status": "proved",
   "theorems": [
    "C52_selects",
    "C52_raises_iff",
    "C52_saved_runs",
    "C52_missing_keys_refuted",
    "C52_symmetric_refuted",
    "C52_iter_counts_match_refuted"
   ],
   "note": "Integer maxit/save_every and scalar attributes; the documented 'differ only in sweep_params' is refuted."
  },
  {
   "property": "C53",
   "status": "proved",
   "theorems": [
    "C53_sound",
    "C53_complete",
    "C53_exactly_once",
    "C53_vertex_twice_refuted",
    "C53_small_step_refuted"
   ],
   "note": ""
  },
  {
   "property": "C54",
   "status": "proved",
   "theorems": [
    "C54_shapes",
    "C54_plane_nonzero",
    "C54_plane_zero_refuted",
    "C54_wrap_spurious_refuted"
   ],
   "note": "One trajectory of the batch; NaN is None."
  },
  {
   "property": "C55",
   "status": "proved",
   "theorems": [
    "C55_3d_entry",
    "C55_3d_square_transposed",
    "C55_3d_arrangement_refuted",
    "C55_2d_cut0_cut1",
    "C55_2d_cut2_entry",
    "C55_2d_cut2_square",
    "C55_2d_cut2_arrangement_refuted",
    "C55_1d"
   ],
   "note": "Positive part for the 1d grid and cuts of axis 0/1; arrangement refuted for axis 2 and 3d."
  },
  {
   "property": "C56",
   "status": "proved",
   "theorems": [
    "C56_perturbation_iff_accepted",
    "C56_lost_when_rejected"
   ],
   "note": "Negative result."
  },
  {
   "property": "C57",
   "status": "proved",
   "theorems": [
    "C57_plane",
    "C57_documented_plane",
    "C57_unnormalized_refuted",
    "C57_isolated_crossing",
    "C57_consecutive_crossings_refuted",
    "C57_first_segment_refuted",
    "C57_indices"
   ],
   "note": "deg = 2 (the default); polyfit/roots idealised as the exact parabola and its real roots."
  },
  {
   "property": "C58",
   "status": "proved",
   "theorems": [
    "C58_betti",
    "C58_invertible",
    "C58_exact",
    "C58_hodge_decomposition",
    "C58_harmonic_line",
    "C58_sequence_betti",
    "C58_sequence_invertible",
    "C58_sequence_exact",
    "C58_sequence_hodge",
    "C58_sequence_harmonic_line"
   ],
   "note": "total mass = sum of the coefficients; supported = radial clamped, angles periodic/constant (Spec/SeqRSpec.v)."
  },
  {
   "property": "C59",
   "status": "proved",
   "theorems": [
    "C59_constructor",
    "C59_divergence_refuted",
    "C59_gradient_interior",
    "C59_gradient_boundary_refuted"
   ],
   "note": "Limits (refutations) for all boxes, and correctness for interior functions; the model reads out-of-range rows of the tables clamped, as JAX does."
  },
  {
   "property": "C60",
   "status": "proved",
   "theorems": [
    "C60_dimensions",
    "C60_mass",
    "C60_derivative",
    "C60_threeform",
    "C60_projection",
    "C60_second_order",
    "C60_vector_mass"
   ],
   "note": "jacfwd idealised as the derivative (quadrature points are proved to be off the knots, where it exists)."
  },
  {
   "property": "C61",
   "status": "proved",
   "theorems": [
    "C61_solovev_start",
    "C61_solovev_stationary",
    "C61_solovev_run",
    "C61_solovev_report_raises",
    "C61_report",
    "C61_projected_field",
    "C61_projected_start",
    "C61_projected_run",
    "C61_alignment"
   ],
   "note": "Exact arithmetic, no faults, preconditioner off or lstsq(H,0)=0; eigh is any unit eigenvector of the smallest eigenvalue of the symmetrised matrix."
  },
  {
   "property": "C62",
   "status": "proved",
   "theorems": [
    "C62_real",
    "C62_eigenbasis",
    "C62_orthogonal",
    "C62_commute",
    "C62_multiplicities",
    "C62_cavity",
    "C62_cavity_dirichlet",
    "C62_cavity_positive",
    "C62_cavity_singular",
    "C62_vector_poisson",
    "C62_vector_poisson_cutoff",
    "C62_one_vector_deflation_refuted",
    "C62_deflation",
    "C62_cavity_lowest",
    "C62_cavity_scaling",
    "C62_test_cavity_scaling",
    "C62_test_cavity_refuted",
    "C62_script_laplacian_refuted",
    "C62_generalized_eigh",
    "C62_generalized_eigh_total"
   ],
   "note": "Exact arithmetic; eigh/cholesky are any decomposition with the documented properties (existence proved by the spectral theorem over real closed fields)."
  },
  {
   "property": "C63",
   "status": "proved",
   "theorems": [
    "C63_operators",
    "C63_projection",
    "C63_sequence",
    "C63_pinv",
    "C63_diagnostics",
    "C63_similarity"
   ],
   "note": "Runs: gamma = 0, preconditioner and perturbation off, polar Dirichlet sequences (dd1 invertible), no faults, solver tolerance < 1 in both units. inv33's absolute threshold breaks the law for small domains: see C34."
  },
  {
   "property": "C64",
   "status": "proved",
   "theorems": [
    "C64_primal",
    "C64_cea",
    "C64_neumann_singular",
    "C64_mixed",
    "C64_mixed_dirichlet",
    "C64_polar_data",
    "C64_mixed_data",
    "C64_mixed_docstring_refuted",
    "C64_toroid_data",
    "C64_vector_data",
    "C64_vector_refuted",
    "C64_zpinch_data"
   ],
   "note": "Exact arithmetic. The Cea estimate is for the quadrature inner product; convergence rates (approximation power of the splines) are not stated."
  },
  {
   "property": "C65",
   "status": "proved",
   "theorems": [
    "C65_force",
    "C65_pressure",
    "C65_energy_variation",
    "C65_equilibrium",
    "C65_hessian_refuted",
    "C65_force_free",
    "C65_hessian_units"
   ],
   "note": "Exact arithmetic. Where B vanishes at a quadrature point the code's force-free pressure is nan; the theorem assumes it does not."
  },
  {
   "property": "C66",
   "status": "proved",
   "theorems": [
    "C66_lstsq",
    "C66_map_needs_full_space",
    "C66_map_best_fit",
    "C66_map_reproduces_data",
    "C66_map_recovers_forms",
    "C66_quadrature_grid_determines",
    "C66_B_best_fit",
    "C66_B_reproduces_data",
    "C66_B_recovers_form",
    "C66_axis_tolerance_refuted"
   ],
   "note": "Exact arithmetic: lstsq is the pseudo-inverse solution, no singular value is cut off. The half angle is C37."
  },
  {
   "property": "C67",
   "status": "proved",
   "theorems": [
    "C67_clamped_continuous",
    "C67_periodic_continuous",
    "C67_clamped_C1",
    "C67_periodic_C1",
    "C67_gradient",
    "C67_curl",
    "C67_divergence",
    "C67_conforming",
    "C67_continuous",
    "C67_degree_one_sharp"
   ],
   "note": "smoothness at knots; sharpness at degree 1; the face r=1 is excluded for components with radial derivative splines (C07)"
  },
  {
   "property": "C68",
   "status": "proved",
   "theorems": [
    "C68_clamped_unit_integral",
    "C68_periodic_unit_integral",
    "C68_unique",
    "C68_total_mass",
    "C68_dirichlet_traces",
    "C68_axis_traces",
    "C68_fluxes_exist",
    "C68_stokes",
    "C68_gauss",
    "C68_radial_flux",
    "C68_flux_constant",
    "C68_curl_no_flux",
    "C68_flux_potential",
    "C68_harmonic_flux",
    "C68_polar_poloidal_flux",
    "C68_flux_conserved",
    "C68_physical_flux_density"
   ],
   "note": "all statements for the fields evaluated by DiscreteFunction; conservation assumes the run never applies its perturbation and exact arithmetic"
  },
  {
   "property": "C69",
   "status": "proved",
   "theorems": [
    "C69_velocity",
    "C69_mass_hessian",
    "C69_work",
    "C69_descent",
    "C69_ascent",
    "C69_exact_steps",
    "C69_equilibrium",
    "C69_assembled",
    "C69_run",
    "C69_same_run"
   ],
   "note": "exact arithmetic; dissipation for gamma=0 (with smoothing and a general Hessian it does not follow); lstsq without singular value cut-off"
  },
  {
   "property": "C70",
   "status": "proved",
   "theorems": [
    "C70_radius",
    "C70_loss",
    "C70_loss_zero",
    "C70_fit",
    "C70_safety_factor",
    "C70_start",
    "C70_closed",
    "C70_no_fit",
    "C70_defaults_refuted",
    "C70_map"
   ],
   "note": "exact arithmetic; the optimiser is an arbitrary function (its convergence is not modelled); n_map <= 49000"
  },
  {
   "property": "C71",
   "status": "proved",
   "theorems": [
    "C71_force_reached",
    "C71_run_converges",
    "C71_large_solver_tol",
    "C71_large_solver_tol_run"
   ],
   "note": "Exact arithmetic, no faults, Newton option and perturbation off. The threshold and N are explicit in Proof/RelaxConverge.v (tol_max, dtlow, delta) up to the operator bounds Kmid of Proof/RelaxBound.v. For save_every > 1 only reaching, not stopping, is proved: a schedule may reject exactly the recorded iterations."
  },
  {
   "property": "C72",
   "status": "proved",
   "theorems": [
    "C72_uniform",
    "C72_projection",
    "C72_first_order"
   ],
   "note": "First order (Lipschitz) only; higher order for smoother functions is not claimed. On the polar axis 1- and 2-forms whose physical field crosses the axis are not covered (the coupled ring coefficients are set to zero). Exact arithmetic."
  },
  {
   "property": "C73",
   "status": "proved",
   "theorems": [
    "C73_fixed_points",
    "C73_solvable",
    "C73_solver",
    "C73_geometric",
    "C73_run"
   ],
   "note": "Not for the Newton option (lstsq is an arbitrary function there). The threshold is explicit in the proof (dt_max) but is stated as existing. Exact arithmetic."
  },
  {
   "property": "C74",
   "status": "proved",
   "theorems": [
    "C74_unit_speed",
    "C74_direction_only",
    "C74_evaluation",
    "C74_periodic",
    "C74_plotted",
    "C74_radial_wrap_refuted",
    "C74_confined",
    "C74_crossing",
    "C74_section",
    "C74_restart",
    "C74_unwrap",
    "C74_unwrap_exact",
    "C74_total_turns",
    "C74_poloidal",
    "C74_alias_refuted",
    "C74_iota",
    "C74_radial_component",
    "C74_dirichlet_confined"
   ],
   "note": "The diffrax integrator and its root finder are not modelled: trajectories are exact solutions of the differential equation. Exact arithmetic."
  },
  {
   "property": "C75",
   "status": "proved",
   "theorems": [
    "C75_grad",
    "C75_curl",
    "C75_div",
    "C75_residual",
    "C75_strang",
    "C75_poisson"
   ],
   "note": "Sequences with a polar axis are not covered (a first-order approximation of gradients near the axis needs the two first rings to follow the Taylor polynomial there). The quadrature residual delta is kept as a quantity of the theorem, its own convergence rate is not proved. Exact arithmetic."
  },
  {
   "property": "C76",
   "status": "proved",
   "theorems": [
    "C76_split",
    "C76_flux_minimum",
    "C76_projection_contracts",
    "C76_arnold",
    "C76_beltrami",
    "C76_taylor_exists",
    "C76_taylor_beltrami",
    "C76_run"
   ],
   "note": "Exact arithmetic. The Taylor theorems include the trivial case of helicity 0 (the zero field); that a given discretisation has a flux-free field with non-zero helicity is not shown for a concrete sequence."
  },
  {
   "property": "C77",
   "status": "proved",
   "theorems": [
    "C77_counting",
    "C77_not_invertible",
    "C77_radial",
    "C77_not_a_basis",
    "C77_one_cell"
   ],
   "note": "(b) and (c) are for polar=False; (c) assumes n_r >= 3."
  },
  {
   "property": "C78",
   "status": "proved",
   "theorems": [
    "C78_unique",
    "C78_unique_boundary",
    "C78_gradient",
    "C78_stokes",
    "C78_gauss",
    "C78_solenoidal",
    "C78_irrotational",
    "C78_relaxation"
   ],
   "note": ""
  },
  {
   "property": "C79",
   "status": "proved",
   "theorems": [
    "C79_helmholtz_field",
    "C79_helmholtz_field_refuted",
    "C79_hollow_field",
    "C79_hollow_field_refuted",
    "C79_integrand",
    "C79_circulation",
    "C79_alignment",
    "C79_currents",
    "C79_currents_regular",
    "C79_currents_exist"
   ],
   "note": "exactness and the divergence of the test fields are stated with derivatives of their logical components; eigh is any pair of kernel vectors with a regular system"
  },
  {
   "property": "C80",
   "status": "proved",
   "theorems": [
    "C80_values",
    "C80_work",
    "C80_flux",
    "C80_content",
    "C80_irrotational",
    "C80_solenoidal",
    "C80_constant"
   ],
   "note": ""
  },
  {
   "property": "C81",
   "status": "proved",
   "theorems": [
    "C81_count",
    "C81_complete",
    "C81_script",
    "C81_sharp",
    "C81_modes",
    "C81_polarisations"
   ],
   "note": "that there are no other modes than standing waves (completeness of the Fourier system) is not part of the statement"
  },
  {
   "property": "C82",
   "status": "proved",
   "theorems": [
    "C82_map",
    "C82_formula",
    "C82_solenoidal",
    "C82_strength",
    "C82_windings",
    "C82_closed",
    "C82_axis"
   ],
   "note": "existence of field lines for all time is not proved; the theorems hold for every line defined for all times, and the unit circle is one"
  },
  {
   "property": "C83",
   "status": "proved",
   "theorems": [
    "C83_formula",
    "C83_equilibrium",
    "C83_stell",
    "C83_surfaces",
    "C83_magnetic_axis",
    "C83_axis_rotation",
    "C83_boundary_refuted",
    "C83_crosses_wall_refuted"
   ],
   "note": "the safety factor is that of the linearisation at the magnetic axis"
  },
  {
   "property": "C84",
   "status": "proved",
   "theorems": [
    "C84_axisymmetric_refuted",
    "C84_radial"
   ],
   "note": "stated as a refutation for sequences constant in zeta, in exact arithmetic: in floats sin(pi n) is 1e-16, so the scripts normalise rounding noise"
  },
  {
   "property": "C85",
   "status": "proved",
   "theorems": [
    "C85_power_law",
    "C85_some_step",
    "C85_geometric_grid",
    "C85_decrease_refuted"
   ],
   "note": "exact logarithms; the errors are arbitrary positive numbers"
  },
  {
   "property": "C86",
   "status": "proved",
   "theorems": [
    "C86_axes_equal",
    "C86_inverted_axis",
    "C86_markers",
    "C86_colours",
    "C86_linestyles",
    "C86_helicity_curves",
    "C86_helicity_refuted",
    "C86_trace_plot",
    "C86_divergence_refuted"
   ],
   "note": "the claim that the curves show the change of helicity is refuted by C86_helicity_refuted; colours are positions in the colour map"
  },
  {
   "property": "C87",
   "status": "proved",
   "theorems": [
    "C87_spectra",
    "C87_tests_pass"
   ],
   "note": "the thresholds 1e-10 and 1e-6 are not modelled: 0 is exact"
  }
 ]
}
{
 "claims": [
  {
   "property": "C01",
   "status": "proved",
   "theorems": [
    "C01_block_enforces",
    "C01_enforces",
    "C01_block_enforces_general"
   ],
   "note": "block and non-block storage; every result of every interleaving"
  },
  {
   "property": "C02",
   "status": "proved",
   "theorems": [
    "C02_schedule_independent",
    "C02_schedule_independent_nonblock",
    "C02_every_schedule_terminates",
    "C02_matrix_and_rhs"
   ],
   "note": "interleavings of individual reads, writes and atomic adds"
  },
  {
   "property": "C03",
   "status": "partial",
   "theorems": [
    "C03_unsymmetric_refuted",
    "C03_overlap_refuted",
    "C03_zero_values_partial"
   ],
   "note": "the code violates the property (two counterexamples proved); the zero-value case is proved for every matrix and overlap"
  },
  {
   "property": "C04",
   "status": "proved",
   "theorems": [
    "C04_dofs_and_values"
   ],
   "note": "exact result for every input, including when it throws; no out-of-bounds write"
  },
  {
   "property": "C07",
   "status": "partial",
   "theorems": [
    "C07_nonblock_same_matrix",
    "C07_stride_rows",
    "C07_round_trip",
    "C07_in_bounds_refuted"
   ],
   "note": "conversion preserves the matrix and the round trip restores it; the clause 'no access is out of bounds' is false of the code (row-map read one past the end, refuted for every matrix)"
  },
  {
   "property": "C08",
   "status": "proved",
   "theorems": [
    "C08_sort"
   ],
   "note": ""
  },
  {
   "property": "C09",
   "status": "proved",
   "theorems": [
    "C09_matvec",
    "C09_rejects_sizes"
   ],
   "note": ""
  },
  {
   "property": "C05",
   "status": "proved",
   "theorems": [
    "C05_graph",
    "C05_lookup",
    "C05_nonblock"
   ],
   "note": "CreateBlockMatrix (all block sizes, all meshes, all schedules) and CreateMatrix; the input is the node star graph delivered by Omega_h, specified by star_graph."
  },
  {
   "property": "C06",
   "status": "proved",
   "theorems": [
    "C06_vector",
    "C06_scalar_gradient",
    "C06_jacobian",
    "C06_transpose_jacobian",
    "C06_transpose_lookup",
    "C06_exact_transpose",
    "C06_gather",
    "C06_virtual_work"
   ],
   "note": "For every order of the atomic additions; exact ring arithmetic (floating point additions commute only up to rounding)."
  },
  {
   "property": "C10",
   "status": "proved",
   "theorems": [
    "C10_matrix_times_vector",
    "C10_matrix_times_vector_transpose",
    "C10_multiply",
    "C10_update3",
    "C10_identity_and_fill3",
    "C10_update2",
    "C10_fill2_scale2",
    "C10_axpy2",
    "C10_vectors",
    "C10_extract",
    "C10_rejects_mismatch"
   ],
   "note": "exact arithmetic; blas3::inverse (an external LU) is not covered"
  },
  {
   "property": "C11",
   "status": "partial",
   "theorems": [
    "C11_fill_refuted",
    "C11_fill_partial"
   ],
   "note": "the code violates the property: the loop runs over the output's size and reads past the list (refuted for every shorter list); proved when the sizes agree"
  },
  {
   "property": "C12",
   "status": "proved",
   "theorems": [
    "C12_linear_solve"
   ],
   "note": "linear solver as an oracle (solver_ok); the case where the Newton loop stops before the first solve is C13"
  },
  {
   "property": "C13",
   "status": "partial",
   "theorems": [
    "C13_early_exit",
    "C13_refuted",
    "C13_values_partial"
   ],
   "note": "the code violates the property: with more than one Newton step a small residual at the zero state skips the boundary conditions; proved whenever that test does not fire, for nonlinear and unsymmetric problems"
  },
  {
   "property": "C14",
   "status": "proved",
   "theorems": [
    "C14_adjoint_gradient",
    "C14_no_dirichlet_throws"
   ],
   "note": "total derivative along every variation that keeps the constrained equations; unsymmetric Jacobians and nonzero prescribed values included; without Dirichlet conditions the code throws"
  },
  {
   "property": "C15",
   "status": "partial",
   "theorems": [
    "C15_nonzero_values_refuted",
    "C15_unsymmetric_refuted",
    "C15_shape_gradient_partial"
   ],
   "note": "the code violates the property in two ways (proved); holds for symmetric Jacobians with zero prescribed values"
  },
  {
   "property": "C16",
   "status": "partial",
   "theorems": [
    "C16_self_adjoint_partial",
    "C16_self_adjoint_shape_partial",
    "C16_displacement_driven_refuted"
   ],
   "note": "holds for the internal energy with homogeneous conditions and design-independent load; refuted when the prescribed values are nonzero"
  },
  {
   "property": "C17",
   "status": "proved",
   "theorems": [
    "C17_trapezoid",
    "C17_linear_steps",
    "C17_early_exit"
   ],
   "note": "trapezoid relation for nonlinear problems too; the equation for linear problems with at least one solve in the step; C17_early_exit shows what happens when the convergence test fires before the first solve"
  },
  {
   "property": "C18",
   "status": "partial",
   "theorems": [
    "C18_refuted",
    "C18_accumulates",
    "C18_zero_values_partial"
   ],
   "note": "the code violates the property: prescribed values accumulate over solves (proved in general); holds with zero prescribed values"
  },
  {
   "property": "C19",
   "status": "partial",
   "theorems": [
    "C19_adjoint_partial",
    "C19_adjoint_shape_partial",
    "C19_nonzero_values_refuted",
    "C19_unsymmetric_refuted"
   ],
   "note": "holds, for every number of steps, for symmetric Jacobians and zero prescribed values; refuted otherwise"
  },
  {
   "property": "C20",
   "status": "proved",
   "theorems": [
    "C20_newmark",
    "C20_equation_of_motion"
   ],
   "note": "Newmark formulas for nonlinear problems too; prescribed values and the equation of motion for linear problems with time-dependent loads and boundary values"
  },
  {
   "property": "C21",
   "status": "partial",
   "theorems": [
    "C21_energy_partial",
    "C21_initial_acceleration_refuted"
   ],
   "note": "energy is conserved over all computed steps, and from the initial state when its acceleration is in equilibrium; refuted for the first step otherwise, since the code starts from zero acceleration"
  },
  {
   "property": "C22",
   "status": "partial",
   "theorems": [
    "C22_adjoint_partial",
    "C22_adjoint_shape_partial",
    "C22_time_shift_refuted",
    "C22_nonzero_values_refuted",
    "C22_unsymmetric_refuted"
   ],
   "note": "holds, for every number of steps, for symmetric time-independent Jacobians and zero prescribed values; refuted in three ways otherwise, among them the time at which the backward sweep evaluates the loads"
  },
  {
   "property": "C23",
   "status": "proved",
   "theorems": [
    "C23_history_independent",
    "C23_given_state"
   ],
   "note": "after any sequence of solves, gradients and setGlobalSolution calls; also for the gradients that follow the solve"
  },
  {
   "property": "C24",
   "status": "proved",
   "theorems": [
    "C24_values",
    "C24_gradients",
    "C24_constructed"
   ],
   "note": "for arbitrarily nested weighted sums, quotients and least squares; the state gradient at step 0 with time step 0, the only way the elliptic problem calls it (other steps: C25)"
  },
  {
   "property": "C25",
   "status": "partial",
   "theorems": [
    "C25_step_ignored",
    "C25_refuted",
    "C24_gradients"
   ],
   "note": "refuted: composite criteria pass the time step in the place of the step index, so the requested step is ignored; holds for step 0 with time step 0 (C24_gradients)"
  },
  {
   "property": "C26",
   "status": "proved",
   "theorems": [
    "C26_rotated_inertia",
    "C26_gold_is_zero"
   ],
   "note": "for every rotation matrix, centre of gravity and second moments; the eigen decomposition of the gold inertia is an input"
  },
  {
   "property": "C27",
   "status": "proved",
   "theorems": [
    "C27_steps_once",
    "C27_static_steps_once"
   ],
   "note": ""
  },
  {
   "property": "C64",
   "status": "partial",
   "theorems": [
    "C64_parameter_gradient",
    "C64_step_gradient_partial",
    "C64_pnorm_steps_refuted"
   ],
   "note": "holds for controls and configuration, and for the state of a step when the value is a plain sum or there is one step; refuted for p-norms over several steps"
  },
  {
   "property": "C28",
   "status": "proved",
   "theorems": [
    "C28_simp",
    "C28_ramp",
    "C28_heaviside",
    "C28_applied_once"
   ],
   "note": ""
  },
  {
   "property": "C29",
   "status": "partial",
   "theorems": [
    "C29_bound",
    "C29_continuation_partial",
    "C29_monotone_refuted"
   ],
   "note": "closed form and monotonicity when the initial exponent is at most the bound; refuted above it: the first update lowers the exponent"
  },
  {
   "property": "C30",
   "status": "proved",
   "theorems": [
    "C30_projection"
   ],
   "note": "after any sequence of parameter changes"
  },
  {
   "property": "C65",
   "status": "partial",
   "theorems": [
    "C65_reversed_refuted",
    "C65_range_partial"
   ],
   "note": "refuted: void and solid are exchanged for every curvature; the range is right"
  },
  {
   "property": "C66",
   "status": "partial",
   "theorems": [
    "C66_all_given_partial",
    "C66_missing_key_refuted",
    "C66_heaviside_refuted"
   ],
   "note": "holds for SIMP and RAMP when all keys are given; refuted otherwise"
  },
  {
   "property": "C67",
   "status": "proved",
   "theorems": [
    "C67_intermediate_density"
   ],
   "note": ""
  },
  {
   "property": "C31",
   "status": "proved",
   "theorems": [
    "C31_gradients"
   ],
   "note": "one, two and three dimensions"
  },
  {
   "property": "C32",
   "status": "partial",
   "theorems": [
    "C32_strain",
    "C32_virtual_work",
    "C32_operators_agree",
    "C32_equilibrium",
    "C32_dirty_output_refuted"
   ],
   "note": "proved for outputs that start at zero; the shear components are accumulated, so a reused output is refuted"
  },
  {
   "property": "C33",
   "status": "partial",
   "theorems": [
    "C33_stiffness",
    "C33_functor_partial",
    "C33_functor_refuted",
    "C33_reference_and_pressure",
    "C33_rayleigh"
   ],
   "note": "refuted for the one-dimensional temperature-dependent stiffness; everything else proved"
  },
  {
   "property": "C34",
   "status": "partial",
   "theorems": [
    "C34_plane_strain_partial",
    "C34_refuted",
    "C34_solid_partial",
    "C34_bar_refuted",
    "C34_deviatoric"
   ],
   "note": "refuted in three dimensions and one dimension; the exact condition under which the three-dimensional kernel is right is proved; two dimensions and the deviatoric kernels proved"
  },
  {
   "property": "C35",
   "status": "partial",
   "theorems": [
    "C35_partial",
    "C35_refuted",
    "C35_negative_shear_wrong"
   ],
   "note": "proved for non-negative shear; refuted for every negative shear"
  },
  {
   "property": "C36",
   "status": "proved",
   "theorems": [
    "C36_jacobi",
    "C36_step"
   ],
   "note": ""
  },
  {
   "property": "C37",
   "status": "partial",
   "theorems": [
    "C37_deviator",
    "C37_pressure_and_scale",
    "C37_plane_stress",
    "C37_rotation",
    "C37_bar_refuted"
   ],
   "note": "two and three dimensions proved, rotation invariance included; non-negativity refuted in one dimension"
  },
  {
   "property": "C68",
   "status": "partial",
   "theorems": [
    "C68_volume_partial",
    "C68_volume_refuted",
    "C68_face_area"
   ],
   "note": "refuted in one dimension"
  },
  {
   "property": "C69",
   "status": "proved",
   "theorems": [
    "C69_heat_flux",
    "C69_divergence",
    "C69_conservation",
    "C69_projection"
   ],
   "note": ""
  },
  {
   "property": "C70",
   "status": "proved",
   "theorems": [
    "C70_symmetric",
    "C70_required",
    "C70_cubic",
    "C70_entries"
   ],
   "note": ""
  },
  {
   "property": "C38",
   "status": "proved",
   "theorems": [
    "C38_residual_vanishes",
    "C38_return_mapping",
    "C38_equivalent_strain",
    "C38_thermal_independent",
    "C38_penalised_constants",
    "C38_thermal_strain"
   ],
   "note": "Exact for real arithmetic, in plane strain and three dimensions; hypotheses: positive shear modulus and yield stress, non-negative hardening moduli and accumulated strain, trace-free previous backstress (all invariants by C39)."
  },
  {
   "property": "C39",
   "status": "proved",
   "theorems": [
    "C39_history",
    "C39_penalised_constants_admissible"
   ],
   "note": "By induction over the load history; constants may change between steps."
  },
  {
   "property": "C40",
   "status": "partial",
   "theorems": [
    "C40_terminates",
    "C40_failure",
    "C40_convergence_partial",
    "C40_stagnation_refuted"
   ],
   "note": "Termination proved for every norm history; 'converged implies small residual' is refuted (stagnation counts as convergence) and replaced by the exact meaning of the flag."
  },
  {
   "property": "C41",
   "status": "proved",
   "theorems": [
    "C41_condensation"
   ],
   "note": ""
  },
  {
   "property": "C42",
   "status": "partial",
   "theorems": [
    "C42_termination_partial",
    "C42_no_growth_refuted",
    "C42_cut_refuted",
    "C42_shrinking_refuted"
   ],
   "note": "Refuted for three kinds of configuration; proved for all failure patterns and histories when the first retry adds a step and the initial count is within the maximum."
  },
  {
   "property": "C43",
   "status": "partial",
   "theorems": [
    "C43_increments_telescope",
    "C43_state_partial",
    "C43_early_stop_refuted"
   ],
   "note": "The increments telescope exactly; the state misses the value by at most the tolerance per step in which Newton stops before its first update (refuted as an equality)."
  },
  {
   "property": "C44",
   "status": "partial",
   "theorems": [
    "C44_first_solve_partial",
    "C44_accumulates",
    "C44_repeated_solve_refuted"
   ],
   "note": "Refuted for repeated solves; proved for the first one, with the exact accumulation law."
  },
  {
   "property": "C45",
   "status": "partial",
   "theorems": [
    "C45_path_adjoint_partial",
    "C45_penalised_projection_refuted",
    "C45_no_dirichlet_throws"
   ],
   "note": "Refuted when the projection is penalised by the control and when there are no Dirichlet conditions; proved otherwise."
  },
  {
   "property": "C71",
   "status": "partial",
   "theorems": [
    "C71_failed_solve_throws",
    "C71_all_succeeded",
    "C71_recovery_refuted"
   ],
   "note": "The flag of a failed solve is never cleared, so recovery is refuted."
  },
  {
   "property": "C46",
   "status": "partial",
   "theorems": [
    "C46_meaning_partial",
    "C46_fully_parenthesised",
    "C46_minus_power_refuted",
    "C46_factorial_partial"
   ],
   "note": "Proved for every expression in fully parenthesised text and in text with the parentheses that the code's own strengths ask for, any white space. Refuted for the usual minimal parentheses: a sign binds more strongly than ^, so -x^2 is (-x)^2. Factorials above 20! overflow. Numbers are exact decimals."
  },
  {
   "property": "C47",
   "status": "proved",
   "theorems": [
    "C47_accepted_complete",
    "C47_unknown_names"
   ],
   "note": "For every character string."
  },
  {
   "property": "C48",
   "status": "partial",
   "theorems": [
    "C48_pow_arguments_refuted",
    "C48_pow_partial"
   ],
   "note": "Refuted: pow(1+2,2) is 5. Proved for all arguments that bind at least as strongly as a sign, including every parenthesised argument."
  },
  {
   "property": "C49",
   "status": "partial",
   "theorems": [
    "C49_safe_refuted",
    "C49_safe_partial"
   ],
   "note": "Refuted by texts ending in sqr and by empty exponents. Proved for every other text, including the parser's own stacks."
  },
  {
   "property": "C50",
   "status": "proved",
   "theorems": [
    "C50_adjoint",
    "C50_built"
   ],
   "note": "exact arithmetic; every schedule of the products and every interleaving of the transposition's atomic updates"
  },
  {
   "property": "C51",
   "status": "proved",
   "theorems": [
    "C51_average",
    "C51_radius"
   ],
   "note": "exact reals; the tree query is an oracle assumed to return vertices within the radius, including the vertex itself"
  },
  {
   "property": "C52",
   "status": "partial",
   "theorems": [
    "C52_basis",
    "C52_affine_fields",
    "C52_best_refuted",
    "C52_search_partial",
    "C52_score"
   ],
   "note": "refuted: the last acceptable candidate wins over a better one; partition of unity and reproduction of affine fields are proved, and what the search does return is characterised"
  },
  {
   "property": "C53",
   "status": "proved",
   "theorems": [
    "C53_fold",
    "C53_normal"
   ],
   "note": "exact reals"
  },
  {
   "property": "C72",
   "status": "proved",
   "theorems": [
    "C72_found"
   ],
   "note": "exact reals; the tree query is an oracle that returns every element whose box contains the point (the code queries in single precision, which is not modelled)"
  },
  {
   "property": "C73",
   "status": "partial",
   "theorems": [
    "C73_outside_refuted",
    "C73_built_partial"
   ],
   "note": "refuted for every mesh with such a vertex; without one the map is built"
  },
  {
   "property": "C54",
   "status": "proved",
   "theorems": [
    "C54_step"
   ],
   "note": "exact reals, with pi for the literal in the code"
  },
  {
   "property": "C55",
   "status": "proved",
   "theorems": [
    "C55_element",
    "C55_motion",
    "C55_constant"
   ],
   "note": "exact reals; every order of the atomic additions"
  },
  {
   "property": "C74",
   "status": "proved",
   "theorems": [
    "C74_volume"
   ],
   "note": "exact reals; the volume is the one ComputeVolume returns (see C68 for its factor in one dimension)"
  },
  {
   "property": "C75",
   "status": "proved",
   "theorems": [
    "C75_fixed_point"
   ],
   "note": "exact reals; nodes without upwind element move by dt times the smoothed sign, as stated in the theorem"
  },
  {
   "property": "C76",
   "status": "partial",
   "theorems": [
    "C76_normalised_partial",
    "C76_sign_refuted"
   ],
   "note": "refuted when no speed is positive; proved when the maximum is positive"
  },
  {
   "property": "C62",
   "status": "proved",
   "theorems": [
    "C62_jacobian",
    "C62_bounded",
    "C62_converged",
    "C62_profiles",
    "C62_cylinder",
    "C62_zero_step_never_ends",
    "C62_balance",
    "C62_mass_production",
    "C62_thrust"
   ],
   "note": "exact reals; a step that is not positive never ends (C62_zero_step_never_ends)"
  },
  {
   "property": "C63",
   "status": "partial",
   "theorems": [
    "C63_small_difference_refuted",
    "C63_partial"
   ],
   "note": "refuted for differences between zero and one; proved: last argument iff the first is at least one above the second; exact exponential"
  },
  {
   "property": "C77",
   "status": "proved",
   "theorems": [
    "C77_pressure"
   ],
   "note": "exact reals"
  },
  {
   "property": "C56",
   "status": "proved",
   "theorems": [
    "C56_exterior",
    "C56_serial"
   ],
   "note": "every schedule when no cell has two listed faces, else the serial order; interior faces count once per adjacent cell (C56_serial)"
  },
  {
   "property": "C57",
   "status": "partial",
   "theorems": [
    "C57_race_refuted",
    "C57_unshared_partial"
   ],
   "note": "refuted: two schedules of a triangle with two loaded sides differ; proved when no cell has two listed faces"
  },
  {
   "property": "C78",
   "status": "proved",
   "theorems": [
    "C78_body",
    "C78_total"
   ],
   "note": "exact reals; dof index below the node's number of components"
  },
  {
   "property": "C79",
   "status": "partial",
   "theorems": [
    "C79_pressure_partial",
    "C79_extra_component_refuted"
   ],
   "note": "refuted when components exceed dimensions (out-of-bounds read); proved otherwise for exterior faces of different cells"
  },
  {
   "property": "C80",
   "status": "proved",
   "theorems": [
    "C80_exact",
    "C80_rounded",
    "C80_refused"
   ],
   "note": "the rules stored as rounded decimals are exact to 1e-39"
  },
  {
   "property": "C81",
   "status": "partial",
   "theorems": [
    "C81_accepted",
    "C81_safe_partial",
    "C81_wild_write_refuted"
   ],
   "note": "refuted: out-of-bounds write for a direction beyond the field's components; accepted conditions always have the promised flux"
  },
  {
   "property": "C82",
   "status": "proved",
   "theorems": [
    "C82_basis"
   ],
   "note": ""
  },
  {
   "property": "C58",
   "status": "partial",
   "theorems": [
    "C58_problem_partial",
    "C58_reported_partial",
    "C58_gradient_partial",
    "C58_reload_refuted",
    "C58_stale_gradient_refuted",
    "C58_after_exception_refuted",
    "C58_control",
    "C58_solution"
   ],
   "note": "Refuted in general: after a mesh reload operations run on the initial parameters; a gradient-only operation after a parameter update uses the solution of the problem before it; after a refused definition the next call runs on another definition's problem. Proved for all histories without mesh reload or exception: the problem is built from the definition's current parameters, and value and value-and-gradient operations report its results."
  },
  {
   "property": "C59",
   "status": "partial",
   "theorems": [
    "C59_conditional_partial",
    "C59_unconditional",
    "C59_empty_refuted"
   ],
   "note": "Refuted for empty parameters (every call resets); proved for all histories in which the parameters are not empty when the operation is called."
  },
  {
   "property": "C60",
   "status": "partial",
   "theorems": [
    "C60_control",
    "C60_shape_export_partial",
    "C60_shape_hdf5_refuted"
   ],
   "note": "Refuted for shape gradients written to HDF5 (nothing is delivered, and later ordinary exports of that name deliver nothing either); proved for control gradients and for ordinary exports of shape gradients."
  },
  {
   "property": "C61",
   "status": "partial",
   "theorems": [
    "C61_current",
    "C61_saved_partial",
    "C61_index",
    "C61_saved_refuted"
   ],
   "note": "Refuted when entries are written domain by domain in more than one step (saved steps share storage with the current one); proved for whole-mesh entries after the first save, for the current contents always, and for refusals."
  },
  {
   "property": "C83",
   "status": "partial",
   "theorems": [
    "C83_scalar",
    "C83_array",
    "C83_unchecked_refuted",
    "C83_numbers"
   ],
   "note": "Proved for well-formed targets; an array index out of range and a target naming only sublists are not detected (undefined behaviour)."
  },
  {
   "property": "C84",
   "status": "partial",
   "theorems": [
    "C84_repeat_refuted",
    "C84_no_map_partial"
   ],
   "note": "Refuted with a mesh map, proved without."
  },
  {
   "property": "C85",
   "status": "partial",
   "theorems": [
    "C85_agree_refuted",
    "C85_one_step_partial"
   ],
   "note": "Refuted for more than one step; proved for one step and as many unknowns per node as dimensions."
  },
  {
   "property": "C86",
   "status": "proved",
   "theorems": [
    "C86_unique",
    "C86_conflict"
   ],
   "note": "For every list of registrations."
  },
  {
   "property": "C87",
   "status": "partial",
   "theorems": [
    "C87_kept_partial",
    "C87_shared_refuted"
   ],
   "note": "Refuted for criteria of the same name in two definitions; proved: only operations on a criterion of that name change its results, however events end."
  },
  {
   "property": "C89",
   "status": "partial",
   "theorems": [
    "C89_default_unsolved",
    "C89_iterates_partial",
    "C89_limit",
    "C89_refuted",
    "C89_values_partial",
    "C89_throws_without_conditions"
   ],
   "note": "Refuted by computed cases. Proved: what the iteration computes exactly (each iterate balances with its projected gradient, which satisfies R q' = G p - M q), that every solved step takes the prescribed values, and that with one step nothing is solved."
  },
  {
   "property": "C90",
   "status": "partial",
   "theorems": [
    "C90_gradient_partial",
    "C90_unpenalised_partial",
    "C90_refuted"
   ],
   "note": "Refuted by a computed case when the projection depends on the controls. Proved: the gradient is the total derivative plus an explicit surplus, which vanishes for a projection independent of the controls."
  },
  {
   "property": "C91",
   "status": "partial",
   "theorems": [
    "C91_gradient_partial",
    "C91_refuted"
   ],
   "note": "Refuted by a computed case. Proved: the gradient is the total derivative plus an explicit surplus."
  },
  {
   "property": "C88",
   "status": "proved",
   "theorems": [
    "C88_condense",
    "C88_divide",
    "C88_product",
    "C88_difference",
    "C88_product_refuses",
    "C88_heights_unchecked"
   ],
   "note": "For every field, schedule and correct sparse kernels (specified in Sparse/ProductSpec.v, with reference kernels proved to meet the specification). Blocks of B have one row and those of C and D as many rows as blocks of B have columns, as in the callers. C88_heights_unchecked records that MatrixMinusMatrix does not compare the numbers of rows."
  },
  {
   "property": "C92",
   "status": "partial",
   "theorems": [
    "C92_elliptic_criterion",
    "C92_geometric_criterion",
    "C92_global_residual",
    "C92_local_residual",
    "C92_local_criterion",
    "C92_criteria",
    "C92_exponent",
    "C92_j2_exponents",
    "C92_projection_partial",
    "C92_projection_refuted"
   ],
   "note": "Proved for every function except the stabilised vector function, for which it is refuted by a computed case and the exact behaviour (first block twice, others once, evaluators consistent) is proved."
  },
  {
   "property": "C93",
   "status": "partial",
   "theorems": [
    "C93_value",
    "C93_feasible",
    "C93_updates",
    "C93_monotone",
    "C93_gradient",
    "C93_mass_multipliers_partial",
    "C93_mass_lower_refuted",
    "C93_mass_normalised_partial",
    "C93_mass_normalised_refuted"
   ],
   "note": "Value, feasibility, update history and gradient proved for the three variants. The bounds on the mass multipliers and the normalisation of the mass are refuted by computed cases and proved in the restricted forms named _partial."
  },
  {
   "property": "C94",
   "status": "partial",
   "theorems": [
    "C94_stable_accepted",
    "C94_unstable_rejected",
    "C94_accepted_partial",
    "C94_missing_rejected",
    "C94_isotropic",
    "C94_density",
    "C94_refuted",
    "C94_edge_not_a_number",
    "C94_isotropic_sheet_differs"
   ],
   "note": "Acceptance of every stable material, the inverse and the refusal of unstable or incomplete ones are proved. Refuted: a zero shear modulus is accepted although the message asks for a positive one; proved with non-zero shear moduli (C94_accepted_partial). C94_edge_not_a_number and C94_isotropic_sheet_differs record a zero Young's modulus or limiting Poisson ratio reaching a division by zero and the plane-stress/plane-strain mismatch."
  },
  {
   "property": "C95",
   "status": "partial",
   "theorems": [
    "C95_free_expansion_partial",
    "C95_refuted",
    "C95_bar"
   ],
   "note": "Proved in two and three dimensions for expansivities without shear components; refuted for shear components (dropped, computed case); in one dimension every evaluation reads outside the expansivity array."
  },
  {
   "property": "C96",
   "status": "proved",
   "theorems": [
    "C96_elastic",
    "C96_thermal",
    "C96_thermoelastic",
    "C96_electroelastic",
    "C96_rest",
    "C96_transient_thermoelastic"
   ],
   "note": "Thermoelastic in two and three dimensions (one dimension is undefined behaviour, C95_bar)."
  },
  {
   "property": "C97",
   "status": "partial",
   "theorems": [
    "C97_elastic",
    "C97_thermal_partial",
    "C97_thermoelastic",
    "C97_electroelastic",
    "C97_thermal_zero",
    "C97_thermal_refuted"
   ],
   "note": "Proved except for temperature-dependent conductivity, where the criterion is zero (C97_thermal_zero) and the claim is refuted by a computed case."
  },
  {
   "property": "C98",
   "status": "partial",
   "theorems": [
    "C98_energy_partial",
    "C98_refuted"
   ],
   "note": "Proved without reference strain, refuted with one by a computed case."
  },
  {
   "property": "C99",
   "status": "proved",
   "theorems": [
    "C99_elastic",
    "C99_thermal",
    "C99_electroelastic",
    "C99_positive"
   ],
   "note": ""
  },
  {
   "property": "C100",
   "status": "partial",
   "theorems": [
    "C100_heat_partial",
    "C100_no_conduction",
    "C100_refuted",
    "C100_thermoelastic"
   ],
   "note": "Thermomechanics and linear heat conduction proved; refuted for temperature-dependent conductivity, where conduction vanishes (C100_no_conduction)."
  },
  {
   "property": "C101",
   "status": "partial",
   "theorems": [
    "C101_unit_partial",
    "C101_refuted"
   ],
   "note": "Proved when reference temperature and laws are entered in the scaled unit; refuted when they are entered in the plain unit."
  },
  {
   "property": "C102",
   "status": "partial",
   "theorems": [
    "C102_isotropic_partial",
    "C102_mismatch",
    "C102_refuted",
    "C102_direct",
    "C102_nested",
    "C102_tensors"
   ],
   "note": "Proved when the flag agrees with the form of the modulus; otherwise the stiffness is zero (C102_mismatch), refuted by a computed case."
  },
  {
   "property": "C103",
   "status": "partial",
   "theorems": [
    "C103_ignored",
    "C103_refuted"
   ],
   "note": "Refuted: the option has no effect."
  },
  {
   "property": "C104",
   "status": "partial",
   "theorems": [
    "C104_opposite",
    "C104_conduction_partial",
    "C104_refuted"
   ],
   "note": "Proved without prescribed flux; with one the signs are opposite (C104_opposite), refuted by a computed case."
  },
  {
   "property": "C105",
   "status": "partial",
   "theorems": [
    "C105_unit",
    "C105_entered_partial",
    "C105_ignored",
    "C105_refuted",
    "C105_tensors"
   ],
   "note": "The change of unit is proved; the entered value is used in three dimensions only, refuted in two."
  },
  {
   "property": "C106",
   "status": "partial",
   "theorems": [
    "C106_effective",
    "C106_symmetric",
    "C106_minimum",
    "C106_input_partial",
    "C106_input_refuted"
   ],
   "note": "Value, symmetry and bounds proved; the report of missing input is refuted."
  },
  {
   "property": "C107",
   "status": "partial",
   "theorems": [
    "C107_displacement_partial",
    "C107_refuted",
    "C107_bar"
   ],
   "note": "Proved in three dimensions; refuted in two by a computed case; undefined in one."
  },
  {
   "property": "C108",
   "status": "proved",
   "theorems": [
    "C108_reciprocal"
   ],
   "note": "For two and three dimensions; one dimension is undefined (C107_bar)."
  },
  {
   "property": "C109",
   "status": "partial",
   "theorems": [
    "C109_projection",
    "C109_rows",
    "C109_consistent_partial",
    "C109_scalings",
    "C109_refuted"
   ],
   "note": "Proved when both scalings agree; refuted with the default inputs."
  },
  {
   "property": "C110",
   "status": "partial",
   "theorems": [
    "C110_energy_partial",
    "C110_refuted"
   ],
   "note": "Proved where no cell is sheared; refuted in simple shear."
  },
  {
   "property": "C111",
   "status": "partial",
   "theorems": [
    "C111_problem_selection_partial",
    "C111_no_other_problem",
    "C111_structural_dynamics_refuted",
    "C111_electromechanical_refuted",
    "C111_mechanical_refuted"
   ],
   "note": "Refuted for structural dynamics (accepted, no problem), electromechanics (equation ignored) and mechanics without the hyperbolic build; proved for everything else."
  },
  {
   "property": "C112",
   "status": "partial",
   "theorems": [
    "C112_model_read",
    "C112_blocks_partial",
    "C112_order",
    "C112_same_material",
    "C112_criterion",
    "C112_no_domains_refuted",
    "C112_overlap_refuted"
   ],
   "note": "Proved for blocks that cover the mesh; that every accepted model covers the mesh is refuted."
  },
  {
   "property": "C113",
   "status": "partial",
   "theorems": [
    "C113_local_rows",
    "C113_update",
    "C113_one_block_partial",
    "C113_gradient_x_refuted",
    "C113_gradient_z_refuted",
    "C113_value_refuted",
    "C113_empty_block"
   ],
   "note": "Proved for residual rows, state derivatives and the update; refuted for the flattened residual and the derivatives with respect to configuration and control, which hold with one block only."
  },
  {
   "property": "C114",
   "status": "partial",
   "theorems": [
    "C114_shape_gradient",
    "C114_plasticity_partial",
    "C114_plasticity_refuted"
   ],
   "note": "Proved for static, transient, dynamic and stabilised problems; for plasticity refuted with loads that depend on the configuration, proved without."
  },
  {
   "property": "C115",
   "status": "partial",
   "theorems": [
    "C115_value",
    "C115_homogeneous",
    "C115_convex",
    "C115_bounds",
    "C115_limit",
    "C115_zero",
    "C115_hyperbolic",
    "C115_electromechanical",
    "C115_flux_partial",
    "C115_flux_truncated",
    "C115_exponent_refuted",
    "C115_reference_refuted",
    "C115_rotation_refuted",
    "C115_flux_refuted",
    "C115_gradient",
    "C115_gradient_refuted"
   ],
   "note": "Proved for integer exponents; refuted for fractional exponents, for the orientation of the body, for reference strains in statics and for temperature-dependent conductivities."
  },
  {
   "property": "C116",
   "status": "partial",
   "theorems": [
    "C116_weighted",
    "C116_created",
    "C116_unknown_refuted",
    "C116_barlat_exponent_refuted"
   ],
   "note": "Proved for the weights; refuted for unknown types and the Barlat exponent."
  },
  {
   "property": "C117",
   "status": "partial",
   "theorems": [
    "C117_principal",
    "C117_defined",
    "C117_pressure",
    "C117_isotropic",
    "C117_uniaxial",
    "C117_unloaded_refuted",
    "C117_gradient_refuted",
    "C117_formula"
   ],
   "note": "Proved wherever the norm is defined; refuted without stress and for the gradient in uniaxial stress."
  },
  {
   "property": "C118",
   "status": "partial",
   "theorems": [
    "C118_value",
    "C118_centre",
    "C118_moved",
    "C118_rigid",
    "C118_inertia",
    "C118_bar",
    "C118_inertia_refuted",
    "C118_refinement_refuted"
   ],
   "note": "Proved for the point masses of the one-point rule; refuted for second moments of solid bodies: a cell has no inertia about its own middle."
  },
  {
   "property": "C119",
   "status": "partial",
   "theorems": [
    "C119_geometric_input",
    "C119_rejects",
    "C119_gold",
    "C119_itemized_value",
    "C119_all_value",
    "C119_order",
    "C119_no_mass",
    "C119_elliptic_density_partial",
    "C119_elliptic_density_refuted",
    "C119_elliptic_criteria_refuted"
   ],
   "note": "Proved for the criterion as read; refuted for where the elliptic version reads densities and the list of properties."
  },
  {
   "property": "C120",
   "status": "proved",
   "theorems": [
    "C120_strain",
    "C120_virtual_work",
    "C120_momentum",
    "C120_undamped",
    "C120_coasting"
   ],
   "note": ""
  },
  {
   "property": "C121",
   "status": "partial",
   "theorems": [
    "C121_dissipation",
    "C121_power",
    "C121_step",
    "C121_stable",
    "C121_motion",
    "C121_run",
    "C121_criterion_partial",
    "C121_criterion_refuted",
    "C121_mass_partial",
    "C121_mass_refuted"
   ],
   "note": "Energy balance proved in continuous time, per step and per run; refuted that the criterion is the strain energy (it is twice it) and that the kinetic energy is that of the velocity field (one-point mass matrix)."
  },
  {
   "property": "C122",
   "status": "partial",
   "theorems": [
    "C122_entries_partial",
    "C122_entries_refuted",
    "C122_wrong_type_partial",
    "C122_wrong_type_refuted",
    "C122_plot_partial",
    "C122_plot_refuted"
   ],
   "note": "Refuted for the mass density of a cubic material, for entries of the wrong type outside orthotropic materials and for the strain and velocity gradient plots."
  },
  {
   "property": "C123",
   "status": "partial",
   "theorems": [
    "C123_value",
    "C123_gradient",
    "C123_subgradient",
    "C123_elsewhere",
    "C123_input",
    "C123_rejects",
    "C123_short_partial",
    "C123_empty_refuted",
    "C123_steps_refuted",
    "C123_other_gradients"
   ],
   "note": "Proved for non-empty node sets and the last step. Refuted: an empty node set has no value, and the gradient with respect to an earlier step is not zero although the value does not depend on it. Missing terms of a short 'Normal' are whatever the library vector holds."
  },
  {
   "property": "C124",
   "status": "partial",
   "theorems": [
    "C124_transient",
    "C124_diffusive",
    "C124_accepts",
    "C124_no_fields",
    "C124_mechanics_refuted",
    "C124_thermomechanics_refuted",
    "C124_unknown_refuted"
   ],
   "note": "Values proved for mechanics, heat and thermomechanics. Refuted: mechanical and thermomechanical problems in one and two dimensions accept no initial state, and an unknown name in a heat or thermomechanical problem writes outside the state instead of being refused."
  },
  {
   "property": "C125",
   "status": "partial",
   "theorems": [
    "C125_tpetra",
    "C125_epetra",
    "C125_amgx",
    "C125_solution",
    "C125_rejects",
    "C125_rows_refuted",
    "C125_assertion_refuted"
   ],
   "note": "Transfer and solution proved for all stacks, rejection for Tpetra and for vectors. Refuted: Epetra drops the extra rows of a matrix that is too large, and the assertions of AmgX debug builds refuse well-formed matrices whose last block row is empty."
  },
  {
   "property": "C126",
   "status": "partial",
   "theorems": [
    "C126_settings_partial",
    "C126_tolerance_refuted",
    "C126_failure_partial",
    "C126_failure_refuted",
    "C126_stack",
    "C126_packages"
   ],
   "note": "Refuted: Tpetra ignores the tolerance, and a solve that did not converge is silent except for AmgX failures and fatal divergence."
  },
  {
   "property": "C127",
   "status": "partial",
   "theorems": [
    "C127_equation",
    "C127_equation_default",
    "C127_plasticity",
    "C127_equation_unknown_partial",
    "C127_equation_unknown_refuted",
    "C127_criterion_partial",
    "C127_criterion_plain",
    "C127_measure",
    "C127_criterion_unknown_partial",
    "C127_criterion_unknown_refuted",
    "C127_stabilised_refuted",
    "C127_kind",
    "C127_list",
    "C127_list_rejects",
    "C127_kind_refuted",
    "C127_kind_absent"
   ],
   "note": "Selection proved for every physics except the criterion of stabilised mechanics, whose own penalty list is ignored (refuted). Refusal of unknown names proved except in mechanics, where unknown penalties and criteria give a null evaluator, and for criterion kinds of elliptic problems, which are dropped silently (refuted)."
  },
  {
   "property": "C128",
   "status": "partial",
   "theorems": [
    "C128_bounds",
    "C128_principal_partial",
    "C128_principal_refuted",
    "C128_reverse_partial",
    "C128_reverse_refuted",
    "C128_rigid",
    "C128_von_mises_scale",
    "C128_solid",
    "C128_plane_partial",
    "C128_plane_refuted",
    "C128_reference_refuted",
    "C128_thermal",
    "C128_free_expansion_partial",
    "C128_thermal_bar",
    "C128_input",
    "C128_rejects",
    "C128_von_mises_law",
    "C128_von_mises_law_refuted"
   ],
   "note": "Bounds, rigid motion, scaling, the solid case, the thermal law and the input are proved. The principal strains are exact for a bar and for a non-negative shear in the plane, within the bound of six rotations in space; refuted in the plane for a negative shear, which is taken for none, so reversing the load does not make up the stored energy. In the plane the von Mises measure lacks the stress across the plane: the exact difference is proved and equality refuted. The reference strain of the material is not taken off (refuted). A shear part of the expansivity is dropped, so free expansion is proved for expansion along the axes. An unknown law is a null pointer (refuted)."
  },
  {
   "property": "C129",
   "status": "proved",
   "theorems": [
    "C129_balanced",
    "C129_stress",
    "C129_pressure",
    "C129_stress_free",
    "C129_reciprocal",
    "C129_heat",
    "C129_defined"
   ],
   "note": "For every mesh, state, local state and design in two and three dimensions, both physics; reciprocity without temperatures. Body loads, boundary loads and plot output are outside this model (C51, C52, C75)."
  },
  {
   "property": "C130",
   "status": "partial",
   "theorems": [
    "C130_stored_partial",
    "C130_stored_refuted",
    "C130_energy_positive",
    "C130_total_partial",
    "C130_dissipation",
    "C130_dissipation_step",
    "C130_start_partial",
    "C130_start_refuted",
    "C130_scaling_partial",
    "C130_scaling_refuted"
   ],
   "note": "Proved in plane strain for every history, and in three dimensions where the 33 and 23 elastic strains agree; refuted in three dimensions in general because the stress kernel takes the trace from the wrong component (C34): a closed elastic cycle does work. Refuted for a nonzero reference temperature, because the history starts from zeros, and when the temperature scaling is given where only one of residual and criterion looks. Dissipation proved in both dimensions without kinematic hardening."
  },
  {
   "property": "C131",
   "status": "partial",
   "theorems": [
    "C131_principal_partial",
    "C131_heated_refuted"
   ],
   "note": "Proved without temperatures where the shear stress is not negative (C35); refuted for heated bodies, whose thermal strain is not taken off. The three-dimensional eigenvalues are those of C36."
  },
  {
   "property": "C132",
   "status": "partial",
   "theorems": [
    "C132_temperature",
    "C132_solid_partial",
    "C132_refuted"
   ],
   "note": "Temperature rows agree in two and three dimensions; forces agree in three dimensions. Refuted in two dimensions: the deviatoric stress divides the trace by three while the modulus uses two, so a held heated sheet has 4/3 of the force."
  },
  {
   "property": "C133",
   "status": "proved",
   "theorems": [
    "C133_balanced",
    "C133_heat",
    "C133_conserved",
    "C133_dissipates",
    "C133_expansion",
    "C133_reciprocal",
    "C133_bar"
   ],
   "note": "Two and three dimensions, isotropic materials; in one dimension the shear modulus is 0/0 (C133_bar). Loads and fluxes are outside this model (C51, C52)."
  },
  {
   "property": "C134",
   "status": "proved",
   "theorems": [
    "C134_isotropic",
    "C134_cubic",
    "C134_required"
   ],
   "note": "The cubic law uses the isotropic stiffness of its Youngs modulus and Poissons ratio."
  },
  {
   "property": "C135",
   "status": "partial",
   "theorems": [
    "C135_value",
    "C135_gradient_partial",
    "C135_design_gradient",
    "C135_recorded",
    "C135_shape_refuted",
    "C135_shape_history_refuted",
    "C135_overlap_refuted",
    "C135_history",
    "C135_empty"
   ],
   "note": "Proved for all variables except the configuration, when the blocks cover the mesh once. Refuted for the configuration: gradient_x names the wrong number of columns and always throws. Refuted for blocks that share a cell: counted twice in the value, once in the gradient. Cell evaluators are universally quantified with exact derivatives as hypothesis."
  },
  {
   "property": "C136",
   "status": "partial",
   "theorems": [
    "C136_described",
    "C136_built",
    "C136_ends",
    "C136_refused",
    "C136_endless_refuted"
   ],
   "note": "Ends whenever no weighted sum contains itself; refuted otherwise: the constructor recurses without end instead of reporting the error."
  },
  {
   "property": "C137",
   "status": "partial",
   "theorems": [
    "C137_fields",
    "C137_state_partial",
    "C137_rates",
    "C137_electromechanical",
    "C137_stabilized_refuted"
   ],
   "note": "Proved for every physics except 'Stabilized Thermomechanical', for which it is refuted: the output function does not know the keyword and writes nothing. The single electromechanical step is written as number 1."
  },
  {
   "property": "C138",
   "status": "partial",
   "theorems": [
    "C138_data_partial",
    "C138_thermoplastic_refuted",
    "C138_stale_refuted"
   ],
   "note": "Proved for the steps whose data were saved, for the writers that look at the data map. Refuted for thermoplasticity (no element data are written) and for steps without saved data (the data of an earlier step are shown again)."
  },
  {
   "property": "C139",
   "status": "partial",
   "theorems": [
    "C139_success_partial",
    "C139_refused",
    "C139_query",
    "C139_dimension_refuted",
    "C139_structural_refuted",
    "C139_extension_refuted"
   ],
   "note": "Proved for dimensions one to three. Refuted: another dimension ends with success and no analysis; 'StructuralDynamics' dereferences a null pointer; '.exo' may stand anywhere in the name. Mesh reader and solver are universally quantified."
  },
  {
   "property": "C140",
   "status": "partial",
   "theorems": [
    "C140_history_partial",
    "C140_profile",
    "C140_burn_ends",
    "C140_last_step_refuted",
    "C140_again_refuted",
    "C140_times_refuted"
   ],
   "note": "Proved while the steps fit into the history of a new object. Refuted: with the number of columns the rocket model announces every burn writes outside the history; a cylinder initialised again does not start its history again; the files show each level set with the time of the next one. What the Hamilton-Jacobi functions do is universally quantified."
  },
  {
   "property": "C141",
   "status": "partial",
   "theorems": [
    "C141_start",
    "C141_value",
    "C141_misfit",
    "C141_gradient_partial",
    "C141_gradient_refuted",
    "C141_operations_refuted",
    "C141_other_operations",
    "C141_data",
    "C141_target_refuted",
    "C141_solution"
   ],
   "note": "Objective, start, data transfer and solution file proved for every thrust model. The gradient is proved to be the design variable times the derivative nearby, and refuted as the derivative (it is 0 whenever the variable is 0). Refuted: unknown operations, among them the two the application lists, do nothing without an error; an imported target keeps the old norm; unknown data names are undefined behaviour."
  },
  {
   "property": "C142",
   "status": "partial",
   "theorems": [
    "C142_field",
    "C142_transform",
    "C142_mesh_partial",
    "C142_mesh_refuted"
   ],
   "note": "Files of the right length are read as they are; a field file that is too short is filled with zeros. Refuted: a mesh file with an incomplete node or cell delivers uninitialised values, a field file that is too long is written outside the vector."
  },
  {
   "property": "C143",
   "status": "proved",
   "theorems": [
    "C143_volume",
    "C143_material"
   ],
   "note": "Both classes; penalties are any interpolation (C28 shows that the code's are)."
  },
  {
   "property": "C144",
   "status": "partial",
   "theorems": [
    "C144_integral_partial",
    "C144_average_refuted"
   ],
   "note": "Refuted: the value is d! times the integral; the weight of the cubature is fetched and not used, and nothing is divided by the volume."
  },
  {
   "property": "C145",
   "status": "partial",
   "theorems": [
    "C145_undamped_partial",
    "C145_work_partial",
    "C145_first_corner",
    "C145_lossless_partial",
    "C145_damping_refuted",
    "C145_numbering_refuted",
    "C145_dissipation_refuted"
   ],
   "note": "Without damping the residual is proved to be the amplitude of the time domain residual (C122) of the vibration, with its virtual work. Refuted with damping: the damping loop runs over the first 2d entries of a cell only, so only the first corner of a cell is damped (C145_first_corner states exactly what is computed); hence the residual is no force amplitude, depends on the numbering and can gain energy."
  },
  {
   "property": "C146",
   "status": "partial",
   "theorems": [
    "C146_reversed",
    "C146_transpose_partial",
    "C146_transpose_refuted"
   ],
   "note": "The adjoint residual is the forward one with the damping reversed; it has the transposed Jacobian without damping. With damping refuted, again because only the first corner is damped."
  },
  {
   "property": "C147",
   "status": "partial",
   "theorems": [
    "C147_energies",
    "C147_work",
    "C147_objective_partial",
    "C147_objective_refuted"
   ],
   "note": "The criterion at one frequency is proved to be the energy and half the undamped work. Refuted for the objective of a solution: every state is evaluated at the default frequency 0."
  },
  {
   "property": "C148",
   "status": "partial",
   "theorems": [
    "C148_state",
    "C148_balance_partial",
    "C148_balance_refuted",
    "C148_damped_support_refuted",
    "C148_without_amgx"
   ],
   "note": "What the states satisfy is proved: supports hold, and loads inside the residual act with the wrong sign; balance follows when the residual has no loads of its own and the matrix is symmetric or the supports are at rest. Refuted otherwise. Without AmgX all states are zero."
  },
  {
   "property": "C149",
   "status": "partial",
   "theorems": [
    "C149_one_frequency_partial",
    "C149_frequencies_refuted",
    "C149_control_counted",
    "C149_supports_refuted",
    "C149_no_objective"
   ],
   "note": "One frequency and supports at rest: the total derivative. Refuted for several frequencies (every adjoint is solved with the sum of all state derivatives; the control derivative is counted once per pair of frequency and state) and for supports with prescribed values."
  },
  {
   "property": "C150",
   "status": "partial",
   "theorems": [
    "C150_value",
    "C150_unlisted",
    "C150_data_partial",
    "C150_data_refuted",
    "C150_rejected",
    "C150_objective_refuted",
    "C150_objective_undefined",
    "C150_objective_partial"
   ],
   "note": "The misfit of a listed frequency is proved. Refuted: measurements are stored for the first frequency only; the objective is always evaluated at frequency 0, which reads outside the measurements when 0 is not listed."
  },
  {
   "property": "C151",
   "status": "partial",
   "theorems": [
    "C151_round_trip",
    "C151_undeclared",
    "C151_shadow_refuted",
    "C151_export_changes_refuted"
   ],
   "note": "Round trip and refusal of undeclared names proved. Refuted: a name that also belongs to a criterion value exports that value; a shorter export cuts the stored vector."
  },
  {
   "property": "C152",
   "status": "partial",
   "theorems": [
    "C152_sensitivity",
    "C152_created",
    "C152_too_long",
    "C152_shared_refuted"
   ],
   "note": "Proved for motions no longer than the gradient and one operation. Refuted: longer motions read outside the gradient, and all operations share one result vector, so that a second one with fewer parameters makes the first write outside it."
  },
  {
   "property": "C153",
   "status": "partial",
   "theorems": [
    "C153_rounds",
    "C153_gradient",
    "C153_no_index_refuted",
    "C153_undefined",
    "C153_shared_refuted",
    "C153_perturbed_field",
    "C153_perturbed_undefined"
   ],
   "note": "Proved when all parameters are given and indices are in range. Refuted: without an index the step is zero and the quotient is not a number; two operations share one result; indices out of range are undefined behaviour."
  },
  {
   "property": "C154",
   "status": "partial",
   "theorems": [
    "C154_rows",
    "C154_total",
    "C154_direction_refuted"
   ],
   "note": "The estimate is proved for all smooth functions; that errors of zero imply a right gradient is refuted, because only the component along the one step is compared."
  },
  {
   "property": "C155",
   "status": "partial",
   "theorems": [
    "C155_local",
    "C155_previous_local",
    "C155_control",
    "C155_global_partial",
    "C155_global_undefined",
    "C155_global_refuted"
   ],
   "note": "Proved for local states, previous local states and controls. Refuted for global states: the number of global degrees of freedom is used as the number of entries, so that entries are left out (one triangle) or vectors are read outside their bounds (one tetrahedron)."
  },
  {
   "property": "C156",
   "status": "partial",
   "theorems": [
    "C156_success",
    "C156_analyze_partial",
    "C156_analyze_refuted",
    "C156_rocket_refuted",
    "C156_main_refuted"
   ],
   "note": "Proved: a run in which everything succeeds ends with zero in all programs, and the optimiser's application ends with one if it cannot connect or register. Refuted: a run that fails while the stages are performed ends with zero; the rocket programs go on with finalised libraries after a failure."
  },
  {
   "property": "C157",
   "status": "partial",
   "theorems": [
    "C157_orderly",
    "C157_failed_construction_refuted",
    "C157_again_refuted",
    "C157_external_refuted"
   ],
   "note": "Proved for all histories in which no construction fails and none follows the deletion of the last object. Refuted otherwise: a failed construction shuts the libraries down under a living object, nothing can be constructed after the last deletion, and nothing at all if another module has initialised MPI."
  },
  {
   "property": "C158",
   "status": "partial",
   "theorems": [
    "C158_fields_partial",
    "C158_values",
    "C158_parameters",
    "C158_parameter_names",
    "C158_dropped_refuted",
    "C158_integers_refuted",
    "C158_fatal",
    "C158_round_trip"
   ],
   "note": "Proved for lists of floats of the right length, declared values and parameters named operation:parameter. Refuted: unknown types, element fields and other field names are reported as success and dropped; integers in a list arrive with an error pending; a parameter name without a colon is undefined behaviour; wrong sizes and names end the process."
  },
  {
   "property": "C159",
   "status": "proved",
   "theorems": [
    "C159_elastic",
    "C159_isotropic",
    "C159_heat",
    "C159_thermoelastic",
    "C159_needs_isotropy",
    "C159_electroelastic"
   ],
   "note": "Elasticity, piezoelectricity and heat conduction with any material turned along, isotropic materials of the code as a corollary, thermomechanics with isotropic materials in two and three dimensions; C159_needs_isotropy shows the hypothesis is needed."
  },
  {
   "property": "C160",
   "status": "proved",
   "theorems": [
    "C160_elastic",
    "C160_heat",
    "C160_thermoelastic",
    "C160_electroelastic"
   ],
   "note": "Nodes, cell order and corner order together; volumes are absolute values so reversed cells are included."
  },
  {
   "property": "C161",
   "status": "proved",
   "theorems": [
    "C161_elastic",
    "C161_heat"
   ],
   "note": "Static elasticity and heat conduction, residuals and energies."
  },
  {
   "property": "C162",
   "status": "proved",
   "theorems": [
    "C162_heat",
    "C162_elastic",
    "C162_thermoelastic",
    "C162_electroelastic",
    "C162_isotropic",
    "C162_needs_supports",
    "C162_needs_facets"
   ],
   "note": "Linear (temperature independent) materials; C162_isotropic shows that the code's isotropic materials qualify; C162_needs_supports and C162_needs_facets show that neither condition can be dropped."
  },
  {
   "property": "C163",
   "status": "proved",
   "theorems": [
    "C163_minimum",
    "C163_minimum_heat",
    "C163_loaded",
    "C163_loaded_heat",
    "C163_driven"
   ],
   "note": "Static elasticity without reference strain and linear heat conduction; penalties as in C28."
  },
  {
   "property": "C164",
   "status": "proved",
   "theorems": [
    "C164_elastic",
    "C164_heat",
    "C164_electroelastic",
    "C164_thermoelastic",
    "C164_exact",
    "C164_needs_interior"
   ],
   "note": "Interior nodes are those whose facets are matched in pairs with cells on both sides."
  },
  {
   "property": "C165",
   "status": "proved",
   "theorems": [
    "C165_elastic",
    "C165_heat",
    "C165_electroelastic"
   ],
   "note": "The linear solver is an oracle that solves every invertible system; the Jacobian given to it is the derivative of the residual."
  },
  {
   "property": "C166",
   "status": "proved",
   "theorems": [
    "C166_gradient",
    "C166_elastic",
    "C166_heat",
    "C166_electroelastic"
   ],
   "note": "The assembled derivatives are taken to be the true ones at the solution (automatic differentiation, C06); problems marked self-adjoint are treated in C15 and C16."
  },
  {
   "property": "C167",
   "status": "partial",
   "theorems": [
    "C167_refuted",
    "C167_temperatures_lost",
    "C167_zero_partial",
    "C167_repeated"
   ],
   "note": "Refuted for a single Newton step (the default): C167_temperatures_lost says what is returned instead and C167_refuted computes a square that should expand by a tenth and is returned unexpanded. C167_zero_partial proves the claim for zero prescribed values and C167_repeated for two or more steps whose tests do not end the loop. Constant coefficients only."
  },
  {
   "property": "C168",
   "status": "proved",
   "theorems": [
    "C168_steps",
    "C168_decay"
   ],
   "note": "Constant coefficients; storage as created, i.e. a first call of solution. The assembled derivatives are taken to be the true ones."
  },
  {
   "property": "C169",
   "status": "partial",
   "theorems": [
    "C169_refuted",
    "C169_supplied_partial",
    "C169_conserved"
   ],
   "note": "Refuted with a supply (C169_refuted); C169_supplied_partial says what is stored for every number of steps, C169_conserved proves the claim without a supply."
  },
  {
   "property": "C170",
   "status": "partial",
   "theorems": [
    "C170_refuted",
    "C170_steps",
    "C170_supported",
    "C170_free"
   ],
   "note": "Refuted for a triangle on its own (C170_refuted). C170_steps proves it for bodies in which no rigid motion keeps the supports and the centres of all cells; C170_supported and C170_free say which bodies these are. The assembled derivatives are taken to be the true ones."
  },
  {
   "property": "C171",
   "status": "proved",
   "theorems": [
    "C171_energy",
    "C171_never_gains",
    "C171_energy_partial",
    "C171_impulse",
    "C171_coasting"
   ],
   "note": "C171_energy is the balance of every step with any loads; in the first step the load at the start is the one that the given initial state stands for, since the initial accelerations are read and not computed (C21_initial_acceleration_refuted). C171_energy_partial is its earlier form, without loads from the second step on."
  },
  {
   "property": "C172",
   "status": "proved",
   "theorems": [
    "C172_elastic_numbering",
    "C172_heat_numbering",
    "C172_electroelastic_numbering",
    "C172_elastic_frame",
    "C172_heat_frame",
    "C172_units",
    "C172_heat_units",
    "C172_electroelastic_units",
    "C172_electroelastic_frame"
   ],
   "note": "Numbering for elastic, conducting and piezoelectric bodies; frame for elastic, conducting and piezoelectric bodies; units for elastic, conducting and piezoelectric bodies. Hypotheses are made on the first problem only, apart from the symmetry of turned materials; that the second one is supported and has one solution is proved."
  },
  {
   "property": "C173",
   "status": "proved",
   "theorems": [
    "C173_superposition",
    "C173_reciprocity"
   ],
   "note": "For the three kinds of body of supported_body."
  },
  {
   "property": "C174",
   "status": "proved",
   "theorems": [
    "C174_parts",
    "C174_static"
   ],
   "note": ""
  },
  {
   "property": "C175",
   "status": "proved",
   "theorems": [
    "C175_frame",
    "C175_numbering"
   ],
   "note": ""
  },
  {
   "property": "C176",
   "status": "proved",
   "theorems": [
    "C176_numbering",
    "C176_frame"
   ],
   "note": "For the numbering, that the renumbered body has determined steps is proved; for the frame it is a hypothesis on both bodies."
  },
  {
   "property": "C177",
   "status": "proved",
   "theorems": [
    "C177_superposition"
   ],
   "note": ""
  },
  {
   "property": "C178",
   "status": "proved",
   "theorems": [
    "C178_rest",
    "C178_static_solution"
   ],
   "note": ""
  },
  {
   "property": "C179",
   "status": "proved",
   "theorems": [
    "C179_numbering",
    "C179_frame",
    "C179_superposition"
   ],
   "note": ""
  },
  {
   "property": "C180",
   "status": "proved",
   "theorems": [
    "C180_steady",
    "C180_static_solution",
    "C180_approach"
   ],
   "note": ""
  },
  {
   "property": "C181",
   "status": "partial",
   "theorems": [
    "C181_direct",
    "C181_found_partial",
    "C181_missing_partial",
    "C181_no_file",
    "C181_refuted",
    "C181_second_refuted"
   ],
   "note": "Refuted twice: when the file does not end with a newline, the index one past the last line returns the last equation instead of an error; and when a second header follows, its first equation replaces the one asked for. Proved: the lookup for files with one header (C181_found_partial), the errors for files whose lines all end with a newline (C181_missing_partial), equations given directly, and missing files or headers."
  },
  {
   "property": "C182",
   "status": "proved",
   "theorems": [
    "C182_report",
    "C182_complete",
    "C182_sound",
    "C182_fails"
   ],
   "note": "Paths are lists of names; joining them with :: is not modelled. The parameter Runtime::Execution Time in Sec, which the report itself sets, is excepted."
  },
  {
   "property": "C183",
   "status": "proved",
   "theorems": [
    "C183_fails",
    "C183_merged"
   ],
   "note": "What the destination holds after a failure is not modelled."
  },
  {
   "property": "C184",
   "status": "partial",
   "theorems": [
    "C184_forces",
    "C184_solid",
    "C184_sheet_partial",
    "C184_sheet_refuted"
   ],
   "note": "Proved for displacement rows in 2 and 3 dimensions and pressure rows in 3. Refuted for pressure rows in 2 dimensions (C184_sheet_refuted): the stabilisation uses the power 2/3 of the area of the cell. C184_sheet_partial proves them where the projected pressure gradient equals the gradient of the pressure."
  },
  {
   "property": "C185",
   "status": "proved",
   "theorems": [
    "C185"
   ],
   "note": "For loads that do not depend on time and temperatures held at constant values, as the code has them."
  },
  {
   "property": "C186",
   "status": "proved",
   "theorems": [
    "C186"
   ],
   "note": "Hypotheses of mass, damping and determined steps are made on the first body only; that the second one has them is proved."
  }
 ]
}
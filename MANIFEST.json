{
 "claims": [
  {
   "property": "C01",
   "status": "proved",
   "theorems": [
    "C01_constructor_safe_and_deterministic"
   ],
   "note": ""
  },
  {
   "property": "C02",
   "status": "proved",
   "theorems": [
    "C02_int_limits"
   ],
   "note": ""
  },
  {
   "property": "C03",
   "status": "proved",
   "theorems": [
    "C03_edge_shared_by_two_sides"
   ],
   "note": ""
  },
  {
   "property": "C04",
   "status": "proved",
   "theorems": [
    "C04_edge_signs"
   ],
   "note": ""
  },
  {
   "property": "C05",
   "status": "proved",
   "theorems": [
    "C05_vertex_incidence"
   ],
   "note": ""
  },
  {
   "property": "C06",
   "status": "proved",
   "theorems": [
    "C06_kite_index_inverts_cells_on_vertex"
   ],
   "note": ""
  },
  {
   "property": "C07",
   "status": "proved",
   "theorems": [
    "C07_adjacency_reciprocal_iff_even"
   ],
   "note": ""
  },
  {
   "property": "C08",
   "status": "proved",
   "theorems": [
    "C08_geometry_consistent"
   ],
   "note": ""
  },
  {
   "property": "C09",
   "status": "proved",
   "theorems": [
    "C09_areas_partition_domain"
   ],
   "note": ""
  },
  {
   "property": "C10",
   "status": "proved",
   "theorems": [
    "C10_weights_antisymmetric"
   ],
   "note": ""
  },
  {
   "property": "C11",
   "status": "proved",
   "theorems": [
    "C11_uniform_reconstruction_exact"
   ],
   "note": ""
  },
  {
   "property": "C12",
   "status": "proved",
   "theorems": [
    "C12_curl_grad_zero_iff_even"
   ],
   "note": ""
  },
  {
   "property": "C13",
   "status": "proved",
   "theorems": [
    "C13_div_rotated_grad_zero"
   ],
   "note": ""
  },
  {
   "property": "C14",
   "status": "proved",
   "theorems": [
    "C14_curl_of_reconstruction_is_kite_divergence"
   ],
   "note": ""
  },
  {
   "property": "C15",
   "status": "proved",
   "theorems": [
    "C15_binary64_ceiling",
    "C15_layer_padding"
   ],
   "note": ""
  },
  {
   "property": "C16",
   "status": "proved",
   "theorems": [
    "C16_tendency_safe_and_deterministic"
   ],
   "note": ""
  },
  {
   "property": "C17",
   "status": "proved",
   "theorems": [
    "C17_both_flags_out_of_bounds",
    "C17_both_flags_steppers"
   ],
   "note": ""
  },
  {
   "property": "C18",
   "status": "proved",
   "theorems": [
    "C18_vector_length_irrelevant"
   ],
   "note": ""
  },
  {
   "property": "C19",
   "status": "proved",
   "theorems": [
    "C19_simd_agrees_with_scalar",
    "C19_simd_hyperviscosity_differs"
   ],
   "note": "Both directions: equality where it holds, and a state where the builds differ."
  },
  {
   "property": "C20",
   "status": "proved",
   "theorems": [
    "C20_fused_equals_split"
   ],
   "note": ""
  },
  {
   "property": "C21",
   "status": "proved",
   "theorems": [
    "C21_layers_independent"
   ],
   "note": ""
  },
  {
   "property": "C22",
   "status": "proved",
   "theorems": [
    "C22_replace_forgets",
    "C22_increment_adds"
   ],
   "note": ""
  },
  {
   "property": "C23",
   "status": "proved",
   "theorems": [
    "C23_disabled_tendency_not_reset",
    "C23_disabled_forcing_accumulates"
   ],
   "note": ""
  },
  {
   "property": "C24",
   "status": "proved",
   "theorems": [
    "C24_tendency_conserves_mass"
   ],
   "note": ""
  },
  {
   "property": "C25",
   "status": "proved",
   "theorems": [
    "C25_mass_conserved"
   ],
   "note": ""
  },
  {
   "property": "C26",
   "status": "proved",
   "theorems": [
    "C26_tracer_content_conserved"
   ],
   "note": ""
  },
  {
   "property": "C27",
   "status": "proved",
   "theorems": [
    "C27_circulation_is_constant"
   ],
   "note": ""
  },
  {
   "property": "C28",
   "status": "proved",
   "theorems": [
    "C28_inviscid_energy_conservation"
   ],
   "note": ""
  },
  {
   "property": "C29",
   "status": "proved",
   "theorems": [
    "C29_pv_flux_does_no_work"
   ],
   "note": ""
  },
  {
   "property": "C30",
   "status": "proved",
   "theorems": [
    "C30_program_at_rest",
    "C30_lake_at_rest"
   ],
   "note": ""
  },
  {
   "property": "C31",
   "status": "proved",
   "theorems": [
    "C31_program_uniform_flow",
    "C31_uniform_flow"
   ],
   "note": ""
  },
  {
   "property": "C32",
   "status": "proved",
   "theorems": [
    "C32_uniform_concentration_tendency",
    "C32_uniform_concentration_rk4",
    "C32_uniform_concentration_lsrk"
   ],
   "note": ""
  },
  {
   "property": "C33",
   "status": "proved",
   "theorems": [
    "C33_diffusion_dissipates"
   ],
   "note": ""
  },
  {
   "property": "C34",
   "status": "proved",
   "theorems": [
    "C34_simd_hyperviscosity_dissipates_refuted",
    "C34_viscosity_dissipates",
    "C34_hyperviscosity_dissipates"
   ],
   "note": "The natural claim for all builds is false; the theorem with suffix _refuted gives a velocity field whose energy the explicit SIMD hyperviscosity increases."
  },
  {
   "property": "C35",
   "status": "proved",
   "theorems": [
    "C35_clamp_inert",
    "C35_clamp_never_taken"
   ],
   "note": ""
  },
  {
   "property": "C36",
   "status": "proved",
   "theorems": [
    "C36_edge_thickness_between",
    "C36_vertex_thickness_between",
    "C36_no_division_by_zero",
    "C36_zero_thickness_divides_by_zero"
   ],
   "note": ""
  },
  {
   "property": "C37",
   "status": "proved",
   "theorems": [
    "C37_coefficients_not_positive_are_off"
   ],
   "note": ""
  },
  {
   "property": "C38",
   "status": "proved",
   "theorems": [
    "C38_mean_and_flux_thickness_identical",
    "C38_exchanged_names_harmless"
   ],
   "note": ""
  },
  {
   "property": "C39",
   "status": "proved",
   "theorems": [
    "C39_tendency_exists",
    "C39_rk4_in_floating_point",
    "C39_rk4_is_classical"
   ],
   "note": ""
  },
  {
   "property": "C40",
   "status": "proved",
   "theorems": [
    "C40_lsrk_is_low_storage_scheme"
   ],
   "note": ""
  },
  {
   "property": "C41",
   "status": "proved",
   "theorems": [
    "C41_lsrk_history_independent"
   ],
   "note": ""
  },
  {
   "property": "C42",
   "status": "proved",
   "theorems": [
    "C42_nan_persists"
   ],
   "note": "A defect of the code, proved to occur."
  },
  {
   "property": "C43",
   "status": "proved",
   "theorems": [
    "C43_unsupported_stage_count_does_nothing"
   ],
   "note": ""
  },
  {
   "property": "C44",
   "status": "proved",
   "theorems": [
    "C44_rk4_exact_for_cubic_thickness_forcing",
    "C44_rk4_exact_for_uniform_cubic_forcing",
    "C44_rk4_order_conditions"
   ],
   "note": ""
  },
  {
   "property": "C45",
   "status": "proved",
   "theorems": [
    "C45_lsrk5_order_conditions"
   ],
   "note": ""
  },
  {
   "property": "C46",
   "status": "proved",
   "theorems": [
    "C46_forcing_used_inside_the_step_only"
   ],
   "note": ""
  },
  {
   "property": "C47",
   "status": "proved",
   "theorems": [
    "C47_fresh_stepper",
    "C47_lsrk_constructor_clears",
    "C47_disabled_variables_frozen"
   ],
   "note": ""
  },
  {
   "property": "C48",
   "status": "proved",
   "theorems": [
    "C48_mesh_and_parameters_not_modified"
   ],
   "note": ""
  },
  {
   "property": "C49",
   "status": "proved",
   "theorems": [
    "C49_diagnostics"
   ],
   "note": ""
  },
  {
   "property": "C50",
   "status": "proved",
   "theorems": [
    "C50_f0_unused_without_velocity_tendency"
   ],
   "note": ""
  },
  {
   "property": "C51",
   "status": "proved",
   "theorems": [
    "C51_uniform_flow_rotates",
    "C51_rk4_inertial_oscillation",
    "C51_rk4_stability_limit"
   ],
   "note": ""
  },
  {
   "property": "C52",
   "status": "proved",
   "theorems": [
    "C52_programs_are_safe_and_deterministic",
    "C52_initial_state"
   ],
   "note": ""
  },
  {
   "property": "C53",
   "status": "proved",
   "theorems": [
    "C53_time_loop_reaches_the_end"
   ],
   "note": ""
  },
  {
   "property": "C54",
   "status": "proved",
   "theorems": [
    "C54_double_vortex_checks_pass",
    "C54_nan_passes_the_checks"
   ],
   "note": ""
  },
  {
   "property": "C55",
   "status": "proved",
   "theorems": [
    "C55_double_vortex_is_balanced",
    "C55_double_vortex_periodic_refuted"
   ],
   "note": "Balance and the x period are proved; periodicity in y is refuted for every nx."
  },
  {
   "property": "C56",
   "status": "proved",
   "theorems": [
    "C56_manufactured_solution_solves_the_equations",
    "C56_manufactured_solution_is_periodic"
   ],
   "note": ""
  },
  {
   "property": "C57",
   "status": "proved",
   "theorems": [
    "C57_tracer_tests_exact_solutions",
    "C57_advection_thickness"
   ],
   "note": ""
  },
  {
   "property": "C58",
   "status": "proved",
   "theorems": [
    "C58_operator_test_formulas"
   ],
   "note": ""
  },
  {
   "property": "C59",
   "status": "proved",
   "theorems": [
    "C59_tendency_is_the_discrete_equations"
   ],
   "note": ""
  },
  {
   "property": "C60",
   "status": "proved",
   "theorems": [
    "C60_gradient_and_mean_second_order",
    "C60_divergence_second_order",
    "C60_reconstruction_second_order",
    "C60_curl_first_order"
   ],
   "note": ""
  },
  {
   "property": "C61",
   "status": "proved",
   "theorems": [
    "C61_tendency_consistent",
    "C61_tracer_tendency_consistent"
   ],
   "note": ""
  },
  {
   "property": "C62",
   "status": "proved",
   "theorems": [
    "C62_viscous_term_limit",
    "C62_viscosity_consistent_refuted",
    "C62_viscous_tendency_limit",
    "C62_viscous_tendency_refuted"
   ],
   "note": "The claim of the title is refuted; the exact limit is proved."
  },
  {
   "property": "C63",
   "status": "proved",
   "theorems": [
    "C63_translation_equivariance",
    "C63_translation_is_geometric",
    "C63_odd_rows_refuted"
   ],
   "note": "Proved for even ny and all shifts and for odd ny and shifts along rows; refuted for odd ny and shifts across rows."
  },
  {
   "property": "C64",
   "status": "proved",
   "theorems": [
    "C64_tracers_are_passive_and_independent"
   ],
   "note": ""
  },
  {
   "property": "C65",
   "status": "proved",
   "theorems": [
    "C65_hyperviscous_term_limit",
    "C65_hyperviscosity_consistent_refuted",
    "C65_hyperviscous_tendency_limit"
   ],
   "note": "The claim of the title is refuted; the exact leading term is proved."
  },
  {
   "property": "C66",
   "status": "proved",
   "theorems": [
    "C66_vorticity_equation",
    "C66_uniform_potential_vorticity_tendency",
    "C66_irrotational_stays_irrotational",
    "C66_uniform_potential_vorticity_rk4_step",
    "C66_uniform_potential_vorticity_lsrk_step"
   ],
   "note": ""
  },
  {
   "property": "C67",
   "status": "proved",
   "theorems": [
    "C67_tracer_superposition"
   ],
   "note": ""
  },
  {
   "property": "C68",
   "status": "proved",
   "theorems": [
    "C68_maximum_principle",
    "C68_larger_step_refuted",
    "C68_with_advection_refuted"
   ],
   "note": "The maximum principle is proved at rest; it is refuted for larger steps and with advection."
  },
  {
   "property": "C69",
   "status": "proved",
   "theorems": [
    "C69_plane_waves",
    "C69_discrete_wave_number"
   ],
   "note": ""
  },
  {
   "property": "C70",
   "status": "proved",
   "theorems": [
    "C70_waves_do_not_grow",
    "C70_rk4_hyperdiffusion_step_refuted"
   ],
   "note": "Proved for the stated limits; refuted for RK4 with the step size of the hyperdiffusion test."
  },
  {
   "property": "C71",
   "status": "proved",
   "theorems": [
    "C71_diffusion_test_error",
    "C71_diffusion_test_passes",
    "C71_hyperdiffusion_test_error",
    "C71_hyperdiffusion_test_passes"
   ],
   "note": "Exact arithmetic; the hyperdiffusion theorems assume that the number of steps fits in an Int (n up to 1076)."
  },
  {
   "property": "C72",
   "status": "proved",
   "theorems": [
    "C72_frozen_flow_transport"
   ],
   "note": ""
  },
  {
   "property": "C73",
   "status": "proved",
   "theorems": [
    "C73_waves_in_a_uniform_flow",
    "C73_discrete_frequency"
   ],
   "note": "Exact arithmetic; no Coriolis force unless the velocity tendency is disabled (a uniform flow is otherwise not steady)."
  },
  {
   "property": "C74",
   "status": "proved",
   "theorems": [
    "C74_advection_is_stable",
    "C74_euler_advection_refuted"
   ],
   "note": "The stability half is proved for RK4 and five stage LSRK; for one stage LSRK the claim is refuted."
  },
  {
   "property": "C75",
   "status": "proved",
   "theorems": [
    "C75_uniform_advection_converges"
   ],
   "note": ""
  },
  {
   "property": "C76",
   "status": "proved",
   "theorems": [
    "C76_operator_test_is_safe",
    "C76_operator_errors",
    "C76_operator_test_passes"
   ],
   "note": ""
  },
  {
   "property": "C77",
   "status": "proved",
   "theorems": [
    "C77_small_disturbances",
    "C77_linear_tendency",
    "C77_disturbed_programs"
   ],
   "note": "Exact arithmetic; no manufactured forcing and both tendencies enabled."
  },
  {
   "property": "C78",
   "status": "proved",
   "theorems": [
    "C78_disturbances_do_not_grow",
    "C78_one_stage_refuted",
    "C78_energy_tendency"
   ],
   "note": "Proved for RK4 and five stage LSRK without viscosity; for one stage LSRK the claim is refuted. The statement is about the derivative at the fluid at rest, not about disturbances of finite size."
  },
  {
   "property": "C79",
   "status": "proved",
   "theorems": [
    "C79_balanced_flows_stay",
    "C79_potential_vorticity_stays"
   ],
   "note": ""
  },
  {
   "property": "C80",
   "status": "proved",
   "theorems": [
    "C80_gravity_waves",
    "C80_standing_waves_converge"
   ],
   "note": ""
  },
  {
   "property": "C81",
   "status": "proved",
   "theorems": [
    "C81_reconstruction_contracts"
   ],
   "note": ""
  },
  {
   "property": "C82",
   "status": "proved",
   "theorems": [
    "C82_tendency_mass_error",
    "C82_mass_drift",
    "C82_frozen_velocity"
   ],
   "note": "Binary64 (round to nearest even). The general bound assumes that the run stays within the stated sizes; for runs with a fixed velocity and no tracers this is proved. Excluded: build with the noif option in that corollary."
  },
  {
   "property": "C83",
   "status": "proved",
   "theorems": [
    "C83_lake_at_rest_bit_for_bit",
    "C83_uniform_tracers_bit_for_bit"
   ],
   "note": "Binary64 (round to nearest even), one rounding per operation (no fused multiply add)."
  },
  {
   "property": "C84",
   "status": "proved",
   "theorems": [
    "C84_tracer_transport_converges",
    "C84_bounds_exist",
    "C84_uniform_velocity"
   ],
   "note": "The constant grows exponentially with the final time and is far from sharp; the order (dc^2, dt^4) is the content. For uniform thickness and waves C75 has sharp constants."
  },
  {
   "property": "C85",
   "status": "proved",
   "theorems": [
    "C85_advection_test_error"
   ],
   "note": "The error bound. The verdict of the test (rate within 0.05 of 2 from n = 50 to n = 100) needs the leading term of the error and is not claimed."
  },
  {
   "property": "C86",
   "status": "proved",
   "theorems": [
    "C86_inertia_gravity_waves",
    "C86_frequencies",
    "C86_geostrophic_adjustment"
   ],
   "note": "First order in the disturbance (the derivative at the fluid at rest), like C77 and C80."
  },
  {
   "property": "C87",
   "status": "proved",
   "theorems": [
    "C87_no_preferred_units",
    "C87_layers_and_builds"
   ],
   "note": "Exact arithmetic. A component that is disabled together with a forcing is excluded, as in C44 to C47 (the tendency of a disabled component is not reset)."
  },
  {
   "property": "C88",
   "status": "proved",
   "theorems": [
    "C88_nonlinear_test_error",
    "C88_advection_test_error",
    "C88_one_verdict"
   ],
   "note": "That the verdict is the same everywhere; which verdict it is (rate within 0.05 of 2) is not claimed."
  },
  {
   "property": "C89",
   "status": "proved",
   "theorems": [
    "C89_no_preferred_orientation"
   ],
   "note": "Exact arithmetic. The rotation by 60 degrees is not a symmetry of the rectangular periodic domain. A component that is disabled together with a forcing is excluded, as in C87."
  },
  {
   "property": "C90",
   "status": "proved",
   "theorems": [
    "C90_runs_converge_in_time"
   ],
   "note": "Exact arithmetic, fixed mesh; that a solution exists is a hypothesis (met for some time from every state with positive thickness, C92). A component that is disabled together with a forcing is excluded, as in C87."
  },
  {
   "property": "C91",
   "status": "proved",
   "theorems": [
    "C91_rk4_is_of_order_four"
   ],
   "note": "Exact arithmetic, fixed mesh, RK4. Existence of the solution is a hypothesis, its smoothness is not. The exclusion of C90 applies."
  },
  {
   "property": "C92",
   "status": "proved",
   "theorems": [
    "C92_solutions_exist",
    "C92_solutions_are_unique",
    "C92_runs_with_small_steps_agree"
   ],
   "note": "Exact arithmetic, fixed mesh; existence for some positive time (thickness may reach zero later). The exclusion of C90 applies to the statement about runs."
  },
  {
   "property": "C93",
   "status": "proved",
   "theorems": [
    "C93_solutions_conserve_energy",
    "C93_energy_error_of_runs",
    "C93_energy_of_rk4_runs"
   ],
   "note": "Exact arithmetic, fixed mesh. The constants are not given explicitly."
  },
  {
   "property": "C94",
   "status": "proved",
   "theorems": [
    "C94_rk4_runs_from_nearby_states",
    "C94_rk4_runs_are_stable"
   ],
   "note": "Exact arithmetic, fixed mesh, RK4. The constant is not given explicitly (it is exp(2MT) up to the smallness conditions, M a Lipschitz constant of the tendencies). The exclusion of C90 applies."
  },
  {
   "property": "C95",
   "status": "proved",
   "theorems": [
    "C95_there_and_back",
    "C95_runs_can_be_reversed"
   ],
   "note": "Exact arithmetic, fixed mesh, RK4. The constants are not given explicitly."
  },
  {
   "property": "C96",
   "status": "proved",
   "theorems": [
    "C96_variance_rate",
    "C96_variance_along_solutions",
    "C96_variance_of_runs"
   ],
   "note": "Hyperdiffusion is excluded: its variance work is the product of two quadratic forms and has no sign for nonuniform thickness. Exact arithmetic. Runs and solutions with positive thickness; nonnegative tracers are not assumed."
  },
  {
   "property": "C97",
   "status": "proved",
   "theorems": [
    "C97_hyperdiffusion_dissipates",
    "C97_hyperdiffusion_dissipates_refuted"
   ],
   "note": "Proved for uniform thickness; refuted for varying thickness."
  },
  {
   "property": "C98",
   "status": "proved",
   "theorems": [
    "C98_diffusion_converges"
   ],
   "note": "Fluid at rest and uniform thickness. Beside it, decaying products of cosines are shown to be such solutions."
  },
  {
   "property": "C99",
   "status": "proved",
   "theorems": [
    "C99_tracer_tendency_error",
    "C99_tracer_drift",
    "C99_frozen_flow"
   ],
   "note": "The bounds during the run are a hypothesis of C99_tracer_drift (between the statements of the program) and are proved in C99_frozen_flow for a fixed flow. Exact conservation over the reals is C26."
  },
  {
   "property": "C100",
   "status": "proved",
   "theorems": [
    "C100_binary64_diffusion",
    "C100_binary64_diffusion_lsrk5"
   ],
   "note": "RK4 and five stage LSRK. The cosine and sine of the platform enter the mesh coordinates but not this result: at rest the tendencies use only lengths and areas."
  },
  {
   "property": "C101",
   "status": "proved",
   "theorems": [
    "C101_euler_stays_positive",
    "C101_euler_positive_thickness_refuted",
    "C101_rk4_positive_thickness_refuted"
   ],
   "note": "The two theorems with the suffix _refuted refute the claim that a small Courant number keeps the thickness positive; their witnesses are explicit states. Real arithmetic."
  },
  {
   "property": "C102",
   "status": "proved",
   "theorems": [
    "C102_mean_square_never_grows",
    "C102_hyperdiffusion_converges"
   ],
   "note": "Fluid at rest and uniform thickness. Strengthens C70 from single waves to all tracer fields. Beside it, decaying products of cosines are shown to be solutions."
  },
  {
   "property": "C103",
   "status": "proved",
   "theorems": [
    "C103_tracers_mix"
   ],
   "note": "Fluid at rest and uniform thickness. The rate has the right dependence on the size of the domain; its constant is not sharp."
  },
  {
   "property": "C104",
   "status": "proved",
   "theorems": [
    "C104_energy_budget",
    "C104_viscosity_dissipates_energy",
    "C104_viscosity_dissipates_energy_refuted"
   ],
   "note": "The rate of change along the exact tendency, not of a discrete step. The unrestricted claim that viscosity never raises the energy is refuted by C104_viscosity_dissipates_energy_refuted."
  },
  {
   "property": "C105",
   "status": "proved",
   "theorems": [
    "C105_irrotational_flow_is_uniform",
    "C105_viscosity_damps_all_other_flow"
   ],
   "note": "Even numbers of rows, exact arithmetic. The second theorem is about the rate of change along the exact tendency."
  },
  {
   "property": "C106",
   "status": "proved",
   "theorems": [
    "C106_states_of_rest",
    "C106_only_mixed_tracers_rest"
   ],
   "note": "The converse of C30, for the tendency of single layers. Exact arithmetic, even and odd numbers of rows."
  },
  {
   "property": "C107",
   "status": "proved",
   "theorems": [
    "C107_viscous_steady_states"
   ],
   "note": "Layers of uniform thickness only: with rotation other steady states of varying thickness are not excluded. Even numbers of rows, exact arithmetic."
  },
  {
   "property": "C108",
   "status": "proved",
   "theorems": [
    "C108_flat_rest_has_least_energy"
   ],
   "note": "Layers are all layers of the views, including padding, because the diagnostics count them (C49). Exact arithmetic."
  },
  {
   "property": "C109",
   "status": "proved",
   "theorems": [
    "C109_flat_rest_is_stable"
   ],
   "note": "For solutions of the discrete equations in continuous time and exact arithmetic (the runs converge to them by C90 and C91), while they exist. Velocities are bounded only through the energy. Layers include padding."
  }
 ]
}
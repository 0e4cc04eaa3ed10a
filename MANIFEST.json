{
 "claims": [
  {
   "property": "C01",
   "status": "proved",
   "theorems": [
    "C01_mass_each_momentum",
    "C01_mass_with_forces"
   ],
   "note": ""
  },
  {
   "property": "C02",
   "status": "proved",
   "theorems": [
    "C02_global_scheme",
    "C02_decomposition_independent",
    "C02_textbook",
    "C02_textbook_refuted"
   ],
   "note": "Refinement to the global scheme over whole histories. C02_textbook_refuted shows that with a q2-dependent C_q[0] the sampling point (lower corner of the face) differs from the textbook's."
  },
  {
   "property": "C03",
   "status": "proved",
   "theorems": [
    "C03_uniform_states"
   ],
   "note": ""
  },
  {
   "property": "C04",
   "status": "proved",
   "theorems": [
    "C04_maximum_principle"
   ],
   "note": ""
  },
  {
   "property": "C05",
   "status": "proved",
   "theorems": [
    "C05_minmod_bounds"
   ],
   "note": ""
  },
  {
   "property": "C06",
   "status": "proved",
   "theorems": [
    "C06_ppm_bounds_monotone"
   ],
   "note": ""
  },
  {
   "property": "C07",
   "status": "proved",
   "theorems": [
    "C07_reconstruct_dispatch"
   ],
   "note": ""
  },
  {
   "property": "C08",
   "status": "proved",
   "theorems": [
    "C08_weno5_convex",
    "C08_weno5_quadratic_exact"
   ],
   "note": ""
  },
  {
   "property": "C09",
   "status": "proved",
   "theorems": [
    "C09_momentum_fluxes"
   ],
   "note": ""
  },
  {
   "property": "C10",
   "status": "partial",
   "theorems": [
    "C10_every_accepted_ghost_width_refuted"
   ],
   "note": "The code violates this property: N_ghost = 1 with minmod is accepted and computes something else (witness). The sufficient condition (stencil radius < N_ghost) is proved under C02."
  },
  {
   "property": "C11",
   "status": "proved",
   "theorems": [
    "C11_stale_ghosts"
   ],
   "note": ""
  },
  {
   "property": "C12",
   "status": "proved",
   "theorems": [
    "C12_ghost_exchange"
   ],
   "note": ""
  },
  {
   "property": "C13",
   "status": "proved",
   "theorems": [
    "C13_mirror",
    "C13_mirror_polar"
   ],
   "note": "Cartesian and polar momentum grids; the polar theorem also shows the reflection is specular."
  },
  {
   "property": "C14",
   "status": "proved",
   "theorems": [
    "C14_closed_box",
    "C14_symmetric_grid",
    "C14_polar_grid"
   ],
   "note": ""
  },
  {
   "property": "C15",
   "status": "proved",
   "theorems": [
    "C15_dirichlet_inflow_only",
    "C15_no_ghosts_refuted"
   ],
   "note": "C15_no_ghosts_refuted: with N_ghost = 0, which the constructors accept, the right and top conditions overwrite interior cells."
  },
  {
   "property": "C16",
   "status": "proved",
   "theorems": [
    "C16_shear_wrap"
   ],
   "note": ""
  },
  {
   "property": "C17",
   "status": "proved",
   "theorems": [
    "C17_which_ranks",
    "C17_interior_untouched",
    "C17_named_condition",
    "C17_unknown_names"
   ],
   "note": ""
  },
  {
   "property": "C18",
   "status": "partial",
   "theorems": [
    "C18_pairs_partial",
    "C18_one_sided_refuted"
   ],
   "note": "The code violates this property: a right or top end that is 'periodic', 'shearing-box' or 'none' is not checked (witness). Proved: exactly which pairs are accepted."
  },
  {
   "property": "C19",
   "status": "partial",
   "theorems": [
    "C19_validation_partial",
    "C19_later_species_refuted"
   ],
   "note": "The code violates this property: with several species a later species may have its end before its start (witness). Proved: exactly which inputs are accepted, and that the spacings then fit the domain."
  },
  {
   "property": "C20",
   "status": "partial",
   "theorems": [
    "C20_selection_partial",
    "C20_names_refuted"
   ],
   "note": "The code violates this property: several accepted names never lead to a field update (witnesses). Proved: which update each name leads to."
  },
  {
   "property": "C21",
   "status": "proved",
   "theorems": [
    "C21_layouts_inverse",
    "C21_same_order_as_coordinates"
   ],
   "note": ""
  },
  {
   "property": "C22",
   "status": "partial",
   "theorems": [
    "C22_coordinates_partial",
    "C22_left_face_centre_refuted"
   ],
   "note": "Corner, bottom-face and centre coordinates are proved correct on every rank; the q2 coordinate of left face centres is refuted on every grid (the code returns the corner's)."
  },
  {
   "property": "C23",
   "status": "proved",
   "theorems": [
    "C23_momentum_grid"
   ],
   "note": ""
  },
  {
   "property": "C24",
   "status": "proved",
   "theorems": [
    "C24_round_trip",
    "C24_file_contents",
    "C24_ghosts_filled",
    "C24_wrong_size",
    "C24_restart"
   ],
   "note": ""
  },
  {
   "property": "C25",
   "status": "proved",
   "theorems": [
    "C25_round_trip",
    "C25_restart_sees_dumped_fields",
    "C25_restarted_run"
   ],
   "note": ""
  },
  {
   "property": "C26",
   "status": "proved",
   "theorems": [
    "C26_alphabetical",
    "C26_components",
    "C26_integrals"
   ],
   "note": ""
  },
  {
   "property": "C27",
   "status": "partial",
   "theorems": [
    "C27_aux_arrays_partial",
    "C27_other_calls_fail",
    "C27_refuted"
   ],
   "note": "The code violates this property: the component count is fixed by the first call, so a later call with another number of arrays fails (witness), and arrays with several species always fail. Proved: which calls work and what they write."
  },
  {
   "property": "C28",
   "status": "proved",
   "theorems": [
    "C28_methods_and_orders",
    "C28_taylor",
    "C28_constant_slope"
   ],
   "note": ""
  },
  {
   "property": "C29",
   "status": "proved",
   "theorems": [
    "C29_orders",
    "C29_commuting"
   ],
   "note": ""
  },
  {
   "property": "C30",
   "status": "proved",
   "theorems": [
    "C30_methods_agree",
    "C30_any_operators",
    "C30_finite_volume_steps"
   ],
   "note": ""
  },
  {
   "property": "C31",
   "status": "proved",
   "theorems": [
    "C31_clock",
    "C31_operators_see_start"
   ],
   "note": ""
  },
  {
   "property": "C32",
   "status": "proved",
   "theorems": [
    "C32_step",
    "C32_run",
    "C32_bolt"
   ],
   "note": ""
  },
  {
   "property": "C33",
   "status": "partial",
   "theorems": [
    "C33_refuted",
    "C33_fields_refuted",
    "C33_swss_average_partial",
    "C33_without_fields_partial"
   ],
   "note": "The code violates this property: with fields enabled a jia step raises AttributeError for every state, and a swss step calls the field update twice on state that is not reset, so the field solver's clock and time levels advance by 2 dt (theorem for every history, concrete witness). Proved: without fields both trial orderings of swss and jia start from the f the step began with."
  },
  {
   "property": "C34",
   "status": "proved",
   "theorems": [
    "C34_divB_constant"
   ],
   "note": ""
  },
  {
   "property": "C35",
   "status": "proved",
   "theorems": [
    "C35_gauss_residual_constant"
   ],
   "note": ""
  },
  {
   "property": "C36",
   "status": "proved",
   "theorems": [
    "C36_energy_constant"
   ],
   "note": ""
  },
  {
   "property": "C37",
   "status": "partial",
   "theorems": [
    "C37_A3_divergence_free",
    "C37_A3_divergence_free_history",
    "C37_initialize_A_refuted"
   ],
   "note": "The code violates this property for initialize_A (witness: divergence 32). Proved for initialize_A3_B3, at the start for every potential and after every history for periodic ones."
  },
  {
   "property": "C38",
   "status": "proved",
   "theorems": [
    "C38_averages_to_centres",
    "C38_averages_to_yee",
    "C38_uniform",
    "C38_affine_to_centres",
    "C38_affine_to_yee"
   ],
   "note": ""
  },
  {
   "property": "C39",
   "status": "partial",
   "theorems": [
    "C39_fields_given_to_the_force_partial",
    "C39_staggered_fields_refuted"
   ],
   "note": "The code violates this property: both time levels refer to one array, so the force gets the average of old and new E also where E at the new time is due (witness). Proved: what the force is given, for every history."
  },
  {
   "property": "C40",
   "status": "proved",
   "theorems": [
    "C40_fft_poisson"
   ],
   "note": ""
  },
  {
   "property": "C41",
   "status": "partial",
   "theorems": [
    "C41_fvm_partial",
    "C41_refuted"
   ],
   "note": "The code violates this property for semi-Lagrangian momentum advection: op_fields compares fields_solver with 'electrostatic', which no accepted name equals, so the field is never recomputed (theorem for every lie/strang history, witness). Proved for FVM in p: every history refines the discrete Vlasov-Poisson relation."
  },
  {
   "property": "C42",
   "status": "partial",
   "theorems": [
    "C42_characteristics",
    "C42_history",
    "C42_exact_shift",
    "C42_momentum_partial",
    "C42_p1_refuted"
   ],
   "note": "The code violates this property: the p-advection ignores the force along p1 (C42_p1_refuted: with forces along p1 only, f is returned unchanged for every field solver). Proved: the q-advection follows characteristics for every history, displacements by whole cells are exact shifts, and the p-advection follows characteristics along p2 and p3 for one species."
  },
  {
   "property": "C43",
   "status": "partial",
   "theorems": [
    "C43_what_is_checked_partial",
    "C43_refuted"
   ],
   "note": "The code violates this property: the four tests are joined by 'and', so one periodic side is enough (witness: mirrors left and right). Proved: exactly which boundary settings are refused."
  },
  {
   "property": "C44",
   "status": "proved",
   "theorems": [
    "C44_initial_f",
    "C44_round_trip"
   ],
   "note": ""
  },
  {
   "property": "C45",
   "status": "proved",
   "theorems": [
    "C45_moments_agree",
    "C45_errors"
   ],
   "note": ""
  },
  {
   "property": "C46",
   "status": "proved",
   "theorems": [
    "C46_div_B",
    "C46_div_B_initial",
    "C46_gauss",
    "C46_gauss_initial"
   ],
   "note": ""
  },
  {
   "property": "C47",
   "status": "proved",
   "theorems": [
    "C47_electrostatic"
   ],
   "note": ""
  },
  {
   "property": "C48",
   "status": "proved",
   "theorems": [
    "C48_methods_and_orders",
    "C48_taylor",
    "C48_time_dependent"
   ],
   "note": ""
  },
  {
   "property": "C49",
   "status": "partial",
   "theorems": [
    "C49_what_a_step_does_partial",
    "C49_refuted"
   ],
   "note": "The code violates this property: df_hat_dt ignores its fields argument, so f sees the fields of the start of the step at every stage (witness). Proved: the step equals the Runge-Kutta step with frozen fields."
  },
  {
   "property": "C50",
   "status": "partial",
   "theorems": [
    "C50_what_is_loaded_partial",
    "C50_refuted"
   ],
   "note": "The code violates this property: the buffer is written in column-major order and read in row-major order (witness). Proved: which element each loaded element is."
  },
  {
   "property": "C51",
   "status": "proved",
   "theorems": [
    "C51_moments_are_integrals",
    "C51_errors",
    "C51_linear",
    "C51_local",
    "C51_realizable"
   ],
   "note": ""
  },
  {
   "property": "C52",
   "status": "partial",
   "theorems": [
    "C52_bgk_partial",
    "C52_temperature_refuted"
   ],
   "note": "The code violates the temperature part of this property: the variance of the equilibrium carries params.boltzmann_constant twice (it is compared with k_B T / m), so it is right only for k_B = 1 (refuted for k > 1). Proved: the equilibrium is a non-negative Maxwellian with the density of f, its bulk velocity and k_B T up to the code's floor of 1e-30, and the source is (equilibrium - f)/tau, zero exactly where f equals the equilibrium."
  },
  {
   "property": "C53",
   "status": "proved",
   "theorems": [
    "C53_lorentz_force",
    "C53_uniform_distribution_feels_no_force"
   ],
   "note": ""
  },
  {
   "property": "C54",
   "status": "proved",
   "theorems": [
    "C54_inverse_3x3",
    "C54_inverse_4x4"
   ],
   "note": ""
  },
  {
   "property": "C55",
   "status": "proved",
   "theorems": [
    "C55_f0_ee",
    "C55_f0_ee_constant_T",
    "C55_f0_defect",
    "C55_f0_defect_constant_T",
    "C55_run_ee",
    "C55_run_ee_constant_T",
    "C55_run_defect",
    "C55_run_defect_constant_T",
    "C55_fixed_points",
    "C55_mu_unique"
   ],
   "note": ""
  },
  {
   "property": "C56",
   "status": "proved",
   "theorems": [
    "C56_scales"
   ],
   "note": ""
  },
  {
   "property": "C57",
   "status": "partial",
   "theorems": [
    "C57_min",
    "C57_max_refuted",
    "C57_mean_partial",
    "C57_mean_refuted"
   ],
   "note": "The code violates this property: global_max raises NameError for every input, and global_mean averages the ranks' means (witness with ranks of different sizes). Proved: global_min; global_mean when all ranks hold equally many elements."
  },
  {
   "property": "C58",
   "status": "proved",
   "theorems": [
    "C58_wave_numbers",
    "C58_distinct"
   ],
   "note": ""
  },
  {
   "property": "C59",
   "status": "proved",
   "theorems": [
    "C59_is_dft",
    "C59_inverse_pair",
    "C59_linear"
   ],
   "note": ""
  },
  {
   "property": "C60",
   "status": "proved",
   "theorems": [
    "C60_source_step"
   ],
   "note": ""
  },
  {
   "property": "C61",
   "status": "proved",
   "theorems": [
    "C61_minmod_mirror",
    "C61_ppm_mirror",
    "C61_weno5_mirror_refuted"
   ],
   "note": "Holds for minmod and PPM; refuted for WENO5 (which the dispatch refuses to run)."
  },
  {
   "property": "C62",
   "status": "proved",
   "theorems": [
    "C62_stable_below_courant_limit"
   ],
   "note": ""
  },
  {
   "property": "C63",
   "status": "proved",
   "theorems": [
    "C63_yee_scheme"
   ],
   "note": ""
  },
  {
   "property": "C64",
   "status": "proved",
   "theorems": [
    "C64_particles"
   ],
   "note": ""
  },
  {
   "property": "C65",
   "status": "partial",
   "theorems": [
    "C65_which_steps_work_partial",
    "C65_refuted"
   ],
   "note": "The code violates this property: 1/(12 dp) lies along the wrong axis, so two species with one cell in p2 raise an error (witness). Proved: exactly which numbers of species work."
  },
  {
   "property": "C66",
   "status": "proved",
   "theorems": [
    "C66_superposition"
   ],
   "note": ""
  },
  {
   "property": "C67",
   "status": "partial",
   "theorems": [
    "C67_dump_keeps_initial_fields",
    "C67_refuted"
   ],
   "note": "The code violates this property: an electrostatic run never writes the staggered array that is dumped. Proved: the dump is that of the initial fields after any history, and differs from the fields in use whenever the initial field was uniform and non-zero."
  },
  {
   "property": "C68",
   "status": "partial",
   "theorems": [
    "C68_transposed_grid",
    "C68_accepted_sizes",
    "C68_refuted"
   ],
   "note": "The code violates this property: only the total size is compared. Proved: exactly which files load, and which cell each value comes from for a transposed grid (witness)."
  },
  {
   "property": "C69",
   "status": "proved",
   "theorems": [
    "C69_coupled_conservation"
   ],
   "note": ""
  },
  {
   "property": "C70",
   "status": "proved",
   "theorems": [
    "C70_hybrid_total"
   ],
   "note": ""
  },
  {
   "property": "C71",
   "status": "proved",
   "theorems": [
    "C71_balance",
    "C71_conservation",
    "C71_equilibrium",
    "C71_branches"
   ],
   "note": ""
  },
  {
   "property": "C72",
   "status": "proved",
   "theorems": [
    "C72_free_motion",
    "C72_source"
   ],
   "note": ""
  },
  {
   "property": "C73",
   "status": "proved",
   "theorems": [
    "C73_box_scheme",
    "C73_decomposition_independent",
    "C73_stale_ghosts"
   ],
   "note": ""
  },
  {
   "property": "C74",
   "status": "proved",
   "theorems": [
    "C74_gas_at_rest"
   ],
   "note": ""
  },
  {
   "property": "C75",
   "status": "proved",
   "theorems": [
    "C75_bounds"
   ],
   "note": ""
  },
  {
   "property": "C76",
   "status": "proved",
   "theorems": [
    "C76_number",
    "C76_total"
   ],
   "note": "Proved for displacements below N_g - 1 cells, or whole numbers of cells up to N_g, where the four interpolation nodes lie on the rank's array."
  },
  {
   "property": "C77",
   "status": "proved",
   "theorems": [
    "C77_layouts"
   ],
   "note": "As C76."
  },
  {
   "property": "C78",
   "status": "proved",
   "theorems": [
    "C78_uniform"
   ],
   "note": "As C76."
  },
  {
   "property": "C79",
   "status": "partial",
   "theorems": [
    "C79_beyond_reach_refuted"
   ],
   "note": "The code violates this property: a displacement beyond the ghost zones gives 0 without an error (proved for every cell, rank and data set; witness)."
  },
  {
   "property": "C80",
   "status": "partial",
   "theorems": [
    "C80_species_refuted",
    "C80_mixed_refuted"
   ],
   "note": "The code violates this property: with several species the momentum sub-step raises for every data set unless there are as many species as cells along p2 or one such cell; with as many, cell i2 of each species is placed on the grid of species i2, and without any force particles below that grid are wiped out (witness)."
  },
  {
   "property": "C81",
   "status": "proved",
   "theorems": [
    "C81_scaling",
    "C81_constants"
   ],
   "note": ""
  },
  {
   "property": "C82",
   "status": "proved",
   "theorems": [
    "C82_translation"
   ],
   "note": ""
  },
  {
   "property": "C83",
   "status": "proved",
   "theorems": [
    "C83_reflection"
   ],
   "note": ""
  },
  {
   "property": "C84",
   "status": "proved",
   "theorems": [
    "C84_domain_of_dependence"
   ],
   "note": ""
  },
  {
   "property": "C85",
   "status": "proved",
   "theorems": [
    "C85_momenta_apart",
    "C85_species_apart"
   ],
   "note": ""
  },
  {
   "property": "C86",
   "status": "proved",
   "theorems": [
    "C86_order_kept",
    "C86_contraction"
   ],
   "note": ""
  },
  {
   "property": "C87",
   "status": "proved",
   "theorems": [
    "C87_vlasov_maxwell"
   ],
   "note": ""
  },
  {
   "property": "C88",
   "status": "proved",
   "theorems": [
    "C88_gauss_law",
    "C88_no_monopoles"
   ],
   "note": "The particles' velocity in q must be their momentum (unit mass), and the field grid spacing that of f."
  },
  {
   "property": "C89",
   "status": "proved",
   "theorems": [
    "C89_any_process_grid"
   ],
   "note": ""
  },
  {
   "property": "C90",
   "status": "proved",
   "theorems": [
    "C90_rest_state"
   ],
   "note": ""
  },
  {
   "property": "C91",
   "status": "partial",
   "theorems": [
    "C91_initial_fields_partial",
    "C91_initial_potential_partial",
    "C91_staggered_positions_refuted"
   ],
   "note": "The code violates this property: E1 and B2 are read half a cell below their place on the Yee grid, because calculate_q returns the corner's q2 for left-face centres (witness). Proved: where exactly every component is read, the curl of A3, and the cell-centred averages, on every process grid."
  },
  {
   "property": "C92",
   "status": "partial",
   "theorems": [
    "C92_named_condition",
    "C92_usable_names",
    "C92_unknown_name",
    "C92_shearing_box_refuted"
   ],
   "note": "The code violates this property: 'shearing-box' raises AttributeError for every field state, because the field solver has no q1_end/q2_end (theorem for every configuration). Proved: what every other name does to every cell, which names are usable, unknown names refused."
  },
  {
   "property": "C93",
   "status": "proved",
   "theorems": [
    "C93_yee_scheme_with_mirrors",
    "C93_any_process_grid",
    "C93_gauss_residual",
    "C93_divB_off_walls"
   ],
   "note": ""
  },
  {
   "property": "C94",
   "status": "partial",
   "theorems": [
    "C94_wall_field_partial",
    "C94_quiet_walls_partial",
    "C94_B3_on_wall_refuted"
   ],
   "note": "The code violates this property: B3 on a mirror follows the normal electric field (witness: one step from E1 = q2). Proved: B2 (walls across q1) and B1 (walls across q2) on the wall never change; all wall components stay zero when the walls start quiet."
  },
  {
   "property": "C95",
   "status": "proved",
   "theorems": [
    "C95_method_of_images",
    "C95_method_of_images_q2"
   ],
   "note": ""
  },
  {
   "property": "C96",
   "status": "partial",
   "theorems": [
    "C96_cavity_energy_partial",
    "C96_mirrors_leak",
    "C96_isolated_refuted"
   ],
   "note": "The code violates this property: PETSc keeps the axes periodic, so E2 next to the right mirror is driven by B3 at the left mirror (theorem for every state; witness of two boxes closed all round). Proved: energy conservation and stability when the fields that the reflection makes odd vanish on the walls at the start."
  },
  {
   "property": "C97",
   "status": "proved",
   "theorems": [
    "C97_first_order_converges"
   ],
   "note": ""
  },
  {
   "property": "C98",
   "status": "proved",
   "theorems": [
    "C98_planes_are_carried_exactly"
   ],
   "note": ""
  },
  {
   "property": "C99",
   "status": "partial",
   "theorems": [
    "C99_minmod_bounds_along_an_axis_partial",
    "C99_nonnegative_refuted"
   ],
   "note": "The code violates this property: the fluxes of both axes are limited separately and added, and the midpoint rule is not strong-stability preserving, so from non-negative data with velocity (1,1) one step of every size 0 < dt <= 1/2 makes a cell negative (theorem for every such dt). Proved: the bounds hold for every history when each particle moves along one axis."
  },
  {
   "property": "C100",
   "status": "partial",
   "theorems": [
    "C100_modulus_partial",
    "C100_stable_steps_partial",
    "C100_refuted"
   ],
   "note": "The code violates this property: RK2 makes every moving mode grow without bound at every step size (witness for every dt). Proved: the exact factor by which any run changes the modulus; RK4 does not amplify iff (w dt)^2 <= 8, RK5 iff 9y^6-224y^4+1920y^2 <= 1280 for y = w dt."
  },
  {
   "property": "C101",
   "status": "proved",
   "theorems": [
    "C101_phases_are_exact_to_order"
   ],
   "note": ""
  },
  {
   "property": "C102",
   "status": "proved",
   "theorems": [
    "C102_hybrid_model"
   ],
   "note": ""
  },
  {
   "property": "C103",
   "status": "proved",
   "theorems": [
    "C103_hybrid_no_monopoles"
   ],
   "note": ""
  },
  {
   "property": "C104",
   "status": "proved",
   "theorems": [
    "C104_hybrid_any_process_grid"
   ],
   "note": "Three ghost zones are needed because the pressure gradient looks three cells to the left."
  },
  {
   "property": "C105",
   "status": "proved",
   "theorems": [
    "C105_translation",
    "C105_one_dimensional"
   ],
   "note": ""
  },
  {
   "property": "C106",
   "status": "proved",
   "theorems": [
    "C106_homogeneous"
   ],
   "note": ""
  },
  {
   "property": "C107",
   "status": "partial",
   "theorems": [
    "C107_unmagnetised_partial",
    "C107_unmagnetised_refuted"
   ],
   "note": "The code violates this property: the pressure term takes the difference of n at faces but divides by n of one cell, so its discrete curl is not 0; cold ions at rest with one denser cell acquire B3 in one step (witness). Proved: plasmas that vary along one axis only stay unmagnetised."
  },
  {
   "property": "C108",
   "status": "proved",
   "theorems": [
    "C108_hybrid_rest"
   ],
   "note": ""
  },
  {
   "property": "C109",
   "status": "proved",
   "theorems": [
    "C109_mirror_images",
    "C109_mirror_plane"
   ],
   "note": ""
  },
  {
   "property": "C110",
   "status": "partial",
   "theorems": [
    "C110_hybrid_mirror_partial",
    "C110_hybrid_mirror_refuted"
   ],
   "note": "The code violates this property: the pressure term of a face is divided by the density of the cell to its right, so the field of the mirror image is not the mirror image of the field (witness: cold ions with one denser cell, one step). Proved: it holds for electrons without pressure and momentum grids with no cell centred on zero."
  },
  {
   "property": "C111",
   "status": "partial",
   "theorems": [
    "C111_cold_electrons_partial",
    "C111_refuted",
    "C111_pressure_invisible"
   ],
   "note": "The code violates this property: the pressure term lacks the factor i of the gradient and the charge (witness: ions at rest with one denser cell, one step). Proved: it holds for cold electrons; and on grids with odd numbers of points the wrong term is invisible: the field on the grid is the same for all T_e."
  },
  {
   "property": "C112",
   "status": "proved",
   "theorems": [
    "C112_div_B",
    "C112_unmagnetised",
    "C112_runs",
    "C112_several_species"
   ],
   "note": ""
  },
  {
   "property": "C113",
   "status": "partial",
   "theorems": [
    "C113_half_step_partial",
    "C113_RK4_partial",
    "C113_RK5_partial",
    "C113_refuted"
   ],
   "note": "The code violates this property: E is stored during the last evaluation of the slopes (witness: a beam carrying a magnetic wave, RK2). Proved: for RK2 and cold electrons it is Ohm's law for the state half an Euler step after the beginning, for RK4 and RK5 that for the last intermediate state."
  },
  {
   "property": "C114",
   "status": "partial",
   "theorems": [
    "C114_usable_partial",
    "C114_values_partial",
    "C114_electronic_refuted",
    "C114_optics_refuted",
    "C114_currents_refuted"
   ],
   "note": "The code violates this property: the momentum terms of the electronic system take the field components while the solvers pass the fields solver, so every call raises TypeError; the optical system lacks terms and its moments are refused for all inputs; the electronic and polar systems lack the current moments (theorems for all arguments). Proved: the non-relativistic and polar systems are usable, with the values of every call."
  },
  {
   "property": "C115",
   "status": "partial",
   "theorems": [
    "C115_force",
    "C115_energy_partial",
    "C115_polar2D_refuted"
   ],
   "note": "The code violates this property: in polar2D momenta the Cartesian force components are used as rates of |p| and of the angle, so a magnetic field does work (witness); and the guard 1e-20 in the band velocity changes the rate by the factor 1 + 1e-20/|p|. Proved: the force law for all bands; for graphene in Cartesian momenta the exact rate, and conservation for all time without an electric field."
  },
  {
   "property": "C116",
   "status": "partial",
   "theorems": [
    "C116_integrals_partial",
    "C116_normalisation_refuted",
    "C116_velocity_refuted"
   ],
   "note": "The code violates this property: the density lacks the factor 4/(2 pi hbar)^2 (witness), and the currents weigh f with the momentum, so that for graphene no constant factor makes them the flux (theorem for every Fermi velocity). Proved: which integral each moment is, for all distributions."
  },
  {
   "property": "C117",
   "status": "partial",
   "theorems": [
    "C117_integrals_partial",
    "C117_energy_refuted"
   ],
   "note": "The code violates this property: the angular part of the energy lacks r^2, so uniform motion along x = 1 changes the energy moment (witness). Proved: which integral each moment is, for all distributions."
  },
  {
   "property": "C118",
   "status": "partial",
   "theorems": [
    "C118_E_of_ranks",
    "C118_process_grid_refuted"
   ],
   "note": "The code violates this property: with two ghost zones the pressure gradient at the first cells of a rank reads a cell from the other end of the rank's array (witness: cold ions, 4 x 4 cells on one and two ranks). Proved: the exact field on every rank after a step, for two or more ghost zones; C104 gives independence from three on."
  },
  {
   "property": "C119",
   "status": "proved",
   "theorems": [
    "C119_shearing_box",
    "C119_whole_boxes",
    "C119_process_grid"
   ],
   "note": "in_time says that the model's bound on the iterations of the two wrap-around loops is large enough; the code has no bound."
  },
  {
   "property": "C120",
   "status": "partial",
   "theorems": [
    "C120_conserved_partial",
    "C120_conserved_refuted"
   ],
   "note": "The code violates this property: with a limiter and a displacement that is not a whole number of cells what leaves through one sheared side differs from what enters through the other (witness: 2 x 2 cells, half a cell, 11 particles become 10 3/4 in one step at the Courant limit). Proved: it holds for every history at whole-cell displacements, and always with first-order reconstruction."
  },
  {
   "property": "C121",
   "status": "partial",
   "theorems": [
    "C121_restarted_run",
    "C121_continues_partial",
    "C121_continues_refuted"
   ],
   "note": "The code violates this property: the cell-centred electric field that acts on the particles is a running mean of the averages of the staggered field (its arrays at n and n+1/2 are one array), it is not in the files, and a load sets it to the averages; f differs after the next step (witness: uniform plasma with a current). Proved: what the restarted run is, for every stopping point, process grid and clock; and that it is the uninterrupted run whenever the fields in use are the averages, for instance before the first step."
  },
  {
   "property": "C122",
   "status": "partial",
   "theorems": [
    "C122_restarted_hybrid_run",
    "C122_continues_partial",
    "C122_continues_refuted"
   ],
   "note": "The code violates this property: as for C121 (witness: uniform ions drifting across a magnetic field). Proved: what the restarted run is, for every stopping point, process grid and clock; and that it is the uninterrupted run whenever the fields in use are the averages."
  },
  {
   "property": "C123",
   "status": "proved",
   "theorems": [
    "C123_vlasov_poisson"
   ],
   "note": ""
  },
  {
   "property": "C124",
   "status": "proved",
   "theorems": [
    "C124_no_self_force"
   ],
   "note": ""
  },
  {
   "property": "C125",
   "status": "partial",
   "theorems": [
    "C125_balance_partial",
    "C125_kept_partial",
    "C125_edges_refuted",
    "C125_limiters_refuted"
   ],
   "note": "The code violates this property: momentum space is treated as periodic, so particles pushed past the largest momentum come back with the smallest (witness: 2 momentum cells, momentum 2 becomes 0 in one step), and with a limiter along p the plasma pushes itself even when the outermost momentum cells are empty (witness: 6 momentum cells, the momentum grows by 7/2 in one step). Proved: with first order along p the momentum changes by exactly what wraps around, for every history, so it is constant while the outermost momentum cells are empty."
  },
  {
   "property": "C126",
   "status": "proved",
   "theorems": [
    "C126_translation",
    "C126_mirror_images",
    "C126_uniform_rest"
   ],
   "note": ""
  },
  {
   "property": "C127",
   "status": "partial",
   "theorems": [
    "C127_half_step_partial",
    "C127_refuted"
   ],
   "note": "The code violates this property: the last field solve of a step is for the half-step state (witness: E1 is -1, the field of the returned f is 1). Proved: after every history the fields handed out are those of the half-step state of the last step."
  },
  {
   "property": "C128",
   "status": "proved",
   "theorems": [
    "C128_poynting"
   ],
   "note": ""
  },
  {
   "property": "C129",
   "status": "proved",
   "theorems": [
    "C129_moments"
   ],
   "note": ""
  },
  {
   "property": "C130",
   "status": "partial",
   "theorems": [
    "C130_balance_partial",
    "C130_conserved_refuted"
   ],
   "note": "The code violates this property: the first-order flux through the momentum faces heats a plasma at rest at a rate that does not fall with the step size (witness: three momentum cells, uniform field, every step up to 1/2 adds at least 3 dt to an energy of 3/2). Proved: the exact balance for every history: the change is what acceleration hands to the particles less the work of the field on the currents."
  },
  {
   "property": "C131",
   "status": "partial",
   "theorems": [
    "C131_frozen",
    "C131_left_sums",
    "C131_split_left_sums",
    "C131_first_order_partial",
    "C131_second_order_refuted",
    "C131_splitting_refuted"
   ],
   "note": "The code violates this property: both evaluations of a step take velocities, forces and source at the time the step starts at (witness: df/dt = t, the error after n steps to t = 1 is 1/(2n), with finite volumes and with semi-Lagrangian advection, for every splitting method). Proved: the exact result of every such history (the left sum of the source), and the first-order error bound for any source whose rate of change is bounded."
  },
  {
   "property": "C132",
   "status": "proved",
   "theorems": [
    "C132_electrodynamic",
    "C132_electrostatic",
    "C132_no_fields"
   ],
   "note": ""
  },
  {
   "property": "C133",
   "status": "proved",
   "theorems": [
    "C133_electrodynamic",
    "C133_electrostatic"
   ],
   "note": ""
  },
  {
   "property": "C134",
   "status": "proved",
   "theorems": [
    "C134_solvers_agree",
    "C134_linear_is_spectral",
    "C134_waves_interpolate"
   ],
   "note": ""
  },
  {
   "property": "C135",
   "status": "partial",
   "theorems": [
    "C135_combinations_partial",
    "C135_asl_q_refuted",
    "C135_asl_p_refuted"
   ],
   "note": "The code violates this property: with semi-Lagrangian advection in q and finite volumes in p every step with electrodynamic fields raises (f_left does not exist), with semi-Lagrangian advection in p every step with the 'fdtd' solver raises unless the hybrid model is on (asl_operators.py:226 reads an undefined f), and jia steps raise with fields unless both methods are FVM. Proved: the complete table: from every state, a history completes exactly when all its steps are of the kinds listed as available."
  },
  {
   "property": "C136",
   "status": "proved",
   "theorems": [
    "C136_light_wave",
    "C136_light_wave_given",
    "C136_every_direction",
    "C136_speed_of_light"
   ],
   "note": ""
  },
  {
   "property": "C137",
   "status": "partial",
   "theorems": [
    "C137_half_step_late_partial",
    "C137_initial_time_refuted"
   ],
   "note": "The code violates this property: E is advanced with the given B before B itself is advanced, so the given B counts as B at +dt/2 (fields.py:435-436 says -1/2); given E and B at time 0 the run is half a step late, an error of first order (witness: standing wave with B = 0 at the start, error at least dt/2 after a quarter of a period, for arbitrarily small dt). Proved: the exact result for every standing wave that starts with B = 0: the wave at t - dt/2, larger by 1/cos(w dt/2). With B given at dt/2, as the repository's own FDTD test does, runs are exact (C136)."
  },
  {
   "property": "C138",
   "status": "proved",
   "theorems": [
    "C138_second_order",
    "C138_second_order_given"
   ],
   "note": ""
  },
  {
   "property": "C139",
   "status": "proved",
   "theorems": [
    "C139_modes_are_independent",
    "C139_no_new_modes"
   ],
   "note": ""
  },
  {
   "property": "C140",
   "status": "proved",
   "theorems": [
    "C140_translations"
   ],
   "note": ""
  },
  {
   "property": "C141",
   "status": "partial",
   "theorems": [
    "C141_odd_grids_partial",
    "C141_resolved_modes_partial",
    "C141_refuted"
   ],
   "note": "The code violates this property: with an even number of cells the mode at the grid frequency is given the wavenumber -N/2 and becomes complex, so that part of it takes part in the evolution and is missing from the real f that is returned (witness: two cells, one free-streaming step). Proved: the property for all histories, fields and sources on grids with odd numbers of cells, and on every grid for all modes but those at the grid frequency."
  },
  {
   "property": "C142",
   "status": "partial",
   "theorems": [
    "C142_energy_partial",
    "C142_longitudinal_partial",
    "C142_refuted"
   ],
   "note": "The code violates this property: with the supported method RK2 every step multiplies the energy with 1 + (w dt)^4/4, so that it grows beyond all bounds at every step size (witness: E3 on three cells). Proved: the exact factor of every history of RK2, RK4 and RK5 steps, which for RK4 and RK5 is at most 1 for the step sizes of C100, and that k.E and k.B do not change."
  },
  {
   "property": "C143",
   "status": "proved",
   "theorems": [
    "C143_light_waves"
   ],
   "note": ""
  },
  {
   "property": "C144",
   "status": "partial",
   "theorems": [
    "C144_budget_partial",
    "C144_at_rest_partial",
    "C144_refuted"
   ],
   "note": "The code violates this property: the Maxwellian is normalised as an integral over all momenta, so its sum over the grid is not the density it is made from; a gas with two velocities loses all its particles in the end (witness, for every method and step size up to the collision time). Proved: the exact change of every moment in a step; on symmetric momentum grids the momentum of a gas at rest stays 0 through all histories."
  },
  {
   "property": "C145",
   "status": "partial",
   "theorems": [
    "C145_lie_partial",
    "C145_fvm_ignores",
    "C145_fvm_refuted",
    "C145_strang_refuted"
   ],
   "note": "The code violates this property: with finite volumes the setting is read nowhere, and runs with it are the runs without it (proved for all histories, with a gas that is never in equilibrium); a Strang step transports after the collisions and takes a gas out of equilibrium (witness). Proved: with semi-Lagrangian advection and no fields every history ending with a Lie step ends in equilibrium."
  },
  {
   "property": "C146",
   "status": "proved",
   "theorems": [
    "C146_exact",
    "C146_order"
   ],
   "note": ""
  },
  {
   "property": "C147",
   "status": "proved",
   "theorems": [
    "C147_translation",
    "C147_superposition",
    "C147_reflection"
   ],
   "note": ""
  },
  {
   "property": "C148",
   "status": "proved",
   "theorems": [
    "C148_contracts"
   ],
   "note": ""
  },
  {
   "property": "C149",
   "status": "proved",
   "theorems": [
    "C149_converges"
   ],
   "note": ""
  },
  {
   "property": "C150",
   "status": "partial",
   "theorems": [
    "C150_bounded_partial",
    "C150_refuted"
   ],
   "note": "The code violates this property: cubic splines undershoot, so from particles in a single cell f is negative in another cell after one step, of every size up to a cell's length (witness). Proved: |f| stays within the root of the initial sum of squares for all time, with every splitting method."
  },
  {
   "property": "C151",
   "status": "proved",
   "theorems": [
    "C151_momenta_apart",
    "C151_domain_of_dependence",
    "C151_species_apart"
   ],
   "note": ""
  },
  {
   "property": "C152",
   "status": "proved",
   "theorems": [
    "C152_homogeneous",
    "C152_lie_swss",
    "C152_strang_halves"
   ],
   "note": ""
  }
 ]
}
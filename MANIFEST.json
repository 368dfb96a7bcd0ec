{
 "claims": [
  {
   "property": "C01",
   "status": "proved",
   "theorems": [
    "C01_forward_sweep",
    "C01_backward_sweep"
   ],
   "note": ""
  },
  {
   "property": "C02",
   "status": "proved",
   "theorems": [
    "C02_pass_conservation",
    "C02_returned_flux_is_a_sweep",
    "C02_fixed_point_balance"
   ],
   "note": ""
  },
  {
   "property": "C03",
   "status": "proved",
   "theorems": [
    "C03_pass_flat",
    "C03_driver_flat"
   ],
   "note": ""
  },
  {
   "property": "C04",
   "status": "proved",
   "theorems": [
    "C04_pass_nonneg",
    "C04_driver_nonneg",
    "C04_thick_cells_refuted"
   ],
   "note": "Positivity proved under the mesh condition named in the property; the negative-flux part is proved by a witness (C04_thick_cells_refuted)."
  },
  {
   "property": "C05",
   "status": "proved",
   "theorems": [
    "C05_pass_linear",
    "C05_forward_linear",
    "C05_backward_linear",
    "C05_known_source_linear"
   ],
   "note": ""
  },
  {
   "property": "C06",
   "status": "proved",
   "theorems": [
    "C06_kernel_mirror",
    "C06_pass_mirror",
    "C06_driver_mirror"
   ],
   "note": ""
  },
  {
   "property": "C07",
   "status": "proved",
   "theorems": [
    "C07_reflective",
    "C07_both_reflective_refuted"
   ],
   "note": "Proved for quadratures ordered as angular_x orders them. Both sides reflective (which angular_x cannot produce) is shown to violate the reflective condition."
  },
  {
   "property": "C08",
   "status": "partial",
   "theorems": [
    "C08_iterative_raises",
    "C08_anisotropic_raises",
    "C08_known_source_silent_refuted",
    "C08_sphere_zero_ordinate"
   ],
   "note": "Holds for the iterative isotropic and anisotropic drivers, slab and sphere. REFUTED for slab_known_source_sn: no exception, the column of that ordinate keeps the content of the caller's array."
  },
  {
   "property": "C09",
   "status": "proved",
   "theorems": [
    "C09_inner_trace",
    "C09_inner_total",
    "C09_sphere_trace",
    "C09_sphere_total"
   ],
   "note": ""
  },
  {
   "property": "C10",
   "status": "proved",
   "theorems": [
    "C10_multigroup_fixed_point",
    "C10_multigroup_solution",
    "C10_fixed_point_returned",
    "C10_sphere_fixed_point"
   ],
   "note": ""
  },
  {
   "property": "C11",
   "status": "partial",
   "theorems": [
    "C11_multigroup_scalar_is_sum",
    "C11_multigroup_total",
    "C11_one_column_source_refuted",
    "C11_reproduces_solution",
    "C11_scalar_is_quadrature_sum",
    "C11_known_source_transport"
   ],
   "note": "Proved for sources with one column per ordinate, slab, one group and multigroup. REFUTED for a one-column source: known_source_angular then returns the scalar flux in its only column (C11_one_column_source_refuted)."
  },
  {
   "property": "C12",
   "status": "proved",
   "theorems": [
    "C12_center_is_edge_average"
   ],
   "note": ""
  },
  {
   "property": "C13",
   "status": "partial",
   "theorems": [
    "C13_scatter_sweep_is_pass",
    "C13_index_error_refuted",
    "C13_angular_boundary_refuted",
    "C13_sphere_scatter_sweep_partial",
    "C13_sphere_surface_source_refuted"
   ],
   "note": "Slab: proved when external and boundary have the same number of columns, REFUTED otherwise (boundary column is selected by external.shape[1]). Sphere: proved for a vacuum surface, REFUTED for a surface source (the scatter sweep starts every inward ordinate from 0)."
  },
  {
   "property": "C14",
   "status": "proved",
   "theorems": [
    "C14_one_moment_is_isotropic",
    "C14_sphere_one_moment_is_isotropic"
   ],
   "note": ""
  },
  {
   "property": "C15",
   "status": "partial",
   "theorems": [
    "C15_isotropic_dispatch",
    "C15_sphere_anisotropic_dispatch",
    "C15_slab_anisotropic_refuted"
   ],
   "note": "Proved for slab/sphere isotropic and sphere anisotropic. REFUTED for slab anisotropic: the arguments are passed in the wrong order, every call raises."
  },
  {
   "property": "C16",
   "status": "partial",
   "theorems": [
    "C16_sphere_known_source_refuted"
   ],
   "note": "REFUTED: every spherical known-source solve with a nonzero ordinate raises IndexError (flux is rebound to a 1-D array and then indexed with two indices)."
  },
  {
   "property": "C17",
   "status": "proved",
   "theorems": [
    "C17_sphere_sweep",
    "C17_unique_solution"
   ],
   "note": ""
  },
  {
   "property": "C18",
   "status": "partial",
   "theorems": [
    "C18_lost_fraction_refuted",
    "C18_cell_balance_partial",
    "C18_outer_cells_diamond_partial",
    "C18_conservation_refuted"
   ],
   "note": "Exact per-cell balance with the left-over redistribution term proved; conservation proved in outer cells when every angular weight is the diamond one; REFUTED in general by a one-cell witness. C18_lost_fraction_refuted: for any number of cells, cell width and cross section, a two-ordinate sphere (cosines -a, a) with a source in the central cell loses the fraction 3a(2-3a)/((2+s)(6a+s)), s = sigma*dx, of its particles; refining the mesh does not help, in an empty sphere (2-3a)/4 of them never leave."
  },
  {
   "property": "C19",
   "status": "partial",
   "theorems": [
    "C19_uniform_mesh_partial",
    "C19_contiguous_iff_uniform",
    "C19_nonuniform_refuted"
   ],
   "note": "Proved for uniform meshes, and the shells are contiguous iff the mesh is uniform; REFUTED for non-uniform meshes (the sweep solves the balance of the wrong shells)."
  },
  {
   "property": "C20",
   "status": "proved",
   "theorems": [
    "C20_sphere_pass_flat",
    "C20_sphere_driver_flat"
   ],
   "note": ""
  },
  {
   "property": "C21",
   "status": "proved",
   "theorems": [
    "C21_off_group_source",
    "C21_full_source"
   ],
   "note": ""
  },
  {
   "property": "C22",
   "status": "proved",
   "theorems": [
    "C22_solution_is_fixed",
    "C22_fixed_point_is_solution",
    "C22_sweep_equations"
   ],
   "note": "Solution -> unchanged for every data set; unchanged -> solution for thin cells and in-scatter ratio below one."
  },
  {
   "property": "C23",
   "status": "proved",
   "theorems": [
    "C23_isotropic_exit",
    "C23_anisotropic_exit",
    "C23_ml_exit",
    "C23_isotropic_total",
    "C23_only_sweep_exceptions",
    "C23_zero_ordinate"
   ],
   "note": ""
  },
  {
   "property": "C24",
   "status": "proved",
   "theorems": [
    "C24_snapshots_are_iterates"
   ],
   "note": ""
  },
  {
   "property": "C25",
   "status": "proved",
   "theorems": [
    "C25_transfer_entries",
    "C25_transfer_operator"
   ],
   "note": ""
  },
  {
   "property": "C26",
   "status": "proved",
   "theorems": [
    "C26_total_source",
    "C26_total_source_anisotropic",
    "C26_time_source",
    "C26_time_source_anisotropic"
   ],
   "note": ""
  },
  {
   "property": "C27",
   "status": "proved",
   "theorems": [
    "C27_history",
    "C27_history_anisotropic",
    "C27_completes",
    "C27_few_snapshots",
    "C27_keeps_solution"
   ],
   "note": "Sweeps are the modelled one_sweep_iso/one_sweep_aniso; np.linalg.svd is an arbitrary function here."
  },
  {
   "property": "C28",
   "status": "partial",
   "theorems": [
    "C28_kept_modes",
    "C28_galerkin",
    "C28_exact_partial",
    "C28_one_mode",
    "C28_singular",
    "C28_solver",
    "C28_solver_singular",
    "C28_drops_energy",
    "C28_exact_refuted"
   ],
   "note": "REFUTED as stated: the mask (1 - energy) > 1e-9 always drops the mode at which the energy threshold is reached, so with two significant modes the result is not the fixed point although the error lies in the snapshot span (C28_exact_refuted; C28_drops_energy: the dropped energy always exceeds the tolerance). Proved: Galerkin characterisation, exactness when the error lies in the retained modes (C28_exact_partial) and for one error mode (C28_one_mode). np.linalg.svd is any function whose value at the difference matrix is a thin SVD; np.linalg.solve is modelled by Gaussian elimination."
  },
  {
   "property": "C29",
   "status": "proved",
   "theorems": [
    "C29_keff_is_production_ratio",
    "C29_keff_consequences",
    "C29_data_scaling",
    "C29_fission_source",
    "C29_keff_0d",
    "C29_source_0d"
   ],
   "note": ""
  },
  {
   "property": "C30",
   "status": "proved",
   "theorems": [
    "C30_same_source",
    "C30_same_keff",
    "C30_same_0d"
   ],
   "note": "For nonnegative data (the skip tests differ for signed data)."
  },
  {
   "property": "C31",
   "status": "proved",
   "theorems": [
    "C31_power_exit",
    "C31_power_pass",
    "C31_norms",
    "C31_start",
    "C31_power_total",
    "C31_power_exit_0d",
    "C31_power_pass_0d",
    "C31_power_total_0d"
   ],
   "note": "The 0D loop (and collect_power_iteration, C33) tests count before incrementing from 0 and makes up to 101 passes, not 100."
  },
  {
   "property": "C32",
   "status": "proved",
   "theorems": [
    "C32_eigenpair_returned",
    "C32_eigenpair_returned_0d"
   ],
   "note": ""
  },
  {
   "property": "C33",
   "status": "partial",
   "theorems": [
    "C33_snapshots_from_second_partial",
    "C33_first_snapshot_lost_refuted",
    "C33_same_pass"
   ],
   "note": "REFUTED: row count-2 is written after count was incremented from 0, so the first iterate goes to row -1 and is cut off; proved instead: the saved array holds exactly iterates 2, 3, ... in order."
  },
  {
   "property": "C34",
   "status": "proved",
   "theorems": [
    "C34_ml_power_result",
    "C34_no_models",
    "C34_ml_pass"
   ],
   "note": "With no models the flux_old argument is ignored (the start is random). Convergence measure includes inf and nan."
  },
  {
   "property": "C35",
   "status": "proved",
   "theorems": [
    "C35_fission_rate",
    "C35_fission_placeholders",
    "C35_scatter_rate",
    "C35_scatter_rate_updated_data",
    "C35_raw_data_refuted",
    "C35_physics_fallback"
   ],
   "note": "Scatter and fission sources: proved for data passed through update_cross_sections, as the callers are meant to do; with raw matrices the rescaling does not conserve (C35_raw_data_refuted)."
  },
  {
   "property": "C36",
   "status": "partial",
   "theorems": [
    "C36_zeroed_output_partial",
    "C36_scattering_material_partial",
    "C36_stale_cells_refuted"
   ],
   "note": "Proved for a zeroed output array (as the callers in this package pass) and for scattering materials. REFUTED otherwise: cells of a material whose matrix sums to zero keep their previous content."
  },
  {
   "property": "C37",
   "status": "proved",
   "theorems": [
    "C37_solution_is_fixed",
    "C37_fixed_point_is_solution",
    "C37_inner_geometric",
    "C37_inner_exit",
    "C37_solution_exists",
    "C37_solution_unique",
    "C37_outer_error",
    "C37_total",
    "C37_nonneg",
    "C37_off_scatter",
    "C37_anisotropic_moments_drop_out",
    "C37_anisotropic_sweep"
   ],
   "note": ""
  },
  {
   "property": "C38",
   "status": "proved",
   "theorems": [
    "C38_backward_euler"
   ],
   "note": "Slab, isotropic scattering; anisotropic and spherical runs always raise (C90). angles = 1 excluded (known_source_angular then returns the scalar flux, C11)."
  },
  {
   "property": "C39",
   "status": "proved",
   "theorems": [
    "C39_bdf2"
   ],
   "note": ""
  },
  {
   "property": "C40",
   "status": "proved",
   "theorems": [
    "C40_steady_state"
   ],
   "note": ""
  },
  {
   "property": "C41",
   "status": "proved",
   "theorems": [
    "C41_same_source",
    "C41_same_collision_term"
   ],
   "note": ""
  },
  {
   "property": "C42",
   "status": "proved",
   "theorems": [
    "C42_partition",
    "C42_errors"
   ],
   "note": "linspace in exact arithmetic."
  },
  {
   "property": "C43",
   "status": "proved",
   "theorems": [
    "C43_collided_index",
    "C43_collided_iff",
    "C43_uncollided_index",
    "C43_indexing"
   ],
   "note": ""
  },
  {
   "property": "C44",
   "status": "proved",
   "theorems": [
    "C44_factors"
   ],
   "note": ""
  },
  {
   "property": "C45",
   "status": "proved",
   "theorems": [
    "C45_vector",
    "C45_vector_identity",
    "C45_matrix",
    "C45_matrix_identity",
    "C45_reaction_rates",
    "C45_rates_value",
    "C45_rates_collapse",
    "C45_velocity"
   ],
   "note": ""
  },
  {
   "property": "C46",
   "status": "partial",
   "theorems": [
    "C46_totals_partial",
    "C46_weighted_partial",
    "C46_one_column",
    "C46_broadcast_refuted"
   ],
   "note": "Proved for arrays with one column per fine group. REFUTED for one-column (broadcast) arrays: they are returned as they are, so the total over groups shrinks from fine*q to coarse*q."
  },
  {
   "property": "C47",
   "status": "proved",
   "theorems": [
    "C47_conserves",
    "C47_conserves_aniso",
    "C47_fresh",
    "C47_fission_conserves"
   ],
   "note": ""
  },
  {
   "property": "C48",
   "status": "proved",
   "theorems": [
    "C48_recombined",
    "C48_total_source",
    "C48_total_source_aniso",
    "C48_combine_fluxes",
    "C48_combine_fluxes_refuted"
   ],
   "note": "For the kernels the hybrid solvers use. The helper _hybrid_combine_fluxes, which nothing in the package calls, assigns instead of adding and loses the uncollided flux (C48_combine_fluxes_refuted)."
  },
  {
   "property": "C49",
   "status": "proved",
   "theorems": [
    "C49_variable_is_coarse",
    "C49_variable_is_coarse_anisotropic"
   ],
   "note": ""
  },
  {
   "property": "C50",
   "status": "proved",
   "theorems": [
    "C50_material_map",
    "C50_gaps_rejected",
    "C50_edge_regions",
    "C50_reading_unique"
   ],
   "note": "Python float() on strings is a parameter; int32 map dtype not modelled."
  },
  {
   "property": "C51",
   "status": "proved",
   "theorems": [
    "C51_normalized_reordered",
    "C51_solver_order",
    "C51_odd_count_has_zero"
   ],
   "note": "leggauss is a parameter; its symmetry, order and positive weights are hypotheses of C51_solver_order."
  },
  {
   "property": "C52",
   "status": "proved",
   "theorems": [
    "C52_speed",
    "C52_magnitude",
    "C52_no_edges"
   ],
   "note": "Edges in eV as the constants require (the docstring says MeV)."
  },
  {
   "property": "C53",
   "status": "proved",
   "theorems": [
    "C53_time_grid",
    "C53_too_short"
   ],
   "note": ""
  },
  {
   "property": "C54",
   "status": "proved",
   "theorems": [
    "C54_order",
    "C54_substeps",
    "C54_square",
    "C54_length",
    "C54_outcomes"
   ],
   "note": "Complex sparse LU is modelled by Gaussian elimination on real and imaginary parts; float order/substeps and 2-D right-hand sides are not modelled."
  },
  {
   "property": "C55",
   "status": "proved",
   "theorems": [
    "C55_linear",
    "C55_substeps",
    "C55_recurrence"
   ],
   "note": "Exact arithmetic."
  },
  {
   "property": "C56",
   "status": "proved",
   "theorems": [
    "C56_equilibrium"
   ],
   "note": "Bound proved by exact integer computation in the kernel (vm_compute) with the decimal coefficients of the source; float64 rounding is not modelled."
  },
  {
   "property": "C57",
   "status": "proved",
   "theorems": [
    "C57_recurrence",
    "C57_no_moments",
    "C57_value_and_parity",
    "C57_odd_moments_vanish"
   ],
   "note": ""
  },
  {
   "property": "C58",
   "status": "partial",
   "theorems": [
    "C58_ss_01",
    "C58_ss_02",
    "C58_ss_03",
    "C58_ss_04_partial",
    "C58_ss_05_partial",
    "C58_td_01",
    "C58_td_02",
    "C58_interface_refuted"
   ],
   "note": "Problems 1, 2 for every mu <> 0 (the solution divides by mu), 3 and both time-dependent ones everywhere. Problems 4 and 5 at every point except the interface x = 1, where the source arrays are left zero (C58_interface_refuted): REFUTED at that one point."
  },
  {
   "property": "C59",
   "status": "proved",
   "theorems": [
    "C59_exact",
    "C59_explains"
   ],
   "note": "Real arithmetic; zero errors and ratio 1 (inf/nan in numpy) are excluded."
  },
  {
   "property": "C60",
   "status": "partial",
   "theorems": [
    "C60_errors",
    "C60_constant",
    "C60_equivariant",
    "C60_prefix",
    "C60_rank_one_partial",
    "C60_two_terms_partial",
    "C60_rank_two_refuted",
    "C60_settled_refuted"
   ],
   "note": "REFUTED as stated: with more rank than geometric terms the result is |s - a r^2| (C60_rank_two_refuted), and a sequence that has settled returns its first term (C60_settled_refuted). Proved: constants, equivariance, prefix, errors, exactness for one term with rank 1 and two positive terms with rank 2."
  },
  {
   "property": "C61",
   "status": "partial",
   "theorems": [
    "C61_constant",
    "C61_switch",
    "C61_switches_once",
    "C61_decay_partial",
    "C61_decay_bounds_partial",
    "C61_decay_rises_refuted",
    "C61_dark_boundary_refuted",
    "C61_several_entries_refuted"
   ],
   "note": "REFUTED as stated for time_dependence_decay_02: the value rises when a step crosses 0.2 + 0.1 k microseconds (C61_decay_rises_refuted), a boundary without non-zero entry is overwritten everywhere (C61_dark_boundary_refuted), two non-zero entries raise IndexError (C61_several_entries_refuted). Proved: decay_01 in full; decay_02 for one non-zero entry, with the bound 3/2^p. Exact arithmetic; erf is defined as the integral."
  },
  {
   "property": "C62",
   "status": "partial",
   "theorems": [
    "C62_one_entry",
    "C62_group_partial",
    "C62_failures",
    "C62_wrong_group_refuted"
   ],
   "note": "REFUTED as stated: the source goes to the group whose lower edge is nearest, so an energy in the upper half of its group is deposited one group too high (C62_wrong_group_refuted) or raises IndexError in the last group (C62_group_partial). Proved: single entry, exact group, all failures."
  },
  {
   "property": "C63",
   "status": "partial",
   "theorems": [
    "C63_mixture_partial",
    "C63_vacuum",
    "C63_in_order",
    "C63_missing_enrichment",
    "C63_documented_spelling_refuted",
    "C63_packaged_data_refuted"
   ],
   "note": "REFUTED: the documented spelling uranium-5% raises AssertionError for every text (C63_documented_spelling_refuted), and path + string raises TypeError so that only vacuum can be made from the packaged data (C63_packaged_data_refuted). Proved for any loader: mixing, betweenness, vacuum, order, key. The text of the number must contain neither - nor %."
  },
  {
   "property": "C64",
   "status": "partial",
   "theorems": [
    "C64_restores_partial",
    "C64_restores_one_press",
    "C64_one_press_stops",
    "C64_second_press_aborts",
    "C64_press_before_start",
    "C64_undisturbed",
    "C64_handler_lost_refuted",
    "C64_recursion_refuted"
   ],
   "note": "REFUTED in two corners: a second press exactly when the finally block starts leaves the library's handler installed (C64_handler_lost_refuted; C64_restores_partial: the only way for any body, nesting and schedule, and it takes two presses), and after a recursive call the outer loop polls a dead event (C64_recursion_refuted). Proved: exact stopping point for one press at any instant, immediate abort at the second. Atomic steps are the statements; threads not modelled."
  },
  {
   "property": "C65",
   "status": "partial",
   "theorems": [
    "C65_defers",
    "C65_restores_partial",
    "C65_press_before_start",
    "C65_second_press_refuted"
   ],
   "note": "REFUTED: the second Ctrl+C is ignored (C65_second_press_refuted; C65_defers: the work done is always that of an uninterrupted call). Proved: deferral and result for bodies without further decorated calls, restoration for all bodies."
  },
  {
   "property": "C66",
   "status": "partial",
   "theorems": [
    "C66_numbers",
    "C66_letters_partial",
    "C66_other_label_refuted",
    "C66_letters_run_out_refuted"
   ],
   "note": "REFUTED: with all 703 letter names taken the default label raises IndexError (C66_letters_run_out_refuted), and an unknown label returns None (C66_other_label_refuted). Proved: numbers always (termination included), letters while a name is free. The file system is fixed during the call."
  },
  {
   "property": "C67",
   "status": "partial",
   "theorems": [
    "C67_batches",
    "C67_default_end",
    "C67_any_order",
    "C67_split_partial",
    "C67_tuning",
    "C67_file_rows",
    "C67_file_distinct",
    "C67_train_is_all_refuted",
    "C67_overlap_refuted"
   ],
   "note": "REFUTED: a split that rounds to zero training samples makes the training set the whole file (end_idx or shape[0]), overlapping validation and test (C67_train_is_all_refuted, C67_overlap_refuted). Proved for at least one training sample, and for the tuner, which rejects empty splits. int() of real products in exact arithmetic; train_test_split is any function that returns a permutation."
  },
  {
   "property": "C68",
   "status": "partial",
   "theorems": [
    "C68_train_partial",
    "C68_continue_partial",
    "C68_train_finite",
    "C68_zero_epochs_refuted",
    "C68_interrupted_at_once_refuted",
    "C68_nan_refuted",
    "C68_test_loss_refuted",
    "C68_no_improvement_refuted",
    "C68_resume_refuted",
    "C68_resume_twice_refuted"
   ],
   "note": "REFUTED: the reported test loss is that of the last epoch's weights (C68_test_loss_refuted); with no epoch, an interruption before the first epoch, only NaN/inf losses or no improvement after resuming the call raises TypeError in load_state_dict(None) (C68_zero_epochs_refuted, C68_interrupted_at_once_refuted, C68_nan_refuted, C68_no_improvement_refuted); resuming restarts from the best weights, so it is not uninterrupted training (C68_resume_refuted), and each resumption adds the stored epoch to n_epochs (C68_resume_twice_refuted). Proved: everything train and continue_training leave behind in all other cases (C68_train_partial, C68_continue_partial). Network, optimizer, scheduler and loss are arbitrary functions."
  },
  {
   "property": "C69",
   "status": "partial",
   "theorems": [
    "C69_rows_partial",
    "C69_monotone",
    "C69_empty",
    "C69_by_feature_refuted",
    "C69_root",
    "C69_root_power",
    "C69_root_monotone",
    "C69_root_negative",
    "C69_root_zero"
   ],
   "note": "REFUTED: the scaling is per row, not per feature as documented (C69_by_feature_refuted). Proved: everything else, row by row. Exact arithmetic with NaN/inf as separate values; data ** (1/3) turns negative data into NaN (C69_root_negative)."
  },
  {
   "property": "C70",
   "status": "partial",
   "theorems": [
    "C70_mae",
    "C70_mse",
    "C70_mae_le_rmse",
    "C70_scores_partial",
    "C70_mean_scores_zero",
    "C70_constant_truth_refuted"
   ],
   "note": "REFUTED for constant targets: R2 and explained variance are 0 even for exact predictions (C70_constant_truth_refuted). Proved for all rows with two different targets (C70_scores_partial); MAE/MSE/RMSE for all rows. One row; exact arithmetic."
  },
  {
   "property": "C71",
   "status": "partial",
   "theorems": [
    "C71_rows",
    "C71_order",
    "C71_empty_dropped",
    "C71_exact_partial",
    "C71_signed_refuted"
   ],
   "note": "REFUTED for signed data: entries that cancel drop a sample with flux (C71_signed_refuted). Proved: order, contents, samples without flux are always dropped; exactly those for non-negative flux and cross sections (C71_exact_partial)."
  },
  {
   "property": "C72",
   "status": "partial",
   "theorems": [
    "C72_split_partial",
    "C72_overlap_refuted",
    "C72_same_name_refuted"
   ],
   "note": "REFUTED: overlapping labels hide a lost sample (C72_overlap_refuted) and equal names overwrite a file (C72_same_name_refuted), both without an error. Proved for disjoint labels and distinct names."
  },
  {
   "property": "C73",
   "status": "proved",
   "theorems": [
    "C73_aniso_transport",
    "C73_aniso_trace"
   ],
   "note": ""
  },
  {
   "property": "C74",
   "status": "proved",
   "theorems": [
    "C74_aniso_conservation"
   ],
   "note": ""
  },
  {
   "property": "C75",
   "status": "proved",
   "theorems": [
    "C75_pass_contracts",
    "C75_unique_solution",
    "C75_error_bound"
   ],
   "note": ""
  },
  {
   "property": "C76",
   "status": "proved",
   "theorems": [
    "C76_divisors_positive"
   ],
   "note": ""
  },
  {
   "property": "C77",
   "status": "proved",
   "theorems": [
    "C77_unique_solution",
    "C77_sweep_contracts",
    "C77_error_bound",
    "C77_ml_sweep_contracts",
    "C77_ml_error_bound",
    "C77_ml_fixed_points"
   ],
   "note": ""
  },
  {
   "property": "C78",
   "status": "proved",
   "theorems": [
    "C78_multigroup_balance"
   ],
   "note": ""
  },
  {
   "property": "C79",
   "status": "proved",
   "theorems": [
    "C79_multigroup_nonneg"
   ],
   "note": ""
  },
  {
   "property": "C80",
   "status": "partial",
   "theorems": [
    "C80_default_label_refuted",
    "C80_missing_models_drop_scatter",
    "C80_no_models_refuted"
   ],
   "note": "REFUTED: the default label None raises TypeError for every input, and materials without a model entry get no scattering at all."
  },
  {
   "property": "C81",
   "status": "proved",
   "theorems": [
    "C81_slab_balance",
    "C81_infinite_medium"
   ],
   "note": ""
  },
  {
   "property": "C82",
   "status": "partial",
   "theorems": [
    "C82_computed_partial",
    "C82_unknown_grid",
    "C82_tables_refuted",
    "C82_change_partial",
    "C82_change_tables_refuted"
   ],
   "note": "Proved for optimize=False. REFUTED with the packaged tables (parameters here, assumed to cut the stock grid): the coarse table cuts the stock grid, not the fine groups, so it is not a cut of the fine groups whenever there are fewer of them."
  },
  {
   "property": "C83",
   "status": "proved",
   "theorems": [
    "C83_timed_completes",
    "C83_hybrid_completes",
    "C83_variable_completes",
    "C83_short_inputs_raise",
    "C83_rows_run_out",
    "C83_bad_shape",
    "C83_hybrid_bad_shape"
   ],
   "note": ""
  },
  {
   "property": "C84",
   "status": "proved",
   "theorems": [
    "C84_backward_euler_nonnegative",
    "C84_hybrid_nonnegative"
   ],
   "note": ""
  },
  {
   "property": "C85",
   "status": "proved",
   "theorems": [
    "C85_step_balance"
   ],
   "note": ""
  },
  {
   "property": "C86",
   "status": "proved",
   "theorems": [
    "C86_exact_step_unique",
    "C86_step_accuracy"
   ],
   "note": ""
  },
  {
   "property": "C87",
   "status": "proved",
   "theorems": [
    "C87_hybrid_history",
    "C87_collided_part",
    "C87_superposition",
    "C87_one_grid",
    "C87_auto_one_grid"
   ],
   "note": ""
  },
  {
   "property": "C88",
   "status": "proved",
   "theorems": [
    "C88_variable_history"
   ],
   "note": ""
  },
  {
   "property": "C89",
   "status": "partial",
   "theorems": [
    "C89_stock_groups_partial",
    "C89_returned_edges",
    "C89_widths_refuted"
   ],
   "note": "REFUTED: energy_grid_change returns the edges of the whole stock grid, so the widths are those of the first stock groups; proved when the fine groups are the stock groups."
  },
  {
   "property": "C90",
   "status": "proved",
   "theorems": [
    "C90_legendre_kind",
    "C90_sphere_kind",
    "C90_hybrid_kind",
    "C90_anisotropic_rejected",
    "C90_hybrid_anisotropic_rejected",
    "C90_sphere_rejected",
    "C90_hybrid_sphere_rejected",
    "C90_variable_types",
    "C90_variable_short_lists",
    "C90_variable_lists_end",
    "C90_variable_unbound",
    "C90_variable_two_mirrors",
    "C90_auto_two_mirrors",
    "C90_unknown_grid"
   ],
   "note": "States what the code does; the documentation promises several of these configurations."
  },
  {
   "property": "C91",
   "status": "proved",
   "theorems": [
    "C91_exit",
    "C91_pass",
    "C91_one_grid",
    "C91_coarse_data",
    "C91_completes",
    "C91_two_mirrors"
   ],
   "note": ""
  },
  {
   "property": "C92",
   "status": "proved",
   "theorems": [
    "C92_modes",
    "C92_left_modes",
    "C92_unfed"
   ],
   "note": "The sup bound over the half line is reduced to |r'-r| <= delta and certified by Vincent's method on the integer polynomials (CramPoly.v); complex eigenvalues and non-diagonalisable right modes are not covered (left modes are, without diagonalisability)."
  },
  {
   "property": "C93",
   "status": "proved",
   "theorems": [
    "C93_chain",
    "C93_real_spectrum"
   ],
   "note": ""
  },
  {
   "property": "C94",
   "status": "proved",
   "theorems": [
    "C94_distance",
    "C94_errors",
    "C94_missing_axis"
   ],
   "note": "Exact arithmetic."
  },
  {
   "property": "C95",
   "status": "proved",
   "theorems": [
    "C95_known_source",
    "C95_solution",
    "C95_solver"
   ],
   "note": "Cell-centred isotropic sweeps of the slab; exact arithmetic."
  },
  {
   "property": "C96",
   "status": "proved",
   "theorems": [
    "C96_absorber",
    "C96_absorber_half",
    "C96_two_materials"
   ],
   "note": "Problems 3 and 5 carry the exact scattering integral in their source, so a quadrature error would enter; not covered."
  },
  {
   "property": "C97",
   "status": "proved",
   "theorems": [
    "C97_density",
    "C97_needs_interfaces"
   ],
   "note": "Exact arithmetic."
  },
  {
   "property": "C98",
   "status": "partial",
   "theorems": [
    "C98_spectrum_partial",
    "C98_packaged_data_refuted",
    "C98_changes_grid_refuted"
   ],
   "note": "REFUTED: the packaged spectrum cannot be loaded (C98_packaged_data_refuted: path + string), and a grid in eV is rescaled in place (C98_changes_grid_refuted). Proved for any loaded spectrum with increasing bins."
  },
  {
   "property": "C99",
   "status": "proved",
   "theorems": [
    "C99_composition",
    "C99_group_mismatch"
   ],
   "note": "Atom densities with the constants of constants.py; for any loader."
  },
  {
   "property": "C100",
   "status": "proved",
   "theorems": [
    "C100_mean",
    "C100_memmap_mean",
    "C100_empty",
    "C100_size_zero"
   ],
   "note": "Sample losses are given reals; the loss function averages over a batch (torch default). Exact arithmetic."
  },
  {
   "property": "C101",
   "status": "proved",
   "theorems": [
    "C101_batches",
    "C101_predict",
    "C101_fails"
   ],
   "note": "The network in eval mode is assumed to act row by row (no batch statistics)."
  },
  {
   "property": "C102",
   "status": "proved",
   "theorems": [
    "C102_layers_fit",
    "C102_prebuilt",
    "C102_bilinear"
   ],
   "note": "Layers as a list of sizes; activations and torch tensors not modelled."
  },
  {
   "property": "C103",
   "status": "partial",
   "theorems": [
    "C103_objective",
    "C103_zero_epochs_refuted"
   ],
   "note": "REFUTED for zero epochs: UnboundLocalError (C103_zero_epochs_refuted). Proved for every positive epoch count; optuna is any sequence of pruning answers."
  },
  {
   "property": "C104",
   "status": "proved",
   "theorems": [
    "C104_split"
   ],
   "note": "train_test_split is any function that returns a permutation cut at ceil(test_size n); its ValueError for an empty training part is not modelled."
  },
  {
   "property": "C105",
   "status": "partial",
   "theorems": [
    "C105_names_partial",
    "C105_call_refuted",
    "C105_collision_refuted"
   ],
   "note": "REFUTED: every call raises TypeError because train_test_split gets an unknown keyword 'seed' (C105_call_refuted), and names collide for numbers of four digits (C105_collision_refuted). Proved: below 1000 the names are distinct. The accepted keywords of sklearn's train_test_split are part of the trusted base."
  },
  {
   "property": "C106",
   "status": "partial",
   "theorems": [
    "C106_djinn",
    "C106_auto",
    "C106_deeponet_partial",
    "C106_keep_flux",
    "C106_deeponet_flux_refuted",
    "C106_deeponet_no_rows",
    "C106_load"
   ],
   "note": "REFUTED for DeepONet with a transformer that works in place (C106_deeponet_flux_refuted); without rows DeepONet raises ValueError (C106_deeponet_no_rows). Proved: DJINN and AutoDJINN for all transformers, DeepONet for those that leave their argument alone."
  },
  {
   "property": "C107",
   "status": "proved",
   "theorems": [
    "C107_outputs",
    "C107_accuracy",
    "C107_nonnegative",
    "C107_balance",
    "C107_accelerated_outputs"
   ],
   "note": "Isotropic scattering data (three-dimensional) and geometry 1; for one single direction the one-column source makes the angular modes return the scalar flux (C11). The accuracy bound is that of the stopped iteration (C77). Exact arithmetic; the SVD of the DMD driver is an arbitrary function."
  },
  {
   "property": "C108",
   "status": "partial",
   "theorems": [
    "C108_sphere_outputs_refuted",
    "C108_moments_outputs_refuted",
    "C108_other_geometry_refuted",
    "C108_flag_identity"
   ],
   "note": "REFUTED: with geometry 2 every mode except scalar flux at centres raises IndexError (C108_sphere_outputs_refuted); with a Legendre expansion every mode except scalar flux at centres raises TypeError (C108_moments_outputs_refuted); geometry 3, documented as spherical, returns an all-zero flux for all sources (C108_other_geometry_refuted). A value such as 0 or numpy.False_ for angular selects the angular flux because of the identity test (C108_flag_identity). Proved positively: slab (C107)."
  },
  {
   "property": "C109",
   "status": "proved",
   "theorems": [
    "C109_binary64",
    "C109_exact_pass",
    "C109_exact_driver",
    "C109_exact_multigroup",
    "C109_pass",
    "C109_driver",
    "C109_multigroup"
   ],
   "note": "For every correctly rounding arithmetic (monotone, keeps 0, idempotent); IEEE binary64 with gradual underflow is one (C109_binary64). Not modelled: overflow, infinities, NaN. The norm in the convergence test is an arbitrary function, so the result does not depend on how numpy sums. Slab, isotropic scattering, cell-centre drivers; the single pass also for edge output. The thin-mesh hypothesis is needed already in exact arithmetic (C04)."
  },
  {
   "property": "C110",
   "status": "proved",
   "theorems": [
    "C110_pass_monotone",
    "C110_from_zero",
    "C110_dark"
   ],
   "note": "As C109. C110_dark needs only that zero rounds to zero; thick cells allowed."
  },
  {
   "property": "C111",
   "status": "proved",
   "theorems": [
    "C111_powers_of_two",
    "C111_driver",
    "C111_multigroup"
   ],
   "note": "For a rounding that commutes with the factor: binary64 with unbounded exponents and powers of two (C111_powers_of_two), so runs that neither overflow nor underflow. The quotients of the convergence test are rounded too; iteration counts agree."
  },
  {
   "property": "C112",
   "status": "proved",
   "theorems": [
    "C112_rounding",
    "C112_pass",
    "C112_driver",
    "C112_multigroup",
    "C112_explicit"
   ],
   "note": "For arithmetic with relative error u <= 1/1000 per operation (binary64 without underflow: u = 2^-53, C112_rounding), thin meshes, no boundary source on a reflecting side, scattering ratio times weight sum < 1. The second bounds of C112_driver and C112_multigroup need a norm that is at least every entry; the inner iterations of C112_multigroup may end by either of their stops. C112_explicit states the bounds in terms of the data and the number of operations alone, when 88 u (2 cells + angles + groups + 5) <= 1 - ratio."
  },
  {
   "property": "C113",
   "status": "proved",
   "theorems": [
    "C113_partition",
    "C113_moved_group"
   ],
   "note": "binary64 exactly as numpy.linspace evaluates it (step, product, exact end point, floor). Bounds coarse <= 2^25 and fine < 2^53; int32 wrap-around is not modelled. C113_moved_group shows that the grid is not always that of HybModel's exact arithmetic; C42 and the theorems built on it use only the partition."
  },
  {
   "property": "C114",
   "status": "partial",
   "theorems": [
    "C114_metadata_name",
    "C114_usual_name",
    "C114_directory",
    "C114_no_directory",
    "C114_usual_names_separate",
    "C114_read_back_partial",
    "C114_missing_directory",
    "C114_no_word_refuted",
    "C114_shared_metadata_names_refuted",
    "C114_shared_metadata_refuted",
    "C114_directory_refuted"
   ],
   "note": "REFUTED as stated: a name without 'memmap' makes the metadata overwrite the data (C114_no_word_refuted), different names can share one metadata file (C114_shared_metadata_refuted), and a directory containing 'memmap' sends the metadata to a directory that may not exist, after the data was written (C114_directory_refuted). Holds with a name containing 'memmap', both directories present and later names separate from it (C114_read_back_partial); '<stem>.memmap' names are of that kind (C114_usual_names_separate)."
  },
  {
   "property": "C115",
   "status": "partial",
   "theorems": [
    "C115_finishes_current_trial_partial",
    "C115_before",
    "C115_early_refuted",
    "C115_after_run_refuted"
   ],
   "note": "REFUTED as stated: SIGINT between the installation of the handler and study.optimize, or after run has returned (the handler is never restored), raises RuntimeError from study.stop (C115_early_refuted, C115_after_run_refuted); before the handler is installed it is a KeyboardInterrupt (C115_before). From the first question of the optimisation loop to its end the claim holds (C115_finishes_current_trial_partial). n_jobs = 1."
  },
  {
   "property": "C116",
   "status": "partial",
   "theorems": [
    "C116_whole_study_partial",
    "C116_failing_trial_refuted",
    "C116_direction_refuted"
   ],
   "note": "REFUTED as stated: a trial that raises ends run without exporting anything (C116_failing_trial_refuted), and a stored study keeps its direction whatever is requested (C116_direction_refuted). Holds if no trial raises, for the stored direction (C116_whole_study_partial)."
  },
  {
   "property": "C117",
   "status": "partial",
   "theorems": [
    "C117_every_trial_partial",
    "C117_prebuilt",
    "C117_prebuilt_short",
    "C117_defaults",
    "C117_mixed_modes_refuted",
    "C117_factor_refuted",
    "C117_default_factor_refuted"
   ],
   "note": "REFUTED as stated: a space with None and another scheduler mode makes optuna reject the second trial's distribution (C117_mixed_modes_refuted), and the default range of factors contains 1, which torch rejects (C117_default_factor_refuted). Holds with the scheduler always off, or always on with factors below 1 (C117_every_trial_partial); prebuilt networks too, if enough widths are given (C117_prebuilt, C117_prebuilt_short)."
  },
  {
   "property": "C118",
   "status": "partial",
   "theorems": [
    "C118_default_refuted",
    "C118_explicit_fractions_partial",
    "C118_needs_data"
   ],
   "note": "REFUTED: the code's default training fraction is 0.8, the documentation says 0.6; every validation sample of a default tuner is a test sample of the trainer's default split (C118_default_refuted). Holds with train_size=0.6 given explicitly (C118_explicit_fractions_partial)."
  },
  {
   "property": "C119",
   "status": "partial",
   "theorems": [
    "C119_warned",
    "C119_once",
    "C119_run_refuted"
   ],
   "note": "REFUTED for run: unknown names are ignored without a warning (C119_run_refuted). Holds for both constructors (C119_warned, C119_once)."
  },
  {
   "property": "C120",
   "status": "proved",
   "theorems": [
    "C120_backend"
   ],
   "note": "ASCII names; loaders are parameters; ImportError is written RuntimeError in the model."
  },
  {
   "property": "C121",
   "status": "partial",
   "theorems": [
    "C121_round_trip",
    "C121_metrics_file",
    "C121_documented_name_refuted",
    "C121_untrained_refuted"
   ],
   "note": "REFUTED in two points: the losses are in '<name>-loss-metrics.npz', not in the documented file (C121_documented_name_refuted), and saving a model that was not trained in this object raises AttributeError after the weights are written (C121_untrained_refuted). The weights round trip holds for every history (C121_round_trip)."
  },
  {
   "property": "C122",
   "status": "proved",
   "theorems": [
    "C122_histories",
    "C122_runs",
    "C122_bounded",
    "C122_decay",
    "C122_scalar"
   ],
   "note": "Real arithmetic, isotropic transfer. The emitted difference includes the residual of each step's iteration (step_input), so it covers the actual runs, not only exact ones; vacuum, inflow and reflective sides (one per mirrored pair of ordinates, as in the code)."
  },
  {
   "property": "C123",
   "status": "proved",
   "theorems": [
    "C123_step",
    "C123_steady",
    "C123_history",
    "C123_history_unique"
   ],
   "note": "Uniqueness from the energy inequality, existence because the discrete problem is a square linear system (elimination proved in EnFacts5)."
  },
  {
   "property": "C124",
   "status": "proved",
   "theorems": [
    "C124_within_group",
    "C124_solution",
    "C124_sweep",
    "C124_outer"
   ],
   "note": "Complements C75 and C79, which need thin cells but use the maximum norm. Isotropic scattering, slab."
  },
  {
   "property": "C125",
   "status": "proved",
   "theorems": [
    "C125_run_error"
   ],
   "note": "The residual of each step is bounded by C124_outer when the outer loop stops early."
  },
  {
   "property": "C126",
   "status": "proved",
   "theorems": [
    "C126_generation_even",
    "C126_damped_by_ratio",
    "C126_damped_by_yield",
    "C126_damped_by_leakage",
    "C126_one_critical_state",
    "C126_mode_exists",
    "C126_k_unique",
    "C126_shape_unique",
    "C126_dominant",
    "C126_monotone_in_fission"
   ],
   "note": "Real arithmetic, slab, isotropic scattering, vacuum boundaries (power_iteration passes zero boundary data) with the problem's reflective flags. Every cell must transmit (dx sigma_t < 2|mu|), scattering must lose particles (weight sum times scattering ratio < 1), and every fissioning group must feed every group (well_fed): without the last, the critical flux need not be positive everywhere."
  },
  {
   "property": "C127",
   "status": "proved",
   "theorems": [
    "C127_bracket",
    "C127_nested",
    "C127_shrinks",
    "C127_certificate"
   ],
   "note": "As C126; C127_bracket and C127_nested need only damped_transport and positive fluxes. C127_certificate is about the code's pass itself, with the accuracy of its inner solve as parameter."
  },
  {
   "property": "C128",
   "status": "proved",
   "theorems": [
    "C128_converges",
    "C128_accuracy_of_a_settled_solve",
    "C128_power_iteration"
   ],
   "note": "As C126. The inner solves are assumed to have stopped by their tolerance (settled_solve) rather than at the iteration cap, which does not guarantee accuracy; the constants depend on d of even_generation, whose existence is C126_generation_even. keff bound from the second pass on."
  },
  {
   "property": "C129",
   "status": "proved",
   "theorems": [
    "C129_yield",
    "C129_leakage",
    "C129_damped",
    "C129_well_posed"
   ],
   "note": "Isotropic scattering, slab geometry, exact reals; sweeps that keep fluxes non-negative (mg_thin). K exists and depends only on the problem (slab, cross sections, r), not on sources, boundaries, starts or runs. C129_damped is the common form: any positive flux that one flight and collision reduces gives the rate."
  },
  {
   "property": "C130",
   "status": "proved",
   "theorems": [
    "C130_subcritical",
    "C130_supercritical",
    "C130_multiplication",
    "C130_threshold",
    "C130_split"
   ],
   "note": "As C129 for the part below criticality; fission enters as total_transfer, the matrix that transfer_matrix builds (C41). The supercritical part needs the fission-free flux of the source to be positive in every cell and group (e.g. a source in every cell and group)."
  },
  {
   "property": "C131",
   "status": "proved",
   "theorems": [
    "C131_yield_damping",
    "C131_well_posed",
    "C131_converges",
    "C131_k_infinity",
    "C131_one_pass",
    "C131_power_iteration"
   ],
   "note": "Isotropic scattering, exact reals. C131_k_infinity covers one emission spectrum (chi, nu-fission); for a general fission matrix see C33/C34. C131_one_pass and C131_power_iteration make no assumption about how the inner solves ended; they need damping_0d with 1e-8 c < 1 - c and a k-infinity larger than the error bound, so that no pass divides by zero."
  },
  {
   "property": "C132",
   "status": "proved",
   "theorems": [
    "C132_forgets",
    "C132_relaxes",
    "C132_runs"
   ],
   "note": "Isotropic scattering, slab geometry, exact reals, backward Euler (for BDF2 see the Time area). The sweeps must keep fluxes non-negative, with the cross section the time step adds (positive_sweeps). K and a are existential but fixed before dt, the run and its data. By C130 the damping hypothesis holds exactly when k < 1."
  },
  {
   "property": "C133",
   "status": "proved",
   "theorems": [
    "C133_run_accurate"
   ],
   "note": "As C132, with angles <> 1. M bounds the recorded fluxes of the run itself (C132/C29 bound M by the sources); the quantity c N 1e-8/(1-c) + 2 c^100/(1-c^100) is stop_error in DynSpec."
  },
  {
   "property": "C134",
   "status": "proved",
   "theorems": [
    "C134_mode_run",
    "C134_envelope",
    "C134_runs_exist",
    "C134_step_too_long",
    "C134_sign",
    "C134_supercritical_grows",
    "C134_subcritical_dies",
    "C134_code_runs"
   ],
   "note": "Isotropic scattering, slab geometry, exact reals, backward Euler, no sources and no incoming flux. C134_supercritical_grows ranges over all dt for which the step equation itself is damped (shorter than the growth time); existence of an alpha mode is a hypothesis of the mode theorems (the witness has modes for k = 5/4 and 1/2) but not of the growth and decay theorems, which only need the eigenpair. C134_code_runs is about timed_run itself."
  },
  {
   "property": "C135",
   "status": "proved",
   "theorems": [
    "C135_even",
    "C135_one_mode",
    "C135_dominant",
    "C135_bracket",
    "C135_threshold",
    "C135_either_rank",
    "C135_stop",
    "C135_power_iteration"
   ],
   "note": "Exact reals. Existence and uniqueness need well_fed_0d (whichever group causes fission, every group is fed by what it emits) and fissile_0d; the other parts hold for any positive pair. C135_power_iteration assumes constants checkable from the data and one generation of the guess (d of even_generation_0d, which C135_even provides; E with norm(guess) <= E a0, 3 b0 <= E a0 d^2, 6 <= E d^4) and eta <= 1/3. C135_stop is the certificate of the tolerance exit for one pass."
  },
  {
   "property": "C136",
   "status": "proved",
   "theorems": [
    "C136_histories",
    "C136_runs",
    "C136_order"
   ],
   "note": "Slab geometry, isotropic scattering without multiplication, exact reals. Accuracy is measured in the density norm of C122 against any flux that satisfies the cell equations with its true time derivative; the inputs of a step must be sampled at its end. In C136_runs the last term is what the iterations of each step left unresolved (see C139)."
  },
  {
   "property": "C137",
   "status": "proved",
   "theorems": [
    "C137_histories",
    "C137_runs"
   ],
   "note": "As C136, for a flux of continuous space and time, smooth inside every cell and continuous across edges; reflective sides need ordinates ordered so that a mirror is fed before it is read (as C97). X2, X3, X2t, M2, M3 are bounds on its derivatives."
  },
  {
   "property": "C138",
   "status": "proved",
   "theorems": [
    "C138_td_01",
    "C138_td_02"
   ],
   "note": "Vacuum mesh of (0,2) or (0,pi) with any cells, any quadrature with ordinates in [-1,1] and non-negative weights; the external source, boundary and start are the code's own tables at the ends of the steps, as in tests/problems.py; the error is the l2 error (weighted by dx) of the returned scalar flux against the quadrature of the code's own exact table."
  },
  {
   "property": "C139",
   "status": "proved",
   "theorems": [
    "C139_iterations",
    "C139_residual",
    "C139_total",
    "C139_unscattered"
   ],
   "note": "As C136, with coupled_below at every step (scattering ratio in the energy sense) so that a sweep contracts. C139_residual and C139_total hold whichever exit the iterations of a step took; M bounds the fluxes recorded by the run itself (and the start)."
  },
  {
   "property": "C140",
   "status": "proved",
   "theorems": [
    "C140_orthogonal",
    "C140_solution",
    "C140_within_group",
    "C140_sweep",
    "C140_returns"
   ],
   "note": "Slab geometry, real arithmetic, cell-centred fluxes. The hypotheses are those of the energy method (aniso_coupled, exact_products; a Gauss rule with at least as many ordinates as moments qualifies): no thin cells, no sign condition. C140_within_group and C140_sweep are about the code's solves with right tables, C140_returns needs only nonzero ordinates."
  },
  {
   "property": "C141",
   "status": "partial",
   "theorems": [
    "C141_error_partial",
    "C141_stopping_refuted"
   ],
   "note": "REFUTED by C141_stopping_refuted: the convergence tests look at the scalar flux only, and every solve restarts the higher moments from zero, so a start that the first pass happens to reproduce is returned unchanged although the only solution differs by more than a quarter (two cells, Gauss rule of two ordinates, scattering ratio 1/2). What holds, C141_error_partial: the returned flux is within c^n d + c H/(1-c) of the solution, d being the distance of the start and H the size of the solution's higher moments; with H = 0 this is the isotropic statement C124."
  },
  {
   "property": "C142",
   "status": "partial",
   "theorems": [
    "C142_one_cell_partial",
    "C142_two_ordinates_partial",
    "C142_fine_mesh_refuted"
   ],
   "note": "REFUTED by C142_fine_mesh_refuted: for every number of cells from two, every width and every total cross section of at most a thirtieth of a mean free path per cell, a purely absorbing sphere lit from outside in a single ordinate (four equal-weight ordinates, nonnegative data, no scattering) always gets fluxes of opposite sign in its two innermost cells, so refining never helps: the diamond extrapolation in radius and angle changes sign in cells close to the centre, whose shape does not change under refinement. C142_one_cell_partial proves the property for one-cell spheres with any groups, scattering and quadrature; C142_two_ordinates_partial proves it for every mesh (any number of cells and any widths), group count, scattering and illumination when there are two symmetric ordinates with cosines +-a, a <= 14/15 (a Gauss pair has a = 0.577), and the optical radius of the sphere is at most 2a/3."
  },
  {
   "property": "C143",
   "status": "proved",
   "theorems": [
    "C143_returns",
    "C143_run",
    "C143_solution_kept",
    "C143_group_unique",
    "C143_infinite_medium"
   ],
   "note": "Isotropic scattering, real arithmetic. sound_sphere is what C76 needs for nonzero divisors. The radii are the ones the code uses (C19 is about non-uniform meshes). No convergence claim: C143_run says which equations each pass solves and why the loops stopped."
  },
  {
   "property": "C144",
   "status": "partial",
   "theorems": [
    "C144_isotropic_transfer_partial",
    "C144_moments_ignored_refuted",
    "C144_transfer_refuted"
   ],
   "note": "REFUTED by C144_moments_ignored_refuted (for all data, slabs and spheres: two scattering arrays that agree in the L=0 moments and within groups give the same result) and C144_transfer_refuted (a physically admissible two-group slab with forward-peaked slowing down on which every run, from any start, misses the only solution of the full equations by a third). The docstring of the internal source_iteration_aniso and a comment in _one_sweep_aniso say that off-diagonal scatter uses L=0 only; the docstrings of source_iteration and of the drivers do not. C144_isotropic_transfer_partial: when transfer between groups is isotropic the solved equations (C140) are the full ones."
  },
  {
   "property": "C145",
   "status": "proved",
   "theorems": [
    "C145_returns",
    "C145_run",
    "C145_pass_unique",
    "C145_infinite_medium"
   ],
   "note": "Real arithmetic. The moments are those of the edge-average angular flux, with the Legendre polynomials of Bonnet's recurrence. usable_tables: supplied tables hold the right polynomials, or none are supplied. No convergence claim: C145_run says which equations each pass solves and why the loops stopped. That scattering from other groups is isotropic is C144; that the starting direction gets the isotropic part only is documented in _half_angle_aniso."
  },
  {
   "property": "C146",
   "status": "proved",
   "theorems": [
    "C146_returns",
    "C146_eigenpair_returned",
    "C146_balance"
   ],
   "note": "Real arithmetic. What each pass does is C31_power_pass (any geometry), and the equations of its transport solves are C143 and C145. The retained term of C146_balance is the one that makes C147 and C18 false; it is zero where the angular weights are the diamond ones (C18)."
  },
  {
   "property": "C147",
   "status": "partial",
   "theorems": [
    "C147_k_refuted"
   ],
   "note": "REFUTED by C147_k_refuted: for every number of cells, every cell width, every total cross section and every two-ordinate set (-a, a), a sphere whose central cell is fissile: whatever the positive guess, power_iteration returns an exact eigenpair with k * losses = (1 - x) * production, x = 3a(2-3a)/((2+s)(6a+s)), s = sigma*dx; x tends to (2-3a)/4 as the mesh is refined, 6.7 per cent of the production for the Gauss set a = 0.577. The innermost cell keeps the half-angle flux of the starting direction for all ordinates, so the angular redistribution does not cancel there. What does hold is C146_balance."
  },
  {
   "property": "C148",
   "status": "partial",
   "theorems": [
    "C148_unique_partial",
    "C148_error_partial",
    "C148_monotone_partial",
    "C148_one_cell_partial",
    "C148_two_ordinates_partial",
    "C148_unique_refuted",
    "C148_diverges_refuted",
    "C148_monotone_refuted"
   ],
   "note": "Proved for spheres on which one sweep with nonnegative isotropic sources and a uniform isotropic incoming flux gives nonnegative fluxes (keeps_sign): C148_unique_partial, C148_error_partial (each outer iteration contracts the maximum distance by W c; a run that stops before its limit is within W c 1e-8 cells M / (1 - W c) of the solution), C148_monotone_partial. C148_one_cell_partial and C148_two_ordinates_partial show two families that have the property: one-cell spheres of any quadrature and optical size, and any mesh with two symmetric ordinates, a <= 14/15, and optical radius up to 2a/3. REFUTED for spheres in general: C148_unique_refuted (two uniform cells, a void inside a scatterer of ratio 0.831, four symmetric ordinates of total weight one: a one-parameter family of solutions without sources), C148_diverges_refuted (the same with ratio 0.9: every run makes all 10000 within-group passes, each multiplying the outer flux by 1.083, and returns it), C148_monotone_refuted (thick absorbing ball: uniform illumination gives a negative central flux)."
  },
  {
   "property": "C149",
   "status": "proved",
   "theorems": [
    "C149_resolved",
    "C149_stable",
    "C149_exact",
    "C149_order"
   ],
   "note": "Real arithmetic; drivers of hybrid1d with fixed grids, isotropic scattering (rank-3 tables) or fission on either grid, no multiplication on the fine grid; the coarse problem may multiply (dt0 makes its steps solvable) and its scattering, speeds and factors are arbitrary. dt0 and K are chosen before the start, the sources, the number of steps and dt. C149_resolved: the scattering left unresolved by a step is O(dt) of the new flux, so one hybrid step is a consistent step; C149_stable, C149_exact, C149_order follow. The iterations of a step may end by either exit. Second order for bdf2 is not claimed: the split is of first order (C150)."
  },
  {
   "property": "C150",
   "status": "partial",
   "theorems": [
    "C150_first_order_refuted",
    "C150_second_order_refuted",
    "C150_kept_resolved_partial",
    "C150_kept_groups_partial",
    "C150_variable_kept_resolved_partial",
    "C150_variable_kept_partial",
    "C150_kept_grids_partial",
    "C150_kept_ordinates_partial"
   ],
   "note": "REFUTED by C150_second_order_refuted: one cell, two ordinates, two groups of which the first scatters into the second, unit sources, the constant flux one (exact for the transport problem and for every step of the unsplit scheme); with one coarse group, the same ordinates and the energy-averaged coarse scattering, the largest error up to time one exceeds dt/224 for every number of steps (C150_first_order_refuted): the collided particles of each step are shared out over all fine groups of their coarse group. C149 is the order that does hold for all grids. C150_kept_groups_partial: when the coarse grid keeps every energy group (factors one, same speeds), any quadrature with the same total weight and any coarse total cross sections and transfers leave O(dt^2) unresolved scattering per step (C150_kept_resolved_partial) and the bdf2 run is second order; dt0 and K depend on the mesh (K contains the smallest cell width). C150_variable_kept_partial is the same for the vhybrid1d drivers when the assignment keeps all groups and changes the ordinates from step to step; C150_kept_grids_partial and C150_kept_ordinates_partial give its conditions on grids and quadratures for computed indices and even Gauss rules."
  },
  {
   "property": "C151",
   "status": "proved",
   "theorems": [
    "C151_resolved",
    "C151_stable",
    "C151_exact",
    "C151_order",
    "C151_grids",
    "C151_ordinates"
   ],
   "note": "Real arithmetic; drivers of vhybrid1d, isotropic scattering, fission matrix (the emission s + f), no multiplication on the fine grid. dt0 and K are chosen before the start, the sources, the number of steps and dt, and hold for all grids the assignment uses (finitely many). The coarse problems are those the code builds (averaged totals with the edges it uses, summed scattering, averaged speeds, Gauss ordinates). Hypotheses: the first G+1 edges of the packaged grid are monotone; the group indices are partitions and the coarse quadratures sound, which C151_grids and C151_ordinates prove for computed indices (or packaged tables that are partitions), even numbers of Gauss ordinates and at most one reflective side. All iterations may end by either of their stops."
  },
  {
   "property": "C152",
   "status": "proved",
   "theorems": [
    "C152_exact",
    "C152_nonnegative",
    "C152_eigenpair",
    "C152_completes"
   ],
   "note": "As C109. C152_completes shows that no divisor vanishes under a relative error bound. A zero divisor (k, a production rate, a norm) ends the run with ZeroDivisionError: numba does so, numpy would go on with infinities or NaN, which are not modelled. Isotropic scattering; overflow not modelled."
  },
  {
   "property": "C153",
   "status": "proved",
   "theorems": [
    "C153_update",
    "C153_pass"
   ],
   "note": "Relative error u per operation: binary64 without underflow has u = 2^-53 (C112_rounding). The bound on k compares with the productions of the two computed fluxes; how far the computed flux is from the exact solution of the pass is C112."
  }
 ]
}
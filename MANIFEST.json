{
 "claims": [
  {
   "property": "C01",
   "status": "proved",
   "theorems": [
    "C01_layout",
    "C01_partition",
    "C01_errors"
   ],
   "note": ""
  },
  {
   "property": "C02",
   "status": "proved",
   "theorems": [
    "C02_expand",
    "C02_total",
    "C02_dofs"
   ],
   "note": ""
  },
  {
   "property": "C03",
   "status": "proved",
   "theorems": [
    "C03_ebc",
    "C03_classes"
   ],
   "note": "C03_classes extends it to periodic conditions"
  },
  {
   "property": "C04",
   "status": "proved",
   "theorems": [
    "C04_last_wins"
   ],
   "note": "A condition without a value (special) does not count as giving one; default is zero."
  },
  {
   "property": "C05",
   "status": "partial",
   "theorems": [
    "C05_get_full",
    "C05_incompatible_refuted"
   ],
   "note": "Proved for at most two periodic conditions or balanced ones; prescribed values require that the conditions do not contradict each other on tied DOFs (C05_incompatible_refuted: the property as stated fails otherwise)."
  },
  {
   "property": "C06",
   "status": "partial",
   "theorems": [
    "C06_reduce_full",
    "C06_chain_refuted"
   ],
   "note": "Proved for at most two periodic conditions or balanced ones; otherwise get_full() can return uninitialised memory (C06_chain_refuted)."
  },
  {
   "property": "C07",
   "status": "partial",
   "theorems": [
    "C07_apply_ebc"
   ],
   "note": "As C05; has_ebc needs non-contradictory conditions."
  },
  {
   "property": "C08",
   "status": "partial",
   "theorems": [
    "C08_operator"
   ],
   "note": "Exact arithmetic (any commutative semiring); at most two periodic conditions or balanced ones."
  },
  {
   "property": "C09",
   "status": "proved",
   "theorems": [
    "C09_components"
   ],
   "note": ""
  },
  {
   "property": "C10",
   "status": "partial",
   "theorems": [
    "C10_tied_partial",
    "C10_refuted"
   ],
   "note": "The full property is false of the code: C10_refuted (conditions 0->1, 1->2, 2->3 leave DOF 3 untied). Proved for at most two periodic conditions or balanced ones."
  },
  {
   "property": "C11",
   "status": "proved",
   "theorems": [
    "C11_adof_conn"
   ],
   "note": ""
  },
  {
   "property": "C12",
   "status": "proved",
   "theorems": [
    "C12_scatter_add",
    "C12_order"
   ],
   "note": "Exact arithmetic."
  },
  {
   "property": "C13",
   "status": "partial",
   "theorems": [
    "C13_error",
    "C13_value",
    "C13_bsearch_partial",
    "C13_bsearch_refuted"
   ],
   "note": "Fully proved for the linear-search variant; the binary-search variant is proved equal to it when the pattern contains all items, and refuted otherwise (no IndexError, wrong item updated)."
  },
  {
   "property": "C14",
   "status": "proved",
   "theorems": [
    "C14_vector",
    "C14_matrix"
   ],
   "note": "For at most two or balanced periodic conditions; exact arithmetic."
  },
  {
   "property": "C15",
   "status": "partial",
   "theorems": [
    "C15_history",
    "C15_aliasing_refuted"
   ],
   "note": "Proved for all executions in which the current data are the user's own arrays (or the shared state vector); false if the current data alias a history array (C15_aliasing_refuted)."
  },
  {
   "property": "C16",
   "status": "partial",
   "theorems": [
    "C16_set_get",
    "C16_partial",
    "C16_refuted",
    "C16_slice_refuted"
   ],
   "note": "Exact behaviour proved (C16_set_get); holds for step 0 and for history <= 1; false for history >= 2 (data[step] with a negative index) and when the slice changes."
  },
  {
   "property": "C17",
   "status": "partial",
   "theorems": [
    "C17_fresh_partial",
    "C17_step0_refuted",
    "C17_gap_refuted",
    "C17_derivative_refuted",
    "C17_dt_refuted",
    "C17_init_refuted"
   ],
   "note": "Proved for evaluations in steps 0 and -1 (the latter after the first advance) with a constant time step; five independent ways to get stale values are shown."
  },
  {
   "property": "C18",
   "status": "proved",
   "theorems": [
    "C18_operators"
   ],
   "note": ""
  },
  {
   "property": "C19",
   "status": "proved",
   "theorems": [
    "C19_from_vertices",
    "C19_from_cells",
    "C19_superset"
   ],
   "note": "For the entities of the dimension of the region kind; lower-dimensional ones are those of the kind entities (C52)."
  },
  {
   "property": "C20",
   "status": "proved",
   "theorems": [
    "C20_sort",
    "C20_definitions"
   ],
   "note": ""
  },
  {
   "property": "C21",
   "status": "proved",
   "theorems": [
    "C21_expression",
    "C21_unambiguous"
   ],
   "note": "At the level of tokens."
  },
  {
   "property": "C22",
   "status": "partial",
   "theorems": [
    "C22_overlap_partial",
    "C22_contains_refuted"
   ],
   "note": "The property is false of the code: contains() returns the number of common entities, so it is true for any overlap."
  },
  {
   "property": "C23",
   "status": "proved",
   "theorems": [
    "C23_sort",
    "C23_keys"
   ],
   "note": ""
  },
  {
   "property": "C24",
   "status": "proved",
   "theorems": [
    "C24_transpose"
   ],
   "note": ""
  },
  {
   "property": "C25",
   "status": "proved",
   "theorems": [
    "C25_neighbours",
    "C25_vertices",
    "C25_subentities"
   ],
   "note": ""
  },
  {
   "property": "C26",
   "status": "proved",
   "theorems": [
    "C26_entities",
    "C26_nonconforming_refuted"
   ],
   "note": "For conforming meshes with nondegenerate cells (the local entities of a cell have different vertex sets); C26_nonconforming_refuted shows conformity is needed."
  },
  {
   "property": "C27",
   "status": "proved",
   "theorems": [
    "C27_n_step",
    "C27_times",
    "C27_set_step",
    "C27_advance",
    "C27_iter",
    "C27_visits_all"
   ],
   "note": "Exact rational arithmetic."
  },
  {
   "property": "C28",
   "status": "partial",
   "theorems": [
    "C28_consistent",
    "C28_step_times",
    "C28_iteration",
    "C28_terminates",
    "C28_restore_partial",
    "C28_restore_refuted"
   ],
   "note": "Everything but the restore: set_state(get_state()) does not restore n_step, and fails after a further advance() since the list of times is saved by reference."
  },
  {
   "property": "C29",
   "status": "partial",
   "theorems": [
    "C29_actual",
    "C29_refuted"
   ],
   "note": "The property is false of the code: abs(self.t0 == other.t0) < 1e-15 is inverted; C29_actual states what __eq__ computes."
  },
  {
   "property": "C30",
   "status": "proved",
   "theorems": [
    "C30_format"
   ],
   "note": "log10 is exact."
  },
  {
   "property": "C31",
   "status": "proved",
   "theorems": [
    "C31_basic",
    "C31_pid_bounds",
    "C31_pid_default",
    "C31_pid_reject_refuted"
   ],
   "note": "Real arithmetic. C31_pid_reject_refuted: for tsc.ed_pid the strict decrease after a rejection does not hold (it is claimed for tsc.ed_basic only)."
  },
  {
   "property": "C32",
   "status": "proved",
   "theorems": [
    "C32_linear"
   ],
   "note": "Real arithmetic."
  },
  {
   "property": "C33",
   "status": "proved",
   "theorems": [
    "C33_time_sequence",
    "C33_exact",
    "C33_controller"
   ],
   "note": "Increasing times after t0; if the times end before t1, t1 is added, times after the first one >= t1 are not visited."
  },
  {
   "property": "C34",
   "status": "partial",
   "theorems": [
    "C34_sorted",
    "C34_accepts",
    "C34_same_name_refuted",
    "C34_missing_prefix_refuted"
   ],
   "note": "Holds if no corrector has the name of a coefficient and requirements are named by their kind; otherwise (refuted) the order is wrong or the worker fails on an accepted definition."
  },
  {
   "property": "C35",
   "status": "proved",
   "theorems": [
    "C35_multi_worker"
   ],
   "note": "Any interleaving of writes of a wave; mini-applications are functions of their direct requirements."
  },
  {
   "property": "C36",
   "status": "partial",
   "theorems": [
    "C36_chunk_table",
    "C36_chunked_run",
    "C36_compute_only_refuted",
    "C36_store_refuted"
   ],
   "note": "Chunks and merging are lossless; compute_only fails with chunks and the store list is ignored by the multi-process worker."
  },
  {
   "property": "C37",
   "status": "proved",
   "theorems": [
    "C37_invs_fast1",
    "C37_invs_fast2",
    "C37_invs_fast3",
    "C37_is_invmx"
   ],
   "note": "Over any field, for dimensions 1, 2, 3; numpy.linalg.det is the determinant; exact arithmetic."
  },
  {
   "property": "C38",
   "status": "proved",
   "theorems": [
    "C38_roundtrip",
    "C38_bulk",
    "C38_mixed",
    "C38_ortho",
    "C38_wave_speeds"
   ],
   "note": "Exact real arithmetic."
  },
  {
   "property": "C39",
   "status": "partial",
   "theorems": [
    "C39_elastic_constants",
    "C39_exactly_two",
    "C39_textbook",
    "C39_negative_lam_refuted",
    "C39_zero_lam_refuted"
   ],
   "note": "Proved for positive lam; refuted for lam < 0 (wrong root for p_wave and young) and for lam = 0 (nan)."
  },
  {
   "property": "C40",
   "status": "proved",
   "theorems": [
    "C40_sym2dim",
    "C40_sym2dim_dim2sym",
    "C40_sym2dim_rejects",
    "C40_storage",
    "C40_t4_symmetries",
    "C40_contraction"
   ],
   "note": "sym2dim over exact reals, all sizes; storages for the supported dimensions 2 and 3."
  },
  {
   "property": "C41",
   "status": "proved",
   "theorems": [
    "C41_deviator",
    "C41_deviator_storages",
    "C41_von_mises_3d",
    "C41_von_mises_pressure",
    "C41_von_mises_zero",
    "C41_von_mises_storages",
    "C41_von_mises_2d",
    "C41_von_mises_uniaxial",
    "C41_von_mises_2d_pressure_refuted"
   ],
   "note": "Over any real closed field; in 2D the formula is the plane stress one, which is not invariant under an in-plane pressure (refuted)."
  },
  {
   "property": "C42",
   "status": "proved",
   "theorems": [
    "C42_coef",
    "C42_apply",
    "C42_consistent",
    "C42_compose",
    "C42_restore",
    "C42_zero",
    "C42_pars"
   ],
   "note": "Exact real arithmetic, nonzero multipliers; zero multipliers are errors."
  },
  {
   "property": "C43",
   "status": "proved",
   "theorems": [
    "C43_map_permutations",
    "C43_check",
    "C43_length",
    "C43_argsort_rows"
   ],
   "note": "1D and 2D (rows) integer arrays; numpy.argsort is specified (any sorting permutation)."
  },
  {
   "property": "C44",
   "status": "proved",
   "theorems": [
    "C44_solving_order",
    "C44_complete",
    "C44_self_reference",
    "C44_resolve_terminates",
    "C44_each_once_refuted",
    "C44_missing_name_silent"
   ],
   "note": "each_once is refuted for singular systems (witness)."
  },
  {
   "property": "C45",
   "status": "proved",
   "theorems": [
    "C45_partition",
    "C45_too_many_parts"
   ],
   "note": "With more parts than cells, each cell gets its own part."
  },
  {
   "property": "C46",
   "status": "partial",
   "theorems": [
    "C46_partition",
    "C46_distribution",
    "C46_verify_sound",
    "C46_verify_complete",
    "C46_disconnected_refuted",
    "C46_pinched_refuted",
    "C46_verify_refuted"
   ],
   "note": "Proved for connected meshes where the cells sharing a DOF are connected through facets with that DOF; the code fails otherwise (C46_disconnected_refuted, C46_pinched_refuted). verify_task_dof_maps accepts some wrong maps (C46_verify_refuted)."
  },
  {
   "property": "C47",
   "status": "partial",
   "theorems": [
    "C47_line",
    "C47_coors",
    "C47_dir",
    "C47_calls_partial",
    "C47_cache_refuted"
   ],
   "note": "Fresh matchings are proved; a call answered from the cache is right only if the earlier arrays with the same key were the same: C47_cache_refuted gives two calls with equal shapes and axis but different coordinates."
  },
  {
   "property": "C48",
   "status": "partial",
   "theorems": [
    "C48_same_format_partial",
    "C48_other_format_refuted"
   ],
   "note": "Round trip proved when the stored format is the one of the matrix; requesting the other format reinterprets the arrays, i.e. transposes the matrix (C48_other_format_refuted)."
  },
  {
   "property": "C49",
   "status": "partial",
   "theorems": [
    "C49_first_line",
    "C49_eof",
    "C49_no_data_partial",
    "C49_trailing_comment_refuted"
   ],
   "note": "The first data line is always found; without data lines the empty string is returned only if the last line is blank (or the file is empty); a file whose last line is a comment returns that comment as data (no_eof=False): C49_trailing_comment_refuted."
  },
  {
   "property": "C50",
   "status": "proved",
   "theorems": [
    "C50_tokens",
    "C50_every_file"
   ],
   "note": "Any file, any space predicate."
  },
  {
   "property": "C51",
   "status": "proved",
   "theorems": [
    "C51_graph"
   ],
   "note": "chunk_size >= 2 (with chunk_size = 1 the code loops forever)."
  },
  {
   "property": "C52",
   "status": "proved",
   "theorems": [
    "C52_finalize"
   ],
   "note": ""
  },
  {
   "property": "C53",
   "status": "proved",
   "theorems": [
    "C53_facet_indices"
   ],
   "note": "Each facet has a cell and the cell lists the facet (consistency of the two connectivities)."
  },
  {
   "property": "C54",
   "status": "proved",
   "theorems": [
    "C54_cell_indices"
   ],
   "note": ""
  },
  {
   "property": "C55",
   "status": "partial",
   "theorems": [
    "C55_simple",
    "C55_one_step_refuted"
   ],
   "note": "Proved for n_step >= 2; with n_step = 1 step 0 is computed and saved twice (C55_one_step_refuted)."
  },
  {
   "property": "C56",
   "status": "proved",
   "theorems": [
    "C56_adaptive",
    "C56_step_terminates"
   ],
   "note": ""
  },
  {
   "property": "C57",
   "status": "partial",
   "theorems": [
    "C57_bounds",
    "C57_changes_partial",
    "C57_reduction_refuted"
   ],
   "note": "The rules hold as long as no step is accepted without convergence at the maximal reduction; after that converged steps can reduce the step size below the limit."
  },
  {
   "property": "C58",
   "status": "partial",
   "theorems": [
    "C58_ed",
    "C58_fixed",
    "C58_return_refuted",
    "C58_fixed_one_step_refuted"
   ],
   "note": "All but the returned vector: the solver returns the argument of the last solver call (the state of the previous step), and with tsc.fixed and n_step = 1 it never terminates."
  },
  {
   "property": "C59",
   "status": "proved",
   "theorems": [
    "C59_matrix"
   ],
   "note": "For a new solver; matrix caching by is_linear."
  },
  {
   "property": "C60",
   "status": "partial",
   "theorems": [
    "C60_central_difference_is_newmark",
    "C60_generalized_alpha_is_newmark",
    "C60_verlet_is_central_difference_partial",
    "C60_verlet_refuted"
   ],
   "note": "Verlet equals central difference only if the residual does not depend on velocity; refuted with damping."
  },
  {
   "property": "C61",
   "status": "partial",
   "theorems": [
    "C61_central_difference",
    "C61_newmark",
    "C61_generalized_alpha",
    "C61_initial",
    "C61_verlet_partial",
    "C61_verlet_refuted",
    "C61_bathe_partial",
    "C61_bathe_refuted"
   ],
   "note": "Verlet fails with damping; Bathe evaluates time-dependent loads at t_{n+1}+dt/2."
  },
  {
   "property": "C62",
   "status": "proved",
   "theorems": [
    "C62_newmark_energy_balance",
    "C62_newmark_energy_conserved",
    "C62_newmark_energy_nonincreasing",
    "C62_newmark_stable",
    "C62_bathe_first_substep"
   ],
   "note": ""
  },
  {
   "property": "C63",
   "status": "proved",
   "theorems": [
    "C63_alpha_defaults",
    "C63_high_frequency_limit"
   ],
   "note": ""
  },
  {
   "property": "C64",
   "status": "proved",
   "theorems": [
    "C64_verlet",
    "C64_central_difference",
    "C64_newmark",
    "C64_generalized_alpha",
    "C64_bathe1",
    "C64_bathe2",
    "C64_newmark_extra"
   ],
   "note": ""
  },
  {
   "property": "C65",
   "status": "proved",
   "theorems": [
    "C65_uniform_acceleration",
    "C65_newton"
   ],
   "note": ""
  },
  {
   "property": "C66",
   "status": "proved",
   "theorems": [
    "C66_vectors",
    "C66_second_order_lossless",
    "C66_second_order",
    "C66_fourth_order_lossless",
    "C66_fourth_order",
    "C66_hooke"
   ],
   "note": "Over any real closed field."
  },
  {
   "property": "C67",
   "status": "proved",
   "theorems": [
    "C67_cauchy"
   ],
   "note": "Dimensions 2 and 3."
  },
  {
   "property": "C68",
   "status": "proved",
   "theorems": [
    "C68_rotation",
    "C68_angles",
    "C68_cylindrical"
   ],
   "note": "Cosine and sine of the angle are any c, s with c^2 + s^2 = 1; cos and sin of arctan2(y, x) are x/r, y/r."
  },
  {
   "property": "C69",
   "status": "partial",
   "theorems": [
    "C69_plane_stress",
    "C69_isotropic",
    "C69_piezo_partial",
    "C69_piezo_d2_refuted"
   ],
   "note": "Elasticity proved; in the piezoelectric case the reduced stiffness and coupling are proved right, the reduced dielectric tensor is refuted: the code subtracts the correction that must be added."
  },
  {
   "property": "C70",
   "status": "proved",
   "theorems": [
    "C70_unit",
    "C70_get_prefix"
   ],
   "note": "For every table of prefixes containing the empty one."
  },
  {
   "property": "C71",
   "status": "proved",
   "theorems": [
    "C71_chunk_arrays",
    "C71_zero_chunk_diverges"
   ],
   "note": ""
  },
  {
   "property": "C72",
   "status": "proved",
   "theorems": [
    "C72_cycle"
   ],
   "note": ""
  },
  {
   "property": "C73",
   "status": "proved",
   "theorems": [
    "C73_assemble1d",
    "C73_fancy_iadd_differs"
   ],
   "note": ""
  },
  {
   "property": "C74",
   "status": "proved",
   "theorems": [
    "C74_compose",
    "C74_compose_succeeds",
    "C74_compose_slices",
    "C74_incomplete_sizes_refuted",
    "C74_all_zero_refuted"
   ],
   "note": "Findings: user sizes shorter than the block structure are accepted; a matrix of None blocks only cannot be composed even with given sizes."
  },
  {
   "property": "C75",
   "status": "proved",
   "theorems": [
    "C75_save_csr",
    "C75_save_csc_refuted"
   ],
   "note": "CSR only; for CSC matrices the code fails or writes garbage (refuted)."
  },
  {
   "property": "C76",
   "status": "proved",
   "theorems": [
    "C76_triangle",
    "C76_tetrahedron",
    "C76_edge",
    "C76_force_inside"
   ],
   "note": "Real arithmetic."
  },
  {
   "property": "C77",
   "status": "proved",
   "theorems": [
    "C77_triangle",
    "C77_even_odd",
    "C77_convex"
   ],
   "note": "Real arithmetic, points off the lines of the (fan) triangles."
  },
  {
   "property": "C78",
   "status": "proved",
   "theorems": [
    "C78_inverse",
    "C78_inverse_unsupported",
    "C78_volume",
    "C78_volume_reference",
    "C78_points_in_simplex",
    "C78_tolerance"
   ],
   "note": "numpy.linalg.solve and det are specified."
  },
  {
   "property": "C79",
   "status": "proved",
   "theorems": [
    "C79_normalize",
    "C79_perpendiculars_2d",
    "C79_perpendiculars_3d",
    "C79_argument_preserved_refuted"
   ],
   "note": "Finding: get_perpendiculars normalises its argument in place."
  },
  {
   "property": "C80",
   "status": "proved",
   "theorems": [
    "C80_triangle",
    "C80_quad",
    "C80_quad_any_start",
    "C80_nonconvex_refuted",
    "C80_unsupported",
    "C80_rotation2d"
   ],
   "note": ""
  },
  {
   "property": "C81",
   "status": "partial",
   "theorems": [
    "C81_ball",
    "C81_shell_outside_refuted",
    "C81_tube",
    "C81_tube_outside_refuted",
    "C81_tube_axis_not_normalized"
   ],
   "note": "Refuted for the outside of a shell / of the radii of a tube: the code selects nothing (& instead of |)."
  },
  {
   "property": "C82",
   "status": "proved",
   "theorems": [
    "C82_composite"
   ],
   "note": ""
  },
  {
   "property": "C83",
   "status": "partial",
   "theorems": [
    "C83_overlap",
    "C83_no_overlap_partial",
    "C83_reassembly_refuted"
   ],
   "note": "With overlaps: full statement (under the hypotheses of C46). Without overlaps the result is added to the previous contents, which nothing zeroes (C83_reassembly_refuted)."
  },
  {
   "property": "C84",
   "status": "partial",
   "theorems": [
    "C84_overlap_partial",
    "C84_no_overlap_partial",
    "C84_reassembly_refuted"
   ],
   "note": "As C83; with overlaps entries which become zero keep the value of the previous assembling (C84_reassembly_refuted)."
  },
  {
   "property": "C85",
   "status": "partial",
   "theorems": [
    "C85_read_list",
    "C85_eof_refuted"
   ],
   "note": "A truncated file makes the loop run forever (no number of iterations suffices): C85_eof_refuted."
  },
  {
   "property": "C86",
   "status": "partial",
   "theorems": [
    "C86_parts",
    "C86_trunk",
    "C86_edit",
    "C86_absolute_prefix_refuted"
   ],
   "note": "Proved unless the edited base begins with a slash: then os.path.join() drops the directory (refuted case)."
  },
  {
   "property": "C87",
   "status": "partial",
   "theorems": [
    "C87_output_name",
    "C87_steps",
    "C87_restart",
    "C87_recovery_partial",
    "C87_recovery_one_element_refuted"
   ],
   "note": "Missing: recovery with a single macroscopic element, where the name cannot be made (TypeError)."
  },
  {
   "property": "C88",
   "status": "partial",
   "theorems": [
    "C88_round_trip_partial",
    "C88_hidden_key_refuted",
    "C88_reserved_key_refuted",
    "C88_bytes_refuted"
   ],
   "note": "Keys that are hidden (p_*, i_*) or reserved names of PyTables, and bytes values are not restored."
  },
  {
   "property": "C89",
   "status": "proved",
   "theorems": [
    "C89_round_trip"
   ],
   "note": "Names of nodes are abstract; soft links and unpack_markers=True not modelled."
  },
  {
   "property": "C90",
   "status": "partial",
   "theorems": [
    "C90_resume_partial",
    "C90_last_step_refuted",
    "C90_history_step0_refuted",
    "C90_history_refuted",
    "C90_adaptive_refuted"
   ],
   "note": "Proved for the simple stepping with histories of at most one step and interruption before the last step; the other cases are refuted."
  },
  {
   "property": "C91",
   "status": "partial",
   "theorems": [
    "C91_crash_safe",
    "C91_only_last",
    "C91_same_name_refuted"
   ],
   "note": "Proved for distinct names of the files (they are distinct by C87_restart); not when a user function gives one name to all steps."
  },
  {
   "property": "C92",
   "status": "partial",
   "theorems": [
    "C92_spaced_partial",
    "C92_dense_refuted",
    "C92_restart_refuted"
   ],
   "note": "Proved if no step reaches two save times and the run begins in the first step."
  },
  {
   "property": "C93",
   "status": "partial",
   "theorems": [
    "C93_merge",
    "C93_doubles",
    "C93_exact",
    "C93_noise_refuted"
   ],
   "note": "Whenever the sum is returned it is the merged mesh; it is returned for exactly matching nodes. C93_noise_refuted: matching nodes within the tolerance can be refused because the sum of all errors is compared with the tolerance."
  },
  {
   "property": "C94",
   "status": "partial",
   "theorems": [
    "C94_no_doubles",
    "C94_cells_partial",
    "C94_chain_refuted"
   ],
   "note": "Cells keep their vertices when closeness is transitive (C94_cells_partial); C94_chain_refuted: a chain of close nodes gives cells with node -1."
  },
  {
   "property": "C95",
   "status": "proved",
   "theorems": [
    "C95_merge_nodes",
    "C95_exact",
    "C95_move_refuted"
   ],
   "note": "Proved as stated; how far a merged node moves is not bounded by the tolerance (C95_move_refuted)."
  },
  {
   "property": "C96",
   "status": "partial",
   "theorems": [
    "C96_cgroup",
    "C96_ngroup",
    "C96_runs",
    "C96_mixed_refuted"
   ],
   "note": "Whenever a mesh is returned it is the right one; it is returned if some cell is selected and all vertices are kept or there is one kind of cells. C96_mixed_refuted: with two kinds of cells the default call can fail with ValueError."
  },
  {
   "property": "C97",
   "status": "proved",
   "theorems": [
    "C97_block"
   ],
   "note": "Exact rational coordinates; coors=None."
  },
  {
   "property": "C98",
   "status": "partial",
   "theorems": [
    "C98_hexahedra",
    "C98_quadrilaterals",
    "C98_volumes",
    "C98_quad_volumes",
    "C98_conforming",
    "C98_common_face",
    "C98_cover",
    "C98_block_volumes",
    "C98_numbering_refuted",
    "C98_mixed_refuted"
   ],
   "note": "Conformity holds for block meshes; it is refuted for hexahedra numbered from other vertices, and meshes with several kinds of cells lose cells and take wrong materials."
  },
  {
   "property": "C99",
   "status": "partial",
   "theorems": [
    "C99_tiled_mesh",
    "C99_matches",
    "C99_cache_refuted",
    "C99_small_refuted"
   ],
   "note": "Proved for faces exactly in planes, up to the matching tolerance, when the matching is fresh; refuted after another mesh with the same numbers of face nodes was tiled in the process (cache), and for cells smaller than eps."
  },
  {
   "property": "C100",
   "status": "partial",
   "theorems": [
    "C100_defined",
    "C100_voxels",
    "C100_wide_refuted"
   ],
   "note": "Cells, corners and nodes are right whenever a mesh is made (C100_voxels), but C100_defined shows that the arrays for which it is made are not all: the axes of the node matrix are swapped, so an image whose nonzero voxels lie beyond the other dimension raises an IndexError (C100_wide_refuted)."
  },
  {
   "property": "C101",
   "status": "proved",
   "theorems": [
    "C101_terminates",
    "C101_status",
    "C101_first",
    "C101_linear_iterations"
   ],
   "note": "For every residual (also failing), tangent matrix, linear solver and options; exact real arithmetic, give_up_warp off (the default); C102 treats give_up_warp."
  },
  {
   "property": "C102",
   "status": "partial",
   "theorems": [
    "C102_steps",
    "C102_decrease",
    "C102_minimum_refuted",
    "C102_give_up_refuted",
    "C102_stale_refuted",
    "C102_scaled_error_refuted"
   ],
   "note": "The steps and the choice of the step length are as documented, but a step shorter than ls_min is used, give_up_warp crashes (UnboundLocalError) or reports success at a point with no residual, and the error mode crashes with scaled_error."
  },
  {
   "property": "C103",
   "status": "proved",
   "theorems": [
    "C103_linear"
   ],
   "note": "Exact arithmetic, the default residual line search mode."
  },
  {
   "property": "C104",
   "status": "proved",
   "theorems": [
    "C104_simplex_nodes",
    "C104_tensor_nodes"
   ],
   "note": "All orders; lattice points exactly once, entity of each node, vertex and edge positions."
  },
  {
   "property": "C105",
   "status": "proved",
   "theorems": [
    "C105_simplex_basis",
    "C105_outside"
   ],
   "note": "Exact reals; inverse matrix characterised by its equations."
  },
  {
   "property": "C106",
   "status": "proved",
   "theorems": [
    "C106_simplex_gradient",
    "C106_gradient_sum"
   ],
   "note": "Derivatives in the sense of derivable_pt_lim."
  },
  {
   "property": "C107",
   "status": "proved",
   "theorems": [
    "C107_tensor_basis",
    "C107_tensor_gradient"
   ],
   "note": "Values and gradients."
  },
  {
   "property": "C108",
   "status": "partial",
   "theorems": [
    "C108_history_partial",
    "C108_after_error_refuted",
    "C105_after_error_refuted"
   ],
   "note": "After a failed evaluation g_error stays set and later evaluations silently return wrong values."
  },
  {
   "property": "C109",
   "status": "partial",
   "theorems": [
    "C109_bubble_partial",
    "C109_order2_refuted",
    "C109_order3_refuted"
   ],
   "note": "Not nodal for order 2, dependent for order 3 in 2D."
  },
  {
   "property": "C110",
   "status": "proved",
   "theorems": [
    "C110_simplex_hessian",
    "C110_tensor_hessian"
   ],
   "note": "P_hess.v. Real arithmetic."
  },
  {
   "property": "C111",
   "status": "proved",
   "theorems": [
    "C111_cubature",
    "C111_high_orders"
   ],
   "note": "Grundmann-Moeller rules for all s and n; weights are exact rationals"
  },
  {
   "property": "C112",
   "status": "proved",
   "theorems": [
    "C112_tables"
   ],
   "note": "decimal literals as exact rationals, sqrt exact; every table entry checked in Q or Q(s,t) by a verified checker"
  },
  {
   "property": "C113",
   "status": "partial",
   "theorems": [
    "C113_simplex",
    "C113_tensor",
    "C113_tensor_cap",
    "C113_full_order",
    "C113_point",
    "C113_wedge_partial",
    "C113_wedge_refuted",
    "C113_wedge_full_refuted",
    "C113_full_order_refuted"
   ],
   "note": "false for the wedge from order 4 (rule of the cube), tensor products above order 47 (capped, with a warning), full_order above the table (crash)"
  },
  {
   "property": "C114",
   "status": "partial",
   "theorems": [
    "C114_global",
    "C114_succeeds",
    "C114_overlap",
    "C114_columns",
    "C114_tie_refuted"
   ],
   "note": "a tie to a DOF constrained by another operator (possible with the second region of rigid_twist, which is not checked) is silently attached to another DOF"
  },
  {
   "property": "C115",
   "status": "proved",
   "theorems": [
    "C115_no_penetration",
    "C115_direction",
    "C115_integral_mean_value"
   ],
   "note": "local matrices; nonzero normals"
  },
  {
   "property": "C116",
   "status": "partial",
   "theorems": [
    "C116_rigid",
    "C116_rigid_dim",
    "C116_rigid2",
    "C116_twist_partial",
    "C116_twist_refuted"
   ],
   "note": "rigid_twist is not a screw: the thread is added to all entries of the spin matrix"
  },
  {
   "property": "C117",
   "status": "partial",
   "theorems": [
    "C117_nodal_partial",
    "C117_coefs_refuted",
    "C117_left_out_refuted"
   ],
   "note": "false when dependent DOFs depend on different independent ones or a DOF occurs in no constraint"
  },
  {
   "property": "C118",
   "status": "partial",
   "theorems": [
    "C118_ties",
    "C118_multi_node",
    "C118_average_translation",
    "C118_average_rotation_refuted",
    "C118_average_simple_refuted"
   ],
   "note": "average_force: rotations are damped with the default weights, the version without rotations fails with them"
  },
  {
   "property": "C119",
   "status": "partial",
   "theorems": [
    "C119_none_partial",
    "C119_master_refuted",
    "C119_both_refuted",
    "C119_column_refuted"
   ],
   "note": "holds without master DOFs in the region only"
  },
  {
   "property": "C120",
   "status": "proved",
   "theorems": [
    "C120_simplex",
    "C120_tensor",
    "C120_same_place"
   ],
   "note": "volume fields on cells of one kind; quadrilateral faces shared by two hexahedra have the same cyclic order of vertices (conforming mesh)"
  },
  {
   "property": "C121",
   "status": "proved",
   "theorems": [
    "C121_continuity"
   ],
   "note": "barycentric coordinates of the common point are zero in the vertices that are not common"
  },
  {
   "property": "C122",
   "status": "proved",
   "theorems": [
    "C122_numbering"
   ],
   "note": ""
  },
  {
   "property": "C123",
   "status": "proved",
   "theorems": [
    "C123_laplace_matrix",
    "C123_laplace_residual",
    "C123_laplace_eval",
    "C123_diffusion_matrix",
    "C123_diffusion_residual",
    "C123_diffusion_eval",
    "C123_laplace_consistent",
    "C123_diffusion_consistent"
   ],
   "note": "One cell at a time; assembling is C08/C09."
  },
  {
   "property": "C124",
   "status": "proved",
   "theorems": [
    "C124_elastic_matrix",
    "C124_elastic_residual",
    "C124_elastic_eval",
    "C124_elastic_consistent",
    "C124_elastic_symmetric",
    "C124_elastic_energy",
    "C124_elastic_rigid",
    "C124_elastic_equilibrium"
   ],
   "note": ""
  },
  {
   "property": "C125",
   "status": "proved",
   "theorems": [
    "C125_dot_scalar_matrix",
    "C125_dot_scalar_residual",
    "C125_dot_vector_matrix",
    "C125_dot_vector_residual",
    "C125_dot_eval",
    "C125_dot_scalar_consistent",
    "C125_dot_vector_consistent",
    "C125_total_mass",
    "C125_vns_matrix",
    "C125_vns_residual",
    "C125_svn_matrix",
    "C125_svn_residual",
    "C125_surface_consistent"
   ],
   "note": ""
  },
  {
   "property": "C126",
   "status": "partial",
   "theorems": [
    "C126_divgrad_matrix_partial",
    "C126_divgrad_residual",
    "C126_divgrad_eval",
    "C126_divgrad_consistent_partial",
    "C126_divgrad_rectangular_refuted"
   ],
   "note": "Missing: a virtual field with another number of nodes than the state field; the code then stores the blocks at wrong rows (refuted theorem)."
  },
  {
   "property": "C127",
   "status": "proved",
   "theorems": [
    "C127_stokes_div_matrix",
    "C127_stokes_div_residual",
    "C127_stokes_grad_matrix",
    "C127_stokes_grad_residual",
    "C127_stokes_eval",
    "C127_biot_grad_matrix",
    "C127_biot_grad_residual",
    "C127_biot_div_matrix",
    "C127_biot_div_residual",
    "C127_biot_eval",
    "C127_stokes_consistent",
    "C127_biot_consistent"
   ],
   "note": ""
  },
  {
   "property": "C128",
   "status": "proved",
   "theorems": [
    "C128_lin_convect_matrix",
    "C128_lin_convect_residual",
    "C128_convect_residual",
    "C128_convect_matrix",
    "C128_lin_convect_consistent",
    "C128_convect_derivative"
   ],
   "note": ""
  },
  {
   "property": "C129",
   "status": "partial",
   "theorems": [
    "C129_v_dot_grad_vw_matrix",
    "C129_v_dot_grad_vw_residual",
    "C129_v_dot_grad_sw_matrix",
    "C129_v_dot_grad_sw_residual",
    "C129_v_dot_grad_consistent_partial",
    "C129_v_dot_grad_eval_partial",
    "C129_v_dot_grad_eval_refuted"
   ],
   "note": "Missing: the value for a nonsymmetric matrix coefficient; the code evaluates the transposed form (refuted theorem)."
  },
  {
   "property": "C130",
   "status": "proved",
   "theorems": [
    "C130_evaluated_fields",
    "C130_evaluated_vector"
   ],
   "note": ""
  },
  {
   "property": "C131",
   "status": "proved",
   "theorems": [
    "C131_volume_mapping",
    "C131_warp_violation",
    "C131_gradient",
    "C131_affine_exact"
   ],
   "note": "real arithmetic; eval_mapping_data_in_qp with is_face=False, one group of cells"
  },
  {
   "property": "C132",
   "status": "proved",
   "theorems": [
    "C132_simplex_volume",
    "C132_quad_area",
    "C132_average",
    "C132_physical_qps"
   ],
   "note": "integrate modes 0 and 1 (modes >= 3 use an attribute self.tdim that does not exist); hexahedra are covered by C131_volume_mapping only"
  },
  {
   "property": "C133",
   "status": "partial",
   "theorems": [
    "C133_normals_partial",
    "C133_outward",
    "C133_outward_quad",
    "C133_closed",
    "C133_divergence",
    "C133_segment_partial",
    "C133_small_facets_refuted",
    "C133_segment_refuted"
   ],
   "note": "false in the code for facets with a surface element below 1e-15 (normals are not unit) and in 1D (the sign of the normal is -1 only for the vertex number 0); outward normals for triangles, tetrahedra, convex quadrilaterals; closedness and divergence for those and parallelepipeds"
  },
  {
   "property": "C134",
   "status": "partial",
   "theorems": [
    "C134_facet_values",
    "C134_trace",
    "C134_facet_gradients_partial",
    "C134_jacobian_partial",
    "C134_geometry_gradient",
    "C134_geometry_basis",
    "C134_hex_face_refuted"
   ],
   "note": "false in the code for faces of hexahedra that are not parallelograms: the Jacobian is evaluated in the point with swapped coordinates"
  },
  {
   "property": "C135",
   "status": "partial",
   "theorems": [
    "C135_field_trace_partial",
    "C135_field_trace_refuted"
   ],
   "note": "false in the code for tetrahedra of every order >= 3 (the basis of the facet 0 is used for all facets); proved in 2D for all orders, in 3D for orders 1 and 2; tensor product cells are not covered"
  },
  {
   "property": "C136",
   "status": "partial",
   "theorems": [
    "C136_plane_partial",
    "C136_triangle_area_partial",
    "C136_line_partial",
    "C136_downward_refuted",
    "C136_small_cells_refuted"
   ],
   "note": "false in the code for cells with the normal exactly -z (mapped with negative orientation, ValueError) and for tilted cells with |bv_xy| <= 1e-16 (collapsed to a point)"
  },
  {
   "property": "C137",
   "status": "partial",
   "theorems": [
    "C137_eigenpairs_partial",
    "C137_inverted",
    "C137_complete",
    "C137_multiplicity",
    "C137_zero_refuted",
    "C137_zero_refuted_exists"
   ],
   "note": "Holds except for zero eigenvalues with the companion linearization in the normal mode: there the returned vector is the first block w x = 0 (C137_zero_refuted, C137_zero_refuted_exists). The solver of the linear problem and the Cholesky factor are assumed correct (their contracts are hypotheses); exact arithmetic over a field."
  },
  {
   "property": "C138",
   "status": "partial",
   "theorems": [
    "C138_centroid",
    "C138_centroid_balance",
    "C138_volume_segment",
    "C138_volume_triangle_2d",
    "C138_volume_triangle_3d",
    "C138_volume_tetrahedron",
    "C138_volume_hexahedron",
    "C138_volume_quadrilateral_partial",
    "C138_volume_quadrilateral_refuted",
    "C138_volume_face",
    "C138_volume_wedge_partial",
    "C138_volume_wedge_refuted",
    "C138_normals",
    "C138_normals_hex",
    "C138_normals_small_refuted"
   ],
   "note": "false in the code for quadrilaterals with a reentrant vertex (10 instead of 6), for wedges that are not prisms (1/2 instead of 7/24) and for facets of a size below the tolerance (zero normal); everything else proved, exact real arithmetic"
  },
  {
   "property": "C139",
   "status": "proved",
   "theorems": [
    "C139_geometry",
    "C139_volumes"
   ],
   "note": "exact real arithmetic; meshes of one cell type, rows of different existing vertices"
  },
  {
   "property": "C140",
   "status": "proved",
   "theorems": [
    "C140_conforming",
    "C140_boundary",
    "C140_iterated",
    "C140_nodes"
   ],
   "note": "for hexahedra, faces with the same vertices are assumed to have the same edges; cells have different vertex sets"
  },
  {
   "property": "C141",
   "status": "partial",
   "theorems": [
    "C141_segments",
    "C141_order_refuted",
    "C141_error_edges"
   ],
   "note": "false in the code for 1D meshes with cells not in the order of nodes (C141_order_refuted: overlapping cells)"
  },
  {
   "property": "C142",
   "status": "proved",
   "theorems": [
    "C142_green_strain",
    "C142_bulk",
    "C142_bulk_active",
    "C142_bulk_pressure",
    "C142_neohook",
    "C142_mooney_rivlin"
   ],
   "note": "exact reals; det F^2 > 1e-55 (below the code returns a zero inverse)"
  },
  {
   "property": "C143",
   "status": "partial",
   "theorems": [
    "C143_bulk_energy",
    "C143_bulk_active_energy",
    "C143_neohook_energy",
    "C143_mooney_rivlin_energy",
    "C143_symmetry",
    "C143_objective",
    "C143_stress_free",
    "C143_neohook_1d_refuted"
   ],
   "note": "the stress-free reference state is false in 1D for neo-Hookean (C143_neohook_1d_refuted)"
  },
  {
   "property": "C144",
   "status": "partial",
   "theorems": [
    "C144_bulk_stress",
    "C144_bulk_pressure_stress",
    "C144_neohook_stress",
    "C144_mooney_rivlin_stress_12d",
    "C144_bulk_tangent",
    "C144_bulk_pressure_tangent",
    "C144_neohook_tangent",
    "C144_mooney_rivlin_doubled",
    "C144_mooney_rivlin_3d_refuted"
   ],
   "note": "false for the Mooney-Rivlin term: stress in 3D (C144_mooney_rivlin_3d_refuted), modulus doubled in 1D, 2D (C144_mooney_rivlin_doubled)"
  },
  {
   "property": "C145",
   "status": "proved",
   "theorems": [
    "C145_tangent",
    "C145_tangent_fresh",
    "C145_stale_stress_refuted"
   ],
   "note": "the matrix in another state than the last residual uses the old stress (C145_stale_stress_refuted)"
  },
  {
   "property": "C146",
   "status": "partial",
   "theorems": [
    "C146_genyeoh_partial",
    "C146_svk_stress",
    "C146_svk_tangent_refuted",
    "C146_svk_material_refuted"
   ],
   "note": "Yeoh: states with zero distortion are missing; Saint Venant-Kirchhoff: modulus with doubled shear rows, material array changed in place"
  },
  {
   "property": "C147",
   "status": "proved",
   "theorems": [
    "C147_volume_tangent",
    "C147_pressure_tangent",
    "C147_transpose"
   ],
   "note": ""
  },
  {
   "property": "C148",
   "status": "proved",
   "theorems": [
    "C148_moved_mapping",
    "C148_laws",
    "C148_ul_equals_tl",
    "C148_ul_tangent"
   ],
   "note": "The strains use the mapping saved for the undeformed mesh, the kernel the mapping of the moved mesh. The moved mapping theorem is for a field with the base functions and nodes of the geometry (first order). The Mooney-Rivlin UL term is excluded: its stress (3D) and tangent are wrong (C144)."
  },
  {
   "property": "C149",
   "status": "proved",
   "theorems": [
    "C149_bernstein",
    "C149_bernstein_c",
    "C149_unity"
   ],
   "note": "exact real arithmetic"
  },
  {
   "property": "C150",
   "status": "proved",
   "theorems": [
    "C150_extraction",
    "C150_columns",
    "C150_unity"
   ],
   "note": "exact real arithmetic; knots compare exactly"
  },
  {
   "property": "C151",
   "status": "proved",
   "theorems": [
    "C151_basis",
    "C151_c_python"
   ],
   "note": "half-open reference element [0,1); the pointer walk over cells and points is not modelled"
  },
  {
   "property": "C152",
   "status": "proved",
   "theorems": [
    "C152_nurbs",
    "C152_ravel"
   ],
   "note": "exact real arithmetic"
  },
  {
   "property": "C153",
   "status": "proved",
   "theorems": [
    "C153_bezier",
    "C153_kronecker",
    "C153_example",
    "C150_nonneg",
    "C153_discontinuous_refuted"
   ],
   "note": "positivity and equality of the geometry on every element; continuity of the knots is needed (refutation with a knot of multiplicity p + 1); tensor_product for square second factors (the only use)"
  },
  {
   "property": "C154",
   "status": "proved",
   "theorems": [
    "C154_euler_run",
    "C154_euler_conserves",
    "C154_euler_stable"
   ],
   "note": "Runs of any length; boundary data and materials are those of the new time."
  },
  {
   "property": "C155",
   "status": "partial",
   "theorems": [
    "C155_rk3_run_partial",
    "C155_rk3_conserves",
    "C155_rk3_stable_partial",
    "C155_rk3_order_partial",
    "C155_local_error_partial",
    "C155_order_refuted",
    "C155_saved_result_refuted",
    "C155_example"
   ],
   "note": "The run is characterised exactly; conservation is full; third order and strong stability hold for equations without volume terms only: facet terms read the current stage, volume terms of p[-1] the old time step, so the method is first order (C155_order_refuted). solve_step is called with shifted positional arguments, so the post step function runs on an intermediate stage, half a step late, and with a number of save times the saved result is that stage (C155_saved_result_refuted)."
  },
  {
   "property": "C156",
   "status": "partial",
   "theorems": [
    "C156_rk4_partial",
    "C156_rk4_refuted"
   ],
   "note": "The solver computes classical RK4 for the slope -(2x + L x) instead of -L x (sign error in vec_x = - vec_dx - stage_vec): a steady state decays."
  },
  {
   "property": "C157",
   "status": "proved",
   "theorems": [
    "C157_minmod",
    "C157_limiter",
    "C157_moments",
    "C157_local_maximum",
    "C157_idempotent"
   ],
   "note": "The bound of the local maximum principle includes the constant 1e-30 of the code; idempotence for linear elements."
  },
  {
   "property": "C158",
   "status": "partial",
   "theorems": [
    "C158_basis_indices",
    "C158_hierarchical",
    "C158_extended_3d_refuted"
   ],
   "note": "Full in 1D, 2D and for complete spaces in 3D; the extended 3D space (hexahedra) gets only the complete polynomials while (order+1)^3 DOFs are allocated."
  },
  {
   "property": "C159",
   "status": "partial",
   "theorems": [
    "C159_limiter_2d",
    "C159_neighbour_zero_partial",
    "C159_numbering_refuted",
    "C159_second_slope_refuted"
   ],
   "note": "Means, boundary cells and shrinking proved; a cell next to cell 0 is never limited (> 0 instead of >= 0), so the result depends on the numbering; a cell whose x slope is fine keeps any y slope."
  },
  {
   "property": "C160",
   "status": "partial",
   "theorems": [
    "C160_composed",
    "C160_two_variables_refuted"
   ],
   "note": "Proved for vectors made of one block per field; slices are sized by fields, so with two variables of one field the DOFs of the second are zeroed."
  },
  {
   "property": "C161",
   "status": "partial",
   "theorems": [
    "C161_facet_neighbours",
    "C161_periodic_pair",
    "C161_cache",
    "C161_mutual",
    "C161_three_cells_refuted",
    "C161_cache_refuted"
   ],
   "note": "Proved for meshes with at most two cells per facet and one periodic condition at a time; classical (nodal) periodic conditions are not modelled. Refuted: facets of three cells, changed periodic conditions (the cache is keyed by the region name)."
  },
  {
   "property": "C162",
   "status": "proved",
   "theorems": [
    "C162_residual_is_flux",
    "C162_upwind_central",
    "C162_consistent"
   ],
   "note": "For all field geometries with unit normals; line_meets shows all 1D meshes qualify."
  },
  {
   "property": "C163",
   "status": "partial",
   "theorems": [
    "C163_matrix_residual",
    "C163_linear",
    "C163_prescribed_inner_refuted"
   ],
   "note": "Proved for data prescribed at sides without neighbour; refuted for sides with a neighbour."
  },
  {
   "property": "C164",
   "status": "partial",
   "theorems": [
    "C164_conservation",
    "C164_periodic",
    "C164_variable_velocity_refuted"
   ],
   "note": "Proved for velocities equal in facing cells; refuted otherwise."
  },
  {
   "property": "C165",
   "status": "proved",
   "theorems": [
    "C165_energy",
    "C165_dissipative"
   ],
   "note": "For velocities equal in facing cells and no inflow data."
  },
  {
   "property": "C166",
   "status": "partial",
   "theorems": [
    "C166_matrix_avg_state",
    "C166_matrix_avg_virtual",
    "C166_transposed",
    "C166_diagonal_flux",
    "C166_reference_gradient",
    "C166_discontinuous_refuted",
    "C166_full_tensor_refuted",
    "C166_physical_gradient_refuted"
   ],
   "note": "Matrices always; transposes for equal tensors in facing cells; flux for diagonal tensors. Refuted: discontinuous tensors, full tensors, and the gradients, which are those of the reference cell."
  },
  {
   "property": "C167",
   "status": "partial",
   "theorems": [
    "C167_matrix_residual",
    "C167_form",
    "C167_symmetric",
    "C167_controls_jumps",
    "C167_order_zero_refuted"
   ],
   "note": "Refuted for order 0, where the penalty vanishes."
  },
  {
   "property": "C168",
   "status": "partial",
   "theorems": [
    "C168_residual_is_flux",
    "C168_consistent",
    "C168_conservation",
    "C168_linear",
    "C168_wave_speed",
    "C168_wave_speed_refuted"
   ],
   "note": "The wave speed bound is proved for monotone n.f and refuted in general."
  },
  {
   "property": "C169",
   "status": "proved",
   "theorems": [
    "C169_legendre"
   ],
   "note": "Real arithmetic; scipy.special.comb and eval_jacobi are their mathematical functions."
  },
  {
   "property": "C170",
   "status": "proved",
   "theorems": [
    "C170_derivatives",
    "C170_tensor_gradient"
   ],
   "note": "Real arithmetic; the derivative of scipy.special.jacobi is the termwise derivative."
  },
  {
   "property": "C171",
   "status": "proved",
   "theorems": [
    "C171_tensor_orthogonal",
    "C171_simplex_orthogonal"
   ],
   "note": "Iterated Riemann integrals; triangles and cubes (the tetrahedral basis raises TypeError: eval_jacobi is called with five arguments)."
  },
  {
   "property": "C172",
   "status": "proved",
   "theorems": [
    "C172_simplex_gradient",
    "C172_interior"
   ],
   "note": "Real arithmetic; 2D."
  },
  {
   "property": "C173",
   "status": "partial",
   "theorems": [
    "C173_tensor_scheme",
    "C173_simplex_scheme",
    "C173_hexahedra_refuted",
    "C173_high_order_refuted"
   ],
   "note": "Proved for quadrangles of all orders and triangles up to order 5; hexahedra and triangles of order above 5 have no scheme (the constructors raise IndexError and IOError)."
  },
  {
   "property": "C174",
   "status": "proved",
   "theorems": [
    "C174_tensor_projection",
    "C174_simplex_projection",
    "C174_constant"
   ],
   "note": "Real arithmetic; the exactness of the rule on products is a hypothesis (the default rule has order 2 * approx_order)."
  },
  {
   "property": "C175",
   "status": "partial",
   "theorems": [
    "C175_scipy_solves_current_matrix",
    "C175_cholesky_solves_current_matrix",
    "C175_mumps_solves_current_matrix_partial",
    "C175_no_digest_after_clear",
    "C175_other_format_refuted",
    "C175_digest_switch_refuted",
    "C175_mumps_failed_factorization_refuted",
    "C175_mumpspy_symmetry_flag_refuted"
   ],
   "note": "Proved for CSR matrices with the digest; refuted for other formats in between (stale factorization), for switching the digest on (TypeError), and for MUMPS after a failed factorization / with the flag of mumpspy."
  },
  {
   "property": "C176",
   "status": "proved",
   "theorems": [
    "C176_all_bytes_hashed",
    "C176_bytes_determine_matrix",
    "C176_item_type_refuted"
   ],
   "note": "Full; the item type is not hashed (refuted across item types)."
  },
  {
   "property": "C177",
   "status": "partial",
   "theorems": [
    "C177_symmetric_recognized_partial",
    "C177_symmetric_answer_sound_partial",
    "C177_counts_differ",
    "C177_diagonal_refuted",
    "C177_pattern_refuted"
   ],
   "note": "Proved for symmetric patterns; diagonal matrices raise ValueError and the positions of the entries are not compared (both refuted)."
  },
  {
   "property": "C178",
   "status": "proved",
   "theorems": [
    "C178_time_dependent_current",
    "C178_force_current",
    "C178_update_mode",
    "C178_values_in_points",
    "C178_single_value_everywhere",
    "C178_incompatible_shape"
   ],
   "note": "For functions of time and points (not of the term)."
  },
  {
   "property": "C179",
   "status": "proved",
   "theorems": [
    "C179_stationary_evaluated_once",
    "C179_stationary_values",
    "C179_constants_always"
   ],
   "note": "Full."
  },
  {
   "property": "C180",
   "status": "partial",
   "theorems": [
    "C180_recovers_partial",
    "C180_stationary_refuted",
    "C180_term_dependent_refuted",
    "C180_special_names_refuted",
    "C180_dict_of_names_refuted"
   ],
   "note": "Time-dependent materials recover; stationary ones silently give None, special names go stale, dict requests always raise (refuted)."
  },
  {
   "property": "C181",
   "status": "proved",
   "theorems": [
    "C181_value_by_region",
    "C181_region_value_unique",
    "C181_uncovered_cell_refuted",
    "C181_overlap_refuted"
   ],
   "note": "Full; cells outside all regions get zero and the dict order decides overlaps (refuted as surprises)."
  },
  {
   "property": "C182",
   "status": "proved",
   "theorems": [
    "C182_residual_zero",
    "C182_residual_small"
   ],
   "note": "Full, for both modes."
  },
  {
   "property": "C183",
   "status": "partial",
   "theorems": [
    "C183_inactive_rows",
    "C183_single_active",
    "C183_brute_force_rows",
    "C183_two_active_refuted",
    "C183_brute_force_refuted"
   ],
   "note": "Proved for indices that are not active and for one active index; refuted: two active indices leave the generalized gradient, in the brute force mode the rows belong to the other function."
  },
  {
   "property": "C184",
   "status": "proved",
   "theorems": [
    "C184_status",
    "C184_converged_solves",
    "C184_terminates",
    "C184_one_step"
   ],
   "note": "Full."
  },
  {
   "property": "C185",
   "status": "partial",
   "theorems": [
    "C185_restored_partial",
    "C185_not_restored",
    "C185_step",
    "C185_restored_direction_refuted"
   ],
   "note": "The state and error are restored, but the residual vector is that of the rejected trial, so the steepest descent direction may be an ascent direction (refuted by an example with an exact Jacobian)."
  },
  {
   "property": "C186",
   "status": "partial",
   "theorems": [
    "C186_flag",
    "C186_terminates",
    "C186_zero_gradient_refuted",
    "C186_status_entry_refuted"
   ],
   "note": "The flag is true of the returned vector and the call finishes; refuted: an exactly zero gradient is not recognized, status[status] is the dict itself."
  },
  {
   "property": "C187",
   "status": "partial",
   "theorems": [
    "C187_step",
    "C187_smooth_step",
    "C187_monotone",
    "C187_negative_objective_refuted",
    "C187_untested_step_refuted"
   ],
   "note": "Monotone for Lipschitz gradients with ls_on = 1; refuted: a negative objective may grow by an accepted step, and after a failed line search an untested point is used. The method full (SciPy line search) is not modelled."
  },
  {
   "property": "C188",
   "status": "partial",
   "theorems": [
    "C188_values",
    "C188_declared",
    "C188_common",
    "C188_required",
    "C188_required_keyword_refuted"
   ],
   "note": "Full for options in the configuration; a required option given by a keyword argument only is rejected (refuted)."
  },
  {
   "property": "C189",
   "status": "partial",
   "theorems": [
    "C189_solver_kwargs",
    "C189_extra_options_passed",
    "C189_extra_keyword_refuted"
   ],
   "note": "Full for options in the configuration; extra options given by keyword arguments are lost (refuted)."
  },
  {
   "property": "C190",
   "status": "partial",
   "theorems": [
    "C190_merge",
    "C190_first_available",
    "C190_none_available",
    "C190_given_options",
    "C190_auto_options",
    "C190_fallback_chain",
    "C190_choice",
    "C190_cycle_ends",
    "C190_user_option_refuted",
    "C190_caller_dict_refuted",
    "C190_associative_refuted"
   ],
   "note": "The first available solver is used with the right options, but the fixed options of the automatic solvers cannot be changed by the user, and the dict of the caller is modified (refuted)."
  },
  {
   "property": "C191",
   "status": "partial",
   "theorems": [
    "C191_names",
    "C191_lookup",
    "C191_has_key",
    "C191_get",
    "C191_shared_list_refuted"
   ],
   "note": "Proved for all operations of the container; refuted if the caller changes the list given to the constructor."
  },
  {
   "property": "C192",
   "status": "partial",
   "theorems": [
    "C192_set",
    "C192_remove",
    "C192_as_dict",
    "C192_sums",
    "C192_other_name_refuted",
    "C192_duplicates_refuted"
   ],
   "note": "A mapping if names are used consistently; refuted for objects stored under another name and for appended duplicates."
  },
  {
   "property": "C193",
   "status": "partial",
   "theorems": [
    "C193_recursion_complete",
    "C193_override",
    "C193_kept",
    "C193_none_partial",
    "C193_nested_none_refuted",
    "C193_tuple_override_refuted",
    "C193_tuple_cut_refuted",
    "C193_tuple_dict_refuted"
   ],
   "note": "Full for nested dictionaries without tuples; refuted: values in tuples are ignored (the original ones win) and tuples may be cut; overwrite_by_none is not passed to nested dictionaries."
  },
  {
   "property": "C194",
   "status": "partial",
   "theorems": [
    "C194_nothing_lost",
    "C194_keys_distinct",
    "C194_short_only",
    "C194_same_name_refuted",
    "C194_suffix_clash_refuted"
   ],
   "note": "Full if no two long entries share a name and no long name looks like a generated key; otherwise entries are lost silently (refuted)."
  },
  {
   "property": "C195",
   "status": "partial",
   "theorems": [
    "C195_positions",
    "C195_field_dtype",
    "C195_plain",
    "C195_variable",
    "C195_lcbc_partial",
    "C195_lcbc_short",
    "C195_lcbc_kind_refuted",
    "C195_solver",
    "C195_solver_name_refuted",
    "C195_integral_stale_refuted",
    "C195_surplus_refuted",
    "C195_missing_refuted"
   ],
   "note": "The documented tuples give the documented attributes; malformed tuples are accepted: conditions without kind or dofs, integrals that copy the previous one (refuted)."
  },
  {
   "property": "C196",
   "status": "partial",
   "theorems": [
    "C196_validate",
    "C196_complete_accepted",
    "C196_begins_like_keyword_refuted"
   ],
   "note": "Complete descriptions are accepted and only ValueError is raised; attributes that only begin like a keyword are taken for it (refuted)."
  },
  {
   "property": "C197",
   "status": "partial",
   "theorems": [
    "C197_numbered",
    "C197_removed",
    "C197_kept",
    "C197_grouped",
    "C197_unrelated_refuted"
   ],
   "note": "Full for groups that are dictionaries; any attribute of the form name_digit... is taken away and may replace an unrelated attribute (refuted)."
  },
  {
   "property": "C198",
   "status": "partial",
   "theorems": [
    "C198_grouped",
    "C198_gradient",
    "C198_grad_name_refuted",
    "C198_canonize_list",
    "C198_canonize_all",
    "C198_canonize_one",
    "C198_canonize_dots"
   ],
   "note": "Full for names without grad; the conditions of a variable with grad in its name are lost (refuted)."
  },
  {
   "property": "C199",
   "status": "partial",
   "theorems": [
    "C199_update",
    "C199_update_items",
    "C199_add_missing",
    "C199_add_items",
    "C199_same_name_refuted"
   ],
   "note": "By attributes and keys; since keys contain positions, items with the same name are defined twice (refuted)."
  },
  {
   "property": "C200",
   "status": "partial",
   "theorems": [
    "C200_order",
    "C200_string",
    "C200_custom",
    "C200_custom_name_refuted",
    "C200_negative_refuted"
   ],
   "note": "Full for containers without user integrals named __o<n>; custom names that do not begin by i cannot be found, negative orders are accepted (refuted)."
  },
  {
   "property": "C201",
   "status": "proved",
   "theorems": [
    "C201_line_fixed"
   ],
   "note": "Full over the reals, in any dimension."
  },
  {
   "property": "C202",
   "status": "proved",
   "theorems": [
    "C202_line_adaptive",
    "C202_line_ends"
   ],
   "note": "Full over the reals; the element diameter is an arbitrary function of the point (bounded from below by a positive number for the termination); the search for elements is not modelled."
  },
  {
   "property": "C203",
   "status": "partial",
   "theorems": [
    "C203_circle",
    "C203_circle_fixed",
    "C203_circle_adaptive",
    "C203_circle_ends",
    "C203_size_hint_refuted",
    "C203_near_axis_refuted"
   ],
   "note": "Full for normals parallel to the z axis or at least about 6 degrees off it and without a size hint; other normals are ignored and a size hint makes adaptive circle probes fail with NameError (refuted)."
  },
  {
   "property": "C204",
   "status": "partial",
   "theorems": [
    "C204_ray",
    "C204_points",
    "C204_report",
    "C204_circle_plane",
    "C204_ray_twice_refuted",
    "C204_single_point_refuted",
    "C204_report_refuted"
   ],
   "note": "Points and parameters are right, but the start is probed twice in both directions if the distribution starts at 0, a single point has two parameters and a one-point ray reports two points (refuted)."
  },
  {
   "property": "C205",
   "status": "proved",
   "theorems": [
    "C205_membrane_residual"
   ],
   "note": "Full in each quadrature point in the local coordinates of the element, over the reals, for a deformed area different from 0; thickness, weights and the transformation to global coordinates are left out."
  },
  {
   "property": "C206",
   "status": "proved",
   "theorems": [
    "C206_membrane_tangent",
    "C206_membrane_symmetric"
   ],
   "note": "Full in each quadrature point in the local coordinates of the element, over the reals, for a deformed area different from 0."
  },
  {
   "property": "C207",
   "status": "proved",
   "theorems": [
    "C207_membrane_strain"
   ],
   "note": "Full in each quadrature point for a deformed area different from 0."
  },
  {
   "property": "C208",
   "status": "proved",
   "theorems": [
    "C208_face_basis"
   ],
   "note": "Full over the reals for one face; the loops over faces and nodes are not modelled."
  },
  {
   "property": "C209",
   "status": "partial",
   "theorems": [
    "C209_plane",
    "C209_sphere",
    "C209_mask",
    "C209_derivatives",
    "C209_plane_coords",
    "C209_centre_refuted",
    "C209_centre_normal_refuted"
   ],
   "note": "Full for points farther than 1e-8 from the centre of the sphere; with a point at the centre get_distance fails or gives it the vector of another point (refuted). The 2D coordinates of ContactPlane.mask_points are treated for normals not parallel to the third axis."
  },
  {
   "property": "C210",
   "status": "partial",
   "theorems": [
    "C210_exp_integral",
    "C210_exp_derivative",
    "C210_forward",
    "C210_trapezoid",
    "C210_slopes",
    "C210_decay",
    "C210_last_slope_refuted"
   ],
   "note": "Integrals and derivatives are exact as stated; the derivative at the last time is always 0 (refuted); the least squares fit of the exponential is not modelled."
  },
  {
   "property": "C211",
   "status": "partial",
   "theorems": [
    "C211_slice",
    "C211_success",
    "C211_errors",
    "C211_values",
    "C211_block",
    "C211_insert_replaces_refuted"
   ],
   "note": "Full for success, errors and values; the items are added to the old values instead of replacing them (refuted). The partial effect before a failing item is not modelled."
  },
  {
   "property": "C212",
   "status": "proved",
   "theorems": [
    "C212_max",
    "C212_dense",
    "C212_spectral"
   ],
   "note": "Full for real CSR matrices in exact arithmetic; the other formats (same formula) are not modelled."
  },
  {
   "property": "C213",
   "status": "partial",
   "theorems": [
    "C213_residual",
    "C213_stop",
    "C213_count_refuted",
    "C213_lanczos",
    "C213_ritz"
   ],
   "note": "Residuals and stopping for all preconditioners; the tridiagonal matrix without a preconditioner; the number of iterations is one too small (refuted). eigvals_banded is not modelled; exact real arithmetic."
  }
 ]
}
{
 "claims": [
  {
   "property": "C01",
   "status": "proved",
   "theorems": [
    "C01_exact_updates",
    "C01_stage_order"
   ],
   "note": ""
  },
  {
   "property": "C02",
   "status": "proved",
   "theorems": [
    "C02_remote_data",
    "C02_neighbour_data"
   ],
   "note": ""
  },
  {
   "property": "C03",
   "status": "proved",
   "theorems": [
    "C03_no_abort_ranks",
    "C03_no_abort",
    "C03_never_stuck"
   ],
   "note": ""
  },
  {
   "property": "C04",
   "status": "proved",
   "theorems": [
    "C04_fair_termination"
   ],
   "note": ""
  },
  {
   "property": "C05",
   "status": "proved",
   "theorems": [
    "C05_stable_time_step"
   ],
   "note": ""
  },
  {
   "property": "C06",
   "status": "proved",
   "theorems": [
    "C06_buffers_untouched",
    "C06_send_buffer_stable",
    "C06_requests"
   ],
   "note": ""
  },
  {
   "property": "C07",
   "status": "proved",
   "theorems": [
    "C07_exact_updates",
    "C07_stage_order",
    "C07_neighbour_data",
    "C07_no_abort",
    "C07_never_stuck",
    "C07_stable_time_step"
   ],
   "note": ""
  },
  {
   "property": "C08",
   "status": "proved",
   "theorems": [
    "C08_result",
    "C08_alternation",
    "C08_inputs_stable",
    "C08_no_abort"
   ],
   "note": ""
  },
  {
   "property": "C09",
   "status": "proved",
   "theorems": [
    "C09_advance_exactly",
    "C09_same_time"
   ],
   "note": ""
  },
  {
   "property": "C10",
   "status": "proved",
   "theorems": [
    "C10_packages_partition",
    "C10_balancing_succeeds",
    "C10_even_start"
   ],
   "note": ""
  },
  {
   "property": "C11",
   "status": "proved",
   "theorems": [
    "C11_package_sparse_start"
   ],
   "note": ""
  },
  {
   "property": "C12",
   "status": "proved",
   "theorems": [
    "C12_best_ready",
    "C12_none_iff_none_ready"
   ],
   "note": ""
  },
  {
   "property": "C13",
   "status": "proved",
   "theorems": [
    "C13_ranges_partition",
    "C13_all_zeroed",
    "C13_time_groups_zeroed"
   ],
   "note": ""
  },
  {
   "property": "C14",
   "status": "proved",
   "theorems": [
    "C14_setup_succeeds",
    "C14_send_slots",
    "C14_recv_slots"
   ],
   "note": ""
  },
  {
   "property": "C15",
   "status": "proved",
   "theorems": [
    "C15_message_counts",
    "C15_send_matches_recv",
    "C15_tags_unique",
    "C15_sync_data"
   ],
   "note": ""
  },
  {
   "property": "C16",
   "status": "proved",
   "theorems": [
    "C16_unique_owner"
   ],
   "note": ""
  },
  {
   "property": "C17",
   "status": "partial",
   "theorems": [
    "C17_one_buffer",
    "C17_two_buffers_notified",
    "C17_two_buffers_refuted",
    "C17_two_buffers_mod_4"
   ],
   "note": "Proved for one communication buffer (MPI). For two buffers (GASPI) the code violates it: C17_two_buffers_refuted gives the witness (src/impl/seismic/steps.inc:57 uses (u/2)%2); C17_two_buffers_mod_4 shows that the pointers set up would be right with index u%4."
  },
  {
   "property": "C18",
   "status": "proved",
   "theorems": [
    "C18_nSp_counts",
    "C18_linkSpDe_bijection",
    "C18_linkSpSp"
   ],
   "note": ""
  },
  {
   "property": "C19",
   "status": "proved",
   "theorems": [
    "C19_denseToSparse",
    "C19_subRgnsSpId"
   ],
   "note": ""
  },
  {
   "property": "C20",
   "status": "partial",
   "theorems": [
    "C20_linkSpAdjDst",
    "C20_linkSpAdjSst_partial",
    "C20_linkSpAdjSst_unset_refuted",
    "C20_linkSpAdjDst_variable"
   ],
   "note": "C20_linkSpAdjSst_partial: sparse-to-sparse links are right if every adjacency is defined; C20_linkSpAdjSst_unset_refuted: slots of undefined adjacencies stay unwritten in the code (finding 4)."
  },
  {
   "property": "C21",
   "status": "proved",
   "theorems": [
    "C21_inherit",
    "C21_propAdj_flat",
    "C21_propAdj_variable"
   ],
   "note": ""
  },
  {
   "property": "C22",
   "status": "proved",
   "theorems": [
    "C22_flex",
    "C22_adjacency_data"
   ],
   "note": ""
  },
  {
   "property": "C23",
   "status": "proved",
   "theorems": [
    "C23_layout_partitions",
    "C23_element_layout"
   ],
   "note": ""
  },
  {
   "property": "C24",
   "status": "proved",
   "theorems": [
    "C24_relations",
    "C24_rejects"
   ],
   "note": ""
  },
  {
   "property": "C25",
   "status": "proved",
   "theorems": [
    "C25_normalize",
    "C25_renumbering",
    "C25_count_refuted"
   ],
   "note": ""
  },
  {
   "property": "C26",
   "status": "proved",
   "theorems": [
    "C26_assignment",
    "C26_time_groups",
    "C26_rejects",
    "C26_cfl"
   ],
   "note": ""
  },
  {
   "property": "C27",
   "status": "proved",
   "theorems": [
    "C27_priorities",
    "C27_layout",
    "C27_contiguous",
    "C27_counts"
   ],
   "note": ""
  },
  {
   "property": "C28",
   "status": "proved",
   "theorems": [
    "C28_isolated_partition_refuted",
    "C28_each_face_once"
   ],
   "note": "C28_isolated_partition_refuted: the preprocessor aborts for a mesh with a partition without neighbours between two communicating ones."
  },
  {
   "property": "C29",
   "status": "proved",
   "theorems": [
    "C29_encoding",
    "C29_same_order"
   ],
   "note": ""
  },
  {
   "property": "C30",
   "status": "proved",
   "theorems": [
    "C30_counts"
   ],
   "note": ""
  },
  {
   "property": "C31",
   "status": "partial",
   "theorems": [
    "C31_graph",
    "C31_weights_partial",
    "C31_weights_refuted"
   ],
   "note": "C31_weights_partial: the weights of an element's edges are a permutation of the right ones, and the right ones if its neighbours come in increasing order; C31_weights_refuted: the code returns them in the order of the faces, the graph is sorted (finding 5)."
  },
  {
   "property": "C32",
   "status": "proved",
   "theorems": [
    "C32_connectivity"
   ],
   "note": ""
  },
  {
   "property": "C33",
   "status": "proved",
   "theorems": [
    "C33_local_order"
   ],
   "note": ""
  },
  {
   "property": "C34",
   "status": "proved",
   "theorems": [
    "C34_face_ids",
    "C34_simplex_face_ids",
    "C34_vertex_ids",
    "C34_two_shared_refuted"
   ],
   "note": "C34_two_shared_refuted: in a periodic mesh whose elements share two faces the returned local face can be the wrong one."
  },
  {
   "property": "C35",
   "status": "proved",
   "theorems": [
    "C35_det",
    "C35_det_dimensions",
    "C35_inv"
   ],
   "note": ""
  },
  {
   "property": "C36",
   "status": "proved",
   "theorems": [
    "C36_transpose_dense",
    "C36_dense_to_crd",
    "C36_transpose_crd",
    "C36_crd_to_csr",
    "C36_crd_to_csc",
    "C36_dense_to_csr",
    "C36_fill_in",
    "C36_dense_to_csc",
    "C36_block"
   ],
   "note": ""
  },
  {
   "property": "C37",
   "status": "proved",
   "theorems": [
    "C37_fused_AC",
    "C37_fused_BC",
    "C37_matmul",
    "C37_simulations_AC",
    "C37_simulations_BC",
    "C37_exact",
    "C37_kernel_groups"
   ],
   "note": ""
  },
  {
   "property": "C38",
   "status": "partial",
   "theorems": [
    "C38_integral_partial",
    "C38_coarse_steps",
    "C38_fine_steps_refuted",
    "C38_all_steps"
   ],
   "note": "Exact whenever the interval contains a sampling point or lies outside of the series, in particular for all steps which are at least as long as the sampling distance (C38_coarse_steps, C38_all_steps). For two ends strictly between the same two samples the code is wrong: C38_fine_steps_refuted."
  },
  {
   "property": "C39",
   "status": "proved",
   "theorems": [
    "C39_trace",
    "C39_complete",
    "C39_no_overflow"
   ],
   "note": ""
  },
  {
   "property": "C40",
   "status": "proved",
   "theorems": [
    "C40_sampling",
    "C40_terminates",
    "C40_stuck_refuted"
   ],
   "note": ""
  },
  {
   "property": "C41",
   "status": "proved",
   "theorems": [
    "C41_registered",
    "C41_entities",
    "C41_flags"
   ],
   "note": ""
  },
  {
   "property": "C42",
   "status": "proved",
   "theorems": [
    "C42_vertex",
    "C42_face",
    "C42_order",
    "C42_fused"
   ],
   "note": ""
  },
  {
   "property": "C43",
   "status": "proved",
   "theorems": [
    "C43_mapping",
    "C43_permutations"
   ],
   "note": ""
  },
  {
   "property": "C44",
   "status": "proved",
   "theorems": [
    "C44_dynamic_released"
   ],
   "note": ""
  },
  {
   "property": "C45",
   "status": "proved",
   "theorems": [
    "C45_lookup",
    "C45_reorder",
    "C45_vertices",
    "C45_coordinates"
   ],
   "note": ""
  },
  {
   "property": "C46",
   "status": "proved",
   "theorems": [
    "C46_conservation",
    "C46_rest",
    "C46_mirror",
    "C46_wall",
    "C46_reals"
   ],
   "note": ""
  },
  {
   "property": "C47",
   "status": "proved",
   "theorems": [
    "C47_time_buffers"
   ],
   "note": ""
  },
  {
   "property": "C48",
   "status": "proved",
   "theorems": [
    "C48_domain_types",
    "C48_convex"
   ],
   "note": ""
  },
  {
   "property": "C49",
   "status": "proved",
   "theorems": [
    "C49_mesh_parts",
    "C49_groups",
    "C49_two_sides",
    "C49_ranks_communicate"
   ],
   "note": ""
  },
  {
   "property": "C50",
   "status": "proved",
   "theorems": [
    "C50_life_cycle"
   ],
   "note": ""
  },
  {
   "property": "C51",
   "status": "proved",
   "theorems": [
    "C51_periodic"
   ],
   "note": ""
  },
  {
   "property": "C52",
   "status": "proved",
   "theorems": [
    "C52_closest"
   ],
   "note": ""
  },
  {
   "property": "C53",
   "status": "proved",
   "theorems": [
    "C53_apply",
    "C53_step"
   ],
   "note": ""
  },
  {
   "property": "C54",
   "status": "proved",
   "theorems": [
    "C54_extrema",
    "C54_replace",
    "C54_surface"
   ],
   "note": ""
  },
  {
   "property": "C55",
   "status": "proved",
   "theorems": [
    "C55_admissibility",
    "C55_extrema",
    "C55_counters"
   ],
   "note": ""
  },
  {
   "property": "C56",
   "status": "proved",
   "theorems": [
    "C56_subgrid"
   ],
   "note": ""
  },
  {
   "property": "C57",
   "status": "proved",
   "theorems": [
    "C57_water",
    "C57_dry",
    "C57_reals"
   ],
   "note": ""
  },
  {
   "property": "C58",
   "status": "proved",
   "theorems": [
    "C58_rest"
   ],
   "note": ""
  },
  {
   "property": "C59",
   "status": "proved",
   "theorems": [
    "C59_ref_phy_ref",
    "C59_phy_ref_phy",
    "C59_reject",
    "C59_vertices",
    "C59_jacobian",
    "C59_faces"
   ],
   "note": ""
  },
  {
   "property": "C60",
   "status": "proved",
   "theorems": [
    "C60_coincide",
    "C60_line"
   ],
   "note": ""
  },
  {
   "property": "C61",
   "status": "proved",
   "theorems": [
    "C61_steps",
    "C61_post",
    "C61_end"
   ],
   "note": ""
  },
  {
   "property": "C62",
   "status": "proved",
   "theorems": [
    "C62_frames",
    "C62_sides"
   ],
   "note": ""
  },
  {
   "property": "C63",
   "status": "proved",
   "theorems": [
    "C63_volumes"
   ],
   "note": ""
  },
  {
   "property": "C64",
   "status": "proved",
   "theorems": [
    "C64_order"
   ],
   "note": ""
  },
  {
   "property": "C65",
   "status": "proved",
   "theorems": [
    "C65_inscribed"
   ],
   "note": ""
  },
  {
   "property": "C66",
   "status": "proved",
   "theorems": [
    "C66_star2",
    "C66_star3",
    "C66_anelastic2",
    "C66_anelastic3",
    "C66_sparse",
    "C66_sparse_anelastic"
   ],
   "note": ""
  },
  {
   "property": "C67",
   "status": "proved",
   "theorems": [
    "C67_frame3",
    "C67_skewed3",
    "C67_frame2"
   ],
   "note": ""
  },
  {
   "property": "C68",
   "status": "proved",
   "theorems": [
    "C68_wellposed",
    "C68_wellposed_surface",
    "C68_interface3",
    "C68_interface2",
    "C68_surface3",
    "C68_surface2",
    "C68_fluids2",
    "C68_fluid_surface2",
    "C68_mixed2"
   ],
   "note": ""
  },
  {
   "property": "C69",
   "status": "proved",
   "theorems": [
    "C69_interface3",
    "C69_interface2",
    "C69_boundary3",
    "C69_boundary2",
    "C69_energy"
   ],
   "note": ""
  },
  {
   "property": "C70",
   "status": "proved",
   "theorems": [
    "C70_interface3",
    "C70_interface2",
    "C70_surface3",
    "C70_surface2"
   ],
   "note": ""
  },
  {
   "property": "C71",
   "status": "proved",
   "theorems": [
    "C71_rotation",
    "C71_frame",
    "C71_interface3",
    "C71_interface2",
    "C71_selection",
    "C71_init3",
    "C71_init2"
   ],
   "note": ""
  },
  {
   "property": "C72",
   "status": "partial",
   "theorems": [
    "C72_wellposed",
    "C72_dissipates",
    "C72_locked",
    "C72_friction3",
    "C72_friction2_partial",
    "C72_friction2_refuted"
   ],
   "note": "Three dimensions: proved without restriction. Two dimensions: C72_friction2_partial assumes that the shear traction has the sign of the background stress whenever the fault slides; without it the code is wrong (C72_friction2_refuted)."
  },
  {
   "property": "C73",
   "status": "proved",
   "theorems": [
    "C73_weakening",
    "C73_data_refuted"
   ],
   "note": "C73_data_refuted: with fault data instead of domains the friction coefficient of the first step is not the static one."
  },
  {
   "property": "C74",
   "status": "proved",
   "theorems": [
    "C74_derivatives",
    "C74_fused",
    "C74_relaxation_sign_refuted"
   ],
   "note": "Powers of the element's operator for all configurations; consistency of the relaxation term with the volume integration is refuted (finding 32)."
  },
  {
   "property": "C75",
   "status": "proved",
   "theorems": [
    "C75_integrate",
    "C75_eval",
    "C75_eval_attenuation_refuted",
    "C75_prediction",
    "C75_prediction_exact"
   ],
   "note": "Taylor polynomial, differential equation and antiderivative over the reals; with attenuation the evaluation is refuted (finding 33)."
  },
  {
   "property": "C76",
   "status": "proved",
   "theorems": [
    "C76_volume",
    "C76_surface_local",
    "C76_surface_neigh",
    "C76_sent_data"
   ],
   "note": "Values of all entries after the volume, local and neighbouring surface integration."
  },
  {
   "property": "C77",
   "status": "proved",
   "theorems": [
    "C77_local_step",
    "C77_neighbouring_step",
    "C77_scheme_exists",
    "C77_schedule",
    "C77_same_result"
   ],
   "note": "values of local and neigh, invariant over all admissible schedules of steps and messages; exact arithmetic; workers of one group are sequential, messages are copies, in order per face"
  },
  {
   "property": "C78",
   "status": "proved",
   "theorems": [
    "C78_no_error",
    "C78_interval",
    "C78_fair",
    "C78_simulation"
   ],
   "note": "composition of the scheduler, worker and MPI model with the values of local and neigh; package work is atomic; no sources or rupture; exact arithmetic"
  },
  {
   "property": "C79",
   "status": "proved",
   "theorems": [
    "C79_balance",
    "C79_closed",
    "C79_simulation",
    "C79_momentum",
    "C79_momentum_outflow"
   ],
   "note": "the conditions on the matrices of the reference element (constant mode, mean value at faces) are hypotheses; no sources or rupture; exact arithmetic"
  },
  {
   "property": "C80",
   "status": "proved",
   "theorems": [
    "C80_solvers",
    "C80_exact",
    "C80_momentum"
   ],
   "note": "solids; determinants of the Jacobians are inputs; a periodic face known to the right element alone is excluded (finding 34)"
  },
  {
   "property": "C81",
   "status": "proved",
   "theorems": [
    "C81_time_prediction",
    "C81_volume",
    "C81_surface_local",
    "C81_sent_data",
    "C81_surface_neigh"
   ],
   "note": ""
  },
  {
   "property": "C82",
   "status": "proved",
   "theorems": [
    "C82_sparse_data",
    "C82_time_prediction",
    "C82_volume",
    "C82_surface_local",
    "C82_sent_data",
    "C82_surface_neigh",
    "C82_volume_quads_refuted"
   ],
   "note": "For every library with the sparse products of XsmmSpec. C82_volume is for targets without the KNM fill-in; with attenuation it needs colOrder (triangles and tetrahedra), C82_volume_quads_refuted shows that quadrilaterals fail (finding 35). Surface kernels with attenuation need a library which ignores k for compressed rows (finding 36)."
  },
  {
   "property": "C83",
   "status": "proved",
   "theorems": [
    "C83_value",
    "C83_derivative",
    "C83_low_orders",
    "C83_singular_refuted",
    "C83_edge_pre",
    "C83_reconstruction",
    "C83_line_derivative_refuted"
   ],
   "note": "Values and derivatives for all generated expressions at all regular points. C83_singular_refuted: reconstruction at the vertex (0,1) of triangles and along an edge of tetrahedra is not a number for orders >= 4 (finding 40). C83_line_derivative_refuted: for lines derivative 0 is the value (finding 41)."
  },
  {
   "property": "C84",
   "status": "proved",
   "theorems": [
    "C84_derivative",
    "C84_volume",
    "C84_surface",
    "C84_neighbour",
    "C84_mass",
    "C84_defined",
    "C84_points",
    "C84_shared",
    "C84_load",
    "C84_lowers",
    "C84_operator",
    "C84_pde",
    "C84_volume_kernel",
    "C84_surface_local",
    "C84_surface_neigh",
    "C84_reference",
    "C84_momentum"
   ],
   "note": "Exact arithmetic; EDGEpre integrates symbolically (its numerical fallback for long expressions is not modelled). C84_pde needs triangles or tetrahedra and no attenuation; C84_operator holds for all element types."
  },
  {
   "property": "C85",
   "status": "proved",
   "theorems": [
    "C85_files",
    "C85_watertight",
    "C85_tiles",
    "C85_outward",
    "C85_room_refuted",
    "C85_height_refuted",
    "C85_tolerance_refuted"
   ],
   "note": "Exact coordinates; the text format of the files is not modelled besides an arbitrary function of the points in C85_watertight. The refuted theorems show that the hypotheses on the size, the height and the exactness of the grid, which the program does not check, are needed."
  },
  {
   "property": "C86",
   "status": "partial",
   "theorems": [
    "C86_rows_partial",
    "C86_rows_refuted"
   ],
   "note": "Proved for the x-direction with all levels and for the y-direction without coarsening; C86_rows_refuted shows that the program violates it for the y-direction with coarsening."
  },
  {
   "property": "C87",
   "status": "proved",
   "theorems": [
    "C87_accepted",
    "C87_end",
    "C87_snapshots",
    "C87_no_snapshot",
    "C87_groups",
    "C87_whole_interval_refuted"
   ],
   "note": "Exact arithmetic. The statement about the numbers of the files is for intervals shorter than the end time; C87_whole_interval_refuted shows that the program violates it for an interval equal to the end time."
  },
  {
   "property": "C88",
   "status": "proved",
   "theorems": [
    "C88_content",
    "C88_files",
    "C88_plain_name",
    "C88_names",
    "C88_directories",
    "C88_double_slash_refuted",
    "C88_backslash_refuted",
    "C88_no_type_refuted",
    "C88_average"
   ],
   "note": "Mode 0 is shown to be the average (C88_average). The refuted theorems show the limits of the directories (empty components, backslashes) and that unknown types are written as well."
  },
  {
   "property": "C89",
   "status": "proved",
   "theorems": [
    "C89_exact",
    "C89_volume",
    "C89_inside",
    "C89_reject",
    "C89_face",
    "C89_tet_one_refuted"
   ],
   "note": "The Gauss-Legendre rule of the external library is a hypothesis (isGauss); examples for one and two points. C89_tet_one_refuted: the rule of one point for tetrahedra does not give the volume."
  },
  {
   "property": "C90",
   "status": "proved",
   "theorems": [
    "C90_vertices",
    "C90_init",
    "C90_error",
    "C90_zero",
    "C90_skipped_refuted"
   ],
   "note": "User expressions are functions of coordinates and previous quantities; the Gauss-Legendre rules are a hypothesis (isGauss). C90_skipped_refuted: expressions which leave out quantities are initialized with zero, but compared with stale values."
  },
  {
   "property": "C91",
   "status": "proved",
   "theorems": [
    "C91_normal_speed",
    "C91_upwind",
    "C91_conservative",
    "C91_upwind_state",
    "C91_star",
    "C91_time_step",
    "C91_statistics"
   ],
   "note": "Exact real arithmetic. The scaling of tetrahedra of order one contains an additional factor six (used), see C92."
  },
  {
   "property": "C92",
   "status": "proved",
   "theorems": [
    "C92_predict",
    "C92_volume",
    "C92_surface_local",
    "C92_surface_neigh",
    "C92_equation",
    "C92_transport",
    "C92_upstream",
    "C92_weak_volume",
    "C92_weak_local",
    "C92_weak_neigh",
    "C92_amount",
    "C92_amount_six",
    "C92_amount_refuted"
   ],
   "note": "Exact real arithmetic for the analytical part; any ring for the algebraic part. The amounts through faces hold except for tetrahedra of order one (C92_amount_refuted, finding 52). LINE elements are not covered (C74-C77 model the same four element types)."
  },
  {
   "property": "C93",
   "status": "proved",
   "theorems": [
    "C93_scheme_exists",
    "C93_schedule",
    "C93_again",
    "C93_same_result",
    "C93_balance",
    "C93_conserved",
    "C93_amount",
    "C93_mass"
   ],
   "note": "The messages of the pinned code never reach the solver (finding 16: null pointers in tgs_steps.inc); the statements with several partitions are about the functions local and neigh, given the buffers. Exact arithmetic. C93_amount has the factor six for tetrahedra of order one (finding 52)."
  },
  {
   "property": "C94",
   "status": "proved",
   "theorems": [
    "C94_frequencies",
    "C94_one_mechanism",
    "C94_one_mechanism_centre_refuted",
    "C94_kernel_frequencies",
    "C94_phase_velocity_P",
    "C94_phase_velocity_S",
    "C94_waves_exist",
    "C94_quality_P",
    "C94_quality_S",
    "C94_quality_one",
    "C94_plane_wave_P",
    "C94_plane_wave_S",
    "C94_all_elements",
    "C94_zero_lambda_refuted",
    "C94_partition_refuted"
   ],
   "note": "Eigen's solver is a parameter; the quality factor claims assume that it solves least squares problems (LeastSq.lsSolve is a concrete one). Real arithmetic. C94_one_mechanism_centre_refuted, C94_zero_lambda_refuted, C94_partition_refuted: findings 53-55."
  },
  {
   "property": "C95",
   "status": "proved",
   "theorems": [
    "C95_refinement",
    "C95_refinement_invalid",
    "C95_threads_refuted",
    "C95_grid",
    "C95_grid_outside",
    "C95_grid_size_refuted",
    "C95_grid_first_line_refuted",
    "C95_grid_expression",
    "C95_centroid_vertex",
    "C95_centroid_refuted",
    "C95_seismic",
    "C95_seismic_order_refuted",
    "C95_average",
    "C95_bathymetry",
    "C95_bathymetry_zero"
   ],
   "note": "Expressions are arbitrary functions on their variables; reals instead of floating point; findings 56-60 are theorems with the suffix _refuted (and C95_centroid_vertex, C95_bathymetry_zero)."
  },
  {
   "property": "C96",
   "status": "proved",
   "theorems": [
    "C96_mesh_speeds",
    "C96_mesh_accepted",
    "C96_from_mesh",
    "C96_domains",
    "C96_domains_missing",
    "C96_statistics",
    "C96_global_minimum",
    "C96_one_group",
    "C96_rate_two",
    "C96_lts_stable",
    "C96_attenuation_refuted",
    "C96_search",
    "C96_mesh_matches",
    "C96_one_group_fundamental_refuted"
   ],
   "note": "Reals and rationals instead of floating point (the search uses exact decimals); findings 62 and 63 are theorems with the suffix _refuted."
  },
  {
   "property": "C97",
   "status": "proved",
   "theorems": [
    "C97_central",
    "C97_setup",
    "C97_step",
    "C97_net_updates",
    "C97_conservation",
    "C97_face_conservation",
    "C97_uniform",
    "C97_energy",
    "C97_boundary",
    "C97_free_surface_refuted"
   ],
   "note": "Reals instead of floating point, one of the fused simulations; the additional normals of sub-faces are inputs. Finding 64 is a theorem with the suffix _refuted."
  },
  {
   "property": "C98",
   "status": "proved",
   "theorems": [
    "C98_lattice",
    "C98_tiling",
    "C98_subfaces",
    "C98_neighbour",
    "C98_grid",
    "C98_solver"
   ],
   "note": "Ids are natural numbers (-1 is None), coordinates are rationals as in the code. The symbolic integration over sub-cells is not modelled; sub-grids of other elements are not."
  },
  {
   "property": "C99",
   "status": "proved",
   "theorems": [
    "C99_scatter",
    "C99_inverse",
    "C99_conservation",
    "C99_best",
    "C99_line"
   ],
   "note": "Numbers are reals. The symbolic integral and sympy's inverse are parameters with stated contracts. That the sub-cells tile the element and that the matrix of gather is regular is proved for lines; for other elements these are hypotheses."
  },
  {
   "property": "C100",
   "status": "proved",
   "theorems": [
    "C100_vertices",
    "C100_numbering",
    "C100_tables",
    "C100_ghosts",
    "C100_ghost_order_refuted",
    "C100_maps",
    "C100_project"
   ],
   "note": "Coordinates are rationals as in the code; symbolic expressions are polynomials. The left ghost of degree zero lists the undefined vertex first (finding 65, C100_ghost_order_refuted); C100_ghosts states this exception. The integral and sympy's inverse are parameters with stated contracts, as in C99."
  },
  {
   "property": "C101",
   "status": "proved",
   "theorems": [
    "C101_closest",
    "C101_contains",
    "C101_faces",
    "C101_quads",
    "C101_lines",
    "C101_lines_zero_refuted"
   ],
   "note": "Coordinates are rationals, not floating point numbers. The search is only called by tests in the pinned commit. Lines of degree zero have no valid sub-vertex on their left face (finding 65, C101_lines_zero_refuted). Tables of triangles, hexes and tets are arguments of C101_closest and C101_faces, their generators are not modelled."
  },
  {
   "property": "C102",
   "status": "proved",
   "theorems": [
    "C102_init",
    "C102_quads",
    "C102_values",
    "C102_write",
    "C102_shifted",
    "C102_first_refuted"
   ],
   "note": "The mapping of the elements is an arbitrary function, numbers are of an arbitrary type. Names and format of the files are not modelled. The claim fails for ranges which do not start with the first boundary face (C102_first_refuted, finding 67)."
  },
  {
   "property": "C103",
   "status": "proved",
   "theorems": [
    "C103_stencils",
    "C103_conserve",
    "C103_bounds",
    "C103_average",
    "C103_super"
   ],
   "note": "DOFs are rationals, not floating point numbers. Stencils across elements are not modelled, they have no caller. The generated tables of tets are an argument; the table of the project's test is shown to meet the hypotheses."
  },
  {
   "property": "C104",
   "status": "proved",
   "theorems": [
    "C104_text",
    "C104_connect",
    "C104_stops",
    "C104_ops",
    "C104_ops_stop",
    "C104_ragged_refuted",
    "C104_rejected",
    "C104_padded",
    "C104_lines",
    "C104_quads"
   ],
   "note": "Text is modelled as lines of fields, printing and parsing of numbers is not. Rows with too many entries, ids out of the range of unsigned shorts and negative ids other than -1 are errors of the compiler."
  },
  {
   "property": "C105",
   "status": "proved",
   "theorems": [
    "C105_links",
    "C105_stops",
    "C105_once"
   ],
   "note": "The mappings of the elements to be sent are assumed to be in range."
  },
  {
   "property": "C106",
   "status": "proved",
   "theorems": [
    "C106_reset",
    "C106_threads"
   ],
   "note": "Alignment and overflow of sizes are not modelled."
  },
  {
   "property": "C107",
   "status": "proved",
   "theorems": [
    "C107_file",
    "C107_print",
    "C107_types"
   ],
   "note": "Printing of numbers and a failing save of the file are not modelled."
  }
 ]
}
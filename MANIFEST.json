{
 "claims": [
  {
   "property": "C01",
   "status": "proved",
   "theorems": [
    "C01_psi_layout",
    "C01_psi_history",
    "C01_phi_layout",
    "C01_mat3_layout",
    "C01_mat2_layout",
    "C01_unbounded_size_refuted"
   ],
   "note": "sizes below 2^64; the refuted theorem shows the bound is needed"
  },
  {
   "property": "C02",
   "status": "proved",
   "theorems": [
    "C02_split_covers",
    "C02_split_balanced",
    "C02_owner_exists",
    "C02_owner_agrees",
    "C02_owner_monotone",
    "C02_owner_out_of_range"
   ],
   "note": ""
  },
  {
   "property": "C03",
   "status": "proved",
   "theorems": [
    "C03_psi_file",
    "C03_partition_independent",
    "C03_large_cells_refuted"
   ],
   "note": "per-cell byte count below 2^31; the refuted theorem shows what happens above"
  },
  {
   "property": "C04",
   "status": "proved",
   "theorems": [
    "C04_message_roundtrip",
    "C04_face_data_end_to_end"
   ],
   "note": ""
  },
  {
   "property": "C05",
   "status": "proved",
   "theorems": [
    "C05_line",
    "C05_deck_lookup",
    "C05_duplicate_rejected",
    "C05_malformed_rejected"
   ],
   "note": ""
  },
  {
   "property": "C06",
   "status": "proved",
   "theorems": [
    "C06_life_cycle"
   ],
   "note": "observational equivalence with an abstract reader over all call sequences"
  },
  {
   "property": "C07",
   "status": "proved",
   "theorems": [
    "C07_failed_read_exposes",
    "C07_no_data_after_failure_refuted"
   ],
   "note": "the expected property is false; proved that data is exposed for every such deck"
  },
  {
   "property": "C08",
   "status": "proved",
   "theorems": [
    "C08_serial_roundtrip",
    "C08_read_inverse",
    "C08_truncated_rejected"
   ],
   "note": "meshes whose tables have fewer than 2^64 words"
  },
  {
   "property": "C09",
   "status": "proved",
   "theorems": [
    "C09_parallel_roundtrip",
    "C09_read_inverse",
    "C09_bad_header_rejected",
    "C09_truncated_rejected"
   ],
   "note": ""
  },
  {
   "property": "C10",
   "status": "proved",
   "theorems": [
    "C10_read_in_parallel",
    "C10_created_mesh",
    "C10_large_partition_refuted",
    "C10_truncated_detected_refuted"
   ],
   "note": "byte counts below 2^31; the refuted theorems show the bound is needed and that short reads go unnoticed"
  },
  {
   "property": "C11",
   "status": "proved",
   "theorems": [
    "C11_partition_total",
    "C11_large_ids_refuted"
   ],
   "note": "face and node ids below 2^31; the refuted theorem shows the bound is needed"
  },
  {
   "property": "C12",
   "status": "proved",
   "theorems": [
    "C12_references",
    "C12_partition_boundary",
    "C12_exterior_face",
    "C12_interior_face"
   ],
   "note": ""
  },
  {
   "property": "C13",
   "status": "proved",
   "theorems": [
    "C13_columns",
    "C13_valid_partition_vector"
   ],
   "note": "std::sort is any function returning a permutation without inversions; coordinates are an arbitrary type with a comparison"
  },
  {
   "property": "C14",
   "status": "proved",
   "theorems": [
    "C14_volumes",
    "C14_covers",
    "C14_no_overlap",
    "C14_face_conforming",
    "C14_face_symmetric",
    "C14_shortest_diagonal",
    "C14_refined_mesh",
    "C14_refined_mesh_valid",
    "C14_node_order",
    "C14_node_order_refuted"
   ],
   "note": "geometry over exact reals; mesh tables for arbitrary coordinate arithmetic; std::map behaves as a map when its order is a strict weak order, which the tolerance order is not on all inputs (refuted)"
  },
  {
   "property": "C15",
   "status": "proved",
   "theorems": [
    "C15_small_mesh_refuted"
   ],
   "note": "the expected property fails: every non-empty mesh with fewer than 1000 cells divides by zero"
  },
  {
   "property": "C16",
   "status": "proved",
   "theorems": [
    "C16_local_mesh",
    "C16_created_well_formed",
    "C16_serial_adjacency",
    "C16_cross_rank"
   ],
   "note": "for every partition made from a mesh of non-degenerate tetrahedra; node coordinates without NaN"
  },
  {
   "property": "C17",
   "status": "proved",
   "theorems": [
    "C17_vertex_maps",
    "C17_serial_vertex"
   ],
   "note": "k-th face vertex is the k-th node of the face in the serial mesh from every cell and rank"
  },
  {
   "property": "C18",
   "status": "proved",
   "theorems": [
    "C18_volume",
    "C18_area",
    "C18_normal",
    "C18_closed"
   ],
   "note": "exact real arithmetic"
  },
  {
   "property": "C19",
   "status": "proved",
   "theorems": [
    "C19_opposite",
    "C19_flow"
   ],
   "note": "exact real arithmetic; opposite sides derived from the cells not overlapping"
  },
  {
   "property": "C20",
   "status": "proved",
   "theorems": [
    "C20_both_incoming",
    "C20_grazing_refuted",
    "C20_hang_refuted"
   ],
   "note": "the expected property fails: a grazing face is incoming for both cells; a face both cells take as incoming makes the traversal run forever"
  },
  {
   "property": "C21",
   "status": "proved",
   "theorems": [
    "C21_pivoting",
    "C21_sound"
   ],
   "note": "exact reals; pivoting elimination solves every nonsingular system, no assertion fails"
  },
  {
   "property": "C22",
   "status": "proved",
   "theorems": [
    "C22_no_pivot",
    "C22_cramer",
    "C22_agree"
   ],
   "note": "exact reals; nonzero leading minors are nonzero pivots"
  },
  {
   "property": "C23",
   "status": "proved",
   "theorems": [
    "C23_positive",
    "C23_cell"
   ],
   "note": "positive definite symmetric part; all solver options agree in every non-degenerate tetrahedron"
  },
  {
   "property": "C24",
   "status": "proved",
   "theorems": [
    "C24_balance"
   ],
   "note": "exact reals"
  },
  {
   "property": "C25",
   "status": "proved",
   "theorems": [
    "C25_scheme"
   ],
   "note": "solutions of the assembled system are exactly the solutions of the documented DG equations"
  },
  {
   "property": "C26",
   "status": "proved",
   "theorems": [
    "C26_uniform"
   ],
   "note": "exact reals"
  },
  {
   "property": "C27",
   "status": "proved",
   "theorems": [
    "C27_groups",
    "C27_noninterference",
    "C27_sweep",
    "C27_diff"
   ],
   "note": "cell level, whole sweep, and diffBetweenGroups"
  },
  {
   "property": "C28",
   "status": "proved",
   "theorems": [
    "C28_once",
    "C28_frame"
   ],
   "note": "transition-system model of traverse over all interleavings"
  },
  {
   "property": "C29",
   "status": "proved",
   "theorems": [
    "C29_after_upwind"
   ],
   "note": ""
  },
  {
   "property": "C30",
   "status": "proved",
   "theorems": [
    "C30_no_infinite_run",
    "C30_not_stuck",
    "C30_finishes",
    "C30_zero_steps_refuted"
   ],
   "note": "no infinite run, no stuck state, for acyclic upwind graphs and maxCellsPerStep > 0; with 0 it never ends"
  },
  {
   "property": "C31",
   "status": "proved",
   "theorems": [
    "C31_unique",
    "C31_partition_independent"
   ],
   "note": ""
  },
  {
   "property": "C32",
   "status": "proved",
   "theorems": [
    "C32_lockstep",
    "C32_no_wait_for_finished",
    "C32_nothing_left",
    "C30_not_stuck"
   ],
   "note": ""
  },
  {
   "property": "C33",
   "status": "proved",
   "theorems": [
    "C33_deadlock_refuted"
   ],
   "note": "refutation: concrete reachable deadlock under synchronous sends"
  },
  {
   "property": "C34",
   "status": "proved",
   "theorems": [
    "C34_counts",
    "C34_exchange",
    "C34_grazing_hangs_refuted",
    "C34_grazing_overwrites_refuted"
   ],
   "note": "exchange of boundary data: message sizes agree, every incoming side gets the neighbour's data, all other entries unchanged; needs directions not tangent to a face between ranks"
  },
  {
   "property": "C35",
   "status": "proved",
   "theorems": [
    "C35_longest",
    "C35_computed",
    "C35_entire_graph_refuted"
   ],
   "note": "rank-local longest path proved; the documented whole-graph level is refuted"
  },
  {
   "property": "C36",
   "status": "proved",
   "theorems": [
    "C36_bfds_zero",
    "C36_dfds_dfhds",
    "C36_wrap",
    "C36_bfds_refuted",
    "C36_dfds_refuted"
   ],
   "note": "refutations of the documented priorities, plus what the code computes instead"
  },
  {
   "property": "C37",
   "status": "proved",
   "theorems": [
    "C37_global",
    "C37_local",
    "C37_blevels",
    "C37_random_refuted",
    "C37_dfds_refuted"
   ],
   "note": ""
  },
  {
   "property": "C38",
   "status": "proved",
   "theorems": [
    "C38_once",
    "C38_step_size",
    "C38_order",
    "C38_ends",
    "C38_matched",
    "C38_sends"
   ],
   "note": "every pair listed once, after its upwind pairs (in an earlier step if on another rank), bounded steps, termination, matching send and receive lists; MPI_Send taken to buffer"
  },
  {
   "property": "C39",
   "status": "proved",
   "theorems": [
    "C39_no_progress_refuted"
   ],
   "note": "finding: a limit that is a multiple of 2^32 makes the construction loop for ever"
  },
  {
   "property": "C40",
   "status": "proved",
   "theorems": [
    "C40_limits",
    "C40_ends",
    "C40_no_sweep_refuted"
   ],
   "note": "any arithmetic and any sweeper; at least one iteration needs errMax < 1, otherwise none is made (refuted expectation)"
  },
  {
   "property": "C41",
   "status": "proved",
   "theorems": [
    "C41_residual",
    "C41_converged",
    "C41_kept",
    "C41_krylov"
   ],
   "note": "exact arithmetic, sweeps are complete executions of the traversal on any number of ranks; Krylov: if the linear system as coded is solved exactly"
  },
  {
   "property": "C42",
   "status": "proved",
   "theorems": [
    "C42_psiToPhi",
    "C42_linear",
    "C42_phiToPsi",
    "C42_roundtrip",
    "C42_total",
    "C42_total_real",
    "C42_operatorS"
   ],
   "note": "loops of Util.cc; sums over the reals, the rest in any arithmetic"
  },
  {
   "property": "C43",
   "status": "proved",
   "theorems": [
    "C43_crossings",
    "C43_finite",
    "C43_fixed_point"
   ],
   "note": "block Jacobi over complete executions of the local traversal and the boundary exchange, arbitrary cell solver; holds from the sweep whose number exceeds the crossings"
  },
  {
   "property": "C44",
   "status": "proved",
   "theorems": [
    "C44_pbj_refuted",
    "C44_outer_refuted",
    "C44_si_refuted"
   ],
   "note": "refutes the expectation: at most ddIterMax-1 sweeps, none if ddIterMax <= 1"
  },
  {
   "property": "C45",
   "status": "proved",
   "theorems": [
    "C45_layout",
    "C45_vector_back",
    "C45_data_back",
    "C45_overflow_refuted"
   ],
   "note": "int index overflow with more than INT_MAX entries is a finding"
  },
  {
   "property": "C46",
   "status": "proved",
   "theorems": [
    "C46_supported",
    "C46_directions",
    "C46_symmetric",
    "C46_odd",
    "C46_polar",
    "C46_normalised",
    "C46_exact_refuted"
   ],
   "note": "Exact real arithmetic on the 16-digit decimal tables of the source. The sum of weights being exactly 4 pi is refuted (tables are rounded) and replaced by a 1e-14 bound."
  },
  {
   "property": "C47",
   "status": "proved",
   "theorems": [
    "C47_materials",
    "C47_aborts",
    "C47_serial"
   ],
   "note": "Every assignment of materials: one pair of cross sections per cell according to its material, an abort exactly when some cell has another material, and the mesh reader's material of a cell is the serial mesh's."
  },
  {
   "property": "C48",
   "status": "proved",
   "theorems": [
    "C48_residual",
    "C48_error_zero"
   ],
   "note": "In exact real arithmetic, away from the centre and the radius 30: hatSource is the directional derivative of the hat plus sigmaT hat minus sigmaS/(4 pi) times its scalar flux; the reported L2 error of the sampled hat is zero."
  },
  {
   "property": "C49",
   "status": "proved",
   "theorems": [
    "C49_centre_refuted"
   ],
   "note": "Refutation: a node at the cube centre makes hatSource divide zero by zero."
  },
  {
   "property": "C50",
   "status": "proved",
   "theorems": [
    "C50_total",
    "C50_protocol",
    "C50_running",
    "C50_elapsed",
    "C50_int_refuted"
   ],
   "note": "All call sequences and clock readings; also the interval count returned as int goes negative after 2^31 intervals (refuted)."
  },
  {
   "property": "C51",
   "status": "proved",
   "theorems": [
    "C51_getAdjFace_refuted"
   ],
   "note": "the expected property fails: the accessor returns the adjacent cell"
  },
  {
   "property": "C52",
   "status": "proved",
   "theorems": [
    "C52_side_pairing_refuted",
    "C52_same_order"
   ],
   "note": "the expected property fails on three tetrahedra over two ranks; it holds when both ranks enumerate shared faces in the same order"
  },
  {
   "property": "C53",
   "status": "proved",
   "theorems": [
    "C53_graph",
    "C53_symmetric",
    "C53_vector",
    "C53_succeeds"
   ],
   "note": "All meshes satisfying the serial mesh predicate whose sizes fit the METIS index type; METIS itself is a parameter constrained to fill the partition vector."
  },
  {
   "property": "C54",
   "status": "proved",
   "theorems": [
    "C54_configuration",
    "C54_unknown_sweep_rejected",
    "C54_unknown_mpi_rejected",
    "C54_integer_exact"
   ],
   "note": "std::stod is an arbitrary function"
  },
  {
   "property": "C55",
   "status": "proved",
   "theorems": [
    "C55_gauss_elim_checked_refuted",
    "C55_unknown_gauss_is_original",
    "C55_negative_option_refuted"
   ],
   "note": "the expected property is false"
  },
  {
   "property": "C56",
   "status": "proved",
   "theorems": [
    "C56_threads"
   ],
   "note": ""
  },
  {
   "property": "C57",
   "status": "proved",
   "theorems": [
    "C57_global_dg"
   ],
   "note": ""
  },
  {
   "property": "C58",
   "status": "proved",
   "theorems": [
    "C58_levels",
    "C58_ends"
   ],
   "note": "levels over the entire graph, unlike the traversal's b-levels (C35)"
  },
  {
   "property": "C59",
   "status": "proved",
   "theorems": [
    "C59_seeking",
    "C59_seeking_ends",
    "C59_breadth",
    "C59_bfds",
    "C59_dfds_refuted",
    "C59_depth_refuted"
   ],
   "note": "what the priorities are, and that they are computed; finding: depth-first priorities wrap to 2^64-1, out of range of the conversion; breadth-first ones are exact"
  },
  {
   "property": "C60",
   "status": "proved",
   "theorems": [
    "C60_cyclic_refuted"
   ],
   "note": "finding: on a cyclic mesh the construction ends and omits every pair on a cycle"
  },
  {
   "property": "C61",
   "status": "proved",
   "theorems": [
    "C61_schur",
    "C61_solvable",
    "C61_krylov",
    "C61_outer",
    "C61_inner",
    "C61_scatter_solvable"
   ],
   "note": "PETSc KSPSolve is a relation; exactness of its solution is a hypothesis; exact reals"
  },
  {
   "property": "C62",
   "status": "proved",
   "theorems": [
    "C62_contraction",
    "C62_iterations",
    "C62_stopping",
    "C62_well_posed",
    "C62_quadrature"
   ],
   "note": "exact arithmetic; C62_quadrature: the weights of every supported quadrature qualify; energy estimate of the upwind DG scheme; the two cells at a face agree on area and normal (hypothesis faces_match)"
  },
  {
   "property": "C63",
   "status": "proved",
   "theorems": [
    "C63_converges",
    "C63_stops",
    "C63_zero_refuted",
    "C63_runs",
    "C63_stationary",
    "C63_outer",
    "C63_outer_krylov"
   ],
   "note": "exact arithmetic; energy estimate with the flow through the interfaces as part of the energy; hypotheses scattering_ok with ratio below 1 and face_vertices; C63_zero_refuted is a finding: zero source gives 0/0 in the error test and the loop runs to its limit"
  },
  {
   "property": "C64",
   "status": "proved",
   "theorems": [
    "C64_result",
    "C64_progress",
    "C64_bounded",
    "C64_completes",
    "C64_same_as_traversal",
    "C64_message",
    "C64_grazing_refuted"
   ],
   "note": "OriginalTycho1 and OriginalTycho2 as a transition system of ranks and threads with FIFO channels; no deadlock under rendezvous semantics; the sweep leaves the upwind solution, equal to the graph traversal's; flat message vectors round trip; C64_grazing_refuted: a face within TOL of the schedule makes a sweep use stale flux"
  },
  {
   "property": "C65",
   "status": "proved",
   "theorems": [
    "C65_reads",
    "C65_hypotheses",
    "C65_sweep",
    "C65_partition_independent",
    "C65_source_iteration",
    "C65_quadrature",
    "C65_block_jacobi"
   ],
   "note": "createFromSerialMesh, write, readInParallel, readTychoMesh and the TychoMesh constructor composed with the traversal and the solvers; the specification is the DG system on the serial mesh without ranks. Exact arithmetic; coordinates are compared as the reals they denote (no NaN). The pairing of faces across ranks is by global face number."
  },
  {
   "property": "C66",
   "status": "proved",
   "theorems": [
    "C66_ends",
    "C66_sweep",
    "C66_partition_independent",
    "C66_source_iteration",
    "C66_double_compares",
    "C66_double_signs",
    "C66_error_refuted",
    "C66_signs_refuted"
   ],
   "note": "generic over the arithmetic, instantiated with Flocq's binary64; the iteration count is refuted to be independent of the partition; thin tetrahedra can make both sides compute the same sign"
  },
  {
   "property": "C67",
   "status": "proved",
   "theorems": [
    "C67_valid",
    "C67_same_solid",
    "C67_boundary",
    "C67_doubles"
   ],
   "note": "exact midpoints assumed in the first three; C67_doubles proves them in double precision for coordinates on a dyadic grid"
  },
  {
   "property": "C68",
   "status": "proved",
   "theorems": [
    "C68_import",
    "C68_no_choice",
    "C68_materials_exact",
    "C68_materials_doubles",
    "C68_materials_doubles_refuted",
    "C68_same_solid",
    "C68_stray_triangle"
   ],
   "note": "MOAB itself is modelled as a database (DESIGN.md section 3)"
  },
  {
   "property": "C69",
   "status": "proved",
   "theorems": [
    "C69_serial",
    "C69_parallel",
    "C69_partitioned",
    "C69_names",
    "C69_reimport_disconnected",
    "C69_roundtrip_refuted"
   ],
   "note": "writing the database to files is MOAB's"
  },
  {
   "property": "C70",
   "status": "proved",
   "theorems": [
    "C70_output",
    "C70_determined",
    "C70_partition_independent",
    "C70_runs",
    "C70_exact",
    "C70_exact_partition_independent",
    "C70_source",
    "C70_geometry",
    "C70_transport",
    "C70_solution"
   ],
   "note": "graph sweeps and sweeps over a schedule, with source iteration; the other sweepers and Krylov: C72"
  },
  {
   "property": "C71",
   "status": "proved",
   "theorems": [
    "C71_solver_independent",
    "C71_exact_solver_independent"
   ],
   "note": "the three sweep types of C70"
  },
  {
   "property": "C72",
   "status": "proved",
   "theorems": [
    "C72_direct",
    "C72_same",
    "C72_source_iteration",
    "C72_block_jacobi",
    "C72_runs",
    "C72_agrees"
   ],
   "note": "exact arithmetic, exact linear solver; no error bound is claimed for SchurOuter and PBJOuter with source iteration inside, nor for PBJ stopped early"
  },
  {
   "property": "C73",
   "status": "proved",
   "theorems": [
    "C73_groups",
    "C73_groups_doubles",
    "C73_error",
    "C73_error_independent",
    "C73_direct",
    "C73_same"
   ],
   "note": "groups: any arithmetic in which x - x is not above zero, and doubles; error: exact arithmetic"
  },
  {
   "property": "C74",
   "status": "proved",
   "theorems": [
    "C74_output",
    "C74_same",
    "C74_exact_same",
    "C74_runs",
    "C74_solvers",
    "C74_refined",
    "C74_number",
    "C74_no_parts",
    "C74_columns"
   ],
   "note": "Examples C74_ex, C74_solvers_ex, C74_refined_ex (PropertiesCommandEx), C74_number_ex (PropertiesTools), C74_columns_ex (PropertiesToolsEx). std::sort, METIS and KSPSolve are parameters with the contracts of C13, C53 and C72."
  },
  {
   "property": "C75",
   "status": "proved",
   "theorems": [
    "C75_sweep",
    "C75_scattering",
    "C75_output",
    "C75_iteration"
   ],
   "note": "Exact arithmetic. Balance after a sweep on any partition, of the solution with scattering, of the output file of a direct solver, and of source iteration up to the last change."
  },
  {
   "property": "C76",
   "status": "proved",
   "theorems": [
    "C76_ends_acyclic",
    "C76_ends_iff",
    "C76_never_updated",
    "C76_both_incoming",
    "C76_program",
    "C76_program_hangs",
    "C76_double_fit",
    "C76_cube_refuted"
   ],
   "note": "The equivalence needs the size-then-data exchange or no exchange at all, as C30. cube-12: the bits of the eight S2 directions are those of the usual C library (correctly rounded sqrt, cos and sin results as computed outside Coq), without fused multiply-add."
  },
  {
   "property": "C77",
   "status": "proved",
   "theorems": [
    "C77_clear",
    "C77_sign",
    "C77_signs",
    "C77_cycles",
    "C77_problem",
    "C77_setting",
    "C77_needle_refuted"
   ],
   "note": "C77_needle_refuted: without the condition the claim is false, and the program hangs. Examples C77_ex, C77_needle_ex (PropertiesRoundEx)."
  },
  {
   "property": "C78",
   "status": "proved",
   "theorems": [
    "C78_arguments",
    "C78_exact",
    "C78_sound",
    "C78_same",
    "C78_runs",
    "C78_zero_refuted",
    "C78_header_refuted"
   ],
   "note": "C78_zero_refuted and C78_header_refuted: the two cases in which the comparison is wrong. Examples C78_exact_ex, C78_runs_ex (PropertiesDiffEx)."
  },
  {
   "property": "C79",
   "status": "proved",
   "theorems": [
    "C79_output",
    "C79_determined",
    "C79_same_steps",
    "C79_reproducible",
    "C79_log",
    "C79_runs",
    "C79_one_rank"
   ],
   "note": "The flow signs of the serial mesh may make cycles (C80). Example C79_ex (PropertiesJacobiEx): double precision, all three solvers, one rank or two. C79_one_rank asks that 0 + 0*w = 0 for the weights (PBJSI starts from a scalar flux of zero)."
  },
  {
   "property": "C80",
   "status": "proved",
   "theorems": [
    "C80_swept",
    "C80_ends"
   ],
   "note": "Examples C80_ring_ex, C80_traversal_ex (PropertiesJacobiRing): eight tetrahedra in a ring in double precision; cut in two halves every deck of C79_ex ends, on one rank none does, and graph traversal ends for no partition. That these eight tetrahedra do not overlap was checked outside Coq; no theorem needs it."
  },
  {
   "property": "C81",
   "status": "proved",
   "theorems": [
    "C81_moved",
    "C81_renumbered",
    "C81_symmetric",
    "C81_cell_solver",
    "C81_quadrature"
   ],
   "note": "Example C81_ex (PropertiesSymEx): the two tetrahedra of C65 renumbered throughout with x and y exchanged and another GaussElim, and the mirror symmetry of that mesh itself. Exact arithmetic; the division 0/0 at a node at the centre of the source (finding 15) is 0 in the exact model."
  },
  {
   "property": "C82",
   "status": "proved",
   "theorems": [
    "C82_superposition",
    "C82_scattering_superposition",
    "C82_stable",
    "C82_scattering_stable",
    "C82_positive_refuted"
   ],
   "note": "Exact arithmetic; sweeps are runs of the program model on any partition (C65), solutions with scattering are those the solvers converge to (C62, C72). Positivity is refuted by a source on one tetrahedron."
  },
  {
   "property": "C83",
   "status": "proved",
   "theorems": [
    "C83_numbers",
    "C83_serial_listed",
    "C83_serial",
    "C83_brief",
    "C83_ranks",
    "C83_parallel",
    "C83_other_ranks",
    "C83_created",
    "C83_readable_listed_refuted"
   ],
   "note": "printf %f is a parameter assumed to print no comma, parenthesis or line end; the output of the ranks is taken in the order the barriers ask for"
  },
  {
   "property": "C84",
   "status": "proved",
   "theorems": [
    "C84_gradient",
    "C84_by_parts",
    "C84_patch",
    "C84_error",
    "C84_scattering",
    "C84_scattering_error"
   ],
   "note": "exact arithmetic"
  },
  {
   "property": "C85",
   "status": "proved",
   "theorems": [
    "C85_flux",
    "C85_flux_relative",
    "C85_change",
    "C85_stop",
    "C85_continue",
    "C85_source",
    "C85_pi",
    "C85_source_exact",
    "C85_emission"
   ],
   "note": "binary64 error bounds for psiToPhi, calcTotalSource (with M_PI against the true pi) and for the relative change of SourceIteration's fixedPoint; gsum: any order of addition (the relation added of C78)."
  },
  {
   "property": "C86",
   "status": "proved",
   "theorems": [
    "C86_reports",
    "C86_wrong_line",
    "C86_line_named_refuted",
    "C86_echo",
    "C86_calls"
   ],
   "note": "The line number in messages is expected, not met: errorString += lineNum appends a character (C86_line_named_refuted, C86_wrong_line)."
  },
  {
   "property": "C87",
   "status": "proved",
   "theorems": [
    "C87_runs",
    "C87_iterations",
    "C87_exact",
    "C87_exact_partition_independent",
    "C87_average_refuted",
    "C87_pbj_sweep",
    "C87_pbj",
    "C87_outer",
    "C87_si",
    "C87_counts_refuted",
    "C87_block_runs",
    "C87_text"
   ],
   "note": "the Krylov branch and times are not part of the lines; four expectations are refuted: the average may divide by zero, PBJ Iters is one too large at the limit, Num source iters counts local sweeps, SweeperPBJSI's list is empty"
  },
  {
   "property": "C88",
   "status": "proved",
   "theorems": [
    "C88_respects",
    "C88_schedule",
    "C88_levels",
    "C88_global",
    "C88_local",
    "C88_ends"
   ],
   "note": "Any priorities (C88_respects); the options levels with interleaved, global and local angles. Existence (C88_ends) for levels with every inter-angle option."
  }
 ]
}
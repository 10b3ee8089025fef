# Formal model of tycho2

Subject: lanl/tycho2 (C++), sources in /repo, read as text only.
Prover: Rocq/Coq 8.16.1, development in `rocq/theories` (logical path `Verif`).

Contents: 1 method; 2 number models; 3 models of libraries and concurrency; 4 what is modelled, file by file;
5 the properties; 6 findings; 7 trusted base; 8 mutation tests.

## 1 Method

* `*Model.v`: small total Gallina functions, or transition systems, that follow the C++ function by function. Each
  definition cites file and lines. The header of each file lists its simplifications.
* `*Spec.v`: specifications that do not use the helpers of the model.
* `*Proofs.v` (and `Traverse*.v`, `ScheduleLevels.v`): lemmas.
* `Properties*.v`: the property theorems, a non-trivial `Example` beside each, `Print Assumptions`.
* Undefined behaviour, a failed `Assert`/`Insist` and an infinite loop are distinct outcomes (`None`, an error
  constructor, or no final state), never a default value.
* An expectation the code does not meet is a theorem `..._refuted` with a concrete witness, listed in section 6. A
  property is called proved when the statement in properties.jsonl is settled for all inputs; for those marked
  "expected, not met" the settled statement is the failure.
* `_partial` in a name would mark a weaker statement than the property's; there is none at present.

## 2 Number models

* Sizes and indices: `nat` where only the mathematical value matters, `N`/`Z` with explicit `mod 2^64` or `mod 2^32`
  where wrap-around, truncation or bytes matter.
* `double` in geometry, cell solver and iterations: exact reals (`R`), so no rounding. The models of these
  parts take a record of operations (`arith T`), so that the same definitions also describe the floating-point code; only
  the theorems about solutions use the reals. C66, C70, C71 and C85 use the definitions for every arithmetic or for IEEE doubles
  (`Dops`: Flocq's binary64, round to nearest even; one rounding per C++ operation, so no contraction and no reassociation).
* Everywhere else (storage, files, packets, traversal, schedule, block exchange) a `double` is an opaque value and the cell
  solver an arbitrary function. Those theorems hold bit for bit for the floating-point program.

## 3 Libraries and concurrency

* MPI: one reliable FIFO channel for each (source, destination, tag). A receive takes the oldest message. A send may
  complete at once or only when received; liveness theorems use only steps possible in the second case, safety theorems allow both.
  Collectives (Allreduce, Barrier, MPI_File) join all ranks at one point. Failures of the library are not modelled.
* OpenMP: threads interleave at the granularity of one loop iteration. For the traversal, C56 justifies this: steps of different threads
  touch disjoint data and commute. The memory model below that is not modelled. The team has the requested number of threads.
* std::vector access out of range is `None`. std::map and std::set are ordered by their comparison, which has to be a strict weak
  order (C14 shows where it is not). std::sort returns any sorted permutation. std::priority_queue pops any element of the
  largest priority. std::stoi/stod: C54.
* Files of a command (C74): a map from names to contents; opening, writing and closing a file is one step, and nothing else writes
  meanwhile. atoi: as in the C standard, undefined if the value is not an int.
* METIS: any function that fills the partition vector (C53). PETSc KSPSolve: a relation between right-hand side and solution; exactness
  is a hypothesis where it is used (C41, C61, C63, C72). C72: the solver may return any vector on which some call of the operator gives the right-hand side in
  all entries that the vectors have (`exact_solver`); for runs to exist it returns one when there is one (`complete_solver`).
* MOAB: a database of vertices, triangles and tetrahedra with handles, for each kind different. A new handle is not in use. A Range
  lists handles in ascending order. get_adjacencies of a tetrahedron gives its four sides, with CREATE_MISSING after adding those
  for which there is no triangle with the same vertices; of a triangle, the tetrahedra containing its three vertices; get_connectivity gives
  the vertices. load_file and write_mesh are not modelled: import starts from the database, export ends with it and the mesh sets written.
  Other kinds of entity (hexahedra, quadrilaterals) are not in the model.
* C70, C71, C72 and C73 take as parameters: std::stod, the bytes of a double (written and read), the comparison of coordinates (std::set of points), the tables of angles and weights
  (C46 has the exact ones), the priorities, and the sum of Comm::gsum over ranks, any function (in C85: any order of addition). All ranks have the same number of threads.
* printf (C83): %lu gives the decimal numeral; %f is a parameter. Output of different ranks appears in the order in which the barriers make them print.
* test/diff.py (C78): numpy's sum adds in any order (`nsum`, `adds`), the conversion of a command argument to a float any function (`pyfloat`).
* Files are byte strings. Reads and writes at a position are exact; short reads are modelled where the code could notice them.

## 4 What is modelled

| file in /repo | modelled | not modelled |
|---|---|---|
| src/PsiData, Mat.hh | storage, indices, writeToFile (LayoutModel, PsiFileModel) | printing |
| src/KeyValueReader, src/Main.cc readInput | parser, life cycle, options (DeckModel), messages and print (MessageModel) | getFloat, which nothing calls |
| src/Main.cc main | from deck and mesh file to output file: TraverseGraph, OriginalTycho1 and OriginalTycho2 with source iteration in any arithmetic (MainModel); all sweep types and Krylov in exact arithmetic (MainAllModel); L2 error and group difference printed at the end (PrintModel); the command with its arguments (CommandModel) | times |
| src/SerialMesh, src/ParallelMesh | read, write, readInParallel, createFromSerialMesh (MeshModel, CreateModel), print, printPartitionData (InfoModel) | digits of %f (any text without comma, parenthesis, line end) |
| src/TychoMesh, src/TychoMeshIO.cc | tables, sides, vertex maps (TychoModel), geometry (GeometryModel), constructor (ViewModel) | rounding (except in C66, C76, C77) |
| src/Transport.cc | assembly, all four gaussElim4 branches, update of a cell (TransportModel, GaussModel, SweepModel) | rounding; Intel-specific pragmas |
| src/GraphTraverser.cc | all of traverse, both communication variants (TraverseModel, PacketModel) | timers |
| src/Priorities.cc | all options (PriorityModel) | quality of rand() (any value) |
| src/SweepSchedule.cc | calcOrdering, calcLevels, send and receive lists (ScheduleModel), constructor with its options (ConstructModel) | what calcOrdering prints |
| src/Sweeper.cc | both sweep types, message vectors (OrigModel) | timers |
| src/CommSides.cc | constructor and exchange (CommModel) | |
| src/SweeperTraverse.cc, SweepData.hh, SweeperAbstract.hh | all (SweepModel, SourceModel) | |
| src/SourceIteration.cc, Util.cc | all (FluxModel); the lines fixedPoint prints (ProgressModel) | what krylov prints; times |
| src/KrylovSolver.cc | right-hand side, operator (SourceModel, PropertiesSource) | PETSc calls |
| src/SweeperPBJ.cc | all (BlockModel, PbjModel; with source iteration, in any arithmetic: JacobiModel; the lines printed: ProgressModel) | timers |
| src/SweeperSchur.cc | all (SchurModel) | PETSc calls |
| src/Problem.cc | all (ProblemModel) | rounding |
| src/Quadrature.cc | all, tables as decimals (QuadratureModel) | rounding of sin, cos, sqrt |
| src/Timer.hh | all (TimerModel) | the clock |
| src/Comm.cc | readUint64, sums as exact sums (C85: in doubles, in any order), packets | thin wrappers of MPI |
| src/Assert.cc, Global.cc | an assertion is `None`; globals are parameters | |
| util/PartitionColumns.cc, PartitionMetis.cc, RefineSerialMesh.cc | all (ColumnsModel, MetisModel, RefineModel; RefineSerialMesh.cc in double precision: GridModel; main with its arguments: CommandModel) | METIS; messages on the screen |
| util/CreateRegularMesh.cc | | does not compile at this commit |
| util/MoabToSerialMesh.cc, SerialMeshToMoab.cc, ParallelMeshToMoab.cc | all but argument handling and messages (MoabModel) | MOAB itself: section 3 |
| test/diff.py | all (DiffModel) | printing; numpy's summation order (any) |
| util/SerialMeshInfo.cc, util/ParallelMeshInfo.cc | all (InfoModel) | interleaving of the ranks' output (the barriers' order is taken); MPI_Finalize, which ParallelMeshInfo leaves out after wrong arguments |
| util/CreateGaussLegendre.py | | print only; the tables the script made are checked (C46) |

## 5 The properties

Letters in brackets: axioms listed by `Print Assumptions`, see section 7.

### C01 Angular-flux, scalar-flux and boundary storage never aliases

Modelled: index functions, constructors and accessors of PsiData, PsiBoundData, PhiData, Mat2, Mat3 (LayoutModel) over buffers with explicit 64-bit wrap-around. Proved: the index is a bijection onto the buffer (mixed-radix arithmetic); after any history of writes every cell holds the last value written to it (induction over the history).

Note: sizes below 2^64; the refuted theorem shows the bound is needed.

Status: proved. Theorems (PropertiesLayout): `C01_psi_layout` [–], `C01_psi_history` [–], `C01_phi_layout` [–], `C01_mat3_layout` [–], `C01_mat2_layout` [–], `C01_unbounded_size_refuted` [–].

### C02 Every angle is owned by exactly one thread, in balanced contiguous chunks

Modelled: angleGroupIndex and the split of the angles (AngleModel). Proved by induction over the loop: the chunks are contiguous, cover all angles, differ by at most one in size; the owner function agrees with the split.

Status: proved. Theorems (PropertiesAngle): `C02_split_covers` [–], `C02_split_balanced` [–], `C02_owner_exists` [–], `C02_owner_agrees` [–], `C02_owner_monotone` [–], `C02_owner_out_of_range` [–].

### C03 The Psi output file does not depend on partitioning or on write order

Modelled: PsiData::writeToFile as positioned writes of all ranks (PsiFileModel). Proved: for every permutation of the writes and every assignment of cells to ranks the file is the same specified byte string.

Note: per-cell byte count below 2^31; the refuted theorem shows what happens above.

Status: proved. Theorems (PropertiesPsiFile): `C03_psi_file` [–], `C03_partition_independent` [–], `C03_large_cells_refuted` [–].

### C04 Messages between ranks decode to what was encoded

Modelled: createPacket, splitPacket, the packing of side data and the unpacking loop, on bytes (PacketModel). Proved: decoding inverts encoding, by induction over the packets.

Status: proved. Theorems (PropertiesPacket): `C04_message_roundtrip` [–], `C04_face_data_end_to_end` [–].

### C05 Input deck lookup is a function of the meaning of the deck

Modelled: KeyValueReader line and file parser (DeckModel). Proved against an independent description of a deck (list of key/value pairs with comments and blanks): look-up is the look-up in that list; duplicates and malformed lines are errors.

Status: proved. Theorems (PropertiesDeck): `C05_line` [–], `C05_deck_lookup` [–], `C05_duplicate_rejected` [–], `C05_malformed_rejected` [–].

### C06 Reader life cycle: no value is readable before a successful read, a deck is read once

Modelled: KeyValueReader as a state machine with all getters. Proved: observationally equivalent to a three-state abstract reader for every sequence of calls.

Note: observational equivalence with an abstract reader over all call sequences.

Status: proved. Theorems (PropertiesDeck): `C06_life_cycle` [–].

### C07 Failed reads expose no data (expected, not met)

Same model. The expected statement is refuted: a failed read leaves the earlier entries readable.

Note: the expected property is false; proved that data is exposed for every such deck.

Status: proved. Theorems (PropertiesDeck): `C07_failed_read_exposes` [–], `C07_no_data_after_failure_refuted` [–].

### C08 Serial mesh files round-trip

Modelled: SerialMesh read and write on bytes (MeshModel). Proved: reading inverts writing, writing inverts reading, every proper prefix is rejected.

Note: meshes whose tables have fewer than 2^64 words.

Status: proved. Theorems (PropertiesMesh): `C08_serial_roundtrip` [–], `C08_read_inverse` [–], `C08_truncated_rejected` [–].

### C09 Parallel mesh files round-trip

Modelled: ParallelMesh read and write (header, offsets, partitions). Proved as C08, for every number of partitions.

Status: proved. Theorems (PropertiesMesh): `C09_parallel_roundtrip` [–], `C09_read_inverse` [–], `C09_bad_header_rejected` [–], `C09_truncated_rejected` [–].

### C10 Each rank reads exactly its own partition

Modelled: ParallelMesh::readInParallel with Comm::readUint64 and positioned reads (MeshModel). Proved: rank r gets partition r of the file, also for the meshes createFromSerialMesh makes.

Note: byte counts below 2^31; the refuted theorems show the bound is needed and that short reads go unnoticed.

Status: proved. Theorems (PropertiesCreate, PropertiesMesh): `C10_read_in_parallel` [–], `C10_created_mesh` [–], `C10_large_partition_refuted` [–], `C10_truncated_detected_refuted` [–].

### C11 Partitioning loses and duplicates no cell

Modelled: createFromSerialMesh (CreateModel), including the two int conversions. Proved: every serial cell is in exactly one partition, and the local tables are the images of the serial ones.

Note: face and node ids below 2^31; the refuted theorem shows the bound is needed.

Status: proved. Theorems (PropertiesCreate): `C11_partition_total` [–], `C11_large_ids_refuted` [–].

### C12 Partition boundaries are consistent on both sides

Same model. Proved: the references between cells, faces and nodes of a partition are in range; a partition boundary face appears in exactly the two partitions and names the other one.

Status: proved. Theorems (PropertiesCreate): `C12_references` [–], `C12_partition_boundary` [–], `C12_exterior_face` [–], `C12_interior_face` [–].

### C13 Column partitioning is total, balanced and ordered

Modelled: PartitionColumns (ColumnsModel); std::sort is any function that returns a sorted permutation. Proved: all cells are assigned, the sizes are the even shares in both directions, slabs are ordered by x and columns of a slab by y.

Note: std::sort is any function returning a permutation without inversions; coordinates are an arbitrary type with a comparison.

Status: proved. Theorems (PropertiesColumns): `C13_columns` [–], `C13_valid_partition_vector` [–].

### C14 Mesh refinement preserves volume and conforms

Modelled: refineTet and refineMesh of RefineSerialMesh.cc (RefineModel): node creation through the coordinate map, the eight children, the new faces. Proved: the children have one eighth of the volume, cover the parent and do not overlap; the four sub-faces are the same from both sides; the refined mesh satisfies the serial mesh predicate. The node map's order is a strict weak order only under a stated separation hypothesis; without it the claim is refuted.

Note: geometry over exact reals; mesh tables for arbitrary coordinate arithmetic; std::map behaves as a map when its order is a strict weak order, which the tolerance order is not on all inputs (refuted).

Status: proved. Theorems (PropertiesRefine): `C14_volumes` [R1], `C14_covers` [R1], `C14_no_overlap` [R1], `C14_face_conforming` [–], `C14_face_symmetric` [–], `C14_shortest_diagonal` [R2], `C14_refined_mesh` [–], `C14_refined_mesh_valid` [–], `C14_node_order` [R1], `C14_node_order_refuted` [R1].

### C15 Refinement progress report is safe for all meshes (expected, not met)

Refutation on the loop header of refineMesh: `i % (nCells / 1000)`.

Note: the expected property fails: every non-empty mesh with fewer than 1000 cells divides by zero.

Status: proved. Theorems (PropertiesRefine): `C15_small_mesh_refuted` [–].

### C16 Local mesh built on a rank is a faithful image of its partition file

Modelled: readTychoMesh and the TychoMesh constructor (TychoModel). Proved: the local mesh has the adjacency of the partition file, and of the serial mesh through createFromSerialMesh; cross-rank sides match.

Note: for every partition made from a mesh of non-degenerate tetrahedra; node coordinates without NaN.

Status: proved. Theorems (PropertiesTycho): `C16_local_mesh` [–], `C16_created_well_formed` [–], `C16_serial_adjacency` [–], `C16_cross_rank` [–].

### C17 Face-vertex and cell-vertex numberings are inverse and agree across a face

Same model. Proved: the two vertex numberings are inverse; the k-th vertex of a face is the same mesh node from both cells.

Note: k-th face vertex is the k-th node of the face in the serial mesh from every cell and rank.

Status: proved. Theorems (PropertiesTycho): `C17_vertex_maps` [–], `C17_serial_vertex` [–].

### C18 Tetrahedron geometry is exact and orientation independent

Modelled: getVolume, getArea, getNormal, getCellVolume … (GeometryModel) over an arithmetic record, instantiated with exact reals. Proved: formulas against determinants; outward unit normals; the area-weighted normals of a cell add up to zero.

Note: exact real arithmetic.

Status: proved. Theorems (PropertiesGeometry): `C18_volume` [R2], `C18_area` [R2], `C18_normal` [R2], `C18_closed` [R2].

### C19 A shared face is outgoing for exactly one of its cells when not grazing

Same model. Proved: two non-overlapping tetrahedra with a common face have opposite normals, hence one outgoing and one incoming side unless tangent.

Note: exact real arithmetic; opposite sides derived from the cells not overlapping.

Status: proved. Theorems (PropertiesGeometry): `C19_opposite` [R2], `C19_flow` [R2].

### C20 Grazing faces are consistent (expected, not met)

Refutations: with Omega.n = 0 the face is incoming for both cells; such a face makes the traversal run for ever (with TraverseModel).

Note: the expected property fails: a grazing face is incoming for both cells; a face both cells take as incoming makes the traversal run forever.

Status: proved. Theorems (PropertiesGeometry, PropertiesTraverse): `C20_both_incoming` [R2], `C20_grazing_refuted` [R2], `C20_hang_refuted` [–].

### C21 The cell solver with pivoting solves the system

Modelled: gaussElim4, branch with pivoting (GaussModel). Proved over the reals: every nonsingular system is solved and no assertion fails; any result is a solution.

Note: exact reals; pivoting elimination solves every nonsingular system, no assertion fails.

Status: proved. Theorems (PropertiesTransport): `C21_pivoting` [R2], `C21_sound` [R2].

### C22 The pivot-free and Cramer cell solvers solve the system and agree with the pivoting one

Modelled: the branches without pivoting and Cramer. Proved: they solve the system under nonzero leading minors / determinant, and agree with C21.

Note: exact reals; nonzero leading minors are nonzero pivots.

Status: proved. Theorems (PropertiesTransport): `C22_no_pivot` [R2], `C22_cramer` [R2], `C22_agree` [R2].

### C23 The local transport system is always solvable, by every solver option

Modelled: assembly of the 4x4 system (TransportModel). Proved: the symmetric part is positive definite for sigmaT > 0, so all minors are nonzero.

Note: positive definite symmetric part; all solver options agree in every non-degenerate tetrahedron.

Status: proved. Theorems (PropertiesTransport): `C23_positive` [R2], `C23_cell` [R2].

### C24 Particle balance holds in every cell

Same model. Proved: sum of the four equations is in-flow + source = out-flow + absorption.

Note: exact reals.

Status: proved. Theorems (PropertiesTransport): `C24_balance` [R2].

### C25 The assembled system is the published upwind DG scheme

Same model. Proved equivalent to the DG equations with linear basis functions, whose integrals are specified by closed formulas (TransportSpec).

Note: solutions of the assembled system are exactly the solutions of the documented DG equations.

Status: proved. Theorems (PropertiesTransport): `C25_scheme` [R2].

### C26 Uniform solutions are reproduced

Same model. Proved: constant boundary and source sigmaT·c give the constant.

Note: exact reals.

Status: proved. Theorems (PropertiesTransport): `C26_uniform` [R2].

### C27 Energy groups do not interact

Proved at cell level, for the whole sweep (SweepModel) and for diffBetweenGroups (FluxModel).

Note: cell level, whole sweep, and diffBetweenGroups.

Status: proved. Theorems (PropertiesSweep, PropertiesTransport): `C27_groups` [–], `C27_noninterference` [–], `C27_sweep` [–], `C27_diff` [R2].

### C28 Each cell-angle pair is computed exactly once

Modelled: GraphTraverser::traverse, both MPI variants, as a transition system of all ranks and threads (TraverseModel) with arbitrary update function. Proved by an invariant over all reachable states.

Note: transition-system model of traverse over all interleavings.

Status: proved. Theorems (PropertiesTraverse): `C28_once` [–], `C28_frame` [–].

### C29 No cell-angle pair is computed before its upwind data is there

Same. The history variables record the order of the updates; each one follows the updates of its upwind neighbours, local and remote.

Status: proved. Theorems (PropertiesTraverse): `C29_after_upwind` [–].

### C30 The parallel sweep terminates on acyclic graphs

Same. Proved: there is no infinite run (a measure over the whole system decreases), and in every reachable state that is not final a step exists that needs no buffering of sends.

Note: no infinite run, no stuck state, for acyclic upwind graphs and maxCellsPerStep > 0; with 0 it never ends.

Status: proved. Theorems (PropertiesTraverse): `C30_no_infinite_run` [–], `C30_not_stuck` [–], `C30_finishes` [–], `C30_zero_steps_refuted` [–].

### C31 The swept angular flux does not depend on parallelism

Same. Every complete execution ends with the unique solution of the upwind recursion, which does not mention ranks, threads, priorities or messages.

Status: proved. Theorems (PropertiesTraverse): `C31_unique` [–], `C31_partition_independent` [–].

### C32 The two-sided exchange is deadlock free and loses nothing

Same, two-sided variant: exchange rounds are in lock step, no rank waits for a finished one, all channels are empty at the end.

Status: proved. Theorems (PropertiesTraverse): `C32_lockstep` [–], `C32_no_wait_for_finished` [–], `C32_nothing_left` [–], `C30_not_stuck` [–].

### C33 Blocking-send exchange is deadlock free (expected, not met)

Refutation: a reachable state of the CapsaicinTwoSided variant in which all ranks wait, if sends wait for their receives.

Note: refutation: concrete reachable deadlock under synchronous sends.

Status: proved. Theorems (PropertiesTraverse): `C33_deadlock_refuted` [–].

### C34 Boundary exchange for block methods is complete and matched

Modelled: CommSides constructor and commSides (CommModel). Proved: counts agree pairwise, every incoming side gets the data of the neighbour's outgoing side.

Note: exchange of boundary data: message sizes agree, every incoming side gets the neighbour's data, all other entries unchanged; needs directions not tangent to a face between ranks.

Status: proved. Theorems (PropertiesComm): `C34_counts` [–], `C34_exchange` [–], `C34_grazing_hangs_refuted` [–], `C34_grazing_overwrites_refuted` [–].

### C35 B-levels are longest downwind distances on the rank

Modelled: Priorities.cc calcBLevels as data of the backward traversal (PriorityModel). Proved equal to the independent longest-path specification on the rank; for the entire graph refuted.

Note: rank-local longest path proved; the documented whole-graph level is refuted.

Status: proved. Theorems (PropertiesPriority): `C35_longest` [–], `C35_computed` [–], `C35_entire_graph_refuted` [–].

### C36 Priorities follow their documentation (expected, not met)

Same model. What each option computes is proved; the documentation is refuted.

Note: refutations of the documented priorities, plus what the code computes instead.

Status: proved. Theorems (PropertiesPriority): `C36_bfds_zero` [–], `C36_dfds_dfhds` [–], `C36_wrap` [–], `C36_bfds_refuted` [–], `C36_dfds_refuted` [–].

### C37 Global angle prioritisation orders angles first

Same model. Proved: with global prioritisation the ordering of angles dominates; random and depth-first options are refuted.

Status: proved. Theorems (PropertiesPriority): `C37_global` [–], `C37_local` [–], `C37_blevels` [–], `C37_random_refuted` [–], `C37_dfds_refuted` [–].

### C38 The precomputed schedule is a topological order covering all work once

Modelled: SweepSchedule.cc (ScheduleModel). Proved by an invariant of the construction loop over all ranks.

Note: every pair listed once, after its upwind pairs (in an earlier step if on another rank), bounded steps, termination, matching send and receive lists; MPI_Send taken to buffer.

Status: proved. Theorems (PropertiesSchedule): `C38_once` [–], `C38_step_size` [–], `C38_order` [–], `C38_ends` [–], `C38_matched` [–], `C38_sends` [–].

### C39 maxCellsPerStep is honoured for every value (expected, not met)

Refutation in the same model.

Note: finding: a limit that is a multiple of 2^32 makes the construction loop for ever.

Status: proved. Theorems (PropertiesSchedule): `C39_no_progress_refuted` [–].

### C40 Source iteration stops within its limits and only when entitled

Modelled: SourceIteration::fixedPoint (FluxModel), any arithmetic, any sweeper.

Note: any arithmetic and any sweeper; at least one iteration needs errMax < 1, otherwise none is made (refuted expectation).

Status: proved. Theorems (PropertiesFlux): `C40_limits` [–], `C40_ends` [–], `C40_no_sweep_refuted` [–].

### C41 A converged source iteration solves the scattering problem

Same, with SweepModel/SourceModel: the iteration's update is a complete sweep. Proved: the change of the scalar flux bounds the residual; a stationary iterate is the solution. KrylovSolver.cc: the coded right-hand side and matrix-vector product form a system whose exact solution is the transport solution.

Note: exact arithmetic, sweeps are complete executions of the traversal on any number of ranks; Krylov: if the linear system as coded is solved exactly.

Status: proved. Theorems (PropertiesSource): `C41_residual` [R2], `C41_converged` [R2], `C41_kept` [R2], `C41_krylov` [R2].

### C42 Angle-space operators have their defining algebra

Modelled: Util.cc psiToPhi, phiToPsi, calcTotalSource, operatorS (FluxModel).

Note: loops of Util.cc; sums over the reals, the rest in any arithmetic.

Status: proved. Theorems (PropertiesFlux): `C42_psiToPhi` [R2], `C42_linear` [R2], `C42_phiToPsi` [–], `C42_roundtrip` [R2], `C42_total` [–], `C42_total_real` [R2], `C42_operatorS` [–].

### C43 Block Jacobi converges to the sweep solution in finitely many iterations

Modelled: SweeperPBJ (BlockModel). Proved by induction on the number of partition crossings.

Note: block Jacobi over complete executions of the local traversal and the boundary exchange, arbitrary cell solver; holds from the sweep whose number exceeds the crossings.

Status: proved. Theorems (PropertiesBlock): `C43_crossings` [–], `C43_finite` [–], `C43_fixed_point` [–].

### C44 PBJ iteration limit means what it says (expected, not met)

Refutations in the same model.

Note: refutes the expectation: at most ddIterMax-1 sweeps, none if ddIterMax <= 1.

Status: proved. Theorems (PropertiesBlock): `C44_pbj_refuted` [–], `C44_outer_refuted` [–], `C44_si_refuted` [–].

### C45 Krylov vector packing is lossless

Modelled: psiBoundToVec, vecToPsiBound (SchurModel).

Note: int index overflow with more than INT_MAX entries is a finding.

Status: proved. Theorems (PropertiesSchur): `C45_layout` [–], `C45_vector_back` [–], `C45_data_back` [–], `C45_overflow_refuted` [–].

### C46 The angular quadrature is symmetric and accurate to the digits of its tables

Modelled: Quadrature.cc (QuadratureModel) with the tables as rational decimals. Proved with trigonometric identities and interval enclosures in fixed-point arithmetic checked by the kernel.

Note: Exact real arithmetic on the 16-digit decimal tables of the source. The sum of weights being exactly 4 pi is refuted (tables are rounded) and replaced by a 1e-14 bound.

Status: proved. Theorems (PropertiesQuadrature): `C46_supported` [R2], `C46_directions` [R2], `C46_symmetric` [R2], `C46_odd` [R2], `C46_polar` [R3], `C46_normalised` [R3], `C46_exact_refuted` [R2].

### C47 Cross sections follow the cell material

Modelled: createCrossSections (ProblemModel).

Note: Every assignment of materials: one pair of cross sections per cell according to its material, an abort exactly when some cell has another material, and the mesh reader's material of a cell is the serial mesh's.

Status: proved. Theorems (PropertiesProblem): `C47_materials` [–], `C47_aborts` [–], `C47_serial` [–].

### C48 The test source is the exact residual of the documented hat solution

Modelled: Problem.cc hatSource, hatL2Error (ProblemModel). Proved: the source is the derivative of the hat along the direction plus absorption minus scattering, with the quadrature sum for the scalar flux; the reported error is zero exactly if every cell mean is the hat at its centroid.

Note: In exact real arithmetic, away from the centre and the radius 30: hatSource is the directional derivative of the hat plus sigmaT hat minus sigmaS/(4 pi) times its scalar flux; the reported L2 error of the sampled hat is zero.

Status: proved. Theorems (PropertiesProblem): `C48_residual` [R2], `C48_error_zero` [R2].

### C49 The test source is defined at all mesh nodes (expected, not met)

Refutation in the same model (division by zero is `None`).

Note: Refutation: a node at the cube centre makes hatSource divide zero by zero.

Status: proved. Theorems (PropertiesProblem): `C49_centre_refuted` [R2].

### C50 Timers report the total time of the closed intervals

Modelled: Timer.hh as a state machine (TimerModel), all call sequences.

Note: All call sequences and clock readings; also the interval count returned as int goes negative after 2^31 intervals (refuted).

Status: proved. Theorems (PropertiesTimer): `C50_total` [R1], `C50_protocol` [R1], `C50_running` [R0], `C50_elapsed` [R1], `C50_int_refuted` [R1].

### C51 getAdjFace returns the adjacent face (expected, not met)

Refutation in TychoModel.

Note: the expected property fails: the accessor returns the adjacent cell.

Status: proved. Theorems (PropertiesTycho): `C51_getAdjFace_refuted` [–].

### C52 Side data reaches the geometrically adjacent cell on the other rank (expected, not met in general)

Refutation on a concrete mesh, and the positive statement under equal enumeration order.

Note: the expected property fails on three tetrahedra over two ranks; it holds when both ranks enumerate shared faces in the same order.

Status: proved. Theorems (PropertiesTycho): `C52_side_pairing_refuted` [–], `C52_same_order` [–].

### C53 Metis input graph is the cell adjacency graph

Modelled: PartitionMetis partitionMesh (MetisModel); METIS is a function parameter.

Note: All meshes satisfying the serial mesh predicate whose sizes fit the METIS index type; METIS itself is a parameter constrained to fill the partition vector.

Status: proved. Theorems (PropertiesMetis): `C53_graph` [–], `C53_symmetric` [–], `C53_vector` [–], `C53_succeeds` [–].

### C54 Run configuration is validated before use

Modelled: Main.cc readInput (DeckModel).

Note: std::stod is an arbitrary function.

Status: proved. Theorems (PropertiesDeck): `C54_configuration` [–], `C54_unknown_sweep_rejected` [–], `C54_unknown_mpi_rejected` [–], `C54_integer_exact` [–].

### C55 A mistyped GaussElim option is reported (expected, not met)

Refutations in the same model.

Note: the expected property is false.

Status: proved. Theorems (PropertiesDeck): `C55_gauss_elim_checked_refuted` [–], `C55_unknown_gauss_is_original` [–], `C55_negative_option_refuted` [–].

### C56 The threads of a rank do not interfere

In TraverseModel: in every reachable state two threads of a rank work on different angles, leave each other's queue and step counter alone, and their steps commute.

Status: proved. Theorems (PropertiesTraverse): `C56_threads` [–].

### C57 The parallel sweep solves the global transport problem

Combines C31 with C25 through SweepModel: the result of the parallel sweep satisfies the DG equations in all cells of the global mesh.

Status: proved. Theorems (PropertiesSweep): `C57_global_dg` [R2].

### C58 Sweep-schedule levels are longest downwind distances in the entire graph

ScheduleModel calcLevels; as C38, with the longest path over the entire graph as specification.

Note: levels over the entire graph, unlike the traversal's b-levels (C35).

Status: proved. Theorems (PropertiesSchedule): `C58_levels` [–], `C58_ends` [–].

### C59 Dependent-seeking priorities of the schedule, and whether they survive the queue

SeekSpec states what the priorities are as the largest of what a cell's neighbours give it, and which cells of other ranks radiation comes to first. SeekProofs reuses the invariant of the loop of C38 (counters and queue) with the pairs of the other ranks counted as done, and keeps the recursion over the pairs done so far: a pair taken later changes no pair already taken. PropertiesSeek combines it with the levels of C58. PropertiesSchedule: conversion of priorities; one wrapping depth-first priority, and C59_depth_refuted for every mesh.

Note: what the priorities are, and that they are computed; finding: depth-first priorities wrap to 2^64-1, out of range of the conversion; breadth-first ones are exact.

Status: proved. Theorems (PropertiesSchedule, PropertiesSeek): `C59_seeking` [–], `C59_seeking_ends` [–], `C59_breadth` [–], `C59_bfds` [–], `C59_dfds_refuted` [–], `C59_depth_refuted` [–].

### C60 A schedule with cyclic dependencies is not silently incomplete

Refutation in ScheduleModel.

Note: finding: on a cyclic mesh the construction ends and omits every pair on a cycle.

Status: proved. Theorems (PropertiesSchedule): `C60_cyclic_refuted` [–].

### C61 The Schur complement methods solve the same problem as a full sweep

Modelled: the classes of SweeperSchur.cc (SchurModel); KSPSolve is a relation. Proved: an exact solution of the coded system reproduces the full sweep; the systems are solvable.

Note: PETSc KSPSolve is a relation; exactness of its solution is a hypothesis; exact reals.

Status: proved. Theorems (PropertiesSchur): `C61_schur` [R2], `C61_solvable` [R2], `C61_krylov` [R2], `C61_outer` [R2], `C61_inner` [R2], `C61_scatter_solvable` [R2].

### C62 Source iteration converges at the rate of the scattering ratio

Energy estimate of the upwind DG scheme (EnergyProofs): the source iteration contracts in a weighted norm with the scattering ratio.

Note: exact arithmetic; C62_quadrature: the weights of every supported quadrature qualify; energy estimate of the upwind DG scheme; the two cells at a face agree on area and normal (hypothesis faces_match).

Status: proved. Theorems (PropertiesEnergy): `C62_contraction` [R2], `C62_iterations` [R2], `C62_stopping` [R2], `C62_well_posed` [R2], `C62_quadrature` [R3].

### C63 The block Jacobi solvers with scattering converge geometrically to the solution on the whole mesh

Modelled: the block solvers of SweeperPBJ.cc with scattering, both nestings of the loops (PbjModel). Energy estimate including interface flow (BlockEnergyProofs).

Note: exact arithmetic; energy estimate with the flow through the interfaces as part of the energy; hypotheses scattering_ok with ratio below 1 and face_vertices; C63_zero_refuted is a finding: zero source gives 0/0 in the error test and the loop runs to its limit.

Status: proved. Theorems (PropertiesBlockEnergy): `C63_converges` [R2], `C63_stops` [R2], `C63_zero_refuted` [R2], `C63_runs` [R2], `C63_stationary` [R2], `C63_outer` [R2], `C63_outer_krylov` [R2].

### C64 Sweeps over a precomputed schedule

Modelled: Sweeper.cc, OriginalTycho1 and OriginalTycho2 (OrigModel). Invariant against the unique upwind solution; progress by the minimal pending key; termination by counting.

Note: OriginalTycho1 and OriginalTycho2 as a transition system of ranks and threads with FIFO channels; no deadlock under rendezvous semantics; the sweep leaves the upwind solution, equal to the graph traversal's; flat message vectors round trip; C64_grazing_refuted: a face within TOL of the schedule makes a sweep use stale flux.

Status: proved. Theorems (PropertiesOrig): `C64_result` [–], `C64_progress` [–], `C64_bounded` [–], `C64_completes` [–], `C64_same_as_traversal` [–], `C64_message` [–], `C64_grazing_refuted` [–].

### C65 From the mesh file to the transport solution, whatever the partition

Modelled: constructor of TychoMesh.cc (ViewModel) on top of the readers; specification on the serial mesh, without ranks (ViewSpec). ViewProofs: adjacency of the meshes of all ranks; ViewGeoProofs, ViewSysProofs: areas, normals, vertex maps, so all hypotheses of C30, C57, C62-C64; ViewEqProofs: equations of the ranks and of the serial mesh are the same.

Note: createFromSerialMesh, write, readInParallel, readTychoMesh and the TychoMesh constructor composed with the traversal and the solvers; the specification is the DG system on the serial mesh without ranks. Exact arithmetic; coordinates are compared as the reals they denote (no NaN). The pairing of faces across ranks is by global face number.

Status: proved. Theorems (PropertiesView): `C65_reads` [R1], `C65_hypotheses` [R2], `C65_sweep` [R2], `C65_partition_independent` [R2], `C65_source_iteration` [R2], `C65_quadrature` [R3], `C65_block_jacobi` [R2].

### C66 Bitwise the same angular flux on any number of ranks

Modelled: the same program in an arbitrary arithmetic (BitsModel) and IEEE doubles (DoubleModel). BitsSpec: recursion over the serial mesh without ranks, in the same arithmetic. BitsProofs: the recursion has one solution, and every sweep ends with it; hence bit for bit equality. DoubleProofs: negation is exact, so the two sides of a face agree unless an apex or a direction is computed on the face.

Note: generic over the arithmetic, instantiated with Flocq's binary64; the iteration count is refuted to be independent of the partition; thin tetrahedra can make both sides compute the same sign.

Status: proved. Theorems (PropertiesBits, PropertiesDouble, PropertiesThin): `C66_ends` [R2], `C66_sweep` [R2], `C66_partition_independent` [R2], `C66_source_iteration` [R2], `C66_double_compares` [R3], `C66_double_signs` [R3], `C66_error_refuted` [R3], `C66_signs_refuted` [R3].

### C67 Refining a valid mesh gives a valid mesh of the same solid

Modelled: RefineSerialMesh.cc (RefineModel). RefinedSpec: exact midpoints, separation by the tolerance, boundary triangles. RefinedProofs: the eight children over the reals, the node order; RefinedMeshProofs: cells of the refined mesh are the children, hence solid; at most two cells at a face from non-overlap; RefinedBdryProofs: faces of children are quarters of faces or shared by two children. A boundary face of the refined mesh touches no other cell off its edges if this holds for the old mesh (two tetrahedra on one side of a face that meet in its interior overlap), so refinement can be repeated. GridModel/GridProofs: the double operations of the utility (0.5 * (a + b), graphDiameter, 1e-14 * graphDiameter, x < y - TOL, x > y + TOL); on even multiples of 2^e up to 2^45 2^e the midpoints are exact and the computed tolerance is at most 3/4 2^e, whatever the rounding. C67_doubles: induction over runs of the utility. Example: 500 pairs of tetrahedra, with abstract coordinates and in doubles.

Note: exact midpoints assumed in the first three; C67_doubles proves them in double precision for coordinates on a dyadic grid.

Status: proved. Theorems (PropertiesGrid, PropertiesRefined): `C67_valid` [R2], `C67_same_solid` [R2], `C67_boundary` [R2], `C67_doubles` [R3].

### C68 Importing a MOAB mesh gives that mesh

Modelled: MoabToSerialMesh.cc over a database of entities (MoabModel). MoabSpec: node and cell numbers are ranks of handles, faces are the sides, each once, points of tetrahedra. MoabProofs: creating the missing sides closes the database; then every lookup succeeds and the mesh is the one of the specification. MoabGeoProofs: materials over the reals and for doubles on a grid, points and boundary, stray triangles.

Note: MOAB itself is modelled as a database (DESIGN.md section 3).

Status: proved. Theorems (PropertiesMoab): `C68_import` [–], `C68_no_choice` [–], `C68_materials_exact` [R2], `C68_materials_doubles` [R3], `C68_materials_doubles_refuted` [R3], `C68_same_solid` [R1], `C68_stray_triangle` [–].

### C69 Exporting a mesh to MOAB keeps every cell

Modelled: SerialMeshToMoab.cc and ParallelMeshToMoab.cc (MoabModel). MoabExportProofs: invariant of the cell loops (fresh vertices, disjoint tetrahedra), file names (decimal numbers are injective), database satisfies the hypotheses of C68. With C11 in terms of the serial mesh and the partition vector.

Note: writing the database to files is MOAB's.

Status: proved. Theorems (PropertiesMoab): `C69_serial` [–], `C69_parallel` [–], `C69_partitioned` [–], `C69_names` [–], `C69_reimport_disconnected` [–], `C69_roundtrip_refuted` [R3].

### C70 The output file depends on the deck and the mesh, not on how the program is run

Modelled: main from the deck and the mesh file to the output file, as a relation in an arbitrary arithmetic (MainModel, from the models of C05, C10, C18, C26, C38, C48, C54, C64, C66), for the sweep types TraverseGraph, OriginalTycho1 and OriginalTycho2; for the last two Omega.n must be beyond 1e-10 on faces between cells, the tolerance of the schedule. MainSpec: source iteration on the serial mesh without ranks. MainProofs: induction over the iterations with C66; the writes of all ranks give the image (C02). MainExact: exact sums over ranks equal sums over the mesh, so the stopping test agrees. MainTransport: a sweep of the serial mesh is the sweep of a run on one rank, so it solves the equation of C65, and C62 contracts.

Note: graph sweeps and sweeps over a schedule, with source iteration; the other sweepers and Krylov: C72.

Status: proved. Theorems (PropertiesMain, PropertiesMainExact): `C70_output` [R2], `C70_determined` [R1], `C70_partition_independent` [R2], `C70_runs` [R2], `C70_exact` [R2], `C70_exact_partition_independent` [R2], `C70_source` [R2], `C70_geometry` [R2], `C70_transport` [R2], `C70_solution` [R2].

### C71 Solver options do not change the answer

Modelled: as for C70. The flux that C70 gives for a deck mentions only angles, groups, cross sections and cell solver; so decks that agree in those give the same file.

Note: the three sweep types of C70.

Status: proved. Theorems (PropertiesMainSame): `C71_solver_independent` [R2], `C71_exact_solver_independent` [R2].

### C72 All solvers that a deck can name solve the same equations

Modelled: main with all nine sweep types (MainAllModel, from MainModel and the models of C41, C61, C63), in exact arithmetic; KSPSolve is a relation (section 3). MainAllMpi: the exchange of block interfaces. MainAllProofs: exact Krylov or Schur solves give the transport equation of the ranks (C41, C61); MainAllBlock: block iterations contract (C63); MainAllRuns: each loop ends and each solver call has a solution. PropertiesMainAll: transfer to the deck and mesh by C65. Not covered by a bound on the error: SchurOuter and PBJOuter with source iteration inside (two nested inexact iterations), PBJ stopped early.

Note: exact arithmetic, exact linear solver; no error bound is claimed for SchurOuter and PBJOuter with source iteration inside, nor for PBJ stopped early.

Status: proved. Theorems (PropertiesMainAll): `C72_direct` [R2], `C72_same` [R2], `C72_source_iteration` [R2], `C72_block_jacobi` [R2], `C72_runs` [R2], `C72_agrees` [R2].

### C73 What the program prints about its result

Modelled: Util::diffBetweenGroups and Problem::hatL2Error, called by main after the solve (PrintModel), with the runs of C70 and C72; the maximum over ranks (MPI_MAX) is a parameter, the sum over ranks as in C70. PrintSpec: the error on the serial mesh, no ranks. PrintProofs: every sweep of a flux and source that are the same in all groups is the same in all groups; a sum over ranks of sums over their cells is the sum over the mesh. In exact arithmetic the zero flux divides by zero (a total function in Coq); the double theorem says NaN. In doubles the printed error may depend on the partition (order of summation); no claim.

Note: groups: any arithmetic in which x - x is not above zero, and doubles; error: exact arithmetic.

Status: proved. Theorems (PropertiesPrint): `C73_groups` [R2], `C73_groups_doubles` [R3], `C73_error` [R2], `C73_error_independent` [R2], `C73_direct` [R2], `C73_same` [R2].

### C74 From a serial mesh file to the output file by commands

Modelled: main of PartitionColumns.cc, PartitionMetis.cc and RefineSerialMesh.cc with their arguments, and src/Main.cc with its arguments around the runs of C70 and C72 (CommandModel), on a map from file names to contents. Proved from C08, C12, C13, C53, C65, C67, C70, C72: what the partitioner writes is a launch of C70, whichever partitioner; the header of the file admits one number of ranks; the refined file read back is the refined mesh, so n runs of the refinement compose. Printing is left out; argument vectors of another length leave the files as they are. The deck must not be overwritten by the partitioner (names differ). C74_number: what atoi makes of a numeral; C74_no_parts: a count below one writes nothing; C74_columns: the file written by PartitionColumns is that of an even partition, ordered by the exact centroids of the cells in x over columns and in y within one.

Note: Examples C74_ex, C74_solvers_ex, C74_refined_ex (PropertiesCommandEx), C74_number_ex (PropertiesTools), C74_columns_ex (PropertiesToolsEx). std::sort, METIS and KSPSolve are parameters with the contracts of C13, C53 and C72.

Status: proved. Theorems (PropertiesCommand, PropertiesTools): `C74_output` [R2], `C74_same` [R2], `C74_exact_same` [R2], `C74_runs` [R2], `C74_solvers` [R2], `C74_refined` [R3], `C74_number` [–], `C74_no_parts` [–], `C74_columns` [R2].

### C75 Particles are conserved over the whole mesh

BalanceSpec: integral over the mesh of a function given by vertex values; what leaves through an outside face (signed area if positive, times the mean over the face); leakage; balance of a group. BalanceProofs: the sum of the DG equations of a cell is its balance (C24), and the inflow of a cell across a shared face is the outflow of the cell on the other side, so a permutation of the oriented inner faces cancels them; the sum over the cells of all ranks is the sum over the cells of the serial mesh (C65). Carried to the programs of C70 (source iteration) and C72 (all solvers). In doubles no claim.

Note: Exact arithmetic. Balance after a sweep on any partition, of the solution with scattering, of the output file of a direct solver, and of source iteration up to the last change.

Status: proved. Theorems (PropertiesBalance): `C75_sweep` [R2], `C75_scattering` [R2], `C75_output` [R2], `C75_iteration` [R2].

### C76 A sweep by graph traversal ends exactly if no cell waits for itself; on a shipped mesh with S2 it never ends

TraverseModel as for C28-C31, with the hypothesis on flow directions weakened to sys_fit: no face is outgoing at both sides (it may be incoming at both). HangProofs: in every reachable state the updates made so far have an order in which upwind cells come first; at the end everything has been updated, so the order has no cycle. HangMainProofs carries it from the cells of the ranks to those of the serial mesh. CubeModel is util/cube-12.smesh word by word (and serialRead of the file gives it); HangCheck decides on computed normals, in Flocq doubles, that no face of it is outgoing at both sides; face 19 between cells 2 and 3 is incoming at both for direction 2. The directions are data (s2Bits), because sin and cos are not modelled in doubles.

Note: The equivalence needs the size-then-data exchange or no exchange at all, as C30. cube-12: the bits of the eight S2 directions are those of the usual C library (correctly rounded sqrt, cos and sin results as computed outside Coq), without fused multiply-add.

Status: proved. Theorems (PropertiesHang, PropertiesHangMain): `C76_ends_acyclic` [–], `C76_ends_iff` [–], `C76_never_updated` [–], `C76_both_incoming` [–], `C76_program` [R2], `C76_program_hangs` [R2], `C76_double_fit` [R3], `C76_cube_refuted` [R3].

### C77 On a mesh that is not too flat, double precision decides every flow direction as exact arithmetic does

getNormal, the orientation of normals and Omega.n (GeometryModel) in Flocq doubles. RoundProofs: every operation on numbers of moderate size has relative error 2^-53 and neither overflows nor underflows; TripleProofs, FaceSignProofs: forward error of cross product, norm, division and dot product, so that the sign of the result is exact if the exact triple product exceeds 2^-49 of the sum of its terms. MeshRoundProofs: which vertices of the mesh file the program uses, in which order. C77_needle_refuted: a mesh with a triangle of sides about 1 and height about 2^-60, whose cross product is exactly zero in doubles.

Note: C77_needle_refuted: without the condition the claim is false, and the program hangs. Examples C77_ex, C77_needle_ex (PropertiesRoundEx).

Status: proved. Theorems (PropertiesRound, PropertiesRoundEx): `C77_clear` [R1], `C77_sign` [R3], `C77_signs` [R3], `C77_cycles` [R3], `C77_problem` [R3], `C77_setting` [R3], `C77_needle_refuted` [R3].

### C78 The regression comparison accepts what it should

DiffModel is test/diff.py statement by statement over any arithmetic; the order of numpy's sums is a parameter, constrained only to be some order and bracketing of additions (adds); float() is a parameter. DiffProofs: exact arithmetic. DiffDoubles: sums and quotients of non-negative doubles with overflow, infinity and not-a-number; the division needs no error term because rounding is monotone and the tolerance is a double. C78_runs uses C74_same. regression.py is a loop over this command and is not modelled.

Note: C78_zero_refuted and C78_header_refuted: the two cases in which the comparison is wrong. Examples C78_exact_ex, C78_runs_ex (PropertiesDiffEx).

Status: proved. Theorems (PropertiesDiff): `C78_arguments` [–], `C78_exact` [R2], `C78_sound` [R3], `C78_same` [R3], `C78_runs` [R3], `C78_zero_refuted` [R3], `C78_header_refuted` [R3].

### C79 Block Jacobi runs are reproducible to the bit and mean the same on the serial mesh

JacobiModel is SweeperPBJ.cc with source iteration over any arithmetic, including the side data kept between sweeps and the stopping tests, and returns a log of the steps taken (flux, local sweep, exchange). JacobiSpec has no ranks: cells in parts, values of other parts as of the last exchange. JacobiRun: a simulation of each solver by the log (BlockProofs for one local sweep and one exchange), and that a run exists. JacobiTwo: two runs on one parallel mesh file in step; the stopping tests see the same numbers because each rank adds its own in array order. JacobiLog: the shape of the logs, and one part.

Note: The flow signs of the serial mesh may make cycles (C80). Example C79_ex (PropertiesJacobiEx): double precision, all three solvers, one rank or two. C79_one_rank asks that 0 + 0*w = 0 for the weights (PBJSI starts from a scalar flux of zero).

Status: proved. Theorems (PropertiesJacobi): `C79_output` [R2], `C79_determined` [R1], `C79_same_steps` [R2], `C79_reproducible` [R2], `C79_log` [–], `C79_runs` [R2], `C79_one_rank` [R2].

### C80 Block Jacobi ends exactly if no cycle of upwind cells lies within one rank

JacobiEnds: a log with a sweep contains a local sweep that ended, and a deck that asks for one has it in its log. JacobiRun.local_acyclic_iff: the graph of a local sweep (TraverseModel without communication) is acyclic exactly if the computed flow signs make no cycle within a part, so C76 applies to it; the other direction is C79_runs, which needs no more than that. PropertiesJacobiRing: eight non-overlapping tetrahedra in a ring, in double precision; RingCheck are the checkers used for it.

Note: Examples C80_ring_ex, C80_traversal_ex (PropertiesJacobiRing): eight tetrahedra in a ring in double precision; cut in two halves every deck of C79_ex ends, on one rank none does, and graph traversal ends for no partition. That these eight tetrahedra do not overlap was checked outside Coq; no theorem needs it.

Status: proved. Theorems (PropertiesJacobi): `C80_swept` [R2], `C80_ends` [R2].

### C81 Numbering, symmetry and cell solver do not matter in exact arithmetic

SymSpec says what it means for a mesh to be a renumbered and moved copy, with no reference to ranks. SymGeo: volume (Gram determinant), areas (Heron), outward normals and the DG system of a cell under isometries and permutations of the four vertices. SymProofs: faces, neighbours and upwind values carry over, so a solution on the moved mesh carried back solves the transport equation. SymRun: at most one field does (C65), so the sweeps agree; the sums over directions, cells and vertices of the scalar flux and of the stopping test are permuted. SymProblem: solidity, transversality and acyclicity carry over, so they are assumed of one mesh only. PropertiesSym puts this under C70_exact. Exact arithmetic: in double precision the sums depend on the order. A node at the centre itself has 0/0 in its source (finding 15), which is 0 in the exact model.

Note: Example C81_ex (PropertiesSymEx): the two tetrahedra of C65 renumbered throughout with x and y exchanged and another GaussElim, and the mirror symmetry of that mesh itself. Exact arithmetic; the division 0/0 at a node at the centre of the source (finding 15) is 0 in the exact model.

Status: proved. Theorems (PropertiesSym): `C81_moved` [R2], `C81_renumbered` [R2], `C81_symmetric` [R2], `C81_cell_solver` [R2], `C81_quadrature` [R2].

### C82 The flux is linear in the source and bounded by it, but need not be positive (expected, not met)

StableSpec defines the combination of two fields and their weighted L2 distance. StableProofs: Young's inequality in the energy estimate of C62 (per direction), and summed over the directions with the scattering term absorbed by k. PropertiesStable carries both from the ranks to the serial mesh through C65; superposition is linearity of the equations together with uniqueness. The refutation solves the 4 by 4 system of the lower cell of the two tetrahedra of C65, the areas of its faces computed from the mesh.

Note: Exact arithmetic; sweeps are runs of the program model on any partition (C65), solutions with scattering are those the solvers converge to (C62, C72). Positivity is refuted by a source on one tetrahedron.

Status: proved. Theorems (PropertiesStable): `C82_superposition` [R2], `C82_scattering_superposition` [R2], `C82_stable` [R2], `C82_scattering_stable` [R2], `C82_positive_refuted` [R2].

### C83 Mesh listings tell meshes apart, and what the ranks read is what was written

InfoModel follows both print functions and both programs character by character. InfoSpec says what a decimal numeral is and when two meshes agree up to undisplayed digits. InfoProofs: the numerals have the right place value; texts can be read from the left (each field ends in a character it cannot contain), so blocks, lists of blocks and whole listings determine their data. The parallel half rests on C09 and C10; C83_created carries it to PartitionMesh's files.

Note: printf %f is a parameter assumed to print no comma, parenthesis or line end; the output of the ranks is taken in the order the barriers ask for.

Status: proved. Theorems (PropertiesInfo): `C83_numbers` [–], `C83_serial_listed` [–], `C83_serial` [–], `C83_brief` [–], `C83_ranks` [–], `C83_parallel` [–], `C83_other_ranks` [–], `C83_created` [–], `C83_readable_listed_refuted` [–].

### C84 Patch test: continuous piecewise linear solutions are found exactly, others up to their residual

PatchSpec defines the gradient of a linear function by its differences at the corners, nodal functions, their source and what it means that nothing enters. PatchProofs: signed areas as cross products (from C18), hence the divergence theorem for linear functions as a polynomial identity; the equations of a cell then hold for u because on every inflow face the neighbour has the same values and on the boundary u is zero. Uniqueness (C65) gives the patch test, stability (C82) the error bound.

Note: exact arithmetic.

Status: proved. Theorems (PropertiesPatch): `C84_gradient` [R2], `C84_by_parts` [R2], `C84_patch` [R2], `C84_error` [R2], `C84_scattering` [R2], `C84_scattering_error` [R2].

### C85 Rounding errors of the scalar flux, of the total source and of the convergence test

SumSpec gives the exact sums, over R and without the model's loops. SumProofs: Flocq's error of one operation (additions and subtractions have a relative error even among subnormal numbers, products and quotients an extra 2^-1075), induction over the sum for the products; for the measure of convergence, every sum in any order and with any parentheses of nonnegative numbers is within powers of 1-u and 1+u of the exact one, the sums of the ranks flatten to one such sum, and the quotient adds one rounding. Overflow in the quotient is covered: the comparison then comes out as it should. calcTotalSource (PropertiesSumSource): the factor 4 is exact, one quotient, one product and one sum round; M_PI is within 2^-52 of pi by 17 terms of Machin's series 2 arctan(1/3) + arctan(1/7) = pi/4 of the standard library, as fractions. Sums near overflow and a flux that is zero everywhere (0/0, see C40) are excluded by hypothesis. Fused multiply-add is not modelled (section 2).

Note: binary64 error bounds for psiToPhi, calcTotalSource (with M_PI against the true pi) and for the relative change of SourceIteration's fixedPoint; gsum: any order of addition (the relation added of C78).

Status: proved. Theorems (PropertiesSum, PropertiesSumSource): `C85_flux` [R3], `C85_flux_relative` [R3], `C85_change` [R3], `C85_stop` [R3], `C85_continue` [R3], `C85_source` [R3], `C85_pi` [R3], `C85_source_exact` [R3], `C85_emission` [R3].

### C86 What the reader of input decks prints

MessageModel repeats the control flow of the reader with the text it prints (DeckModel has the results); printf's %s ends at a zero byte; an int appended to a std::string becomes a char, taken modulo 256. MessageSpec defines faults of lines by the grammar of C05. MessageProofs: one induction over the lines relates faults, messages and the flag that makes readFile throw; stored keys and values are tokens, so the printed lines parse back. getFloat, which no program calls, is left out.

Note: The line number in messages is expected, not met: errorString += lineNum appends a character (C86_line_named_refuted, C86_wrong_line).

Status: proved. Theorems (PropertiesMessage): `C86_reports` [–], `C86_wrong_line` [–], `C86_line_named_refuted` [–], `C86_echo` [–], `C86_calls` [–].

### C87 What the solvers print about their iterations

ProgressModel repeats the loops of FluxModel and JacobiModel with the lines they print, one constructor per printf; times are not part of a line. C87_runs and C87_block_runs show that these are the same loops: a run exists with lines exactly if it exists without. ProgressSpec reads the lines back. Proofs are inductions over the loops; C87_exact follows the proof of C70_exact entry by entry, and equal entries give equal lines. %e and the times are parameters of the text; what PETSc and the Schur solvers print is left out.

Note: the Krylov branch and times are not part of the lines; four expectations are refuted: the average may divide by zero, PBJ Iters is one too large at the limit, Num source iters counts local sweeps, SweeperPBJSI's list is empty.

Status: proved. Theorems (PropertiesProgress): `C87_runs` [–], `C87_iterations` [–], `C87_exact` [R2], `C87_exact_partition_independent` [R2], `C87_average_refuted` [R2], `C87_pbj_sweep` [–], `C87_pbj` [–], `C87_outer` [–], `C87_si` [–], `C87_counts_refuted` [–], `C87_block_runs` [–], `C87_text` [–].

### C88 What the priority options of a precomputed schedule do

ConstructModel has the constructor of the schedule with its two options on top of ScheduleModel (calcLevels, neighborPriorities, calcOrdering) and PriorityModel (globalAngles, localAngles). C88_respects holds for any priorities: ConstructProofs follows a step of partialTopoSort and shows that what is taken or left in the queue was there at the start or is released by an earlier pair, and the invariant of C38 says what is in the queue. C88_levels, C88_global and C88_local add what the priorities are: levels (C58), blocks (C37), exact as doubles below 2^53. C88_schedule holds for every option; C88_ends shows that a result exists for levels with any inter-angle option. The claim is about schedules whose priorities can be converted; for depth-first seeking see C59.

Note: Any priorities (C88_respects); the options levels with interleaved, global and local angles. Existence (C88_ends) for levels with every inter-angle option.

Status: proved. Theorems (PropertiesConstruct): `C88_respects` [–], `C88_schedule` [–], `C88_levels` [–], `C88_global` [–], `C88_local` [–], `C88_ends` [–].


## 6 Findings

1. `getAdjFace` returns the adjacent cell (C51).
2. A direction tangent to a face makes it incoming for both cells; the traversal then never ends (C20).
3. `order3Vertices` does nothing: its swaps act on copies. The orders of vertices still agree, because all cells list a face's vertices as the face does (C17).
4. `adjCellFromSide` pairs sides by order of enumeration, which can differ between ranks (C52). The buffers of its Isends are reused before completion.
5. Priorities subtract one from an unsigned number and wrap (C36, C37).
6. B-levels are computed without communication, so breadth-first-descendant priorities are all zero and depth-first ones ignore other ranks (C35, C36).
7. `partialTopoSort` truncates the limit of cells per step to 32 bits; a multiple of 2^32 never makes progress (C39).
8. The blocking variant of the exchange can deadlock (C33).
9. `Sweeper::send` passes a local vector to Isend and leaves it before completion; it takes the address of element 0 of empty vectors. (Not a theorem; the model takes the message as sent.)
10. A NaN error ends `fixedPoint` as converged; the block iteration does one sweep less than its limit (C44).
11. A mistyped GaussElim option silently selects a default (C55).
12. A failed read of a deck leaves data readable (C07).
13. Ids of more than 31 bits are truncated when a mesh is partitioned (C11).
14. `getGLSide` of an unknown side is undefined behaviour; `getCellVrtx` of a vertex not of the cell returns 0.
15. hatSource is 0/0 at the cube centre (C49).
16. The schedule ignores faces with Omega.n below 1e-10, the sweep does not: stale data is used (C64).
17. writeToFile multiplies sizes in int (C03).
18. An error text of the deck reader appends the line number as a character.
19. Refining a mesh of fewer than 1000 cells divides by zero (C15).
20. The example deck has no MPIType and is rejected (C54).
21. Normals of the two cells at a face are computed separately; in double precision both sides of a thin tetrahedron can compute outflow (data is lost) or both inflow (the sweep hangs), although the exact problem is valid (`C66_signs_refuted`; the C19 theorem is for exact arithmetic).
22. `Comm::readUint64` does not check the count read (C10).
23. `recvData2Sided` calls MPI_Get_count on an uninitialised status when nothing was received.
24. The order of nodes with tolerance is not transitive (C14).
25. diffBetweenGroups is 0/0 for a zero flux (C27).
26. maxCellsPerStep = 0 never ends (C30); random priorities exceed their bound (C37).
27. Depth-first priorities of the schedule wrap to 2^64-1 and are converted out of range, on every mesh where radiation goes from a cell to a last cell on the same rank (C59).
28. On a cyclic mesh the schedule silently omits pairs (C60).
29. The boundary exchange hangs or overwrites with a tangent face (C34). Blocking MPI_Send in sendOrders and sendLevels relies on buffering. `SweeperPBJ::sweep` ignores zeroPsiBound.
30. fixedPoint with errMax >= 1 makes no sweep (C40). The error test of the block solvers is 0/0 with zero flux (C63).
31. Krylov vector indices overflow int (C45).
32. `Timer::intervals` returns an unsigned as int (C50).
33. The weights of the quadrature tables do not add up exactly (C46); hatL2Error is 0/0 for zero psi.
34. The number of source iterations depends on the partition in double precision: the stopping error is summed per rank (`C66_error_refuted`).
35. Refinement glues what the coarse mesh keeps apart: nodes are merged by position, so two coarse cells that touch in a part of their boundary faces can become neighbours; `C67_boundary` needs `face_to_face` for its second half.
36. Exporting a mesh to MOAB and importing it again disconnects it: export gives each cell four vertices of its own, so the imported mesh has no interior face
    (`C69_reimport_disconnected`, `C69_roundtrip_refuted`). Materials are not exported.
37. Import with the nested problem compares a rounded centroid: a cell with its exact centroid inside the box can get the outer material (`C68_materials_doubles_refuted`);
    coordinates on a dyadic grid are safe. The menu choice is uninitialised when the input is not a number (`scanf` result ignored; not in the model).
38. The mesh util/cube-12.smesh that comes with the program and S2 hang the traversal in double precision: Omega.n is exactly 0.0 for angles 2 and 4 at the face between
    cells 2 and 3, so both wait (`C76_cube_refuted`; the smallest order the program accepts). Other shipped meshes and S4-S8 were looked at outside Coq and have no such face.
39. A thin triangle hangs the program: with vertices such as (0,0), (1+2^-30,1), (1,1-2^-30) the computed cross product is zero, the normal 0/0, both cells take the
    face as incoming and wait for ever (`C77_needle_refuted`). Nothing checks the normal. Its height is about 2^-60 of its sides; C77 covers heights and angles above about 2^-48.
40. diff.py, the oracle of the regression tests, rejects a file of zeros compared with itself (0/0, `C78_zero_refuted`) and does not compare headers, so outputs of different
    problems with the same number of values can pass (`C78_header_refuted`). If the norm of the reference overflows, its L1 test always passes.
41. On a mesh whose upwind relation has a cycle the documented TraverseGraph sweep hangs for every partition, while PBJ, PBJOuter and PBJSI end as soon as the partition cuts
    the cycle, and hang if it does not (`C80_ends`, example of eight tetrahedra `C80_ring_ex`). Nothing checks for cycles, so whether the program ends depends on the partitioner.
42. The flux can be negative although source and inflow are not: a property of the linear discontinuous Galerkin scheme without limiter. One tetrahedron with
    a source of 1 at the three vertices of its outflow side and 0 at the opposite vertex: the flux there is -3/29 (C82_positive_refuted).
43. ParallelMesh::read accepts faces of any boundary type; the verbose listing then stops in an assert (or, compiled without asserts, reads past an array of three names) after having printed part of the mesh (`C83_readable_listed_refuted`). ParallelMesh::readInParallel does check.
44. KeyValueReader's messages show a character in place of the line number (`errorString += lineNum` with an int): line 49 is reported as line 1, line 10 as a line break (C86).
45. SweeperPBJ, SweeperPBJOuter and SweeperPBJSI count from 1 and increment at the end of each iteration that did not converge: when the limit stops them, "PBJ Iters" is one more than the iterations made, and with ddIterMax 1 it is 1 although nothing was done (`C87_counts_refuted`).
46. SweeperPBJ prints the number of local sweeps as "Num source iters" (`C87_counts_refuted`); SweeperPBJSI prints "Num source iterations:" with a list that is never filled (`C87_si`).
47. If errMax is 1 or more no source iteration is made, and the average time is the total divided by zero (`C87_average_refuted`).

## 7 Trusted base

* The Coq 8.16.1 kernel (`coqchk` accepts the compiled files). No plugins, no native computation; `vm_compute` for small computations.
* The axioms that `Print Assumptions` lists, all from the standard library. No axiom is added.
  * [–] closed under the global context
  * [R0] `ClassicalDedekindReals.sig_forall_dec`
  * [R1] R0 and `FunctionalExtensionality.functional_extensionality_dep`
  * [R2] R1 and `ClassicalDedekindReals.sig_not_dec`
  * [R3] R2 and `Classical_Prop.classic`
* That the models say what the C++ text says (the citations are there to be checked), with the simplifications listed in sections 2 to 4 and in the model headers.
* Hypotheses of the theorems, in particular: acyclic upwind graphs where termination or a solution is claimed; directions not tangent to faces where noted; nondegenerate
  tetrahedra; sizes below the stated powers of two; agreement of face data of the two cells (`faces_match`, `face_vertices` in C62 and C63).

## 8 Mutation tests

`seeded/LOG.jsonl` has one line per wrong variant of a definition: the definition, the edit, the claim it breaks, the theorems that failed, and what was tightened if none did.
Lines marked survived are equivalent variants, or variants the claim allows, or name the tightening.

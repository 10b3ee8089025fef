{"id": "C01", "title": "Angular-flux, scalar-flux and boundary storage never aliases", "statement": "Every in-range (group, vertex, angle, cell) index of PsiData, (group, vertex, angle, side) index of PsiBoundData, (group, vertex, cell) index of PhiData and (i,j) / (i,j,k) index of Mat2 / Mat3 denotes a slot inside the allocated buffer, two different in-range indices denote different slots and every slot is reached; hence after any sequence of writes a read returns the last value written at that index and 0 / T() if there was none.", "quantifier": "all extents, all in-range indices, all finite histories of writes", "why_tests_cant": "an aliasing bug shows only for particular extent combinations; tests sample a few shapes", "anchors": ["src/PsiData.hh: PsiData::index, PsiBoundData::index, PhiData::index", "src/Mat.hh: Mat2, Mat3 operator()"]}
{"id": "C02", "title": "Every angle is owned by exactly one thread, in balanced contiguous chunks", "statement": "For any number of angles and any number (>=1) of threads, the split used by the sweepers assigns every angle to exactly one thread, the angles of a thread are a contiguous range in increasing thread order, chunk sizes differ by at most one, and the graph-traversal split equals the OriginalTycho split.", "quantifier": "all numbers of angles and threads", "why_tests_cant": "off-by-one errors in the remainder handling appear only for particular (angles, threads) pairs", "anchors": ["src/GraphTraverser.cc: angleGroupIndex", "src/Sweeper.cc: Sweeper::Sweeper"]}
{"id": "C03", "title": "The Psi output file does not depend on partitioning or on write order", "statement": "PsiData::writeToFile produces a file whose header is fixed and in which the slab of global cell c holds exactly the angular flux of cell c, every byte after the header being written exactly once; the result is the same for every distribution of the global cells over ranks and every interleaving of the per-cell writes.", "quantifier": "all global sizes, all distributions of cells over ranks, all interleavings of the writes", "why_tests_cant": "the number of distributions and interleavings is unbounded; a test sees one of each", "anchors": ["src/PsiData.cc: PsiData::writeToFile", "src/Comm.cc: writeDoublesAt, writeUint64"]}
{"id": "C04", "title": "Messages between ranks decode to what was encoded", "statement": "Splitting a message buffer built by concatenating any list of packets (global side, angle, payload) yields exactly that list in order; byte-level encoding of the two 64-bit header words is lossless and no packet is lost, merged or reordered, whatever the payload size.", "quantifier": "all lists of packets, all payload sizes, all 64-bit ids", "why_tests_cant": "round-trip over unbounded lists and all byte patterns", "anchors": ["src/GraphTraverser.cc: createPacket, splitPacket, traverse (unpack loop)", "src/SweepData.hh: getData, setSideData"]}
{"id": "C05", "title": "Input deck lookup is a function of the meaning of the deck", "statement": "For every deck consisting of key/value lines with arbitrary spacing, comments and blank lines and with keys distinct up to case, reading succeeds and getString of a key (in any letter case) returns exactly its value; a key absent from the deck is reported as absent; two lines with the same key up to case make reading fail.", "quantifier": "all decks, all keys, all spacing/comment layouts", "why_tests_cant": "unbounded input language", "anchors": ["src/KeyValueReader.cc: readFile, parseLine, popToken, getRidOfComments, areStringsEqual, getString"]}
{"id": "C06", "title": "Reader life cycle: no value is readable before a successful read, a deck is read once", "statement": "Over every sequence of readFile/reset/get calls, get on a reader with no file read reports an error, a second readFile without reset reports an error and leaves the data unchanged, and reset returns the reader to its initial observable state.", "quantifier": "all finite sequences of calls", "why_tests_cant": "history property", "anchors": ["src/KeyValueReader.cc: readFile, reset, getString"]}
{"id": "C07", "title": "Failed reads expose no data (expected, not met)", "statement": "After readFile reports an error on a malformed deck, no get call should succeed. The code marks the file as read before parsing, so a partially parsed deck is readable.", "quantifier": "all decks that fail to parse", "why_tests_cant": "needs the whole language of malformed decks", "anchors": ["src/KeyValueReader.cc: readFile"]}
{"id": "C08", "title": "Serial mesh files round-trip", "statement": "Writing any serial mesh (every count and id < 2^64) and reading the file back yields the same mesh, and the file has the length announced by the counts.", "quantifier": "all meshes", "why_tests_cant": "unbounded sizes and all 64-bit contents", "anchors": ["src/SerialMesh.cc: write, read"]}
{"id": "C09", "title": "Parallel mesh files round-trip", "statement": "Writing any parallel mesh and reading it back yields the same mesh; a file with a wrong magic string or version is rejected.", "quantifier": "all parallel meshes, all headers", "why_tests_cant": "unbounded sizes and all 64-bit contents", "anchors": ["src/ParallelMesh.cc: write, read"]}
{"id": "C10", "title": "Each rank reads exactly its own partition", "statement": "For every written parallel mesh and every rank below the number of partitions, readInParallel on that rank returns exactly the partition with that index, using only the offsets stored in the header.", "quantifier": "all parallel meshes, all ranks", "why_tests_cant": "offset arithmetic over unbounded variable-length partitions", "anchors": ["src/ParallelMesh.cc: write, readInParallel"]}
{"id": "C11", "title": "Partitioning loses and duplicates no cell", "statement": "createFromSerialMesh places every cell of the serial mesh in exactly one partition, the one requested by the partition vector, with its global id, material and nodes' coordinates preserved.", "quantifier": "all serial meshes, all partition vectors with entries below the number of partitions", "why_tests_cant": "all partition vectors", "anchors": ["src/ParallelMesh.cc: createFromSerialMesh"]}
{"id": "C12", "title": "Partition boundaries are consistent on both sides", "statement": "In the result of createFromSerialMesh every local face/node/cell reference is in range and denotes the same global entity as in the serial mesh; a face whose two cells lie in different partitions appears in exactly those two partitions, marked as a partition boundary in both with each naming the other partition, with the same global id and the same node order; a face with one cell is an exterior boundary in exactly one partition; a face interior to a partition appears once.", "quantifier": "all well-formed serial meshes, all partition vectors", "why_tests_cant": "all meshes and all partition vectors", "anchors": ["src/ParallelMesh.cc: createFromSerialMesh"]}
{"id": "C13", "title": "Column partitioning is total, balanced and ordered", "statement": "PartitionColumns gives every cell exactly one partition id below nx*ny, column sizes along x differ by at most one, partition sizes within a column differ by at most one, and cells in a lower x column never have a larger centroid x than cells in a higher one.", "quantifier": "all meshes, all nx, ny >= 1, any outcome of the (unstable) sort", "why_tests_cant": "all sizes and all sort tie-breaks", "anchors": ["util/PartitionColumns.cc: splitIntoChunks, partitionMesh"]}
{"id": "C14", "title": "Mesh refinement preserves volume and conforms", "statement": "RefineSerialMesh splits every tetrahedron into eight, each of one eighth of the volume, for each of the three choices of the octahedron diagonal, and the four sub-triangles it puts on a face depend only on the three nodes of that face, so neighbouring refined cells match.", "quantifier": "all tetrahedra, all diagonal choices", "why_tests_cant": "real-valued geometry, three code paths chosen by floating comparisons", "anchors": ["util/RefineSerialMesh.cc: refineTet, index2To1, index1To2, refineMesh"]}
{"id": "C15", "title": "Refinement progress report is safe for all meshes (expected, not met)", "statement": "RefineSerialMesh should run on every mesh. The progress print computes coarseCell % (numCells/1000), a division by zero for every non-empty mesh with fewer than 1000 cells.", "quantifier": "all mesh sizes", "why_tests_cant": "size-dependent trap", "anchors": ["util/RefineSerialMesh.cc: refineMesh"]}
{"id": "C16", "title": "Local mesh built on a rank is a faithful image of its partition file", "statement": "For every partition produced from a well-formed serial mesh, the local mesh reports for each cell face: the adjacent local cell exactly when the face is interior to the partition (and adjacency is symmetric), the neighbouring rank exactly when it is a partition boundary, and no neighbour on the domain boundary; sides are numbered 0..nSides-1 without gaps, each side maps back to its (cell, face), and global-to-local and local-to-global side maps are inverse.", "quantifier": "all well-formed parallel meshes, all ranks", "why_tests_cant": "all meshes and partitions", "anchors": ["src/TychoMeshIO.cc: readTychoMesh", "src/TychoMesh.hh: getAdjCell, getSide, getAdjRank, getGLSide, getLGSide, getSideCell"]}
{"id": "C17", "title": "Face-vertex and cell-vertex numberings are inverse and agree across a face", "statement": "faceToCellVrtx and cellToFaceVrtx are inverse on each face, and the k-th face vertex denotes the same mesh node when seen from either of the two cells sharing a face (on one rank or on two), so boundary data is exchanged vertex to matching vertex.", "quantifier": "all well-formed meshes, all shared faces, all file node orders", "why_tests_cant": "all meshes", "anchors": ["src/TychoMeshIO.cc: readTychoMesh, order3Vertices", "src/TychoMesh.cc: TychoMesh::TychoMesh", "src/TychoMesh.hh: getNeighborVrtx, getFaceToCellVrtx, getCellToFaceVrtx"]}
{"id": "C18", "title": "Tetrahedron geometry is exact and orientation independent", "statement": "Cell volume equals one sixth of the absolute value of the edge determinant and is invariant under all vertex orders; face area equals half the cross product norm; the computed normals have unit length, are orthogonal to the face and point out of the cell; the area-weighted normals of a cell sum to zero.", "quantifier": "all non-degenerate tetrahedra, all vertex orders", "why_tests_cant": "real-valued, all vertex orders", "anchors": ["src/TychoMesh.cc: getTetVolume, getTriangleArea, getNormal, getCrossProduct"]}
{"id": "C19", "title": "A shared face is outgoing for exactly one of its cells when not grazing", "statement": "For two cells on opposite sides of a shared face the computed normals are opposite, so for every direction not parallel to the face it is outgoing for exactly one and incoming for the other, and the data flows from the upwind to the downwind cell.", "quantifier": "all pairs of cells sharing a face, all directions with nonzero normal component", "why_tests_cant": "real-valued, all geometries", "anchors": ["src/TychoMesh.cc: getNormal, TychoMesh::TychoMesh", "src/TychoMesh.hh: isOutgoing, isIncoming"]}
{"id": "C20", "title": "Grazing faces are consistent (expected, not met)", "statement": "A face parallel to the direction should be outgoing for at most one and incoming for at most one of its cells. With normal component exactly 0 both cells classify it as incoming, each waits for the other and the sweep never finishes.", "quantifier": "all meshes and directions with a grazing interior face", "why_tests_cant": "measure-zero inputs that structured meshes do hit", "anchors": ["src/TychoMesh.hh: isOutgoing, isIncoming", "src/GraphTraverser.cc: initNumDependencies, traverse"]}
{"id": "C21", "title": "The cell solver with pivoting solves the system", "statement": "For every nonsingular 4x4 matrix and right-hand side, gaussElim4 (Original) returns x with A x = b (in exact arithmetic) and never divides by zero.", "quantifier": "all nonsingular real 4x4 systems", "why_tests_cant": "uncountably many inputs, all pivot orders", "anchors": ["src/Transport.cc: gaussElim4"]}
{"id": "C22", "title": "The pivot-free and Cramer cell solvers solve the system and agree with the pivoting one", "statement": "NoPivot returns the solution whenever its four pivots are nonzero; CramerGlu and CramerIntel return it whenever the determinant is nonzero; hence all four GaussElim options return the same angular flux for every system for which they are defined.", "quantifier": "all real 4x4 systems with nonzero pivots / determinant", "why_tests_cant": "uncountably many inputs; a sign error in one of 16 cofactors shows only for some inputs", "anchors": ["src/Transport.cc: gaussElim4"]}
{"id": "C23", "title": "The local transport system is always solvable, by every solver option", "statement": "For every cell with positive volume, whose signed face areas sum to zero, and every positive total cross section, the 4x4 DG matrix has a positive definite symmetric part; it is nonsingular, all pivots of the pivot-free elimination are positive and so no GaussElim option divides by zero.", "quantifier": "all volumes, all face areas/directions, all sigma > 0", "why_tests_cant": "all geometries", "anchors": ["src/Transport.cc: solve, calcVolumeIntegrals, calcOutgoingFlux, gaussElim4"]}
{"id": "C24", "title": "Particle balance holds in every cell", "statement": "The angular flux returned for a cell satisfies outflow - inflow + sigma_t * integral(psi) = integral(source), with inflow computed from the upwind face data.", "quantifier": "all cells, directions, sources, incoming data", "why_tests_cant": "real-valued", "anchors": ["src/Transport.cc: solve, calcSource, calcVolumeIntegrals, calcOutgoingFlux, calcIncomingFlux"]}
{"id": "C25", "title": "The assembled system is the published upwind DG scheme", "statement": "The rows of the system solved in a cell are exactly equation (dg_system) of the user guide: with face fluxes taken from the cell itself on outgoing faces and from the neighbour on incoming ones.", "quantifier": "all cells, directions, sources, incoming data", "why_tests_cant": "the identity must hold for every combination of incoming and outgoing faces (16 sign patterns)", "anchors": ["src/Transport.cc: calcSource, calcVolumeIntegrals, calcOutgoingFlux, calcIncomingFlux, solve", "doc/user_guide/user_guide.tex: eq:dg_system"]}
{"id": "C26", "title": "Uniform solutions are reproduced", "statement": "If source = sigma_t * c in a cell and all incoming data equal c then the returned flux is c at all four vertices.", "quantifier": "all cells, directions, sigma > 0, constants c", "why_tests_cant": "real-valued", "anchors": ["src/Transport.cc: solve"]}
{"id": "C27", "title": "Energy groups do not interact", "statement": "In a sweep the result for one energy group depends only on the source and boundary data of that group; with identical data in all groups all groups have identical results (diffBetweenGroups = 0).", "quantifier": "all sources and boundary data, all numbers of groups", "why_tests_cant": "non-interference is a two-run property", "anchors": ["src/Transport.cc: solve", "src/SweepData.hh: update", "src/Util.cc: diffBetweenGroups"]}
{"id": "C28", "title": "Each cell-angle pair is computed exactly once", "statement": "In every execution of the parallel graph traversal that terminates, every (cell, angle) of every rank is updated exactly once.", "quantifier": "all dependency graphs, numbers of ranks/threads, priorities, steps per communication, message timings", "why_tests_cant": "all schedules", "anchors": ["src/GraphTraverser.cc: GraphTraverser::traverse"]}
{"id": "C29", "title": "No cell-angle pair is computed before its upwind data is there", "statement": "In every reachable state of the traversal, a (cell, angle) is updated only after all its upwind neighbours, local or remote, have been updated and the remote face data has been stored.", "quantifier": "all graphs, schedules, priorities, message timings", "why_tests_cant": "all schedules", "anchors": ["src/GraphTraverser.cc: GraphTraverser::traverse, initNumDependencies", "src/SweepData.hh: setSideData, update"]}
{"id": "C30", "title": "The parallel sweep terminates on acyclic graphs", "statement": "If for every angle the upwind relation over the global mesh is acyclic, then the traversal on any number of ranks finishes: no reachable state is stuck and the number of computation steps is bounded by cells times angles.", "quantifier": "all acyclic global graphs, all schedules", "why_tests_cant": "liveness over all schedules", "anchors": ["src/GraphTraverser.cc: GraphTraverser::traverse, sendAndRecvData"]}
{"id": "C31", "title": "The swept angular flux does not depend on parallelism", "statement": "The final angular flux is the same, bit for bit, for every partition into ranks, number of threads, priority rule, maxCellsPerStep and message timing: it is the unique solution of the upwind recursion.", "quantifier": "all executions of the traversal, arbitrary (not only real-arithmetic) local solver", "why_tests_cant": "all schedules; two-run property", "anchors": ["src/GraphTraverser.cc: traverse", "src/SweepData.hh: update", "src/SweeperTraverse.cc: sweep"]}
{"id": "C32", "title": "The two-sided exchange is deadlock free and loses nothing", "statement": "In the size-then-data exchange between neighbouring ranks, every rank finishes every round, each message is received by the addressee in the round it was sent, and after all ranks have announced completion no message is in flight and no rank waits for a finished neighbour.", "quantifier": "all numbers of ranks, neighbour graphs, message contents, interleavings", "why_tests_cant": "all interleavings", "anchors": ["src/GraphTraverser.cc: sendAndRecvData, traverse"]}
{"id": "C33", "title": "Blocking-send exchange is deadlock free (expected, not met)", "statement": "With CapsaicinTwoSided, a rank waits for its sends before probing for receives: if the MPI library delays completion until the receiver posts a receive (as the standard allows) two ranks sending to each other never progress.", "quantifier": "all legal MPI buffering behaviours", "why_tests_cant": "depends on buffering of the MPI implementation", "anchors": ["src/GraphTraverser.cc: sendData2Sided, recvData2Sided"]}
{"id": "C34", "title": "Boundary exchange for block methods is complete and matched", "statement": "CommSides delivers to every incoming partition-boundary (side, angle) exactly the data last computed by the neighbouring rank for that side and angle, the number of packets each rank expects from a neighbour equals the number that neighbour sends, and no other side data changes.", "quantifier": "all well-formed partitioned meshes without grazing faces, all numbers of ranks", "why_tests_cant": "all partitions", "anchors": ["src/CommSides.cc: CommSides::CommSides, commSides"]}
{"id": "C35", "title": "B-levels are longest downwind distances on the rank", "statement": "The b-level computed for a (cell, angle) is the length of the longest downwind path from it over cells of the rank, counting a last step across the partition boundary, for every priority and schedule of the backward traversal. (The user guide's definition over the entire graph is not met.)", "quantifier": "all acyclic graphs, all schedules", "why_tests_cant": "all graphs and schedules", "anchors": ["src/Priorities.cc: BLevelData, calcBLevels"]}
{"id": "C36", "title": "Priorities follow their documentation (expected, not met)", "statement": "BFDS/DFDS/DFHDS should use the b-level of descendants in other partitions. The backward traversal runs without communication, so remote b-levels are always 0: BFDS gives 0 everywhere and DFDS = DFHDS; the parent shift of -1 applied to priority 0 wraps to 2^64-1.", "quantifier": "all partitioned meshes", "why_tests_cant": "affects performance only, invisible to result tests", "anchors": ["src/Priorities.cc: calcPriorities, NeighborPriorityData, BLevelData", "doc/user_guide/user_guide.tex"]}
{"id": "C37", "title": "Global angle prioritisation orders angles first", "statement": "With interAngleP = 1 every cell-angle pair of a higher angle index has a strictly higher priority than every pair with a lower one (given intra-angle priorities below levels*cells and no 64-bit overflow), and within an angle the intra-angle order is kept. The same holds for locally prioritised angles in the order of their largest priority. The condition holds for b-levels; it fails for random priorities and for the wrapped DFDS priorities.", "quantifier": "all meshes, all intra-angle priorities within bounds", "why_tests_cant": "all inputs", "anchors": ["src/Priorities.cc: anglePriorities, globalAnglePriorities"]}
{"id": "C38", "title": "The precomputed schedule is a topological order covering all work once", "statement": "The schedule of the OriginalTycho sweepers lists every (cell, angle) of the rank exactly once, at most maxCellsPerStep per step, and every pair appears after all its local upwind neighbours and in a later step than all its remote ones.", "quantifier": "all acyclic graphs, priorities, numbers of ranks, maxCellsPerStep >= 1", "why_tests_cant": "all graphs", "anchors": ["src/SweepSchedule.cc: calcOrdering, partialTopoSort, calcNumDependents"]}
{"id": "C39", "title": "maxCellsPerStep is honoured for every value (expected, not met)", "statement": "Schedule construction should make progress for every maxCellsPerStep. The value is truncated to 32 bits, so any multiple of 2^32 (including 0) makes no progress and schedule construction loops forever.", "quantifier": "all 64-bit values", "why_tests_cant": "boundary value", "anchors": ["src/SweepSchedule.cc: partialTopoSort"]}
{"id": "C40", "title": "Source iteration stops within its limits and only when entitled", "statement": "fixedPoint performs at most iterMax iterations, at least one when iterMax >= 1 and errMax < 1, and stops earlier only if the last relative change was not greater than errMax (which includes the not-a-number case); it returns the number of iterations performed. With errMax >= 1 it returns without a single sweep.", "quantifier": "all error sequences, all iterMax/errMax", "why_tests_cant": "all sequences of errors", "anchors": ["src/SourceIteration.cc: fixedPoint"]}
{"id": "C41", "title": "A converged source iteration solves the scattering problem", "statement": "If an iteration leaves the scalar flux unchanged then the angular flux satisfies in every cell and angle the DG equations with source Q + sigma_s/(4 pi) * phi where phi is the quadrature sum of that same angular flux.", "quantifier": "all meshes, sources, cross sections", "why_tests_cant": "fixed points are not reached in tests", "anchors": ["src/SourceIteration.cc: fixedPoint, lhsOperator", "src/Util.cc: psiToPhi, calcTotalSource, operatorS"]}
{"id": "C42", "title": "Angle-space operators have their defining algebra", "statement": "psiToPhi is linear and is the quadrature sum over angles; phiToPsi is constant in angle; psiToPhi of phiToPsi multiplies by the sum of weights; calcTotalSource adds sigma_s/(4 pi) phi to the fixed source, also when output and input are the same object.", "quantifier": "all sizes and data", "why_tests_cant": "all inputs, aliasing", "anchors": ["src/Util.cc: psiToPhi, phiToPsi, calcTotalSource, operatorS"]}
{"id": "C43", "title": "Block Jacobi converges to the sweep solution in finitely many iterations", "statement": "From any initial boundary guess, after as many iterations as the largest number of partition crossings along an upwind path plus one, the PBJ iterate equals the full sweep solution bit for bit and stays there; and any PBJ fixed point is the full sweep solution.", "quantifier": "all acyclic graphs, partitions, initial guesses, arbitrary local solver", "why_tests_cant": "unbounded graphs; convergence is a limit statement", "anchors": ["src/SweeperPBJ.cc: SweeperPBJ::sweep, SweeperPBJOuter::solve", "src/CommSides.cc: commSides"]}
{"id": "C44", "title": "PBJ iteration limit means what it says (expected, not met)", "statement": "SweeperPBJ should perform up to DD_IterMax iterations. The loop starts counting at 1 and tests iter < DD_IterMax, so at most DD_IterMax-1 sweeps run and with DD_IterMax <= 1 none runs.", "quantifier": "all DD_IterMax", "why_tests_cant": "boundary value", "anchors": ["src/SweeperPBJ.cc: SweeperPBJ::sweep, SweeperPBJOuter::solve, SweeperPBJSI::solve"]}
{"id": "C45", "title": "Krylov vector packing is lossless", "statement": "psiBoundToVec writes exactly the number of entries announced by getPsiBoundSize, vecToPsiBound after psiBoundToVec restores all incoming partition-boundary data, and different (side, angle, vertex, group) entries use different vector slots; nothing else is written. The index is an int: with more than INT_MAX entries the functions have undefined behaviour although getPsiBoundSize is 64-bit.", "quantifier": "all meshes, angles, groups", "why_tests_cant": "all sizes", "anchors": ["src/SweeperSchur.cc: psiBoundToVec, vecToPsiBound, getPsiBoundSize"]}
{"id": "C46", "title": "The angular quadrature is symmetric and accurate to the digits of its tables", "statement": "The supported orders are exactly the even orders 2 to 30; any other order stops the run. For every supported order n there are 2 n^2 directions, every direction is a unit vector with positive weight, and the weighted set of directions is mapped onto itself by every change of signs of the coordinates and by the quarter turn about the z axis. So odd functions sum to zero exactly. Every polynomial in the polar cosine of degree below 2 n is integrated over the sphere to within 2 pi 1e-14 times the sum of its absolute coefficients; in particular weights sum to 4 pi and second moments to 4 pi / 3 up to that rounding (and not exactly).", "quantifier": "all orders, all directions, all polynomials of degree below 2 n and all odd functions", "why_tests_cant": "real-valued (trigonometric) identities over all nodes", "anchors": ["src/Quadrature.cc: Quadrature::Quadrature, GaussLegendre tables"]}
{"id": "C47", "title": "Cross sections follow the cell material", "statement": "Every cell of material 1 gets the first pair of cross sections, every cell of material 2 the second, and any other material aborts the run before any result is produced.", "quantifier": "all meshes and material assignments", "why_tests_cant": "all assignments", "anchors": ["src/Problem.cc: createCrossSections"]}
{"id": "C48", "title": "The test source is the exact residual of the documented hat solution", "statement": "Away from the centre and the kink, the source set up by Problem::getSource is exactly the transport operator applied to psi = max(0, 1 - |x-x0|/30): a run converging to the exact solution converges to the hat.", "quantifier": "all points other than the centre and radius 30, all directions, all cross sections", "why_tests_cant": "calculus identity over real points", "anchors": ["src/Problem.cc: hatSource, hatL2Error"]}
{"id": "C49", "title": "The test source is defined at all mesh nodes (expected, not met)", "statement": "hatSource divides by the distance to the cube centre; at a node at the centre it computes 0/0.", "quantifier": "all node positions", "why_tests_cant": "measure-zero input that a regular mesh does hit", "anchors": ["src/Problem.cc: hatSource"]}
{"id": "C50", "title": "Timers report the total time of the closed intervals", "statement": "Over every sequence of start/stop/reset that respects the documented protocol, the reported wall clock equals the sum of the lengths of the start-stop intervals since the last reset; protocol violations abort.", "quantifier": "all call sequences and clock readings", "why_tests_cant": "history property", "anchors": ["src/Timer.hh: Timer"]}
{"id": "C51", "title": "getAdjFace returns the adjacent face (expected, not met)", "statement": "getAdjFace(cell, face) should return the local face index in the adjacent cell; it returns the adjacent cell index.", "quantifier": "all meshes", "why_tests_cant": "accessor is unused, so no test exercises it", "anchors": ["src/TychoMesh.hh: getAdjFace"]}
{"id": "C52", "title": "Side data reaches the geometrically adjacent cell on the other rank (expected, not met in general)", "statement": "getAdjCellFromSide should be the cell index, on the neighbouring rank, of the cell across the side. The exchange pairs the n-th boundary face of one rank with the n-th of the other in each rank's own enumeration, which coincide only if both enumerate their shared faces in the same order.", "quantifier": "all partitioned meshes", "why_tests_cant": "depends on numbering on two ranks", "anchors": ["src/TychoMeshIO.cc: readTychoMesh"]}
{"id": "C53", "title": "Metis input graph is the cell adjacency graph", "statement": "PartitionMetis builds a symmetric, in-range compressed adjacency with an edge for every shared face and no edge for exterior faces.", "quantifier": "all well-formed serial meshes", "why_tests_cant": "all meshes", "anchors": ["util/PartitionMetis.cc: partitionMesh"]}
{"id": "C54", "title": "Run configuration is validated before use", "statement": "readInput accepts exactly the documented values of SweepType and MPIType and aborts otherwise; every integer option equals the integer written in the deck when this is non-negative.", "quantifier": "all decks", "why_tests_cant": "all inputs", "anchors": ["src/Main.cc: readInput"]}
{"id": "C55", "title": "A mistyped GaussElim option is reported (expected, not met)", "statement": "An unknown GaussElim value should abort like an unknown SweepType; it silently selects Original. Negative integers for unsigned options silently become huge values.", "quantifier": "all decks", "why_tests_cant": "all inputs", "anchors": ["src/Main.cc: readInput"]}
{"id": "C56", "title": "The threads of a rank do not interfere", "statement": "In every reachable state of the parallel sweep, two loop iterations of different threads of a rank work on different angles, leave the work queue of the other thread alone, and lead to the same state of the rank whichever runs first.", "quantifier": "all meshes that fit together, any number of ranks, angles and threads, all reachable states of the traversal, all pairs of threads and queued cell-angle pairs", "why_tests_cant": "the number of interleavings is unbounded and a data race shows only for some timings", "anchors": ["src/GraphTraverser.cc: GraphTraverser::traverse", "src/Global.cc: angleGroupIndex"]}
{"id": "C57", "title": "The parallel sweep solves the global transport problem", "statement": "After a sweep on any number of ranks, the angular flux satisfies in every cell, angle and group the DG equations in which the upwind values on a face are the flux computed in the neighbouring cell at the same points, on whatever rank that cell lives, and zero on the exterior; it is the only field that does.", "quantifier": "all meshes and partitions that fit together with acyclic upwind graphs, all numbers of ranks, angles, groups and threads, all positive total cross sections and sources, all executions; exact arithmetic", "why_tests_cant": "needs the solution of all cells of arbitrary meshes under arbitrary partitions and message timings", "anchors": ["src/SweepData.hh: update, getData, setSideData", "src/Transport.cc: solve, populateLocalPsiBound", "src/GraphTraverser.cc: traverse"]}
{"id": "C58", "title": "Sweep-schedule levels are longest downwind distances in the entire graph", "statement": "When the sweep-schedule construction has computed its levels, the level of every (cell, angle) of every rank is the length of the longest chain of downwind cells in the whole mesh (across all partitions), and the level kept for a partition-boundary side is the level of the cell on the other rank. The construction ends if the step limit is not a multiple of 2^32.", "quantifier": "all partitioned meshes without cyclic dependencies, all sets of angles assigned to a schedule, all step limits, all orders in which equal-priority work is taken", "why_tests_cant": "The graph, its partition and the order of message exchange are unbounded; a test compares a few meshes whose longest chains are known.", "anchors": ["src/SweepSchedule.cc: calcLevels, updateLevels, sendLevels, recvLevels", "doc/user_guide/user_guide.tex: intra-angle priorities"]}
{"id": "C59", "title": "Dependent-seeking priorities of the schedule, and whether they survive the queue", "statement": "When the schedule's dependent-seeking priorities are computed, in whatever order the queue takes cells of equal priority and however many cells a step may take, the priority of a cell is the largest of the (scaled, shifted) levels of the rank-boundary sides its radiation leaves over and the (shifted) priorities of its downwind cells on the rank, modulo 2^64; the computation ends if there are no cycles and the step limit is not a multiple of 2^32. With the levels of the schedule the breadth-first priority is the longest downwind distance of any cell of another rank that radiation from the cell comes to first, 0 if none. Expected: every priority computed for the schedule is representable in the queue that orders the work (it is passed as a double and converted back to a 64-bit unsigned integer). True of breadth-first priorities below 2^53; false of depth-first priorities: on every mesh, a cell whose radiation goes on to a last cell of the same rank gets 2^64-1, whose conversion back is undefined behaviour.", "quantifier": "all partitioned meshes, levels, angles, step limits, orders of equal-priority work and intra-angle priority settings", "why_tests_cant": "Meshes, partitions and orders of work are unbounded. Conversion of an out-of-range double is undefined behaviour: a run on one machine shows one outcome.", "anchors": ["src/SweepSchedule.cc: PriorityWork, neighborPriorities, updatePriorities"]}
{"id": "C60", "title": "A schedule with cyclic dependencies is not silently incomplete", "statement": "Expected: when the dependencies of an angle are cyclic the schedule construction does not return a schedule that omits work. Not met: the construction ends normally and no (cell, angle) pair on a cycle is in the schedule of any step.", "quantifier": "all partitioned meshes with a cyclic dependency at some angle, all step limits not a multiple of 2^32, all priorities", "why_tests_cant": "Termination with an incomplete schedule for every cyclic mesh is a statement over all meshes and all interleavings.", "anchors": ["src/SweepSchedule.cc: allDone, calcOrdering, SweepSchedule::SweepSchedule"]}
{"id": "C62", "title": "Source iteration converges at the rate of the scattering ratio", "statement": "If the scattering cross section is at most k times the total cross section in every cell (times the ratio of the weight sum to 4 pi), every iteration of the source iteration with the full sweep reduces the error of the scalar flux by the factor k in the L2 norm weighted with the total cross section; after n iterations the error is at most k^n times the initial one, and (1-k) times the remaining error is at most k times the last change. For k < 1 the discretised problem with scattering has exactly one solution. The weights of the built-in quadratures qualify with k raised by a factor 1 + 10^-14.", "quantifier": "all conforming partitioned meshes with acyclic upwind graphs, any number of ranks, angles, groups, all quadratures with non-negative weights and a positive sum, all cross sections, all sources, all initial fluxes and iteration counts; exact arithmetic", "why_tests_cant": "A convergence rate for every mesh and every number of iterations; a test sees a few residual histories.", "anchors": ["src/SourceIteration.cc: fixedPoint", "src/Transport.cc: solve", "src/Util.cc: calcTotalSource, psiToPhi"]}
{"id": "C61", "title": "The Schur complement methods solve the same problem as a full sweep", "statement": "If the Krylov solver solves its linear system exactly, SweeperSchur::sweep leaves in psi what one sweep over the whole mesh would leave, whatever psi and the remembered boundary data were before; SweeperSchurKrylov::solve and SweeperSchurOuter::solve (with exact inner solves) leave the solution of the transport problem with scattering. The linear systems do have exact solutions, for SweeperSchur exactly one.", "quantifier": "all meshes on all numbers of ranks, sources, cross sections, initial data, schedules of the local sweeps and orders of message arrival", "why_tests_cant": "an algebraic equivalence of solvers over all partitions and inputs", "anchors": ["src/SweeperSchur.cc: Schur, SchurOuter, SchurKrylov, SweeperSchur::sweep, SweeperSchurOuter::solve, SweeperSchurOuter::sweep, SweeperSchurKrylov::solve", "src/Util.cc: sweepLocal", "src/CommSides.cc: commSides"]}
{"id": "C63", "title": "The block Jacobi solvers with scattering converge geometrically to the solution on the whole mesh", "statement": "With a scattering ratio below 1, the solver that alternates one local sweep, one exchange of interface data and one source update (PBJSI) converges to the solution of the undecomposed problem: there are a rate below 1 and a constant, depending on the meshes, cross sections and quadrature only, such that after n sweeps the error of psi and the squared error of every entry of phi are at most constant times rate^n times the size of the solution. With the error test of the code and a solution that is not zero the number of sweeps is bounded independently of the iteration limit; with a zero source the test is 0/0 and all iterations are done. A step that changes neither flux nor interface data has found the solution. The outer iteration with exact solves on every rank (PBJOuter with an exact Krylov solve) converges geometrically as well.", "quantifier": "all conforming partitioned meshes with acyclic upwind graphs, any number of ranks, angles, groups, all sources, cross sections, schedules of the local sweeps, orders of message arrival, error tests and iteration limits; exact arithmetic", "why_tests_cant": "Convergence of a domain decomposition iteration for every mesh, partition and number of iterations; a test sees a few residual histories, and no run can show that the limit is the solution of the undecomposed problem.", "anchors": ["src/SweeperPBJ.cc: SweeperPBJSI::solve, SweeperPBJOuter::solve", "src/Util.cc: sweepLocal, calcTotalSource, psiToPhi", "src/CommSides.cc: commSides"]}
{"id": "C64", "title": "Sweeps over a precomputed schedule", "statement": "With SweepType OriginalTycho1 or OriginalTycho2, for every partition, number of threads, schedule the constructor can produce and timing of threads and messages, a sweep ends after a fixed number of actions without deadlock (even if every send waits for its receive) and without looking up an unknown side; the angular flux it leaves is the solution of the upwind recursion, whatever flux it started from, and equals what the graph traversal computes on the same partition. A received message has at position i exactly the side, angle and values of packet i. This needs every face between two cells to be further from grazing than the tolerance of the schedule; with a face within the tolerance a sweep can compute a downwind cell first from the old flux.", "quantifier": "all meshes and partitions that fit together, numbers of ranks, angles, threads, schedules, initial fluxes, per-cell solvers, interleavings of threads and ranks, message timings and lengths of messages", "why_tests_cant": "a test sees one interleaving and one timing; deadlock and stale data depend on the order of threads, sends and receives on all ranks, and the tolerance mismatch needs directions almost parallel to a face", "anchors": ["src/Sweeper.cc: Sweeper::sweep, doComputation, updateComm, updateBoundData, send, recv, getBoundData, setBoundData, VG", "src/SweepSchedule.cc: getSendProcs, getRecvProcs, getWork, nSteps, calcDependencies"]}
{"id": "C65", "title": "From the mesh file to the transport solution, whatever the partition", "statement": "Take a serial mesh of tetrahedra with positive volume that do not overlap, directions that are not tangent to interior faces and have no cycles, positive total cross sections. For every partition vector and number of ranks: partitioning, writing the parallel mesh, reading it on every rank and building the local meshes and their geometry succeed, and the assertions of the local mesh constructor hold. A sweep then ends, and the angular flux that the ranks hold, collected by global cell number, is the solution of the upwind discontinuous Galerkin equations written down on the serial mesh, with areas, outward normals and volumes of the serial mesh and with values across a face taken at the same node. So two runs with different partitions, numbers of ranks and threads, priorities and message sizes agree in every global cell. With scattering below the total cross section source iteration, and block Jacobi with scattering, converge to the unique solution of the scattering problem on the serial mesh.", "quantifier": "all serial meshes, coordinates, partition vectors, numbers of ranks, angles, groups, threads and angles per message, interleavings of the traversal, sources, initial fluxes, cross sections; exact arithmetic", "why_tests_cant": "It chains the partitioner, the file format, the reader, the geometry, the communication and the solver over every mesh and every partition; a test compares two runs on one mesh, and a consistent mistake (a wrong normal, a swapped vertex map) leaves the two runs equal.", "anchors": ["src/ParallelMesh.cc: createFromSerialMesh, write, readInParallel", "src/TychoMeshIO.cc: readTychoMesh", "src/TychoMesh.cc: TychoMesh::TychoMesh, getCellVrtxCoords, getFaceVrtxCoords, getOmegaDotN", "src/SweeperTraverse.cc, src/SourceIteration.cc: fixedPoint", "src/SweeperPBJ.cc: SweeperPBJSI::solve"]}
{"id": "C66", "title": "Bitwise the same angular flux on any number of ranks", "statement": "In the arithmetic the program actually uses (IEEE double precision, no contraction or reassociation by the compiler): if on every face between two cells the two sides compute opposite signs of the flow, and the flow graph computed has no cycles, then every sweep ends, and the angular fluxes of two runs with different partitions, numbers of ranks and threads, priorities and angles per message are equal in every global cell, vertex, group and angle bit by bit, as are the scalar fluxes after the same number of source iterations. The signs are opposite when the two apexes of a face are computed to be on different sides of it and no direction is computed to be tangent. Validity of the exact problem is not enough for this: there are two tetrahedra where both sides of the common face compute outflow for one direction and inflow for the opposite one. The number of iterations itself is not reproducible: the stopping error is summed over ranks, and for the same fluxes one rank may go on where two ranks stop.", "quantifier": "all arithmetics (double precision among them), meshes, coordinates, partition vectors, numbers of ranks, angles, groups, threads and angles per message, interleavings, sources, initial fluxes, cross sections", "why_tests_cant": "Equality bit by bit depends on the order of operations in every cell under every partition and schedule; comparing two runs covers one mesh and one interleaving.", "anchors": ["src/TychoMesh.cc: getNormal, getOmegaDotN", "src/SweeperTraverse.cc", "src/Transport.cc: solve", "src/GraphTraverser.cc: traverse", "src/SourceIteration.cc: fixedPoint", "src/TychoMeshIO.cc: readTychoMesh"]}
{"id": "C67", "title": "Refining a valid mesh gives a valid mesh of the same solid", "statement": "Take a valid serial mesh of at least 1000 tetrahedra with volume that do not overlap, whose edge midpoints are computed exactly and whose refined points differ by more than the tolerance of the node order wherever they differ. The refinement program then succeeds, and its output is again a valid serial mesh (it can be partitioned and run) of eight times as many tetrahedra with volume that do not overlap, with distinct vertices and faces and at most two cells at a face. Cells 8g to 8g+7 fill cell g exactly, each with an eighth of its volume and with its material. No boundary appears in the interior: every boundary face of the refined mesh is a quarter of a boundary face of the old mesh; and if no boundary face of the old mesh touches another cell off its edges, every quarter of a boundary face is a boundary face, the boundary is the same set of points, and the refined mesh has this property again. In double precision, with the tolerance of the program, all this holds for coordinates that are even multiples of 2^e by at most 2b, and for k refinements in a row if b 2^k is at most 2^45.", "quantifier": "all valid serial meshes of at least 1000 and fewer than 2^26 cells, all coordinates with exact midpoints, all diagonals chosen", "why_tests_cant": "That no two of the new cells overlap, that there are no gaps, hanging nodes or new boundaries is a statement about every pair of cells and every point of space, for every mesh; a test can count cells and faces of a few meshes.", "anchors": ["util/RefineSerialMesh.cc: refineTet, addNode, addFace, NodeCoords, refineMesh", "src/SerialMesh.cc"]}
{"id": "C68", "title": "Importing a MOAB mesh gives that mesh", "statement": "Take a MOAB database of tetrahedra with distinct existing vertices, at most two meeting at three vertices, whose triangles are different sides of tetrahedra. For menu choices 1 and 2 the import program succeeds and the file it writes is read back by the serial reader as a valid mesh: nodes are the vertices with the same coordinates bit for bit, cells are the tetrahedra, both in order of their handles, and faces are the sides of the tetrahedra, each exactly once, between the one or two tetrahedra having it, whether or not the database had triangles for some of them. The mesh covers the same points, has the same boundary, and is a valid solid if the tetrahedra are. For choice 2, and exact arithmetic or coordinates on a dyadic grid, material 2 is exactly the cells with their centroid in the open box (25,75)^3; otherwise all materials are 1. Other choices write nothing. A triangle that is a side of no tetrahedron or of three stops the program.", "quantifier": "all databases, all handles and orders in the database, all allocations of new handles, all coordinates", "why_tests_cant": "Which triangles exist beforehand, how handles are numbered and where new ones are allocated is up to the library and the input file; tests see one numbering of a few meshes.", "anchors": ["util/MoabToSerialMesh.cc: moabCreateAllFaces, createSerialMesh, main", "src/SerialMesh.cc: write"]}
{"id": "C69", "title": "Exporting a mesh to MOAB keeps every cell", "statement": "Exporting a valid serial mesh gives one tetrahedron for each cell, in the order of the cells, with its corners in order and their coordinates bit for bit, and every handle refers to one entity. Exporting a parallel mesh writes one file for each partition, with exactly its cells; for a mesh made by the partitioner, exactly the cells of the serial mesh given to that partition. The files have different names, none is the input, and the index lists them all. An input name without the right ending is refused. Export followed by import gives as many cells but no two of them share a node or a face.", "quantifier": "all valid serial meshes and partition vectors, all parallel meshes with right counts and existing nodes, all numbers of partitions, all names, all allocations of new handles", "why_tests_cant": "Distinctness of names and completeness of the files must hold for every number of partitions and every partition vector; that connectivity is always lost is a statement about all meshes.", "anchors": ["util/SerialMeshToMoab.cc: createMoabMesh, getOutputFile", "util/ParallelMeshToMoab.cc: createMoabMesh, getFilePrefix, writeVisitFile, main"]}
{"id": "C70", "title": "The output file depends on the deck and the mesh, not on how the program is run", "statement": "Run with the graph sweeps, or with either of the sweeps over a precomputed schedule, and source iteration, the program writes the file the deck names if and only if the deck asks for it. Its bytes are the documented image of the angular flux after as many source iterations on the unpartitioned mesh as the run made, each one a sweep in upwind order with the hat source plus isotropic scattering, in the same arithmetic. Two runs of the same deck on the same mesh, however partitioned and however many ranks and threads, with any priorities and either MPI exchange, that make the same number of iterations write the same bytes; with exact sums they make the same number. With the size-then-data exchange, or a schedule, the program reaches its end. In exact arithmetic the deck has one solution if scattering is below the total cross section, and the scalar flux in the file differs from that of the solution by at most the scattering ratio to the power of the number of iterations, in the energy norm.", "quantifier": "all decks that the reader accepts, all valid tetrahedral meshes with consistent acyclic flow signs (for schedules: no face nearly parallel to a direction), all partitions, numbers of ranks and threads, priorities, message and write orders, orders of summation, and arithmetics (doubles or exact)", "why_tests_cant": "A test compares finitely many partitions and schedules of one mesh; agreement of all of them bit for bit, and the error bound for every mesh and deck, are universal statements about the whole program.", "anchors": ["src/Main.cc: main, readInput", "src/SweeperTraverse.cc: solve, sweep", "src/Sweeper.cc: Sweeper, solve, sweep", "src/SourceIteration.cc: fixedPoint", "src/Problem.cc: hatSource, createCrossSections", "src/SweeperAbstract.hh: writePsiToFile", "src/PsiData.cc: writeToFile", "src/TychoMesh.cc: TychoMesh", "util/PartitionMetis.cc, src/ParallelMesh.cc: createFromSerialMesh"]}
{"id": "C71", "title": "Solver options do not change the answer", "statement": "Two decks with the same quadrature order, number of groups, cross sections and cell solver may differ in the sweep type (graph traversal, OriginalTycho1, OriginalTycho2), the MPI exchange, the cells per step and the priorities. Run on the same mesh, each with any partition, ranks and threads, for the same number of iterations, they write the same bytes. In exact arithmetic, with the same iteration limits, they make the same number of iterations.", "quantifier": "all pairs of such decks, all valid tetrahedral meshes with consistent acyclic flow signs, all partitions, ranks, threads and schedules of either run, and arithmetics (doubles or exact)", "why_tests_cant": "The pairs of options, partitions and interleavings are unbounded, and bit for bit agreement of two different sweep algorithms on every mesh cannot be sampled.", "anchors": ["src/Main.cc: main", "src/Sweeper.cc: sweep", "src/SweeperTraverse.cc: sweep", "src/SweepSchedule.cc: SweepSchedule", "src/GraphTraverser.cc: traverse"]}
{"id": "C72", "title": "All solvers that a deck can name solve the same equations", "statement": "Take a deck with any of the nine sweep types, with source iteration or Krylov, on any partition of a mesh, and suppose scattering is below the total cross section and the linear solver exact. If the deck's solver does not iterate itself (SchurKrylov; Krylov with graph, schedule, Schur or SchurOuter sweeps; Krylov with block Jacobi done to the end), the output file is the image of the only solution of the transport equations that the deck poses. So any two such decks that pose the same equations write the same bytes, each on its own partition and launch. With source iteration around whole sweeps the error of the scalar flux goes down by the scattering ratio in each iteration. With PBJSI, or PBJOuter with Krylov, it is at most C rho^n after n outer iterations, with C and rho < 1 that do not depend on the run. Each of these programs has a run that reaches the end if the linear solver finds the solutions that exist. With the sweeps of C70 the program is that of C70.", "quantifier": "all decks that the reader accepts, all valid tetrahedral meshes with consistent acyclic flow signs (for schedules: no face nearly parallel to a direction), all partitions, ranks, threads, message orders, priorities and orders of summation; all exact linear solvers; exact arithmetic", "why_tests_cant": "That nine algorithms on arbitrary partitions have the same limit, or the same file, for every mesh and deck is a universal statement; a test compares a few decks up to a tolerance, within which a wrong interface term can hide.", "anchors": ["src/Main.cc: main", "src/KrylovSolver.cc: KrylovSolver, solve", "src/SweeperSchur.cc: SweeperSchur, SweeperSchurOuter, SweeperSchurKrylov", "src/SweeperPBJ.cc: SweeperPBJ, SweeperPBJOuter, SweeperPBJSI", "src/SweeperTraverse.cc: solve", "src/Sweeper.cc: solve", "src/CommSides.cc: commSides", "src/SourceIteration.cc: fixedPoint", "src/SweeperAbstract.hh: writePsiToFile"]}
{"id": "C73", "title": "What the program prints about its result", "statement": "The deck gives every energy group the same cross sections and source. So the flux of all groups is the same, bit for bit, in the output file, and the printed difference between groups is the maximum over ranks of values that are each exactly zero, or NaN on a rank where the flux is zero everywhere. In exact arithmetic the printed L2 error is the root mean square of the distance between the flux and the hat on the whole mesh, relative to the size of the flux: it does not depend on the partition, the ranks or the launch. With a solver that does not iterate it is the error of the exact solution of the equations of the deck, so all such decks that pose the same equations print the same number.", "quantifier": "all decks, meshes, partitions, ranks, threads, schedules and message orders of C70 (groups: doubles and every arithmetic in which x - x is zero or not comparable; error: exact arithmetic) and of C72", "why_tests_cant": "That a printed number is the same for every partition and solver, and that it is the error of the mathematical solution, are statements about all meshes and decks.", "anchors": ["src/Main.cc: main", "src/Problem.cc: hatL2Error", "src/Util.cc: diffBetweenGroups", "src/SourceIteration.cc: fixedPoint", "src/SweeperAbstract.hh: writePsiToFile"]}
{"id": "C74", "title": "From a serial mesh file to the output file by commands", "statement": "Partition a serial mesh file with PartitionColumns or PartitionMetis and run the sweep program on the result: a run ends only if the number of ranks is the number of parts that was asked for, the output file is then the image of the flux of the deck on the serial mesh, and no other file changes. So for the same number of source iterations the contents of the output file are the same whichever partitioner was used, with whatever number of parts, file names, ranks and threads; in exact arithmetic the number of iterations is the same too, and two decks with direct solvers that pose the same equations give the same contents. The commands succeed on every valid mesh (if METIS does). Running RefineSerialMesh any number of times before gives a valid mesh file with eight times as many cells each time, of the same solid and materials, and changes only the files named. A count on the command line is read as a decimal numeral with blanks before it and a sign or none, and a count below one writes no file. In exact arithmetic PartitionColumns writes a partition into columns as even as possible, ordered by the x of cell centroids, each cut as evenly as possible by y.", "quantifier": "all file systems with a valid serial mesh file and deck, both partitioning tools and all their arguments, all names, numbers of parts, ranks, threads, schedules and message orders of C70 and C72; refinement: meshes of C67 in doubles and any number of refinements the sizes allow", "why_tests_cant": "Byte equality of the output over all partitioners, part counts and launches, and the composition of four programs through files, range over unboundedly many inputs.", "anchors": ["util/PartitionColumns.cc: main", "util/PartitionMetis.cc: main", "util/RefineSerialMesh.cc: main", "src/Main.cc: main", "src/ParallelMesh.cc: readInParallel", "src/Comm.cc: openFileForWrite"]}
{"id": "C75", "title": "Particles are conserved over the whole mesh", "statement": "In exact arithmetic, after every sweep and in every direction and group, the source integrated over the mesh equals the collisions integrated over the mesh plus what leaves through the outside faces; faces between cells, on whichever ranks the cells are, contribute nothing. With scattering, the flux in the output file of a deck with a direct solver satisfies, in every group, leakage plus absorption equals source, for all solvers, sweeps, partitions and launches. With source iteration the same holds up to the change of the scattered particles in the last iteration, and if the run stopped before iterMax that is at most errMax times the size of the scalar flux times a constant of mesh and material.", "quantifier": "all valid tetrahedral meshes of a solid, directions not tangent to faces between cells and without cycles, positive total cross sections, sources, partitions, ranks, threads, schedules, solvers (linear solver exact) and decks", "why_tests_cant": "Conservation is an identity over all meshes, partitions and sources; a test checks single numbers with a tolerance, and an interface term lost in one partition shape or for one direction passes.", "anchors": ["src/Transport.cc: solve", "src/GraphTraverser.cc: traverse", "src/SweeperAbstract.hh", "src/SourceIteration.cc: fixedPoint", "src/Main.cc: main"]}
{"id": "C76", "title": "A sweep by graph traversal ends exactly if no cell waits for itself; on a shipped mesh with S2 it never ends", "statement": "For every mesh, partition, angle set, number of ranks and threads and every timing: if no face is outgoing for both of its cells, a graph traversal can only reach its end if the cells, ordered by the computed flow directions, have no cycle for any angle; with the program's own exchanges it is an equivalence, and where there is a cycle the traversal neither ends nor gets stuck, it exchanges empty messages for ever. No cell with an endless upwind chain is ever updated, in particular neither cell of a face that both take as incoming. For the program: a TraverseGraph run that is asked for at least one iteration ends only on a mesh without such cycles. On util/cube-12.smesh with snOrder 2 and double arithmetic two cells take their common face as incoming (Omega.n is exactly 0.0), so no such run ends, whatever the deck says otherwise, whatever the partition, ranks, threads, priorities and timing.", "quantifier": "all meshes whose faces pair up, all angle sets, partitions, rank and thread counts, priorities, steps per exchange and interleavings; for the program all decks that name TraverseGraph; for cube-12 all decks with S2, all launches", "why_tests_cant": "Non-termination cannot be observed by a test that has to end, and no finite set of runs covers all timings and partitions; which faces are grazing depends on the rounding of every normal.", "anchors": ["src/GraphTraverser.cc: GraphTraverser::traverse", "src/TychoMesh.hh: isOutgoing, isIncoming", "src/TychoMesh.cc: getNormal, readTychoMesh", "src/SweeperTraverse.cc: SweeperTraverse::sweep", "src/Quadrature.cc: Quadrature", "util/cube-12.smesh"]}
{"id": "C77", "title": "On a mesh that is not too flat, double precision decides every flow direction as exact arithmetic does", "statement": "Let coordinates and directions be doubles of moderate size. For an interior face whose opposite vertices and whose directions are clear of the plane of the face (the exact triple product exceeds 2^-49 of the sum of its six terms; it is enough that its square exceeds 2^-96 of the product of the squared lengths), the sign of Omega.n that the program computes in double precision, through its rounded cross product, norm, orientation test and dot product, is the sign of the exact flow, for both cells; so exactly one of them takes the face as incoming. If all faces are like this, the computed order of cells has a cycle exactly if the exact one has, and everything proved about double precision runs applies to the well-posed problem. Without the condition it fails: on a two-cell mesh with a thin common triangle the computed normal is not a number, both cells wait and the program never ends, though the exact problem is well posed.", "quantifier": "all valid meshes with double coordinates zero or between 2^-100 and 2^100 in size, all direction sets, all faces; all runs for the refutation", "why_tests_cant": "The claim is about every rounding in four nested computations for every triangle and direction; a test exercises single triangles and cannot tell how thin is too thin.", "anchors": ["src/TychoMesh.cc: getNormal", "src/TychoMesh.cc: constructor (orientation of normals, Omega.n)", "src/TychoMesh.hh: getOmegaDotN, isOutgoing", "src/GraphTraverser.cc: traverse"]}
{"id": "C78", "title": "The regression comparison accepts what it should", "statement": "test/diff.py returns status 0 only with two readable files and a positive tolerance as arguments. In exact arithmetic, and if the second file is not all zero, it returns 0 exactly if the files hold equally many numbers after their 64-byte headers, the sum of the sizes of the differences is below tolerance times the sum of the sizes of the reference, and every difference is below tolerance times the largest reference number. In double precision, whatever the order of numpy's sums, status 0 implies that every number in both files is finite and every exact difference is below (1+2^-53) times tolerance times the largest reference number. Two runs of one deck that took the same number of iterations pass with every positive tolerance, however partitioned and launched, exactly if the flux is finite and not all zero. Not met: a file of zeros does not equal itself; two files with different headers (other numbers of cells and groups) can be equal.", "quantifier": "all pairs of files, all tolerances, all summation orders; all pairs of launches of C74", "why_tests_cant": "The comparison is itself the oracle of the tests; a wrong acceptance is invisible to them.", "anchors": ["test/diff.py", "test/regression.py", "src/PsiData.cc: writeToFile"]}
{"id": "C79", "title": "Block Jacobi runs are reproducible to the bit and mean the same on the serial mesh", "statement": "With SweepType PBJ, PBJOuter or PBJSI and source iteration, in whatever arithmetic: the output file is, byte for byte, the documented image of what the steps taken (scalar flux, local sweep, exchange) make of the serial mesh cut into the parts of the partition. The steps and the parts determine it; the numbering of the parts does not matter. Two runs on one parallel mesh file, with sums over ranks formed in the same way, take the same steps and write the same bytes, whatever the threads, priorities, maxCellsPerStep, MPIType and timing of messages. The steps come in the order and number that iterMax and DD_IterMax allow (DD_IterMax n allows n-1 sweeps between two stopping tests of the outer level). A run reaches its end if the flow signs agree and make no cycle within a part and no check of the cell solver fails. On one rank with DD_IterMax above 1 the file is the one of graph traversal after as many sweeps. None of this asks that the flow signs of the whole mesh make no cycle.", "quantifier": "all decks of the three solvers, meshes, partitions, launches, message timings, arithmetics", "why_tests_cant": "A test sees a few interleavings; that no interleaving changes a bit, or the number of iterations, is a statement about all.", "anchors": ["src/SweeperPBJ.cc: SweeperPBJ, SweeperPBJOuter, SweeperPBJSI", "src/Util.cc: sweepLocal, psiToPhi, calcTotalSource", "src/CommSides.cc: commSides", "src/SourceIteration.cc: fixedPoint", "src/Main.cc: main"]}
{"id": "C80", "title": "Block Jacobi ends exactly if no cycle of upwind cells lies within one rank", "statement": "For a deck with SweepType PBJ, PBJOuter or PBJSI and source iteration that asks for at least one sweep, with a cell solver that has no check that can fail: the program reaches its end exactly if in no direction a cell waits for itself through upwind neighbours owned by its own rank. So on a mesh whose flow directions make a cycle, where a sweep over all ranks hangs for every partition, block Jacobi ends and writes what C79 says if the partition cuts every cycle, and hangs if one rank keeps a whole cycle.", "quantifier": "all decks, meshes with flow signs that agree, partitions, thread numbers, priorities, arithmetics", "why_tests_cant": "A run that hangs gives no verdict, and meshes with cyclic flow are not among the test meshes; the equivalence is about all meshes and partitions.", "anchors": ["src/SweeperPBJ.cc: SweeperPBJ, SweeperPBJOuter, SweeperPBJSI", "src/Util.cc: sweepLocal", "src/GraphTraverser.cc: traverse", "src/Main.cc: main"]}
{"id": "C81", "title": "Numbering, symmetry and cell solver do not matter in exact arithmetic", "statement": "In exact arithmetic: number the cells, faces, nodes and the vertices of each cell of a mesh differently, and move the mesh by an isometry (reflection, rotation) that fixes the centre of the cube, where the hat source is, and maps the directions of the quadrature with their weights to each other. Then a run on the new mesh makes as many source iterations as one on the old mesh, and its output file holds the same angular flux, up to the renumbering of directions, cells and vertices. In particular: renumbering alone changes nothing but the order; on a symmetric mesh the flux in the file is symmetric; and decks that differ in GaussElim (or in the sweeper, the MPI exchange, the priorities) write the same file. The quadrature of the program has the symmetries: reflections in the three coordinate planes and quarter turns about the z axis.", "quantifier": "all valid tetrahedral meshes without cycles and without faces parallel to a direction, all renumberings and isometries as described, all decks with the same physics and stopping rule (any cell solver, sweeper TraverseGraph or OriginalTycho, MPI type, priorities), all partitions, ranks, threads and message orders", "why_tests_cant": "a test compares a few numberings of a few meshes up to rounding; that no numbering, partition or symmetric placement whatever changes the answer is a statement about all of them", "anchors": ["src/Main.cc: main", "src/SourceIteration.cc: fixedPoint", "src/Transport.cc: solve", "src/Problem.cc: hatSource", "src/Quadrature.cc: Quadrature::Quadrature", "src/PsiData.cc: PsiData::writeToFile"]}
{"id": "C82", "title": "The flux is linear in the source and bounded by it, but need not be positive (expected, not met)", "statement": "In exact arithmetic, on any mesh and directions a sweep can handle: (1) a sweep with source x*Q1 + y*Q2 gives x times the flux for Q1 plus y times the flux for Q2, whatever partitions, ranks, priorities and cell solvers the runs use, and the same holds for the solution with scattering; (2) if two sources differ, the fluxes of the sweeps differ in every direction and group by no more: the integral of sigmaT*(psi1-psi2)^2 is at most the integral of (Q1-Q2)^2/sigmaT, with no constant depending on the mesh; with scattering at most k < 1 times the total cross section the bound holds with the factor 1/(1-k)^2 in the norm over all directions; (3) expected, not met: a source that is nowhere negative gives a flux that is nowhere negative. With a source of 1 at three vertices and 0 at the upwind vertex of a tetrahedron the program computes the flux -3/29 there, and a negative scalar flux.", "quantifier": "all meshes of non-overlapping tetrahedra, directions not tangent to interior faces and without cycles, positive cross sections, all sources, all partitions and solver options; (3): one mesh, every run on it", "why_tests_cant": "Linearity and the bound range over all sources and meshes; a test samples a few. The bound has no mesh-dependent constant, which no finite set of meshes can show.", "anchors": ["src/SweeperTraverse.cc: SweeperTraverse::sweep", "src/Transport.cc: Transport::solve, calcSource, streamPlusColl, faceDependence", "src/SourceIteration.cc: SourceIteration::fixedPoint", "src/TychoMesh.cc"]}
{"id": "C83", "title": "Mesh listings tell meshes apart, and what the ranks read is what was written", "statement": "SerialMeshInfo lists every mesh file that can be read and stops on every other. Its verbose listings of two files are equal exactly if the files hold the same cells, faces and nodes, up to digits of coordinates that %f does not show; its brief listings exactly if the three counts are equal. Numbers are listed as decimal numerals without leading zeros. ParallelMeshInfo, on as many ranks as the file has parts, lists for each rank exactly what rank 0 listed for that part, and its verbose listings of two files are equal exactly if offsets and parts are; on any other number of ranks it stops. Every file PartitionMesh makes is of the kind required (within the size limits of the MPI reads). Expected, not met: every parallel mesh file that can be read can be listed (an unknown kind of face is found only by the verbose listing).", "quantifier": "all byte strings as mesh files, all meshes and partitions, all numbers of ranks, any text for doubles without comma, parenthesis or line end", "why_tests_cant": "Whether two different meshes can give the same listing is a statement about all pairs of meshes; tests compare a few listings by eye.", "anchors": ["src/SerialMesh.cc: SerialMesh::print", "src/ParallelMesh.cc: ParallelMesh::print, printPartitionData", "util/SerialMeshInfo.cc: main", "util/ParallelMeshInfo.cc: main"]}
{"id": "C84", "title": "Patch test: continuous piecewise linear solutions are found exactly, others up to their residual", "statement": "In exact arithmetic: take any function u that has one value at each node of the mesh (for each direction and group), is linear in each cell and vanishes at the nodes of those boundary faces through which the direction points inwards. With the source Omega.grad u + sigmaT*u a sweep returns exactly u, whatever the partition, ranks, priorities and cell solver; with the source that belongs to u when scattering is included, the solution of the scattering problem is u. With any other source Q the flux differs from u by no more than Q differs from that source: integral of sigmaT*(psi-u)^2 at most the integral of (Q - Omega.grad u - sigmaT*u)^2/sigmaT, and with scattering at most k < 1 times the total cross section the same with the factor 1/(1-k)^2 in the norm over all directions. The signed areas used by the program obey the divergence theorem exactly.", "quantifier": "all meshes of non-overlapping tetrahedra, directions not tangent to interior faces and without cycles, positive cross sections, all nodal functions, all sources, all partitions and ways to run", "why_tests_cant": "A patch test on one mesh checks one function, one mesh and finitely many partitions, in rounded arithmetic; consistency and the error bound are statements about all of them.", "anchors": ["src/Transport.cc: solve", "src/SweeperTraverse.cc: sweep", "src/TychoMesh.hh: getOmegaDotN, getFaceArea, getCellVolume", "src/SourceIteration.cc: fixedPoint"]}
{"id": "C85", "title": "Rounding errors of the scalar flux, of the total source and of the convergence test", "statement": "In binary64 arithmetic the scalar flux at every place is finite and differs from the exact quadrature sum of the stored angular fluxes by at most (n+1)*2^-52 times the sum of the sizes of the terms plus n*2^-1074, n being the number of directions; with nonnegative weights and fluxes this is a relative error. The relative change that source iteration compares with its tolerance differs from the exact relative L1 change of the stored scalar fluxes by at most (3N+4)*2^-52 of itself plus 2^-1075, N being the number of flux values on all ranks, whatever the order in which MPI adds up the ranks. So a run that stops before the iteration limit has an exact relative change within the tolerance up to that error, and an iteration that is not the last has one beyond the tolerance up to that error. The total source (fixed source plus scattering) computed from stored scalar fluxes differs from the exact one, with the true pi, by at most 3*2^-52 times the sum of the sizes of its two terms plus 2^-1074 times (the size of the flux + 1); computed from stored angular fluxes, by at most (n+5)*2^-52 times the sizes of all terms plus a multiple of 2^-1074.", "quantifier": "all numbers of directions, groups, cells and ranks (up to 2^50 values), all finite weights and fluxes whose sums do not come near overflow, all orders of summation over the ranks, all tolerances", "why_tests_cant": "A test compares a few sums with reference values to a guessed tolerance. The bound holds for all inputs, including cancellation, subnormal numbers and every summation order of the reduction, and needs a worst-case argument.", "anchors": ["src/Util.cc: psiToPhi", "src/SourceIteration.cc: fixedPoint", "src/Comm.cc: gsum", "src/Util.cc: calcTotalSource"]}
{"id": "C86", "title": "What the reader of input decks prints", "statement": "Reading a deck prints exactly one message per faulty line (malformed, or assigning a key again), in the order of the lines, and throws exactly if it printed one; every getter prints a message exactly if it throws. Expected, not met: the message names the line by its number. The number is appended as a character: no report shows the right number, a fault on lines 48 to 57 is reported as being on lines 0 to 9, and lines 256 apart get the same report. print() shows the file name and then all stored assignments in order, one in a line; these lines are themselves a deck without fault that gives every key the same value.", "quantifier": "all byte strings as decks (fewer than 2^31 lines), all file names without zero byte, all keys, all states of the reader reached by reading a file", "why_tests_cant": "A test shows the messages for a few decks. That messages and faults correspond one to one, and that the echo of a deck can be read back with the same meaning, is a claim about all decks.", "anchors": ["src/KeyValueReader.cc: readFile", "src/KeyValueReader.cc: print", "src/KeyValueReader.cc: Private::printMessage", "src/KeyValueReader.cc: getString, getInt, getDouble, getBool"]}
{"id": "C87", "title": "What the solvers print about their iterations", "statement": "Source iteration prints one line per iteration, numbered from 0, after the timers of its sweep; every change shown but the last is above errMax, the last is not unless iterMax iterations were made, and the time is then divided by the number of iterations. In exact arithmetic the changes shown are those of the serial iteration on the unpartitioned mesh, so that, times aside, the output does not depend on partition, ranks, threads, priorities or exchange. The block Jacobi solvers: SweeperPBJOuter lists the source iterations of each outer iteration, and shows the change of psi over each; SweeperPBJSI shows the change of the scalar flux over each sweep. The number printed as PBJ Iters is the number of iterations made if the last one met the tolerance. Every number can be read back from the text. Expected, not met: the average time is over at least one iteration (with errMax 1 or more it is divided by zero); PBJ Iters is the number of iterations also when the limit stopped them (it is one more); Num source iters of SweeperPBJ is the number of source iterations (it is that of local sweeps); SweeperPBJSI lists one number per iteration (the list is always empty).", "quantifier": "all decks, meshes, partitions, numbers of ranks and threads, priorities and message orders, any arithmetic (exact arithmetic where said), all numbers of iterations", "why_tests_cant": "A test reads the output of a few runs. That the lines correspond one to one to the iterations, stop where the tolerance says and are the same for every partition is a claim about all runs.", "anchors": ["src/SourceIteration.cc: fixedPoint", "src/SweeperPBJ.cc: SweeperPBJOuter::solve, SweeperPBJ::solve, SweeperPBJ::sweep, SweeperPBJSI::solve", "src/GraphTraverser.cc: traverse", "src/Sweeper.cc: sweep"]}
{"id": "C88", "title": "What the priority options of a precomputed schedule do", "statement": "On every rank, when a pair (cell, angle) is taken, no pair of higher priority that comes later was ready: some upwind neighbour of it was not yet done, on this rank or, before this step, on another. Whatever the options, a schedule has every pair once and after its upwind neighbours. With intra-angle priorities by levels and interleaved angles, of two ready pairs the one with the longer way downwind, over all ranks, comes first. With globally prioritized angles, of two ready pairs the one with the later angle of the list comes first; with locally prioritized angles the one of the angle that has the longest way from a cell of this rank, and of equal ones the later; in both cases, if radiation flows between any two cells and the products of angles, longest way and cells are below 2^53, and within an angle the longer way first. For levels, under the same bound, such a schedule exists with every way to prioritize angles.", "quantifier": "all partitioned meshes, numbers of ranks, lists of angles without cycles, priorities, numbers of cells per step and orders of work of equal priority", "why_tests_cant": "A test sees a few schedules, and sees which work was done first but not which other work was ready. That nothing of higher priority was ever passed over is a claim about every step on every mesh.", "anchors": ["src/SweepSchedule.cc: SweepSchedule::SweepSchedule, anglePriorities, levelPriorities, calcLevels, partialTopoSort, calcOrdering, PriorityWork"]}

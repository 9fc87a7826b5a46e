{"id": "C01", "title": "Every time group performs exactly its required updates (seismic)", "statement": "When Manager::simulate(T) of the seismic build returns, every time group has performed exactly (full updates + sync updates) = nTsReqFull + maxDiv DOF updates and the same number of predictions, for inner and for send elements alike, and every worker executed every work region of the group exactly that often.", "quantifier": "all numbers of time groups and workers, all required-step counts, all interleavings of scheduler, workers and message completions", "why_tests_cant": "depends on thread and network schedules; a test sees a handful of interleavings", "anchors": ["src/time/Manager.cpp: Manager::simulate, Manager::compute", "src/impl/seismic/inc/time/man_sched.inc", "src/time/TimeGroupStatic.h: finished, updateTsInfo"]}
{"id": "C02", "title": "Neighbour updates read predictions of exactly their own time interval (seismic LTS)", "statement": "Whenever a worker is executing the neighbour step of update n of a time group, the time-integrated DOFs it reads from elements of the same, the next smaller and the next larger time group cover exactly the time interval of update n, and no worker is concurrently overwriting them.", "quantifier": "all time-group counts, workers, interleavings and message delays; every update index", "why_tests_cant": "a violated dependency is a data race that shows up only for particular timings of rate-2 local time stepping", "anchors": ["src/time/Manager.cpp: getTimePredAvailable, getTimePredConsumed", "src/impl/seismic/inc/time/man_sched.inc", "src/impl/seismic/solvers/AderDg.hpp: local, neigh"]}
{"id": "C03", "title": "Work-package status machine never aborts", "statement": "In every execution of the schedulers no status check in Shared::setStatusAll / setStatusTd fails: a region is only made ready when all its packages are waiting or finished, a package is only started when ready and only finished when in progress.", "quantifier": "all interleavings of the scheduler with any number of workers", "why_tests_cant": "the checks abort the run only for particular interleavings", "anchors": ["src/parallel/Shared.cpp: setStatusAll, setStatusTd, getStatusAll, getWrkTd", "src/impl/seismic/inc/time/man_sched.inc", "src/impl/advection/inc/time/man_sched.inc"]}
{"id": "C04", "title": "The seismic scheduler never deadlocks", "statement": "In every reachable state in which the synchronization point is not reached, if every work package handed out has finished and every posted message has completed, the next pass of the scheduler hands out new work, posts messages, completes a time step or declares the synchronization point reached; every execution reaches the synchronization point after finitely many such passes.", "quantifier": "all reachable states, all numbers of time groups and workers", "why_tests_cant": "liveness; a hang of one schedule in millions is invisible to tests", "anchors": ["src/impl/seismic/inc/time/man_sched.inc", "src/time/Manager.cpp"]}
{"id": "C05", "title": "Time-step data is stable while workers compute", "statement": "While any worker is executing a step of a time group, the update counter, the time step and the covered simulation time of this group (which the step reads) do not change.", "quantifier": "all interleavings and states", "why_tests_cant": "the fields are written by the scheduling thread without locks", "anchors": ["src/time/TimeGroupStatic.cpp: updateTsInfo, computeStep", "src/impl/seismic/steps.inc", "src/impl/seismic/inc/time/man_sched.inc"]}
{"id": "C06", "title": "Communication buffers are never touched while in flight", "statement": "The scheduler never lets workers write a group's send buffers while a send of that group is outstanding, never starts a send before the send elements' prediction is complete, never posts a receive while the neighbour step of the send elements that reads the receive buffers may still run, and never runs that step before the receive completed.", "quantifier": "all interleavings, groups, steps and message delays", "why_tests_cant": "buffer races depend on network timing", "anchors": ["src/impl/seismic/inc/time/man_sched.inc", "src/parallel/MpiRemix.cpp: beginSends, beginRecvs, finSends, finRecvs"]}
{"id": "C07", "title": "Step accounting and dependencies of the advection scheduler", "statement": "The properties of C01, C02, C03 hold for the advection scheduler: exact number of updates, predictions of the proper interval are available and unmodified while neighbours read them, no status check fails.", "quantifier": "all group and worker counts, interleavings, message delays", "why_tests_cant": "schedule dependent", "anchors": ["src/impl/advection/inc/time/man_sched.inc"]}
{"id": "C08", "title": "Shallow-water scheduler alternates net-updates and element updates", "statement": "In the shallow-water build every time step computes the net-updates of all faces completely before any element update of this step starts, the element updates completely before the net-updates of the next step start, and exactly the required number of steps is performed.", "quantifier": "all worker counts and interleavings", "why_tests_cant": "schedule dependent", "anchors": ["src/impl/swe/inc/time/man_sched.inc"]}
{"id": "C09", "title": "Advancing by T advances every time group by exactly T", "statement": "For a fundamental time step dt>0 and a requested time T>=0, setUp followed by updateTsInfo until finished() advances the covered simulation time of every time group by exactly T (exact arithmetic), all groups finish at the same simulation time, and every time step is non-negative and not larger than the group's full time step.", "quantifier": "all dt, T, numbers of groups and group ids", "why_tests_cant": "ranges over a continuum of inputs", "anchors": ["src/time/TimeGroupStatic.cpp: TimeGroupStatic, setUp, setDt, updateTsInfo", "src/time/TimeGroupStatic.h: finished, lastTimeStep"]}
{"id": "C10", "title": "Work packages partition the work region", "statement": "After registration and after any number of re-balancings, the work packages of the workers are contiguous, non-overlapping and cover exactly the entities of the region, whatever run times were measured.", "quantifier": "all region sizes, worker counts, measured times, sequences of re-balancings", "why_tests_cant": "ranges over all possible timings including zero, tiny and huge ones", "anchors": ["src/parallel/LoadBalancing.cpp: balanceWrkRgn, balance", "src/parallel/LoadBalancing.h: regWrkRgn"]}
{"id": "C11", "title": "Sparse offsets handed to workers are correct", "statement": "For every worker and sparse type, the first sparse id that getWrkTd returns equals the number of sparse entities of this type with a smaller dense id, for every package that contains such an entity.", "quantifier": "all sparse-type assignments, regions, balancings", "why_tests_cant": "combinatorial in sparse types and package boundaries", "anchors": ["src/parallel/LoadBalancing.cpp: resolveSpEn, getWrkTd", "src/parallel/LoadBalancing.h: regWrkRgn"]}
{"id": "C12", "title": "Work is handed out by priority", "statement": "After any sequence of region registrations the worker always obtains, among the regions whose package for this worker is ready, one of the highest priority, and among equal priorities the one registered first.", "quantifier": "all registration sequences and status assignments", "why_tests_cant": "unbounded sequences of registrations", "anchors": ["src/parallel/Shared.h: regWrkRgn", "src/parallel/Shared.cpp: getWrkTd"]}
{"id": "C13", "title": "NUMA-aware initialisation covers every value exactly once", "statement": "The per-worker ranges of the NUMA-aware initialization are disjoint, in worker order contiguous, and cover exactly [0,n); sizes differ by at most one.", "quantifier": "all array sizes and worker counts", "why_tests_cant": "all combinations of size and worker count", "anchors": ["src/parallel/Shared.h: numaInit"]}
{"id": "C14", "title": "Messages have disjoint in-bounds buffer slots", "statement": "The send (receive) slots of all communicating faces of all channels are pairwise disjoint, lie inside the allocated send (receive) buffer of their communication buffer, and the slots of one channel form exactly the byte range transferred by its message.", "quantifier": "all communication structures", "why_tests_cant": "all combinations of channels and group relations", "anchors": ["src/parallel/Distributed.cpp: Distributed::init"]}
{"id": "C15", "title": "Sends and receives of two ranks match", "statement": "For two ranks whose channel descriptions mirror each other, the message sent for a channel has the same size and the same tag as the receive posted by the peer, no two messages between the same pair of ranks share a tag, and over a synchronization interval both sides agree on how many messages are exchanged.", "quantifier": "all group pairs, face counts and step counts", "why_tests_cant": "needs agreement of independently computed values on two processes", "anchors": ["src/parallel/Distributed.cpp: init, checkSendTgLt, checkRecvTgLt"]}
{"id": "C16", "title": "Exactly one rank owns a minimum", "statement": "Distributed::min marks for every value exactly one rank as owner, the lowest rank among those holding the global minimum.", "quantifier": "all rank counts and values", "why_tests_cant": "all assignments of values to ranks including ties", "anchors": ["src/parallel/Distributed.cpp: Distributed::min"]}
{"id": "C17", "title": "Receive buffer that is filled is the buffer that is read", "statement": "In update u of a time group the neighbour step reads, for every communicating face, the communication buffer into which the message for this update has been received.", "quantifier": "all updates, group relations, one and two communication buffers", "why_tests_cant": "needs all update indices modulo the buffer pattern", "anchors": ["src/parallel/Distributed.cpp: init, sendCommBuffers2, recvCommBuffers2", "src/impl/seismic/steps.inc", "src/parallel/Gaspi.cpp"]}
{"id": "C18", "title": "Sparse and dense ids are inverse to each other", "statement": "linkSpDe returns the dense ids of exactly the entities of the sparse type in ascending order; nSp returns their number; linkSpSp returns for every entity of the first sparse type its rank w.r.t. the second type if it has both and the invalid id otherwise.", "quantifier": "all sparse-type assignments", "why_tests_cant": "all combinations", "anchors": ["src/data/SparseEntities.hpp: nSp, linkSpDe, linkSpSp"]}
{"id": "C19", "title": "Sparse region sizes and offsets are consistent with the dense layout", "statement": "denseToSparse and subRgnsSpId return for every time-group sub-region the number (first sparse id and size) of sparse entities located in the dense sub-region, so that sparse sub-regions are contiguous and together contain every sparse entity of the covered range exactly once.", "quantifier": "all layouts and sparse types", "why_tests_cant": "all combinations", "anchors": ["src/data/SparseEntities.hpp: denseToSparse, subRgnsSpId"]}
{"id": "C20", "title": "Sparse adjacency links are correct", "statement": "linkSpAdjSst/linkSpAdjDst return for every sparse entity and each of its adjacent entities the sparse id of the adjacent entity when it is of the destination sparse type, and the invalid id otherwise.", "quantifier": "all adjacency tables and sparse types", "why_tests_cant": "all combinations; the unset-output case depends on prior memory content", "anchors": ["src/data/SparseEntities.hpp: linkSpAdjSst, linkSpAdjDst, nLinkSpAdjDst"]}
{"id": "C21", "title": "Sparse types propagate exactly to adjacent entities", "statement": "inherit and propAdj add the requested type to exactly the entities required by the adjacency information and leave all other bits unchanged.", "quantifier": "all adjacency tables and types", "why_tests_cant": "all combinations", "anchors": ["src/data/SparseEntities.hpp: inherit, propAdj"]}
{"id": "C22", "title": "Dynamic memory layout: flexible pointers are disjoint and in bounds", "statement": "The pointers created for flexible (base + sparse-type dependent) per-entity data address pairwise disjoint chunks of the requested sizes inside the allocated raw memory.", "quantifier": "all sparse-type assignments and sizes", "why_tests_cant": "all combinations", "anchors": ["src/data/Dynamic.h: flex", "src/data/DataLayout.hpp"]}
{"id": "C23", "title": "Entity layouts partition the ids", "statement": "sizesToLayout assigns the inner and send regions of all time groups pairwise disjoint id ranges that exactly cover [0, number of owned entities).", "quantifier": "all region sizes", "why_tests_cant": "all combinations", "anchors": ["src/data/EntityLayout.cpp: sizesToLayout"]}
{"id": "C24", "title": "LTS relation flags describe the neighbours' time groups", "statement": "After setLtsTypes the per-face flags of every element tell exactly whether the face-adjacent element (also on another rank) has an equal, a greater or a smaller time group, and the per-element flags tell exactly whether any face has the respective relation.", "quantifier": "all meshes, time-group layouts and communication structures", "why_tests_cant": "all combinations", "anchors": ["src/mesh/EdgeV.cpp: setLtsTypes"]}
{"id": "C25", "title": "Time-group normalisation yields the best admissible clustering", "statement": "normalizeElTgs terminates, never increases an element's time group, ends with neighbouring groups differing by at most one, and the result is the element-wise largest assignment with these two properties (hence independent of element order).", "quantifier": "all meshes and initial assignments", "why_tests_cant": "fixed point over arbitrary graphs", "anchors": ["tools/edge_v/src/time/Groups.cpp: normalizeElTgs"]}
{"id": "C26", "title": "Time-group assignment respects the CFL condition", "statement": "setElTg puts every element into the group whose half-open time-step interval contains the element's time step, and no element is ever updated with a time step larger than its own CFL time step, also after normalization.", "quantifier": "all time steps, rates and meshes", "why_tests_cant": "continuum of inputs", "anchors": ["tools/edge_v/src/time/Groups.cpp: setElTg, Groups::Groups, nGroupEls, getLoads"]}
{"id": "C27", "title": "Partition priorities produce the layout the solver assumes", "statement": "Sorting elements by the priorities of getElPr makes every partition contiguous, and inside a partition all inner elements precede all send elements and both are ordered by time group; nPaEls counts the elements of every partition.", "quantifier": "all meshes, partitions and time groups", "why_tests_cant": "all combinations", "anchors": ["tools/edge_v/src/mesh/Partition.cpp: getElPr, nPaEls", "tools/edge_v/src/io/Gmsh.cpp: reorder"]}
{"id": "C28", "title": "Communication structure: every partition-crossing face is exchanged exactly once", "statement": "The communication structure of a partition contains each of its faces whose adjacent element belongs to another partition exactly once, in the channel of the right local group, remote partition and remote group, and contains no other face.", "quantifier": "all meshes in the order of C27 whose elements share at most one face, all partitions and groups; partitions without neighbours only before or after the communicating ones (otherwise the preprocessor aborts)", "why_tests_cant": "all combinations", "anchors": ["tools/edge_v/src/mesh/Communication.cpp: getPaElComm, getPaTgPairs, getMsgsSend, getStruct"]}
{"id": "C29", "title": "Communication structure: sender and receiver enumerate faces in the same order", "statement": "For two partitions the i-th face received in a channel is the face that the peer sends as i-th face in the mirrored channel; both have equally many entries, and the flat channel encoding (setChOff, setChs, setSeReElFaOff, setSeReElFa) can be decoded back to the structure.", "quantifier": "all meshes in the order of C27 whose elements share at most one face, all partitions and groups, all contents of freshly allocated memory", "why_tests_cant": "all combinations", "anchors": ["tools/edge_v/src/mesh/Communication.cpp: getStruct, setChs, setChOff, setSeReElFaOff, setSeReElFa"]}
{"id": "C30", "title": "Inner and send element counts match the communication structure", "statement": "nElsInSe returns, per partition and time group, the number of elements without and with a face to another partition.", "quantifier": "all meshes, partitions and groups", "why_tests_cant": "all combinations", "anchors": ["tools/edge_v/src/mesh/Communication.cpp: nElsInSe, isComm"]}
{"id": "C31", "title": "Dual graph handed to the partitioner is the face-adjacency graph", "statement": "getDualGraph returns a valid CSR graph whose edges are exactly the face adjacencies, it is symmetric, and the weights of getWeights belong to the vertices and edges at the same position.", "quantifier": "all meshes", "why_tests_cant": "all combinations", "anchors": ["tools/edge_v/src/mesh/Partition.h: getDualGraph, getWeights"]}
{"id": "C32", "title": "Mesh connectivity is derived correctly from element vertices", "statement": "The derived faces are the distinct vertex sets of the elements' faces; each internal face is adjacent to exactly its two elements, boundary faces to one, and element-face-element adjacency is symmetric.", "quantifier": "all conforming meshes", "why_tests_cant": "all combinations", "anchors": ["tools/edge_v/src/mesh/Mesh.cpp: Mesh::Mesh, getElFaEl, normOrder"]}
{"id": "C33", "title": "Local vertex/face numbering is normalised", "statement": "After normVesFas the vertices of triangles, quads and tetrahedra have positive orientation and local face i consists of the vertices prescribed by the reference element, whatever the input ordering.", "quantifier": "all coordinates and input orders", "why_tests_cant": "continuum of inputs", "anchors": ["tools/edge_v/src/geom/Tria3.cpp: normVesFas", "tools/edge_v/src/geom/Tet4.cpp: normVesFas", "tools/edge_v/src/geom/Quad4r.cpp: normVesFas"]}
{"id": "C34", "title": "Local ids of shared faces and vertices", "statement": "For every interior face of a mesh in which two elements have at most one face in common, getFaIdsAd returns the local number of this face in the adjacent element, and getVeIdsAd (tetrahedra) the position, within the adjacent element's local face, of the first vertex of the element's local face. If two elements have several faces in common (periodic meshes, one element wide), the returned local face may be a different one.", "quantifier": "all meshes accepted by the preprocessor, all elements and local faces, with the one-common-face condition shown to hold for all triangle and tetrahedral meshes without duplicated elements", "why_tests_cant": "all combinations of local numberings of the two adjacent elements, all meshes", "anchors": ["tools/edge_v/src/geom/Generic.cpp: getFaIdsAd", "tools/edge_v/src/geom/Tet4.cpp: getVeIdsAd"]}
{"id": "C35", "title": "Small-matrix determinants and inverses are algebraically correct", "statement": "det equals the Leibniz determinant for 2x2, 3x3 and 4x4 matrices and inv returns a two-sided inverse of every 2x2 and 3x3 matrix with non-zero determinant.", "quantifier": "all matrices over a field", "why_tests_cant": "continuum of inputs", "anchors": ["src/linalg/Matrix.h: det, det2x2, det3x3, det4x4, inv2x2, inv3x3"]}
{"id": "C36", "title": "Sparse matrix conversions preserve the matrix", "statement": "denseToCrd, crdToCsr, crdToCsc, denseToCsr and denseToCsc represent exactly the entries with absolute value above the tolerance, at their positions, in row-major respectively column-major order; transposition swaps indices; adding fill-in zeros does not change any value; the block of non-zeros returned by getBlockNz contains every entry above the tolerance and is minimal.", "quantifier": "all matrices and tolerances", "why_tests_cant": "all shapes and values", "anchors": ["src/linalg/Matrix.h: denseToCrd, crdToCsr, crdToCsc, denseToCsr, denseToCsc, transposeCrd, transposeDense, fillInQfma"]}
{"id": "C37", "title": "Fused matrix kernels compute per-simulation products", "statement": "matMulB0, matMulFusedAC, matMulFusedBC and the kernel groups built on them compute C = beta*C + A*B separately for every fused simulation, bit by bit as a run with only this simulation would, touching only the addressed m x n block of C.", "quantifier": "all shapes, leading dimensions, numbers of fused simulations, values", "why_tests_cant": "all shapes and values", "anchors": ["src/linalg/Matrix.h: matMulB0, matMulFusedAC, matMulFusedBC"]}
{"id": "C38", "title": "Source-time-function integration is exact for linear interpolation", "statement": "Series::integrate returns for every interval [x1,x2] the exact integral of the piecewise-linear interpolation of the samples.", "quantifier": "all sample values, spacings and integration intervals", "why_tests_cant": "continuum of inputs", "anchors": ["src/linalg/Series.hpp: integrate", "src/impl/seismic/setups/PointSources.hpp: apply"]}
{"id": "C39", "title": "Receiver files contain every sample exactly once and in order", "statement": "For every sequence of receiver writes and flushes the output of a receiver followed by its buffered samples equals the sequence of written samples; the buffer never overflows under the flush policy of the time stepping; sampling times are equidistant.", "quantifier": "all sequences of writes and flushes", "why_tests_cant": "unbounded histories", "anchors": ["src/io/Receivers.cpp: writeRecvAll, flush, flushIf, flushAll"]}
{"id": "C40", "title": "Every sampling time is sampled in exactly one time step", "statement": "While the time steps tile the simulated time, each receiver sampling time is output in exactly the step containing it (up to the tolerance) and none is skipped.", "quantifier": "all step sizes and frequencies", "why_tests_cant": "continuum of inputs", "anchors": ["src/io/Receivers.cpp: getRecvTimeRel", "src/impl/seismic/solvers/AderDg.hpp: local"]}
{"id": "C41", "title": "Receivers are attached to the right sparse entities", "statement": "After Receivers::init every receiver whose entity is owned is registered exactly once, receivers of one entity are consecutive, and the i-th sparse receiver entity refers to the receivers of the i-th entity (in dense order) having receivers.", "quantifier": "all receiver placements and layouts", "why_tests_cant": "all combinations", "anchors": ["src/io/Receivers.cpp: init"]}
{"id": "C42", "title": "Discrete maximum principle detection", "statement": "dmpVe/dmpFa mark a fused simulation admissible iff for all its quantities the candidate extrema lie within the neighbourhood extrema relaxed by the tolerance, independent of other fused simulations and of the order of neighbours.", "quantifier": "all extrema, neighbourhoods, fused simulations", "why_tests_cant": "continuum of inputs", "anchors": ["src/sc/Detections.hpp: dmpVe, dmpFa"]}
{"id": "C43", "title": "Point-source offsets per source element", "statement": "The initialisation of the point sources flags exactly the elements containing points (beside those flagged before) and returns, for every flagged element and fused simulation, the index range of exactly the point sources of this simulation located in this element; the sources are the points of the file located in the mesh, each exactly once, and the permutations used for sorting are inverse to each other.", "quantifier": "every number of elements, fused simulations and points, every placement of the points, every sorting function", "why_tests_cant": "The ranges depend on the placement of all points of all fused simulations; empty elements, points outside of the mesh and ties in the sorting arise in unbounded combinations.", "anchors": ["src/impl/seismic/setups/PointSources.hpp: elSpPs, getSrcPerms, getAcDu"]}
{"id": "C44", "title": "Dynamic memory is distinct while live and released exactly once", "statement": "For every sequence of allocation requests to the dynamic memory manager and every build configuration (plain, high-bandwidth memory, huge pages), a returned block is non-null exactly if its size is positive, is distinct from all memory which is live at that time, and the destructor releases each block exactly once through the same library which provided it, and releases nothing else.", "quantifier": "all sequences of requests (size, high-bandwidth, huge-page flags), all build configurations, all behaviours of the allocator", "why_tests_cant": "addresses depend on the allocator and double or mismatched releases are undefined behaviour a test may not notice", "anchors": ["src/data/Dynamic.cpp: allocate, ~Dynamic", "src/data/common.hpp: allocate, release"]}
{"id": "C45", "title": "Vertex-id lookup and mesh reordering are faithful", "statement": "Looking up a vertex or element tag of Gmsh returns its position in the sorted, de-duplicated tag list and aborts if the tag is missing; the coordinates stored at this position are the ones Gmsh has for the tag; reordering elements by priorities permutes elements without loss and sorts them by priority.", "quantifier": "all tag sets and priorities", "why_tests_cant": "all combinations", "anchors": ["tools/edge_v/src/io/Gmsh.cpp: getId, readMesh, reorder"]}
{"id": "C46", "title": "Shallow-water net-updates are conservative and consistent", "statement": "The f-wave solver's left- and right-going net-updates sum to the flux difference minus the bathymetry source, equal states over flat bathymetry yield zero net-updates, and water at rest stays at rest.", "quantifier": "all water heights, momenta and bathymetries", "why_tests_cant": "continuum of inputs", "anchors": ["src/impl/swe/solvers/Fwave.hpp"]}
{"id": "C47", "title": "Neighbouring updates only read time buffers which exist and are written", "statement": "After the local time stepping relations were set, every time buffer which a neighbouring update reads from the element behind a face on the same rank is one which that element owns (its pointer is not null) and writes in its local update; at the domain boundary only the buffer every element owns is read; every buffer an element writes exists.", "quantifier": "all meshes with symmetric adjacency, all time-group layouts with rate-2 neighbours, all communication structures, all faces, both sub-steps", "why_tests_cant": "a null pointer is only read for particular combinations of groups around an element", "anchors": ["src/mesh/EdgeV.cpp: setLtsTypes", "src/data/SparseEntities.hpp / EntityLayout: flex", "src/impl/seismic/solvers/AderDg.hpp: local, neigh"]}
{"id": "C48", "title": "A domain's sparse type is given to exactly the entities inside the domain", "statement": "Setting sparse types by domains adds the bits of a domain's type to exactly those entities all of whose vertices are inside all geometric objects of the domain, changes no other bit, and for half-spaces (exact arithmetic) every point of the convex hull of such an entity is inside too.", "quantifier": "all meshes, domains, sparse types, previous types, points of the entity", "why_tests_cant": "all combinations of overlapping domains and entities; continuum of points", "anchors": ["src/mesh/SparseTypes.hpp: set", "src/linalg/Domain.hpp: inside", "src/linalg/HalfSpace.hpp: inside"]}
{"id": "C49", "title": "The preprocessor's annotations of all ranks describe one consistent distributed mesh", "statement": "The annotations written for the ranks (sizes of time groups, communication structure, send and receive faces) meet the preconditions of the solver: each rank's list of faces is valid and free of duplicates, the time group which the solver derives for an element and behind each of its faces is the group of the element and of its neighbour in the undistributed mesh, each channel has a mirrored channel on the adjacent rank, and the i-th faces of mirrored channels are the two sides of one face of the mesh; hence the ranks' set-up succeeds and every exchange of data terminates.", "quantifier": "all meshes in the order of C27 whose elements share at most one face, all partitions, groups and ranks", "why_tests_cant": "composition of preprocessor and solver for all meshes and partitions", "anchors": ["tools/edge_v/src/mesh/Communication.cpp: Communication", "src/mesh/EdgeV.cpp: EdgeV, setLtsTypes", "src/parallel/Distributed.cpp: init, syncData"]}
{"id": "C50", "title": "Status changes of work packages follow the life cycle", "statement": "For every sequence of calls of the shared memory interface, the status of a package of a registered region changes only as wait/finished -> ready (by setting the status of the whole region), ready -> in progress and in progress -> finished (by the single worker thread which asks for or finishes it); every other request to set a status aborts, and registering further regions or any other call leaves the statuses of all other packages unchanged.", "quantifier": "all sequences of interface calls, all numbers of regions, workers and packages", "why_tests_cant": "The calls can be combined in arbitrarily long sequences; a test sees a few of them.", "anchors": ["src/parallel/Shared.cpp: setStatusAll, setStatusTd, resetStatus", "src/parallel/Shared.h: regWrkRgn"]}
{"id": "C51", "title": "Periodic boundaries connect opposite faces symmetrically", "statement": "If a periodic boundary type is given, two boundary faces of this type which are opposite to each other (orthogonal to the same axis, all other coordinates of their vertices agree) are connected: the element at each of them is the neighbour of the element at the other one across the corresponding local face, and each face lists its own element first and the element of its partner second. All other faces are connected as without periodic boundaries, and order of vertices, local faces and types are unaffected.", "quantifier": "all conforming meshes of the four element types, all sets of periodic faces which are orthogonal to an axis and have at most one opposite face", "why_tests_cant": "pairing and update have to be right for every arrangement of periodic faces, including elements which are their own neighbours", "anchors": ["tools/edge_v/src/mesh/Mesh.cpp: setPeriodicBnds, Mesh", "tools/edge_v/src/mesh/Mesh.h: getFaEl, getElFaEl"]}
{"id": "C52", "title": "Points are attached to the closest entity on exactly one rank", "statement": "The search for the entities of points (receivers, point sources) attaches every point on exactly one rank, to an entity whose distance to the point is minimal among all entities of all ranks; ties go to the lowest rank and, within it, to the lowest entity; all other ranks report the point as not theirs.", "quantifier": "every number of ranks, every number of entities per rank and every assignment of distances (any totally ordered values)", "why_tests_cant": "Ownership depends on a reduction over all ranks and on ties between distances which arise for points on shared faces; the number of ranks and the distribution of the distances are unbounded.", "anchors": ["src/data/SparseEntities.hpp: SparseEntities::ptToEn", "src/parallel/Distributed.cpp: Distributed::min", "src/io/Receivers.cpp: Receivers::init"]}
{"id": "C53", "title": "Point sources contribute exactly once per step", "statement": "Applying the point sources of a range of source elements for a time interval adds, to every degree of freedom of these elements and every fused simulation, the contributions (integral of the point's own time series over the interval times its scaling times its basis function) of exactly the points in the element, in an order which does not change between time steps, and leaves all other degrees of freedom untouched; if the source elements are distributed to packages, every point in the mesh contributes exactly once per time step, whatever the order of the packages.", "quantifier": "every file per fused simulation, every mesh size, every partitioning of the source elements into packages, every time interval, every scalar arithmetic", "why_tests_cant": "The result depends on the placement of all points, the reordering of the data, and the work packages, whose combinations are unbounded.", "anchors": ["src/impl/seismic/setups/PointSources.hpp: PointSources::apply, init, initTsData, initBasisEvals", "src/impl/seismic/steps.inc"]}
{"id": "C54", "title": "Sub-cell kernels select exactly the inadmissible simulations", "statement": "The extrema of a sub-cell solution are the smallest and greatest value over all sub-cells, separately for every quantity and fused simulation; replacing the sub-cell solution or gathering it at faces writes exactly the entries of those fused simulations which are not admissible (all, if no admissibility is given) with the values of the matching sub-cell and leaves all others as they are.", "quantifier": "every number of quantities, fused simulations, sub-cells, sub-faces, every admissibility and every scalar arithmetic", "why_tests_cant": "Fused simulations share memory; a test runs few configurations while the claim is about all sizes and all admissibility masks.", "anchors": ["src/sc/Kernels.hpp: scExtrema, scatterReplaceVanilla, gatherSurfDofs"]}
{"id": "C55", "title": "Role of the limiter's buffers is independent of synchronisations", "statement": "In every history of time steps and synchronisations, the buffers used as previous, candidate and limited solution alternate with every time step, and resetting the pointers at a synchronisation never changes which buffer holds which solution; the counters of limiter uses are reset for exactly the limited elements of the given range.", "quantifier": "every history of time steps and synchronisations", "why_tests_cant": "Histories are unbounded, and an error shows up only after a synchronisation following an odd number of time steps.", "anchors": ["src/sc/Steering.hpp: getAdmIds, getExtIds, getDofsIds, resetAdm, resetDofs, resetExt, resetLimSync"]}
{"id": "C56", "title": "Face sub-grids renumber sub-vertices without loss", "statement": "The sub-grid of a face holds every sub-vertex of the face's sub-faces exactly once, at consecutive local positions, and every local sub-face points to the entries of its own sub-vertices; for hexahedral elements the first two vertices of every sub-face are swapped.", "quantifier": "every number of sub-faces and every connectivity with at most as many distinct sub-vertices as the face has", "why_tests_cant": "Depends on the order of the polynomial and the element type, for which the connectivity differs.", "anchors": ["src/sc/SubGrid.hpp: SubGrid::faSg"]}
{"id": "C57", "title": "Shallow water: water is conserved", "statement": "A time step of the finite volume scheme changes the total volume of water in the mesh by exactly the flux through outflow boundaries of wet elements; with walls, dry elements and any bathymetry but without outflow boundaries the volume of water is constant. Dry elements keep their values.", "quantifier": "every mesh with closed elements, any dimension and number of faces, every bathymetry and arrangement of dry elements, every state with positive water heights in wet elements, every time step, every fused simulation; exact arithmetic (every ordered field)", "why_tests_cant": "Conservation is a statement about all meshes and states; it relies on the cancellation of contributions of all faces and on the treatment of walls and dry elements.", "anchors": ["src/impl/swe/solvers/FiniteVolume.hpp: FiniteVolume::nusN, qtsLr, update", "src/impl/swe/solvers/Fwave.hpp: Fwave::nusN"]}
{"id": "C58", "title": "Shallow water: water at rest stays at rest", "statement": "If all wet elements have no momentum and the same surface level in a fused simulation, a time step does not change any value of this simulation, for every bathymetry, every arrangement of dry elements and all boundary conditions, and whatever happens in the other fused simulations.", "quantifier": "every mesh, bathymetry, surface level, arrangement of dry elements and time step; exact arithmetic (every ordered field)", "why_tests_cant": "Well-balancedness has to hold for all bathymetries and coast lines.", "anchors": ["src/impl/swe/solvers/FiniteVolume.hpp: FiniteVolume::nusN, qtsLr, update", "src/impl/swe/solvers/Fwave.hpp: Fwave::nusN"]}
{"id": "C59", "title": "Mapping between reference and physical elements", "statement": "For every non-degenerate element, mapping reference to physical coordinates and physical to reference coordinates are inverse to each other. The vertices of the reference element are mapped to the vertices of the element and the corners of a reference face to the vertices of the element's face, in the order of the tables. The Jacobian is the derivative of the mapping. Triangles, rectangles and cuboids whose area or extents do not exceed the mesh tolerance are rejected.", "quantifier": "every line, triangle, tetrahedron (any vertices, non-zero volume), axis-aligned rectangle and cuboid, every point; exact arithmetic (every ordered field)", "why_tests_cant": "Algebraic identities over all vertex positions; the inverse of the tetrahedral mapping is written out in 16 hand-derived formulas.", "anchors": ["src/linalg/Mappings.hpp: Mappings::refToPhy, phyToRef, evalJac, faToVolRef", "src/linalg/Shape.hpp: Shape", "src/constants.hpp: C_REF_ELEMENT"]}
{"id": "C60", "title": "Quadrature points of a shared face coincide", "statement": "If two elements share a face, the quadrature points of the face which the element derives and those derived for the adjacent element with its local face id and vertex orientation are pairwise the same physical points (up to the translation of a periodic boundary).", "quantifier": "every pair of positively oriented triangles, tetrahedrons, axis-aligned rectangles or cuboids and of line elements, every pair of local faces, every vertex orientation, every quadrature rule, every translation; exact arithmetic (every ordered field)", "why_tests_cant": "All combinations of local faces and orientations have to match for all geometries; a mismatch leads to a consistent looking but wrong flux.", "anchors": ["src/dg/QuadratureEval.hpp: QuadratureEval::faces", "src/linalg/Mappings.hpp: Mappings::faLocToFaNei, faToVolRef"]}
{"id": "C61", "title": "Messages of the advection scheduler", "statement": "The scheduler of the advection solver posts exactly one send and one receive per time step of a group, after all workers have completed the local update of the group's send elements and while no message of the group is outstanding and no worker touches the communicated data; the flags alternate with the step. While a worker computes the local update of send elements no message of the group is outstanding; while a worker computes a neighbouring update the messages of this step have been posted and completed. At the synchronization point all messages are completed.", "quantifier": "every interleaving of the scheduling thread, workers and message completions, every number of groups, workers and steps", "why_tests_cant": "Depends on the interleaving of threads and the network.", "anchors": ["src/impl/advection/inc/time/man_sched.inc", "src/time/Manager.cpp: Manager::compute"]}
{"id": "C62", "title": "Face normals and tangents of the mesh tool", "statement": "For a valid mesh, the mesh tool's query for face normals succeeds and returns for every face a unit vector, orthogonal to the face, which points out of the first element listed for the face; it is the only vector with these properties. The tangents complete it to an orthonormal right-handed system (two dimensions: the normal rotated by 90 degrees in the plane). For any element with the face, the normal or its opposite points outwards.", "quantifier": "every conforming mesh of triangles, axis-aligned rectangles, tetrahedrons or axis-aligned hexahedrons, with or without periodic boundaries, every input order of vertices and faces; exact real arithmetic", "why_tests_cant": "Must hold for all geometries and vertex orders; a flipped normal of one face corrupts the fluxes of both elements.", "anchors": ["tools/edge_v/src/mesh/Mesh.cpp: getNormalsFa, getTangentsFa, getAddEntry, getEnVeCrds", "tools/edge_v/src/geom/Geom.cpp: normal, tangents", "tools/edge_v/src/geom/Line.cpp", "tools/edge_v/src/geom/Tria3.cpp", "tools/edge_v/src/geom/Quad4r.cpp"]}
{"id": "C63", "title": "Areas, normals and volumes are consistent", "statement": "For every element of a valid mesh, the sum of face area times outward unit normal over the element's faces is zero, and the element's volume times the number of dimensions equals the sum of face area times signed distance of the face to an arbitrary point. Areas and volumes are positive.", "quantifier": "every conforming mesh of the four supported element types, every element, every reference point; exact real arithmetic", "why_tests_cant": "Relates results of different functions (areas, normals, volumes) for all geometries; the finite volume scheme is only conservative and well-balanced if they fit together.", "anchors": ["tools/edge_v/src/mesh/Mesh.cpp: getAreasFa, getVolumesEl", "tools/edge_v/src/geom/Geom.cpp: volume", "tools/edge_v/src/geom/Tet4.cpp", "tools/edge_v/src/geom/Hex8r.cpp"]}
{"id": "C64", "title": "Volumes, areas and diameters do not depend on the order of vertices", "statement": "The volumes and in-diameters of elements and the areas of faces are the same for every order in which the vertices of the elements or faces are given, in particular before and after the mesh tool has normalized the order.", "quantifier": "every conforming mesh of the four supported element types, every permutation of the vertices of every element and face; exact real arithmetic", "why_tests_cant": "All permutations for all geometries; the in-diameters are computed from the order given by the mesh generator, the volumes from the normalized order.", "anchors": ["tools/edge_v/src/mesh/Mesh.cpp: setInDiameter, getVolumesEl, getAreasFa", "tools/edge_v/src/geom"]}
{"id": "C65", "title": "In-diameter of an element", "statement": "The in-diameter which the mesh tool assigns to an element is the diameter of the largest ball within the element: some point has at least half the diameter as distance to all faces, and every point has a distance of at most half the diameter to some face. It is positive.", "quantifier": "every conforming mesh of the four supported element types, every element and every point; exact real arithmetic", "why_tests_cant": "The time step (CFL) of every element is derived from this number; too large values make the simulation unstable. It has to hold for all geometries.", "anchors": ["tools/edge_v/src/mesh/Mesh.cpp: setInDiameter", "tools/edge_v/src/geom/Geom.cpp: inDiameter"]}
{"id": "C66", "title": "Star matrices represent the elastic wave equations in reference coordinates", "statement": "In every element, the star matrices applied to the derivatives of the quantities along the reference directions give the same result as the fluxes of the linear elastic wave equations (Hooke's and Newton's law) applied to the derivatives in physical directions; the anelastic star matrices give the rate of the strain. The compressed (sparse) matrices used by the fused kernels contain, with the sparsity patterns the kernels are generated from, exactly the non-zero entries of the dense matrices at the right positions.", "quantifier": "every density, Lame parameters, invertible Jacobian and derivatives of the quantities, in two and three dimensions; exact real arithmetic for the equations, any scalars for the sparsity", "why_tests_cant": "A wrong entry shows only for some geometries or materials; the pattern is derived from one matrix and used for all.", "anchors": ["src/impl/seismic/setups/Elasticity.cpp: star", "src/impl/seismic/setups/ViscoElasticity.cpp: star", "src/impl/seismic/kernels/FakeMats.hpp: starCsrE, starCsrA", "src/impl/seismic/common.hpp: getJac"]}
{"id": "C67", "title": "Transformations between face and physical coordinates", "statement": "The transformation of a state from the coordinates of a face (normal and tangents) to physical coordinates rotates the stress tensor and the velocity, and the inverse transformation undoes it, in both directions; in three dimensions also for frames which are not orthonormal.", "quantifier": "every frame and every state; exact real arithmetic", "why_tests_cant": "There are 81 generated entries which have to be right for every orientation of a face.", "anchors": ["src/impl/seismic/generated/TrafoElastic2D.inc", "src/impl/seismic/generated/Trafo3D.inc", "src/impl/seismic/generated/TrafoInvElastic2D.inc", "src/impl/seismic/generated/TrafoInv3D.inc"]}
{"id": "C68", "title": "Flux solvers solve the Riemann problem exactly", "statement": "At every face, the fluxes which the two flux solvers of each side compute from the states of the two elements are the fluxes of the exact solution of the Riemann problem: the states left and right of the face differ from the elements' states only by compressional and shear waves moving away from the face, and traction and velocity are continuous. At free surfaces the flux is that of the state without traction. The solution exists and is unique. Faces between fluids in two dimensions are solved in the same sense (normal velocity and traction continuous); a fluid next to a solid is rejected.", "quantifier": "every pair of solids (2D and 3D) or fluids (2D), every orientation of the face, every pair of states; exact real arithmetic", "why_tests_cant": "The generated matrices contain hundreds of terms in six material parameters; tests compare single parameter sets with stored numbers.", "anchors": ["src/impl/seismic/setups/Elasticity.cpp: setupFlMid, setupFrMid, fs", "src/impl/seismic/generated/FlMid3D.inc, FrMid3D.inc, FlMidElastic2D.inc, FrMidElastic2D.inc, FlMidAcoustic2D.inc, FrMidAcoustic2D.inc", "src/impl/seismic/solvers/AderDgInit.hpp: setUpFs, initFs"]}
{"id": "C69", "title": "Faces conserve momentum and never produce energy", "statement": "The fluxes of the two sides of a face transfer momentum without loss, and together with the fluxes of the elements' states they never increase the energy (kinetic energy and energy of the deformation). The same holds for free surfaces, which exert no force, and for outflow boundaries.", "quantifier": "every pair of solids, orientation and states; exact real arithmetic", "why_tests_cant": "Stability of the scheme for all inputs; a violation shows up as a slow blow-up in long simulations only.", "anchors": ["src/impl/seismic/setups/Elasticity.cpp: fs", "src/impl/seismic/solvers/AderDgInit.hpp: setUpFs", "src/impl/seismic/solvers/AderDg.hpp: neigh"]}
{"id": "C70", "title": "Anelastic fluxes belong to the elastic solution", "statement": "The fluxes for the attenuation (memory variables) at a face are the rate of the strain of the velocity of the same solution of the Riemann problem, for both sides and for free surfaces.", "quantifier": "every pair of solids, orientation and states; exact real arithmetic", "why_tests_cant": "Elastic and anelastic solvers are derived separately; they have to agree for all materials.", "anchors": ["src/impl/seismic/setups/ViscoElasticity.cpp: fsMid, fs", "src/impl/seismic/solvers/AderDgInit.hpp: setUpFs"]}
{"id": "C71", "title": "Internal boundaries: frames and exact welded fluxes", "statement": "The coordinate system of an internal boundary is carried to each of its faces by the shortest rotation that turns the boundary's direction into the face's normal; the result is an orthonormal frame whose normal points to the boundary's minus side. Every face of the boundary gets the solver for its own materials, volumes and orientation, at its own position; without friction the net updates of both sides are the fluxes of the exact solution of the Riemann problem, scaled by time step, sub-face area and sub-cell volume, no matter on which side the plus side lies.", "quantifier": "every mesh and order of faces, boundary direction, face frame, pair of solids and states, two and three dimensions; exact real arithmetic", "why_tests_cant": "The tests compare a few matrices to reference values; sign conventions and rotations have to be consistent for all orientations and material contrasts.", "anchors": ["src/impl/seismic/solvers/InternalBoundary.hpp: init, netUpdates", "src/linalg/Geom.hpp: rotMat"]}
{"id": "C72", "title": "Faults obey Coulomb friction", "statement": "At a fault the net updates are the fluxes of the states that obey Coulomb's law: both sides emit outgoing waves only, traction and normal velocity are continuous, the shear traction (with the background stress) does not exceed the strength, equals it where the fault slips, and acts against the slip. These states exist and are unique, friction never adds energy and a fault below its strength is welded. The reported shear traction, slip rate and strength belong to these states. In two dimensions the code violates this if the total shear traction has another sign than the background stress.", "quantifier": "every pair of solids, fault and face orientation, background stress, friction coefficient, cohesion and states; exact real arithmetic", "why_tests_cant": "A wrong sign or impedance shows for particular combinations of side, material and stress only; tests check single literal states.", "anchors": ["src/impl/seismic/solvers/FrictionLaws.hpp: linSlipWeak, perturb", "src/impl/seismic/solvers/InternalBoundary.hpp: netUpdates", "src/impl/seismic/setups/RuptureInit.hpp: linSlipWeak"]}
{"id": "C73", "title": "Slip weakening over a whole history", "statement": "Over any sequence of time steps the background stress of a fault point is unchanged, its accumulated slip is the sum of absolute slip rates times time steps, and its friction coefficient is the linear slip-weakening law of this slip: between dynamic and static coefficient, never rising, and equal to the dynamic coefficient once the slip reaches the critical distance. With fault data the code violates the start value: the coefficient of the first step is the largest number.", "quantifier": "every sequence of time steps and middle states, all friction parameters that pass the checks; exact real arithmetic", "why_tests_cant": "It is an invariant of histories of any length; tests run one step.", "anchors": ["src/impl/seismic/solvers/FrictionLaws.hpp: linSlipWeak", "src/impl/seismic/setups/RuptureInit.hpp: linSlipWeak"]}
{"id": "C74", "title": "Cauchy-Kowalevski: time derivatives of the element's own system", "statement": "The time prediction computes, for every fused simulation, the DOFs' time derivatives up to the order in time: the d-th derivative is the d-th power of the element's semi-discrete operator (transposed stiffness, star matrices, attenuation sources) applied to the DOFs, for every quantity and mode. The modes that the kernels skip in higher derivatives are zero, and fused simulations do not influence each other. The returned time integral is the integrated Taylor polynomial. With attenuation, the code violates consistency with the volume integration: the relaxation term of the memory variables has the wrong sign in the prediction.", "quantifier": "every element type, order in space and time, number of fused simulations and of relaxation mechanisms, all matrices whose derivatives lower the degree, all DOFs, time steps, and contents of scratch memory; exact arithmetic in any commutative ring", "why_tests_cant": "Loop bounds depend on order, element type and attenuation; a truncated block or an uninitialised entry shows only for particular orders, modes and simulations. The unit test repeats the wrong sign.", "anchors": ["src/impl/seismic/kernels/TimePredVanilla.hpp: generateKernels, ck", "src/dg/TimePred.hpp: storeStiffTDense", "src/constants.hpp: CE_N_ELEMENT_MODES_CK"]}
{"id": "C75", "title": "The prediction solves the element's system, and its integral is its antiderivative", "statement": "Evaluated at any time after the prediction, the result is the Taylor polynomial of the derivatives: it starts with the DOFs and its derivative in time is the element's operator applied to it, up to the last Taylor term; for triangles and tetrahedra with equal orders in space and time it is the exact solution. The integral over any time is the antiderivative of the prediction that starts with zero, hence the integrals used by neighbours with half the time step add up. With attenuation the code violates this: the evaluation for receivers drops modes that the integration uses.", "quantifier": "all DOFs, matrices, element types and orders, all points in time and time steps, all fused simulations; exact (real) arithmetic", "why_tests_cant": "It relates three different functions for all times; a wrong factor or a wrong number of modes shows for high derivatives only.", "anchors": ["src/impl/seismic/kernels/TimePred.hpp: evalTimePrediction, integrate", "src/impl/seismic/kernels/TimePredVanilla.hpp: ck"]}
{"id": "C76", "title": "Volume and surface integration add exactly the scheme's terms", "statement": "The volume integration adds the stiffness matrices' and star matrices' products of the time-integrated DOFs, plus attenuation sources and relaxation, to the DOFs; the local surface integration adds for every face the projection to the face, the flux solver and the integration against the basis; the neighbouring surface integration adds the same for the neighbour's data with the matrix of its face and vertex relation (or of the own face at free surfaces). Data that is projected before it is sent to another partition gives the same result as the neighbour's data itself. All simulations, quantities and modes outside of these terms are unchanged.", "quantifier": "every element type, order, number of fused simulations and relaxation mechanisms, all matrices, time-integrated data, DOFs and scratch contents; exact arithmetic in any commutative ring", "why_tests_cant": "Leading dimensions, block sizes and offsets have to fit for all configurations; tests use a few of them.", "anchors": ["src/impl/seismic/kernels/VolIntVanilla.hpp: generateKernels, apply", "src/impl/seismic/kernels/SurfIntVanilla.hpp: generateKernels, local, neighFluxInt, neigh", "src/impl/seismic/kernels/SurfInt.hpp: fMatId, scatterUpdateA"]}
{"id": "C77", "title": "Local time stepping gives the scheme's result, whatever the schedule and the distribution", "statement": "Starting from given DOFs, any order of the local and neighbouring steps of the time groups, and of the arrival of messages between partitions, which respects the data dependencies (an element's local step waits for its last update and for the readers of the buffers it overwrites, a neighbouring step waits for the neighbours' data) runs without error. Whenever an element's neighbouring steps have caught up, its DOFs are those of the local time stepping scheme: per update the volume and own surface terms of its time prediction, plus the surface terms of each neighbour's prediction over exactly the same time interval (the same update, the sum of the two updates of a smaller time group, the first or second half of the update of a larger one), nothing at outflow faces, and the own data at free surfaces. Hence two runs with different schedules, numbers of partitions, buffer contents and scratch memory end with identical DOFs. Receivers get the prediction at the requested time.", "quantifier": "all meshes with neighbouring time groups differing by at most one, all element types, orders, fused simulations and relaxation mechanisms, all matrices and DOFs, all distributions of faces to partitions, all admissible schedules of any length; exact arithmetic in any commutative ring", "why_tests_cant": "The number of interleavings of steps and messages is unbounded; a test runs one schedule on one partitioning, and a wrong interval of a time buffer still converges on smooth data.", "anchors": ["src/impl/seismic/solvers/AderDg.hpp: local, neigh", "src/impl/seismic/kernels/Kernels.hpp", "src/impl/seismic/steps.inc"]}
{"id": "C78", "title": "A simulation on any number of ranks and workers ends with the scheme's states", "statement": "A synchronization interval is driven by the schedulers, workers and messages of all ranks in any interleaving. At any time of it, the local and neighbouring steps which the workers have done on the solver's arrays, and the sends and receives of the faces' buffers, have run without an error: no access out of bounds, no absent buffer, no missing message. Whenever an element's neighbouring updates have caught up with its local ones, it holds the state of the local time stepping scheme. At the synchronization point every element has done (full steps + 1) * 2^(groups above) updates and holds the scheme's state after exactly these, no message is left, and the arrays are ready for the next interval; hence the same holds after any number of intervals with any time steps. Every fair execution reaches the synchronization point.", "quantifier": "all numbers of ranks, workers per rank, time groups and full steps, all distributions of the elements to ranks and packages, all interleavings of scheduling threads, workers, completion of sends and receives, all initial contents of buffers, all matrices and DOFs, all numbers of synchronization intervals and time steps; exact arithmetic in any commutative ring", "why_tests_cant": "A test executes one interleaving on one machine; a race between a worker, the scheduling thread and the messages shows up as a wrong value only in rare interleavings.", "anchors": ["src/time/Manager.cpp: compute, simulate", "src/impl/seismic/inc/time/man_sched.inc", "src/impl/seismic/steps.inc", "src/impl/seismic/solvers/AderDg.hpp: local, neigh", "src/parallel/MpiRemix.cpp", "src/parallel/Shared.cpp", "src/main.cpp: loop over the synchronization points"]}
{"id": "C79", "title": "Momentum and other conserved quantities change only by what passes the outflow boundaries", "statement": "Give every quantity of every element a weight, such that the two flux solvers of each inner face have opposite weighted columns and those of a free surface cancel, and mode 0 of the basis is constant. Whenever all elements have reached the same time, in any assignment of elements to time groups which differ by at most one between neighbours, the weighted total of the elements' mean values is the initial one plus what passed the outflow boundaries; without outflow boundaries it is the initial one. This holds for the solver's arrays after any number of synchronization intervals of a simulation on any number of ranks and workers. The flux solvers of elastic solids satisfy the conditions for density times velocity: the momentum in each direction is conserved, whatever materials meet at the faces, and whatever tangents the two sides use.", "quantifier": "all meshes, materials, normals, orders, time groups, time steps and numbers of updates, all initial states, all schedules and distributions; exact arithmetic (any commutative ring for the balance, real numbers for elastic waves)", "why_tests_cant": "A test compares some runs with a tolerance; a small systematic loss at the faces between time groups or partitions hides in the discretization error.", "anchors": ["src/impl/seismic/solvers/AderDg.hpp: local, neigh", "src/impl/seismic/solvers/AderDgInit.hpp: setUpFs", "src/impl/seismic/kernels/SurfIntVanilla.hpp", "src/impl/seismic/kernels/VolIntVanilla.hpp", "src/impl/seismic/kernels/TimePred.hpp"]}
{"id": "C80", "title": "Every face of every element gets exact flux solvers", "statement": "The initialization of the flux solvers goes over the faces of a partition. For a mesh whose faces have a left element, and a right element, a boundary condition or another partition behind them, and for solid materials and orthonormal face frames, it ends without an error and sets the solvers of all faces of all elements. The solvers of a face are those seen from the element: own material, the material of the element behind the face (of the other partition's element, of the element itself at a boundary), outward normal, mirrored at a free surface; multiplied by minus area over determinant (twice that for tetrahedrons). Applied to the two elements' states they give the scaled exact flux of the Riemann problem or of the free surface. If partitions initialized this way make up a mesh without outflow boundaries, the simulation conserves the momentum.", "quantifier": "all meshes and partitions, element types, materials, face frames, areas, determinants and states; exact real arithmetic", "why_tests_cant": "The two sides of a face, free surfaces, periodic faces and partition boundaries are different paths through the loop; tests initialize single faces, a wrong side or sign shows only for some face of some mesh.", "anchors": ["src/impl/seismic/solvers/AderDgInit.hpp: initFs, setUpFs"]}
{"id": "C81", "title": "The optimized kernels for single simulations give the results of the plain ones", "statement": "Built with LIBXSMM, the solver computes the time prediction, the volume integration, the local and the neighbouring surface integration and the data that is sent to other partitions with other kernels, other leading dimensions, other orders of the operands and with products that leave out parts of the matrices known to be zero. Whatever the degrees of freedom, material and flux matrices are, the results (derivatives, time integrals, updated degrees of freedom, sent data) are those of the build without libraries.", "quantifier": "all element types, orders, numbers of relaxation mechanisms, matrices with the structure of a hierarchical basis, all contents of all arrays including uninitialized scratch memory, all libraries with the specified matrix product; exact arithmetic", "why_tests_cant": "The unit tests compare single kernel calls with tolerance for a few orders and element types; a wrong leading dimension or a truncated loop may hit values that happen to be zero in the tested data.", "anchors": ["src/impl/seismic/kernels/TimePredSingle.hpp", "src/impl/seismic/kernels/VolIntSingle.hpp", "src/impl/seismic/kernels/SurfIntSingle.hpp", "src/data/MmXsmmSingle.hpp"]}
{"id": "C82", "title": "The optimized kernels for fused simulations give the results of the plain ones", "statement": "Built with LIBXSMM and more than one fused simulation, the solver multiplies with sparse matrices: stiffness and flux matrices are converted to compressed columns once, where only the blocks which are not zero for a derivative are kept; star and source matrices and flux solvers have fixed sparsity patterns and are filled for each element. Whatever the degrees of freedom, material parameters, Jacobians and flux solvers are, the initialization succeeds and the results of the time prediction, the volume integration, the local and neighbouring surface integration and the data that is sent are those of the build without libraries, for every simulation. The library may leave output untouched for which the sparse matrix has no entries; the volume integration with attenuation then needs matrices in which a column without entries in one dimension has none in the dimensions before.", "quantifier": "all element types, orders, numbers of fused simulations and relaxation mechanisms, matrices with the block structure of FuSpec.v, all materials and Jacobians, all contents of all arrays including uninitialized scratch memory, all libraries with the specified sparse products; exact arithmetic", "why_tests_cant": "The unit tests run single kernel calls for a few orders; a pattern without an entry that is zero for the tested material, a wrong offset into the values of a later derivative or stale scratch memory shows for other inputs only.", "anchors": ["src/impl/seismic/kernels/TimePredFused.hpp", "src/impl/seismic/kernels/VolIntFused.hpp", "src/impl/seismic/kernels/SurfIntFused.hpp", "src/impl/seismic/kernels/FakeMats.hpp", "src/data/MmXsmmFused.hpp", "src/impl/seismic/setups/ViscoElasticity.h"]}
{"id": "C83", "title": "The basis functions of the solver are the orthogonal polynomials that the generated matrices assume", "statement": "For every element type, order, number of a basis function and point of the reference element, the value the program returns for this basis function is that of the orthogonal polynomial with this number (products of Legendre polynomials for lines, quadrilaterals and hexahedra, Dubiner's polynomials for triangles and tetrahedra), its derivatives are the partial derivatives of this polynomial, and the value of a modal expansion is the sum of coefficients times basis functions. EDGEpre, which derives the matrices of the solver, uses the same polynomials in the same order, for every degree. The vertex (0,1) of triangles and the edge from (0,1,0) to (0,0,1) of tetrahedra are excluded: there the program divides zero by zero for orders of four and more.", "quantifier": "all element types, all orders the generated code has (ten, eleven for tetrahedra), all basis functions, all points in space; EDGEpre: all degrees; exact arithmetic", "why_tests_cant": "The unit tests evaluate few functions at few points; a wrong coefficient or exponent in one of the 1300 generated expressions, or a vanishing denominator, shows for other functions or points only.", "anchors": ["src/dg/Basis.cpp:evalBasis", "src/dg/Basis.cpp:modal2ptval", "src/dg/generated", "tools/edge_pre/edge_pre/dg/basis"]}
{"id": "C84", "title": "The generated matrices are the exact operators, and the predictor solves the wave equation", "statement": "EDGEpre derives mass, stiffness and flux matrices which the solver compiles in. For every element type and order, the stiffness matrices of the predictor differentiate the numerical solution exactly, those of the volume integration integrate it exactly against the derivatives of the test functions, and the pairs of flux matrices integrate the traces of the element and of its neighbour over a face exactly against the traces of the test functions, where the neighbour's trace is taken at the same points in space. The arrays have the sizes the solver expects. For triangles and tetrahedra the time prediction is the exact solution of the elastic wave equations with the element's solution as initial value, at all points and times. All that the other properties assume of the matrices holds: derivatives lower the degree, momentum is conserved.", "quantifier": "all element types in two and three dimensions, all orders, all modes, faces and orientations, all states and Jacobians; exact arithmetic and exact symbolic integration", "why_tests_cant": "The unit tests compare single entries for single orders; a matrix of the wrong face, orientation, direction or side is only seen if the tested entry differs, and a truncated block of modes only for some orders.", "anchors": ["tools/edge_pre/edge_pre/int/Matrices.py", "tools/edge_pre/edge_pre.py", "tools/edge_pre/edge_pre/types", "src/dg/Basis.h:getStiffMm1Dense", "src/dg/Basis.h:getFluxDense", "src/dg/SurfInt.hpp", "src/dg/TimePred.hpp"]}
{"id": "C85", "title": "EDGEcut's extruded domain is a closed, outward oriented surface whose top tiles the given grid", "statement": "EDGEcut takes the points of a rectilinear surface grid in any order, a bottom and a number of coarsenings towards the boundary. If the grid has room for the coarsenings and a point above the bottom, the six OFF files are written; each announces the numbers of points and triangles it holds and refers to its own points only. The files together are watertight: for any two points, the edges from the first to the second are as many as those from the second to the first, also after any formatting of the coordinates. Seen from above, every generic point of the surface is in exactly one triangle of the top. If the whole surface is above the bottom, the sides and the bottom are planar and all triangles are oriented outwards.", "quantifier": "all grid sizes, spacings, heights, orders of the points, results of std::sort, bottoms and numbers of levels below 16; all pairs of points; all generic points of the surface; exact coordinates", "why_tests_cant": "The unit tests compare the text for a few small grids. Gaps, overlaps and turned triangles depend on the number of levels, on parity and on the ratio of the two sizes.", "anchors": ["tools/edge_cut/src/mesh/Extrude.cpp:Extrude", "tools/edge_cut/src/mesh/Extrude.cpp:writeTriaOff", "tools/edge_cut/src/mesh/Extrude.cpp:writeOff", "tools/edge_cut/src/mesh/Extrude.cpp:addSide"]}
{"id": "C86", "title": "Rows of EDGEcut's sides are at most as far apart as the points of the coarse grid", "statement": "The sides of the extruded domain are divided into so many rows that every vertical edge of them is shorter than the distance of neighbouring coarse points, in x-direction and in y-direction, wherever these are.", "quantifier": "all suitable grids which are above the bottom, all numbers of levels, all vertical edges of the four sides, all pairs of neighbouring coarse points; exact coordinates", "why_tests_cant": "The grids of the unit tests have constant spacing in y-direction, for which a wrong choice of neighbouring points does not change the minimum.", "anchors": ["tools/edge_cut/src/mesh/Extrude.cpp:Extrude", "tools/edge_cut/src/mesh/Extrude.h:m_dMin"]}
{"id": "C87", "title": "A run ends at the end time and takes the snapshots of the wave field at the multiples of the interval", "statement": "For every accepted configuration the run ends: the simulated time never passes the end time and reaches it up to the tolerance, and no step is longer than the maximum synchronization interval. If the interval of the wave field is shorter than the simulation, the files 0, 1, .., n show the simulation at the times 0, int, .., n*int (up to the tolerance), all time groups are at these times, and every multiple before the end time is shown. With a longer interval nothing is written.", "quantifier": "all end times, wave field intervals, maximum synchronization intervals (given or default) and tolerances; all numbers of time groups and time steps; exact arithmetic", "why_tests_cant": "The loop is in main() and has no unit test; the relations of three real intervals and a tolerance are a continuum.", "anchors": ["src/main.cpp:main (313-397)", "src/io/Config.cpp:Config", "src/time/Manager.cpp:simulate", "src/io/WaveField.cpp:write"]}
{"id": "C88", "title": "Files of the wave field show the element averages of the current solution under unambiguous names", "statement": "The cells of the files are exactly the elements with the requested sparse types, with their vertices. Variable crun_r_var_q of the k-th file of a rank holds in every cell the average of quantity q of the fused simulation r at the time of the k-th write. Files of different ranks or writes have different names. The directory of the files and all directories above it are created, the upper ones first.", "quantifier": "all numbers of elements, vertices, quantities, fused simulations, ranks and writes, all sparse types, all solutions, all paths of non-empty components without separators", "why_tests_cant": "Arbitrary sizes of the flat buffers and histories of writes; there is no unit test of the writer.", "anchors": ["src/io/WaveField.cpp:WaveField, write", "src/io/Vtk.cpp:init, write", "src/io/FileSystem.hpp:splitPathFirst, splitPathLast, createDir"]}
{"id": "C89", "title": "The quadrature rules integrate polynomials exactly over the elements", "statement": "For every element type and number n of points per dimension, the returned points and weights integrate over the element all polynomials in the physical coordinates up to degree 2n-1 (lines, rectangles, boxes: in each coordinate; hexahedra: in total), 2n-2 (triangles) and 2n-3 (tetrahedra). There are n points per dimension, all strictly inside of the element, and the weights sum up to its volume. Elements whose Jacobian is not above the tolerance are rejected.", "quantifier": "all numbers of points, all vertices of lines, triangles, axis-parallel rectangles (any plane and numbering), parallelepipeds and tetrahedra, all polynomials; exact arithmetic; any external Gauss-Legendre rule", "why_tests_cant": "The unit tests compare some points, weights and integrals of single elements; exactness is a statement on all elements, all numbers of points and all polynomials.", "anchors": ["src/dg/QuadraturePoints.h:getQpts, gaussLegendre, getQptsLine, getQptsQuad4, getQPtsTria3, getQPtsHex8r, getQPtsTet4", "src/linalg/Mappings.hpp:map2dLine, evalJac", "src/linalg/Matrix.h:det"]}
{"id": "C90", "title": "Initial values are the projection of the user's expressions, error norms measure the distance to them", "statement": "The initialization sets the modes of all quantities and simulations of the given elements, and nothing else. The modes are the projection of the user's expression by quadrature; a polynomial below the order of the scheme in the physical coordinates is represented exactly. For modes and expressions which assign all quantities, the reported L1 norm is the quadrature of the difference over all elements, the squared L2 norm is the integral of the squared difference if the expression is a polynomial below the order, and the maximum norm is the largest difference at the quadrature points. Initializing with such polynomials and comparing with them reports zero errors.", "quantifier": "all element types, orders, sets of elements and vertices (elements as in C89), numbers of quantities and simulations, expressions; exact arithmetic; any external Gauss-Legendre rule", "why_tests_cant": "The unit tests initialize single elements with selected expressions and compare rounded values; the property is about all expressions, meshes and orders.", "anchors": ["src/setups/InitialDofs.hpp:dg, err, qps, bc", "src/dg/Basis.cpp:Basis, initEval, qpts2modal, modal2refPtVal", "src/linalg/Matrix.h:denseToCrd", "src/mesh/common.hpp:getElVeCrds"]}
{"id": "C91", "title": "Set-up of the advection equation: upwind and conservative flux solvers, star matrices, time steps", "statement": "For every mesh of lines, quadrilaterals, triangles, hexahedra or tetrahedra, with elements of other partitions, boundaries and periodic faces, the set-up of the advection equation succeeds and gives every face of every element its upwind solvers: the own contribution is minus the part of the element's speed which leaves through the face, the neighbour's contribution is the part of the neighbour's speed which enters, zero if nothing is behind the face; both are scaled by area over determinant. What the solvers take out of an element they put into its neighbour, also across partitions. The star matrix of an element moves points of the reference element such that their images move with the advection speeds. The time step of an element lets the flow cross the given fraction of its insphere; the reported minimum and maximum are steps of elements and bound all of them.", "quantifier": "all element types, orders, numbers of elements and faces, connectivities, normals, areas, vertex coordinates with positive orientation, speeds and received speeds", "why_tests_cant": "every face of every mesh with every combination of signs of the two normal speeds has to be covered, on all ranks", "anchors": ["src/impl/advection/solvers/common.hpp: setupSolvers, computeTimeStep, getTimeStepStatistics", "src/impl/advection/solvers/AderDg.hpp: setupStarM", "src/linalg/Matrix.h: det, inv", "src/linalg/Mappings.hpp: evalJac"]}
{"id": "C92", "title": "Kernels of the advection equation solve it in the element and compute the weak form", "statement": "For every element type, order, number of fused simulations and content of the scratch memory, the time prediction of the advection equation returns the powers of the element's operator and their Taylor sum over the time step, and the half-step integration the Taylor sum over any other interval. With the generated matrices, each derivative is minus the star matrices times the gradient of the one before; for triangles and tetrahedra the result is the exact solution of the advection equation in the element: at every point the integral over the time step of the initial polynomial, taken upstream along the advection speeds in physical coordinates. The volume kernel adds the integral of the time integrated quantity against the directional derivative of every test function, the surface kernels those of flux solver times trace times trace of the test function, where the trace behind a face is that of the adjacent element at the same points. What moves through a face is the normal speed times the face's area times the mean of the time integrated quantity (except for tetrahedra of order one, where it is six times of it: a defect of the set-up).", "quantifier": "all element types and orders, fused simulations, time steps, star matrices, DOFs, junk, orientations of adjacent faces, real arithmetic (any ring for the algebraic part)", "why_tests_cant": "the exactness holds for every polynomial, every direction of the flow and every order; tests compare single vectors with hard-coded results", "anchors": ["src/impl/advection/kernels/TimePred.hpp: ck, integrate", "src/impl/advection/kernels/VolInt.hpp: apply", "src/impl/advection/kernels/SurfInt.hpp: local, neigh", "src/dg/TimePred.hpp: storeStiffTDense"]}
{"id": "C93", "title": "Local time stepping of the advection solver does not depend on schedule and partitions, and conserves the advected quantity", "statement": "For every mesh, clustering into time groups, time steps, number of fused simulations, distribution of the elements to partitions and contents of all buffers and scratch memory: every order of the local steps, neighbouring steps and messages which respects the dependencies runs without error, and an element whose neighbouring steps have caught up holds exactly the state of the scheme (a recurrence of the elements' states) after this number of updates. So two runs with different schedules and partitions give identical DOFs, and after all updates and messages the solver is again in an initial state, from which another schedule may follow. With the generated matrices and the flux solvers of the set-up, at a time reached by all elements the total amount (integral of the quantity over the mesh) is the initial one minus what left through the boundary: per face the normal speed, if it points out, times the area times the mean of the time integrated quantity (times six for tetrahedra of order one, the defect of C92). On a periodic mesh the integral of the DOFs' polynomials over the mesh does not change.", "quantifier": "all meshes, time groups, time steps, admissible schedules and message orders of any length, partitions, initial DOFs and junk, speeds varying per element; any ring for the algebra, real numbers for the amounts", "why_tests_cant": "the number of interleavings of time groups and messages is unbounded, and conservation is a sum over all faces and updates; tests run one schedule on a fixed mesh", "anchors": ["src/impl/advection/solvers/AderDg.hpp: local, neigh", "src/impl/advection/solvers/common.hpp: setupSolvers", "src/impl/advection/inc/time/tgs_steps.inc"]}
{"id": "C94", "title": "Attenuation: waves travel with the given velocities at the central frequency, and the quality factors are the best fit of the requested ones", "statement": "For every number of relaxation mechanisms, central frequency, frequency ratio, quality factors and Lame parameters: the relaxation frequencies are evenly spaced on a logarithmic scale over a band of the given ratio around the central frequency. If the set-up succeeds, plane compressional and shear waves of the viscoelastic medium with the resulting elastic parameters and source matrices (they are solutions of the equations) travel at the central frequency with the phase velocities of the given Lame parameters. The quality factors of the two moduli are, in the sense of least squares over the relaxation frequencies, as close to the requested ones as any choice of coefficients allows; with one mechanism they are exact at its frequency. Every element gets the parameters of its own material. Refuted: with one mechanism, its frequency is not the central one; materials with lambda = 0 and equal quality factors are not set up (division by zero); neighbouring partitions agree about the material at their common faces (the parameters are sent before they are converted).", "quantifier": "all numbers of mechanisms, frequencies, ratios, quality factors, Lame parameters, densities, two and three dimensions, directions and polarizations of the waves, every least squares solver", "why_tests_cant": "the claims relate the parameters to all waves, directions and frequencies; the unit tests compare a few coefficients with reference values", "anchors": ["src/impl/seismic/setups/ViscoElasticity.h: frequencies, src", "src/impl/seismic/setups/ViscoElasticity.cpp: elasticLame, anelasticCoeffPs, anelasticCoeffLame", "src/impl/seismic/solvers/AderDgInit.hpp: initSrcA", "src/impl/seismic/solvers/AderDg.hpp: AderDg", "src/impl/seismic/setup.inc"]}
{"id": "C95", "title": "EDGE-V velocity models, bathymetry and mesh refinement: every element and vertex gets the values of its own place", "statement": "For every mesh, refinement expression that assigns its results, velocity model and distribution of the elements to threads: the target edge length of a vertex is the smallest over its elements of (speed of the vertex / frequency / edges per wave length), that of an element uses its mean speed, and both are independent of the threads; non-positive frequencies or numbers of edges are rejected. For every grid with increasing coordinates, the value of a point inside is the one of the grid line behind it in each direction, and points outside are rejected. The speeds of tsunami and seismic models are those of the expression at each point, for every number of threads. Values of elements are the means over their vertices; after application of the dry tolerance no bathymetry lies strictly between the tolerance and its negative, and all other values are unchanged. Refuted: results do not depend on threads or order of points for expressions that assign only in some cases; grids of inconsistent sizes are rejected; points on the first grid line are accepted; centroid based time steps of tsunami models use the bathymetry of the centroids.", "quantifier": "all meshes, coordinates, grids, points, expressions, speeds, tolerances and distributions of the work to threads", "why_tests_cant": "tests evaluate a few expressions with one thread on one mesh; the claims range over all distributions to threads, grids and expressions", "anchors": ["tools/edge_v/src/mesh/Refinement.cpp: init", "tools/edge_v/src/io/Grid.cpp: init", "tools/edge_v/src/models/GridExpression.cpp: init", "tools/edge_v/src/models/seismic/Expression.cpp: init", "tools/edge_v/src/models/Model.cpp: getElAve", "tools/edge_v/src/main.cpp"]}
{"id": "C96", "title": "Seismic simulations: materials and time steps are those of the mesh and configuration, and no element exceeds its stable time step", "statement": "For every mesh with a velocity model, the material of each element has exactly the wave speeds and the density of the mesh; elements without shear waves or with too small P speeds are rejected. With domains, every element has the values of the first domain which contains the mean of its vertices, and keeps those of the mesh (or is rejected without them) outside all domains. The minimum, average and maximum time step are those of the elements, the global minimum is independent of the partition. With the time groups of the preprocessor every element's time step is at most its own stable time step if the solver's P speeds are the preprocessor's; meshes with other rates than two are rejected. The preprocessor's search finds the fundamental time step of largest speed-up among 1, 0.99, ..., 0.51, which is at least one. Refuted: no element exceeds its stable time step with attenuation; the fundamental time step of the preprocessor is used with one time group.", "quantifier": "all meshes, materials, domains, orders, partitions, numbers of time groups and fundamental time steps", "why_tests_cant": "tests compute one time step of one material; stability of every element needs all meshes, materials, groups and partitions, across preprocessor and solver", "anchors": ["src/impl/seismic/setup.inc", "src/impl/seismic/common.hpp: getVelP, getVelS, getTimeStep, getTimeStepStatistics", "src/mesh/EdgeV.cpp: EdgeV", "src/main.cpp: main", "tools/edge_v/src/main.cpp: main", "src/impl/seismic/kernels/AderDg.hpp"]}
{"id": "C97", "title": "Sub-cells of seismic simulations: the local Lax-Friedrichs solver is a conservative, stable finite-volume scheme", "statement": "For every element, material and sub-grid the set-up succeeds, and a time step adds to every sub-cell, for each of its sub-faces, minus time step times area over volume times the local Lax-Friedrichs flux through the outward normal; at faces that ask for it the given net-updates are added instead. The net-updates of a face are the changes the step would compute itself. The totals of an element change only by what passes its own faces; two elements exchange equal amounts through a shared face. Uniform states of one material do not change. The energy of a mesh of one material with outflow boundaries never grows, if the time step times the P speed times the surface of a sub-cell is at most its volume. Boundary conditions set the ghost sub-cells of outflow boundaries to zeros, those of free surfaces to the state of the sub-cell at the face, and nothing else. Refuted: a free surface carries no traction.", "quantifier": "all meshes, sub-grids, materials, faces and planes with unit normals, states, time steps, in two and three dimensions", "why_tests_cant": "tests compare single updates with reference values; conservation and stability are sums over all sub-cells and faces of every mesh, for every state", "anchors": ["src/impl/seismic/sc/Llf.hpp: Llf, tsSc, nuFaSf, getLlfIds", "src/impl/seismic/sc/Boundary.hpp: apply", "tools/edge_pre/edge_pre/sc/grid/Quad.py"]}
{"id": "C98", "title": "Sub-grids of quads are lattices of squares for every degree", "statement": "For every polynomial degree N the sub-grid of the quad is a lattice of (2N+1) x (2N+1) squares which tile the element. The sub-cells are numbered without gaps, inner ones first, ghost sub-cells last, face by face. Vertices, adjacent sub-cells and types of sub-faces are those of the lattice, and every ghost sub-cell knows the sub-cell next to it. Sub-face k of a face is its k-th part, counted counter-clockwise, for the ghost sub-cell, the sub-cell and the integration of the DG solution. The reordering for adjacent elements gives the sub-face that covers the same points. With these tables a step of the sub-cell solver of C97 is defined for every parallelogram, keeps uniform states, and changes the totals only by what passes the element's faces.", "quantifier": "all degrees, sub-cells, sub-faces, points of the reference element; all parallelograms, materials and states", "why_tests_cant": "the tests compare the tables of a few degrees with literals; the tables are generated for any degree and searched by vertex ids", "anchors": ["tools/edge_pre/edge_pre/sc/grid/Quad.py: svs, scSv, scSfSv, scSfSc, intSfDg, scTySf, scDgAd", "tools/edge_pre/edge_pre/sc/grid/Generic.py: scSfSc", "tools/edge_pre/edge_pre/types/Quad.py"]}
{"id": "C99", "title": "Projections between the DG solution and the sub-cells are exact, conservative and optimal", "statement": "Projecting a DG solution to the sub-cells gives its means over the sub-cells. Projecting those means back gives the DG solution again. Projecting any values of sub-cells to the DG space keeps their volume-weighted sum as the integral of the DG solution, and of all DG solutions with this integral it is the only one whose means are closest to the values in the sense of least squares. For lines of every degree N the 2N+1 means determine the solution and the projection back is always defined.", "quantifier": "all bases, sub-cells, maps, DG solutions and values of sub-cells; for lines all degrees and all bases of polynomials", "why_tests_cant": "the tests compare a few entries of the matrices for low degrees with literals; the laws hold for all solutions and values of sub-cells, and for lines for all degrees", "anchors": ["tools/edge_pre/edge_pre/sc/ops/Project.py: scatter, gather", "tools/edge_pre/edge_pre/sc/grid/Line.py: svs, scSv, intSc"]}
{"id": "C100", "title": "Sub-grids of lines are lattices for every degree, and projecting with them is exact and conservative", "statement": "For every polynomial degree N the generation of the sub-grid of a line ends and gives 2N+1 sub-cells of equal length which cover the element. The sub-cells are numbered without gaps, inner ones first, then the first and the last one, then the two ghosts. Vertices, adjacent sub-cells and types of sub-faces are those of the lattice, and every ghost knows the sub-cell next to it. The generated maps send the reference element to the sub-cells, with their lengths as determinants. With these tables the projection to the sub-cells gives means, the projection back is defined, inverts it, keeps the total and is optimal.", "quantifier": "all degrees, sub-cells, ghosts, points; all bases of polynomials, DG solutions and values of sub-cells", "why_tests_cant": "the tests compare the tables of degrees 0 to 3 with literals; the tables are generated for any degree, and the loop over the vertices ends only because the sum of the increments is exactly one", "anchors": ["tools/edge_pre/edge_pre/sc/grid/Line.py: svs, scSv, scSfSc, scTySf, intSc", "tools/edge_pre/edge_pre/sc/grid/Generic.py: intSc, refToPhy, absJacDet", "tools/edge_pre/edge_pre/types/Line.py", "tools/edge_pre/edge_pre/sc/ops/Project.py: scatter, gather"]}
{"id": "C101", "title": "The closest sub-cell contains the point, and the sub-grids of faces are numbered consistently", "statement": "The search for the sub-cell of a point returns the first sub-cell with the smallest sum of squared distances to its vertices. With the generated tables of quads, of every degree, it returns a sub-cell which contains the point, and the right one for a point inside a sub-cell. The face-local sub-grid lists every sub-vertex of a face once, in the order of first appearance, and the local ids of a sub-face refer to the vertices of its ghost sub-cell. With the generated tables of quads sub-vertex k of a face is the point k/n of the face, and sub-face sf joins the sub-vertices sf and sf+1.", "quantifier": "all tables, points and numbers of sub-cells, faces, sub-faces and vertices; all degrees of quads (faces: those whose ids fit into an unsigned short), all points of the element", "why_tests_cant": "the tests search seven points in a line of order four, the face numbering has no test of its own; containment holds only because all sub-cells are congruent, and must hold for every degree and point", "anchors": ["src/sc/SubGrid.hpp: SubGrid::ptSc, SubGrid::faSg", "src/sc/cexprs.inc: CE_N_SUB_VERTICES, CE_N_SUB_FACES, CE_N_SUB_CELLS", "src/io/InternalBoundary.hpp: InternalBoundary::init", "tools/edge_pre/edge_pre/sc/grid/Quad.py", "tools/edge_pre/edge_pre/sc/grid/Line.py"]}
{"id": "C102", "title": "Files of internal boundaries show the sub-faces with their values", "statement": "The output of internal boundaries has, for every boundary face written, one point per sub-vertex of the face at its position in the left element, and one cell per sub-face. The ids of a cell refer to the points at the corners of the sub-face, and the cell's value of every quantity is the one handed over for this sub-face, whatever the number of values per sub-face. This holds if the range of boundary faces written starts with the first one; for every other range the ids are too high, and no vertex of the last face's cells is a point of the file.", "quantifier": "all meshes, tables, mappings of elements, numbers of boundary faces, sub-faces, vertices and quantities, strides, ranges of boundary faces, data and contents of the buffer", "why_tests_cant": "the test writes four faces of one small mesh of triangles of one order from the first face on, and does not read the files; the strides of ranges, quantities and sub-faces interact for every size", "anchors": ["src/io/InternalBoundary.hpp: InternalBoundary::init, InternalBoundary::copy, InternalBoundary::write", "src/sc/SubGrid.hpp: SubGrid::faSg"]}
{"id": "C103", "title": "Super-cells at internal boundaries average pairs of sub-cells, conservatively", "statement": "The stencils set up for a face of a tet are the pairs of adjacent sub-cells which are both at the face: every pair is found once, no sub-cell is part of two stencils of a face, and the program stops if there are more pairs than room. Applying stencils keeps the sum of every quantity over the sub-cells and introduces no new extrema, even if stencils overlap. The stencils of a face set both sub-cells of a pair to their average and leave all other sub-cells unchanged, for every quantity and fused simulation.", "quantifier": "all tables of adjacent sub-cells which are symmetric and have at most one neighbour at the same face, all numbers of faces, sub-faces, sub-cells, stencils, quantities and fused simulations, all DOFs", "why_tests_cant": "the test compares the stencils of three faces of two orders with literals and does not apply any; conservation and bounds must hold for all DOFs and stencils", "anchors": ["src/sc/ibnd/SuperCell.hpp: SuperCellInit::stAssemble, SuperCellInit::faSt, SuperCell::applyFa", "src/sc/ibnd/SuperCell.type: t_stCol", "src/sc/Limiter.hpp: Limiter (application after the sub-cell solver)"]}
{"id": "C104", "title": "Pre-computed tables and matrices of the sub-grid reach the solver unchanged", "statement": "The tables which the pre-processing writes as text, and which are compiled into the solver, are in the solver's data structures entry by entry, with the invalid id for -1: vertices and adjacent sub-cells of the sub-cells, types of the sub-faces, the order of an adjacent element's sub-faces, coordinates of the sub-vertices, and the matrices between DG and sub-cell solutions. The sub-cells at the element's faces are those next to the ghost sub-cells. If arrays of another element type or order with another size are compiled in, or if a ghost sub-cell does not have exactly one adjacent sub-cell, the program stops. For quads of every degree the solver's tables are those of a lattice of squares, for lines those of a row of sub-cells. That incomplete tables are noticed does not hold: a row with a missing entry is filled with zeros.", "quantifier": "all tables and matrices, all numbers of faces, sub-faces, sub-cells, vertices and modes, all degrees of quads and lines whose sub-cells can be numbered with unsigned shorts", "why_tests_cant": "the tests of the text conversion use small literals and those of the solver one order at a time; an error of a dimension shows for some combinations of sizes only", "anchors": ["tools/edge_pre/edge_pre/io/ArrStr.py: float2d, int2d, int3d, float3d", "tools/edge_pre/cpp.py: convert, replace", "submodules/SConscript: csvToCpp", "src/sc/Init.hpp: Init::connect, Init::getFaSfSc, Init::svChars, Init::ops", "src/sc/SubCell.type: t_connect, t_svChars, t_ops"]}
{"id": "C105", "title": "Links from limited elements to their duplicates are complete, ordered and unique", "statement": "For every limited element which is sent to other ranks, the links to its duplicates are exactly the limited, sent elements with a dense element whose dominant copy, reached through the mesh's element, is another one, namely the dense element of the limited element. The links are in ascending order, the remaining entries are invalid, as are all links of other elements. The program stops if and only if an element has more duplicates than faces. If different limited elements have different dense elements, every duplicate is linked exactly once.", "quantifier": "all numbers of faces, layouts of limited elements, and mappings between limited, dense and mesh elements", "why_tests_cant": "there is no test of the links; the number of duplicates and their order depend on the partitioning", "anchors": ["src/sc/Init.hpp: Init::liDoLiDu", "src/sc/init.inc: liDoLiDu"]}
{"id": "C106", "title": "The limiter's memory is set completely before its first use", "statement": "For memory with the sizes which are allocated, and arbitrary contents, the initialization of the sub-cell limiter writes inside of the allocated arrays only and sets all of their entries: DOFs, DOFs at the surfaces in both buffers and both sets of extrema to zero, all four sets of admissibility flags to true, all locks to false, and the numbers of limits since the last synchronization to zero. Threads write to different addresses, and the result is the same for every order of their writes.", "quantifier": "all contents of the memory, numbers of limited elements, limited plus elements, elements with extrema, quantities, sub-cells, sub-faces, faces and fused runs, and sizes of the data types, and all schedules of the threads", "why_tests_cant": "there is no test of the allocation and the initialization; memory which is not set often happens to be zero", "anchors": ["src/sc/Memory.hpp: Memory::alloc", "src/sc/Init.hpp: Init::data", "src/sc/init.inc: alloc, data"]}
{"id": "C107", "title": "Error norms are printed and saved completely, once, and only if configured", "statement": "If the configured type is sout or sout_file, the first thread of the first rank prints every L1, L2 and Linf error norm of all quantities and fused runs, each with its name, quantity and run; all others print nothing. If it is file or sout_file, the first rank saves a document from which, by the norm's name, quantity and run, exactly the norms are read; other ranks save nothing. Every other configured type disables the output.", "quantifier": "all values of the norms, numbers of quantities and fused runs, ranks, threads and configured types", "why_tests_cant": "there is no test of the output; numbers of quantities and runs are fixed at compile time", "anchors": ["src/io/ErrorNorms.cpp: ErrorNorms::print, ErrorNorms::writeXml, ErrorNorms::write", "src/io/ErrorNorms.h: ErrorNorms::ErrorNorms, ErrorNorms::outEnabled"]}

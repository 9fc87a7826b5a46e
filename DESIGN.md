# Formal model of 3343/edge in Rocq (Coq 8.16.1)

EDGE is a discontinuous Galerkin solver with rate-2 local time stepping (LTS). A mesh is split into *time groups*; group `g` is advanced with `2^g`
times the fundamental time step. A run-time system (shared-memory workers, a scheduler thread and message passing) drives the updates. The companion
tool EDGE-V prepares meshes: derives connectivity, time groups, partitions and the communication structure.

The model is a set of total Gallina functions, one per C++ function, in `rocq/theories/`. Each definition cites the lines of `/repo` it models.
Theorems that state the properties live in `Props_*.v`, named `C##_...` after the property in `properties.jsonl`; each has `Print Assumptions` and
examples (`C##_ex...`) of non-trivial cases meeting the hypotheses beside it.

Conventions of the model
* `Util.v`: `res A := Ok a | Er e` with `Eub` (undefined behaviour: access out of bounds), `Echeck` (the code aborts: EDGE_CHECK, EDGE_LOG_FATAL,
  assertions), `Efuel` (a loop did not terminate within the bound). `rd`/`wr` are checked array accesses, `for_` a loop, `forb` a loop with `break`.
  A theorem with conclusion `f x = Ok y` therefore also says: no access out of bounds, no abort, termination.
* The content of uninitialised memory is an argument over which the theorems quantify.
* Concurrency: transition relations with one step per atomic action of the scheduling thread, worker or network; theorems quantify over all
  interleavings (all reachable states).
* Scalars: where the values do not matter (kernels, copies, tables) the scalar type and its operations are arbitrary, so that the results hold for
  floating point numbers bit by bit. Where they matter, arithmetic is exact: `Z`, `Q`, or every ordered field (the f-wave solver). Rounding is not
  modelled.
* `_partial`: a part of a property; `_refuted`: the property does not hold for the code, with a witness; see "Findings".

## Layout of the development

| area | model | proofs | statements | properties |
|---|---|---|---|---|
| scheduler of the seismic build, one rank | `SchedModel` | `SchedProofs`, `SchedInv`, `SchedReach` | `Props_Sched` | C01-C05 |
| several ranks, messages | `DistModel` | `DistProofs`, `DistLive`, `DistFair` | `Props_Dist` | C02-C04, C06 |
| scheduler of the advection build | `SchedAdv` | `SchedAdvProofs` | `Props_Adv`, `Props_AdvMpi` | C07, C61 |
| scheduler of the shallow water build | `SchedSwe` | | `Props_Swe` | C08 |
| time groups | `TimeGroup` | | `Props_Time` | C09 |
| load balancing, work regions, NUMA ranges, status | `Shared` | `SharedProofs` | `Props_Shared`, `Props_Status` | C10-C13, C50 |
| messages and buffers | `Distr` | | `Props_Distr` | C14-C17 |
| sparse entities | `Sparse` | | `Props_Data` | C18-C21 |
| layouts, memory | `Layout` | | `Props_Layout` | C22, C23, C44 |
| LTS flags, buffers, domains | `Lts` | | `Props_Lts` | C24, C47, C48 |
| EDGE-V time groups | `Groups` | | `Props_Groups` | C25, C26 |
| EDGE-V partitions | `Partition` | | `Props_Part` | C27, C31 |
| EDGE-V communication | `Comm` | `CommProofs` | `Props_Comm`, `Props_Annot` | C28-C30, C49 |
| EDGE-V mesh and geometry | `MeshConn` | `MeshSpec`, `MeshSort`, `MeshFaces`, `MeshNorm`, `MeshNormEl`, `MeshTypes`, `MeshHex`, `MeshOrder`, `MeshAll`, `MeshPer`, `MeshFinal` | `Props_Mesh`, `Props_Ids` | C32-C34, C45, C51 |
| linear algebra | `MatSmall`, `MatMul`, `MatSparse` | | `Props_Mat`, `Props_MatSparse` | C35-C37 |
| time series | `Series` | | `Props_Series` | C38 |
| receivers | `Receivers` | `RecvProofs`, `RecvInit` | `Props_Recv`, `Props_Sample` | C39-C41, C52 |
| point sources | `Sources` | `SourceProofs` | `Props_Src` | C43, C53 |
| sub-cell limiter | `SubCell` | | `Props_Sub` | C42, C54-C56 |
| element mappings, points of faces | `Mapping` | | `Props_Map` | C59, C60 |
| geometry of mesh entities | `GeomV` | `GeomProofs`, `GeomEl`, `GeomDia` | `Props_GeomV` | C62-C65 |
| set-up of the seismic solver | `ElGen`, `Elastic` | `ElWave`, `ElFlux`, `ElTrafo`, `ElMid`, `ElMid2`, `ElAne`, `ElFluid`, `ElStar`, `ElCsr`, `ElFace` | `ElSpec`, `Props_Elastic` | C66-C70 |
| internal boundaries, faults | `Fault` | `FaultMs`, `FaultRot`, `FaultFric`, `FaultNet`, `FaultSlip`, `FaultHist` | `FaultSpec`, `Props_Fault` | C71-C73 |
| kernels of ADER-DG | `Ader` | `AderV`, `AderCk`, `AderInt` | `AderSpec`, `Props_Ader`, `Props_AderR` | C74-C76 |
| ADER-DG with local time stepping | `AderEl` | `AderElV`, `AderLts` | `AderElSpec`, `AderLtsSpec`, `Props_AderEl` | C77 |
| Simulation from end to end | `SchedModel`, `DistModel`, `AderEl` | `EndToEnd` | `EndSpec`, `Props_End` | C78 |
| Conserved quantities of the scheme | `AderLtsSpec`, `AderEl` | `AderCons`, `ElMom` | `AderConsSpec`, `Props_AderCons` | C79 |
| Flux solvers of all elements | `InitFs` | `InitFsV`, `ElMom` | `InitFsV`, `Props_InitFs` | C80 |
| LIBXSMM kernels, single simulations | `MmXsmm`, `AderGen`, `AderSg` | `AderGenV`, `AderSgV`, `XsmmRef` | `XsmmSpec`, `Props_AderSg` | C81 |
| LIBXSMM kernels, fused simulations | `FakeMats`, `AderFu` | `CscV`, `AderFuG`, `AderFuV`, `FuPats` | `FuSpec`, `Props_AderFu` | C82 |
| Basis functions | `BasisCode2`, `BasisCode3`, `Basis`, `EdgePre` | `BasisEx`, `BasisPoly`, `BasisSafe`, `BasisModes` | `BasisSpec`, `Props_Basis` | C83 |
| Generated matrices | `EdgePreM` | `BasisInt`, `BasisOrth`, `BasisSpan`, `BasisDer`, `EdgePreP` | `BasisSpec`, `Props_EdgePre` | C84 |
| Extrusion of surfaces (EDGEcut) | `Extrude` | `ExtrudeP`, `ExtrudeG`, `ExtrudeW`, `ExtrudeT` | `ExtrudeSpec`, `Props_Extrude` | C85, C86 |
| Synchronization points of the solver | `MainLoop`, `TimeGroup` | `MainLoopP` | `MainLoopSpec`, `Props_Main` | C87 |
| Files of the wave field | `Snap` | `SnapP` | `SnapSpec`, `Props_Snap`, `Props_SnapR` | C88 |
| Quadrature rules | `Qpts` | `QptsP` | `QptsSpec`, `Props_Qpts` | C89 |
| Initial DOFs and error norms | `Qpts` | `InitP`, `InitQ` | `QptsSpec`, `Props_InitDofs` | C90 |
| Set-up of the advection equation | `AdvFs` | `AdvFsV` | `AdvFsV`, `Props_AdvFs` | C91 |
| Kernels of the advection equation | `AdvK` | `AdvKV`, `AdvKR` | `AdvKSpec`, `Props_AdvK` | C92 |
| Local time stepping of the advection solver | `AdvK` (`localsA`, `neighA`) | `AdvLtsV`, `AdvLts`, `AdvCons` | `AdvLtsSpec`, `AdvConsSpec`, `Props_AdvLts` | C93 |
| Set-up of attenuation | `Visc` | `ViscV`, `LeastSq` | `ViscSpec`, `Props_Visc` | C94 |
| Velocity models, bathymetry, refinement of EDGE-V | `EvModels` | `EvModelsV` | `EvSpec`, `Props_EvModels` | C95 |
| Materials and time steps of seismic simulations | `SeisSetup` | | `SeisSetSpec`, `Props_SeisSetup` | C96 |
| Sub-cell solver of seismic simulations | `Llf` | `LlfV`, `LlfW`, `LlfE`, `LlfG`, `LlfH` | `LlfSpec`, `Props_Llf` | C97 |
| Sub-grids of quads | `ScQuad` | `ScQuadV`, `ScQuadW` | `ScQuadSpec`, `Props_ScQuad` | C98 |
| Projections to and from sub-cells | `ScProj` | `ScProjV`, `ScProjL`, `ScProjInv` | `ScProjSpec`, `Props_ScProj` | C99 |
| Sub-grids of lines | `ScLine` | `ScLineV` | `ScLineSpec`, `Props_ScLine` | C100 |
| Sub-grid of the solver | `SubGrid` | `SubGridV`, `SubGridW` | `SubGridSpec`, `Props_SubGrid` | C101 |
| Output of internal boundaries | `IbWriter` | `IbWriterV` | `IbWriterSpec`, `Props_IbWriter` | C102 |
| Super-cells at internal boundaries | `SuperCell` | `SuperCellV` | `SuperCellSpec`, `Props_SuperCell` | C103 |
| Tables of the sub-grid | `ScInit` | `ScInitV` | `ScInitSpec`, `Props_ScInit`, `Props_ScInitQ`, `Props_ScInitL` | C104 |
| Links to duplicates of limited elements | `LiDup` | `LiDupV` | `LiDupSpec`, `Props_LiDup` | C105 |
| Memory of the limiter | `ScData` | `Props_ScData` | `ScDataSpec`, `Props_ScData`, `Props_ScDataP` | C106 |
| Output of error norms | `ErrOut` | `Props_ErrOut` | `ErrOutSpec`, `Props_ErrOut` | C107 |
| shallow water solver | `Fwave` | | `Props_Fwave`, `Props_FwaveR` | C46, C57, C58 |

## Properties: model and proof

* **C01-C06** State machine: control-flow arrays, time-group counters, per-worker package statuses, message status per group. Transitions: one `if`
  block of the scheduler (in program order), one worker action, one message completion, in any interleaving. C01, C03, C05, C06: inductive invariant
  over the transition relation. C02: ghost memory recording which interval of simulated time each buffer holds, updated as `AderDg::local` does; the
  invariant relates the intervals of neighbours. C04: every fair infinite run of all ranks terminates (measure on the remaining work; lexicographic
  argument in `DistFair`).
* **C07, C08** the same technique for the schedulers of the advection and shallow water builds.
* **C09** exact arithmetic over `Q`; induction over the updates.
* **C10, C11** floating-point shares are an arbitrary oracle of naturals; the two correction loops terminate; induction over lists.
* **C12** the list of regions is kept sorted by priority; the first ready region is maximal.
* **C13** arithmetic of quotient and remainder.
* **C14, C15** prefix sums of slot sizes; injectivity of tags; matching of the two sides' message lists.
* **C16** the two all-reduce operations are folds over ranks.
* **C17** (partial) arithmetic modulo 4; for two communication buffers the index used by the code is refuted, the notified buffers are right.
* **C18-C21** rank/select theory over lists of bit masks. C20 is partial: slots of undefined adjacencies stay unwritten (refuted).
* **C22, C23, C44** prefix sums; alignment arithmetic; a heap of live blocks. C44 speaks about the allocations of `data::Dynamic`.
* **C24, C47** bit masks; the flags computed in `setLtsTypes` and their use in the time prediction; buffers allocated according to the flags.
* **C25** Gauss-Seidel sweep; monotone, bounded below by every admissible assignment, so that the fixed point is the greatest one; termination.
* **C26** order facts over `Q` for the interval search.
* **C27-C31, C49** list functions; membership and `NoDup` by induction; C31 is partial (order of edge weights refuted).
* **C32-C34, C45, C51** faces as sorted vertex lists, grouping of equal keys; case analysis over the finitely many local orders with symbolic
  coordinates. C34 was restated: the local ids are those of the shared face for elements with exactly one common face (two: refuted). C45 was restated
  in terms of the lookup of Gmsh tags and of the reordering of elements.
* **C35** ring identities. **C36, C37** induction over rows and columns, arbitrary scalars, `C37_exact` over `Q`.
* **C38** (partial) exact arithmetic over `Q`; two ends within one sampling interval are refuted.
* **C39-C41, C52** buffered writer as a state machine, refinement to the list of samples; arg-min over ranks.
* **C43, C53** maps between files, sources, elements. C43 was restated: the offsets refer to the reordered sources.
* **C42, C54-C56** loops over disjoint cells; folds with min and max; state machine of time steps and synchronisations.
* **C46, C57, C58** field identities in every ordered field, with an arbitrary square root which is positive on positive numbers; double counting of
  the faces' contributions. `Props_FwaveR` gives the instance of the real numbers.
* **C59, C60** field identities with symbolic coordinates; permutations of the vertices of the shared face, the sign of areas and volumes rules out
  equal orientation. **C61** invariant of the scheduler of C07 composed with a network which completes messages at any time.
* **C62-C65** real numbers with the square root of the standard library. Single elements with symbolic coordinates and every permutation of the
  vertices (`GeomEl`, `GeomDia`), lifted to the meshes of C32 and C51: the first element of a face has the face, every face belongs to an element.
  Rectangles and hexahedrons have to be axis-aligned and two-dimensional meshes in the plane z = 0 (`regular`), as the code assumes.
* **C66-C70** `ElSpec` defines linear elasticity, waves that move away from a face, the Riemann problem and energy without reference to the code.
  `ElWave` solves the Riemann problem abstractly (impedances), `ElMid`/`ElMid2`/`ElFluid`/`ElAne` evaluate the generated matrices in face coordinates,
  `ElTrafo` rotates. The generated matrices (`ElGen`) are literal transcriptions over any scalar type.
* **C48** half spaces over any scalar type. **C50** life cycle of a work package: inductive invariant.
* **C71-C73** `FaultSpec` defines rotations, Coulomb's law, the states at a fault and slip weakening without reference to the code. C71: Rodrigues' formula
  is a rotation (algebra), the face's frame is the rotated frame; the net updates are computed symbolically (`FaultMs`, `FaultNet`) and equal the fluxes of
  the Riemann states of `ElSpec`. C72: Coulomb's law has exactly one solution (`FaultFric`: the welded shear traction is scaled by
  min(1, strength/shear)), and the friction law computes it (`FaultSlip`). C73: induction over the list of time steps (`FaultHist`). Not in the model: the order
  of sub-faces (`scDgAd`), the search for a face's domain (its result is a parameter), the loops over fused simulations.
* **C74-C76** `Ader` models the vanilla kernels of the seismic solver with flat arrays and arbitrary scalars; the matrix products are the ones of C37. `AderSpec`
  gives the operator of an element as sums over modes, quantities and dimensions, without truncation. `AderV` reads arrays as functions of simulation,
  quantity and mode (`rep`); the loops are proved by invariants over derivatives, dimensions, mechanisms and faces. That truncation loses nothing follows from the
  hypothesis `lowers` on the stiffness matrices (a derivative has a lower degree), which is met by hierarchical bases; the matrices themselves are
  arbitrary inputs. `Props_AderR` derives the differential equation from the powers (term by term derivative of the Taylor polynomial, linearity of the operator).
* **C77** `AderEl` models `AderDg::local` and `AderDg::neigh` with the kernels of `Ader`, the three time buffers, and the send and receive buffers.
  `AderElSpec` says what one step does to the DOFs and buffers (`localPre`, `localPost`, `faceIn`, `neighTerms`), `AderLtsSpec` defines the scheme as a recurrence
  of the elements' states and the admissible schedules by counters of local steps, neighbouring steps and messages. The theorem is an invariant over the
  schedule (`AderLts.Inv`): DOFs, time buffers, send and receive buffers hold the data of the update given by the counters. The guards of a schedule are
  those which the time manager and the communication layer establish (C78); a message is a copy of the send buffer when it is sent, messages of a face arrive in order. The elements
  of all partitions are numbered consecutively; the existence of the scheme's states follows from a table over the ticks of the smallest time step.
  The kernels for single and for fused simulations with LIBXSMM are related to these by C81 and C82.
* **C78** `EndSpec.opsOf` maps the steps of the multi-rank model (`DistModel`) to those of the solver: a package finished by a worker to the local or
  neighbouring step of its elements with the group's step count, a send begun by a scheduling thread and a receive completed by MPI to the buffers of the channel's
  faces. `EndToEnd` proves that every execution gives an admissible schedule in the sense of C77 (`exec_ok`): the counters of C77 are the numbers of executions of the
  packages and of completed messages (`Rel`), the guards follow from the invariants behind C01, C02, C06. With C04 every fair execution ends with the scheme's states. The
  arrays at the end meet the hypotheses of the next interval, `C78_simulation` is the induction over the intervals. A package's work is done at the moment it is
  finished; C02 and C06 justify this. Point sources and rupture are not part of these steps. The time steps are functions of group and update, so the shortened
  steps before a synchronization point are covered.
* **C79** The specification (`AderConsSpec`) has a weight for each quantity of each element; the total is the weighted sum of mode 0. `conservative` says when the
  matrices conserve it: mode 0 is constant, the weighted columns of the two flux solvers of a face add up to zero. `C79_balance` (for any commutative ring, any
  graded time groups): whenever the elements have reached the same time, the total is the initial one plus what passed the outflow boundaries; the data over half steps
  and pairs of steps telescopes to the neighbour's integrals. `C79_closed`: no outflow. `C79_simulation`: the totals of the solver's arrays after any number of
  synchronization intervals of the distributed simulation (C78). `C79_momentum` discharges `conservative` for density times velocity with the flux solvers of setUpFs
  (`ElMom`: columns of the solvers from the exact Riemann solutions of C69/C70), under hypotheses on the matrices of the reference element.
* **C80** `InitFs.initFs` is the loop over the faces with its searches for face ids, choice of the materials, checks and scaling. `InitFsV.fsWf` describes the input,
  `side` says what an element sees behind a face. `C80_solvers`: every face of every element has the scaled solvers of its side. `C80_exact`: they give the scaled exact
  flux of the Riemann problem or the free surface. `C80_momentum`: partitions which ran initFs on their parts of a mesh conserve the momentum.
* **C81** LIBXSMM is a record of functions (`MmXsmm.xsmm`), which the theorems take as an arbitrary argument with the hypothesis `XsmmSpec.dense`: the column-major
  product with leading dimensions, which reads and writes nothing else. `AderGen` has the loops that the two LIBXSMM versions share, `AderSg` fills in the kernels of
  the version for single simulations with the parameters of the generators. `C81_time_prediction`, `C81_volume`, `C81_surface_local`, `C81_surface_neigh`,
  `C81_sent_data`: same results as the vanilla kernels (C74-C76), for all contents of the arrays; only the scratch memory may differ.
* **C82** `AderFu` has the conversion of the stiffness and flux matrices to compressed columns (blocks of the derivatives, offsets into the values, checks), the
  parameters of the generated kernels and their calls; `FakeMats` has the patterns of the star and source matrices and flux solvers. LIBXSMM is an arbitrary record of
  functions with `XsmmSpec.packedCsr`, `XsmmSpec.packedCsc`, which allow it to leave rows (or columns) without entries untouched. `CscV` shows that a conversion with
  clean values stores the entries (from `C36_dense_to_csc`, which now also says that nothing outside the sub-block is stored), `AderFuG` that the generation succeeds
  with certain parameters, `AderFuV` that the kernels compute the operators of `AderSpec`. `C82_time_prediction`, `C82_volume`, `C82_surface_local`, `C82_surface_neigh`,
  `C82_sent_data`: same results as the vanilla kernels; `C82_sparse_data`: the sparse matrices of every material and Jacobian have the entries of the dense ones.
  `FuSpec` has the structure of the matrices which is needed. `C82_volume_quads_refuted`: without `colOrder` (quadrilaterals) the results differ.
* **C83** `BasisCode2` and `BasisCode3` hold the generated expressions of `src/dg/generated/*.inc` verbatim (syntax trees in infix notation), `Basis` the functions of
  `Basis.cpp` which select and multiply them, `EdgePre` EDGEpre's derivation of the basis in collapsed coordinates. `BasisSpec` defines the orthogonal polynomials (sums of
  binomial coefficients) and their numbering. `BasisEx` has a normal form of expressions as fractions of integer polynomials, with its proof and the proof that formal
  derivatives are derivatives; `BasisSafe` shows that all denominators are products of few polynomials. `C83_value`, `C83_derivative`, `C83_reconstruction`: for every
  regular point; `C83_low_orders`: orders up to three have values at all points; `C83_edge_pre`: EDGEpre's functions for every degree. `C83_singular_refuted`,
  `C83_line_derivative_refuted`: see findings 40 and 41.
* **C84** `EdgePreM` models `int/Matrices.py` and `edge_pre.py` with `intEl` of `BasisSpec` (iterated integrals by antiderivatives) for `sympy.integrate` and any inverse for
  sympy's; the arrays and their use by `src/dg` follow. `BasisOrth` proves that the polynomials are orthogonal for all degrees, `BasisSpan` that they span the monomials of
  the order, `BasisDer` that derivatives stay in the span and lower the degree. `C84_defined`: matrices exist and are unique. `C84_derivative`, `C84_volume`, `C84_surface`,
  `C84_neighbour`: entries are the exact operators; `C84_points`, `C84_shared`: EDGEpre's points on faces are the solver's, and those of both sides coincide in space.
  `C84_load`: sizes. `C84_operator`, `C84_volume_kernel`, `C84_surface_local`, `C84_surface_neigh`: the operators of the kernels' specification (C74 to C76).
  `C84_pde`: the prediction is the exact solution. `C84_lowers`, `C84_reference`, `C84_momentum`: assumptions of C74, C75, C76 and C79 hold.
* **C85** `Extrude` models the class of EDGEcut with exact coordinates (Qc) and any sort with the properties of std::sort. `ExtrudeP`: for an antisymmetric function of directed
  edges, the sum over the triangles of a level of coarsening is the sum over its outer outline minus that over the next, finer one, by induction on the levels the sum over
  the top is that over the outline of the grid (`triaOff_ok`). `ExtrudeG`: sorting a permuted grid gives the grid, thus the sizes are found. `ExtrudeW`: outlines of the six
  files cancel (`cut_closed`). `C85_watertight` uses the function which counts one pair of points, `C85_tiles` the crossing number of a ray (`ExtrudeT`: a counter-clockwise
  triangle counts once if the point is inside and not at all otherwise). `C85_files`, `C85_outward` follow from the explicit files.
  `C85_room_refuted`, `C85_height_refuted`, `C85_tolerance_refuted`: see findings 42 to 44.
* **C86** `C86_rows_partial`: for all levels with the spacing in x-direction, for zero levels with that in y-direction. Missing: y-direction with coarsening, which is false
  (`C86_rows_refuted`, finding 45).
* **C87** `MainLoop` models the settings and the loop of `main.cpp` with exact times; calls of the time manager and of the writer are events. Invariant of the loop: the next
  interval is at least the tolerance and does not pass the next instant of the wave field (`loop_ok`, induction on the number of tolerances which fit into the remaining time).
  `C87_accepted`, `C87_end`, `C87_snapshots`, `C87_no_snapshot`; `C87_groups` combines it with C09. `C87_whole_interval_refuted`: finding 47.
* **C88** `Snap` models the writer of the wave field, the buffers for the VTK library and the creation of directories. `SnapP`: nested loops are lists of writes which agree on
  equal positions (`writes_ok`). `C88_content`, `C88_files`, `C88_plain_name`, `C88_names`, `C88_directories`; `C88_average` (`Props_SnapR`) follows from the orthogonality of the basis (C83).
  `C88_double_slash_refuted`, `C88_backslash_refuted`, `C88_no_type_refuted`: findings 48 and 49.
* **C89** `Qpts` models `QuadraturePoints.h` over the real numbers; the external library FastGL is a parameter with the contract `isGauss` (`QptsSpec`: nodes between -1 and 1,
  exact for the powers below 2n; `gauss1_ex`, `gauss2_ex` give such rules). `QptsP`: the rules of the elements are the images of those of the reference elements (`qpts_ok`), which
  are products in collapsed coordinates and integrate the monomials of C83's integrals (`ref_mon`, `ref_exact`). `C89_exact`, `C89_volume`, `C89_inside`, `C89_face` (rectangles in
  any plane along the axes, any numbering), `C89_reject`. `C89_tet_one_refuted`: finding 50.
* **C90** `Qpts` also models the tables of `Basis` (`newBasis`: basis functions at the reference points, mass matrix in coordinate format), `qpts2modal`, `modal2refPtVal` and
  `setups/InitialDofs.hpp` (`initDg`, `err`); user expressions are arbitrary functions of the coordinates and the quantities before. `InitP`: the construction of the basis succeeds
  for all orders (the diagonal of the mass matrix is above the tolerance of the sparse format, `nb_large`), `qpts2modal` is the projection by quadrature (`modal_ok`), which is exact
  below the order (`proj_exact`, with C89 and the orthogonality of C83). `InitQ`: the loops (`dg_ok`, `norms_sum`). `C90_init`, `C90_error`, `C90_zero`, `C90_vertices`;
  `C90_skipped_refuted`: finding 51.
* **C91** `AdvFs` models `setupSolvers`, `setupStarM`, `computeTimeStep` and `getTimeStepStatistics` of the advection equation over the real numbers, with the Jacobians of
  `Mapping` (C59) and the determinants and inverses of `Matrix.h`. Specification in `AdvFsV`: `sideA` (normal, area and speeds behind a face as seen from an element), `isUp` (the
  upwind solvers), `advWf` (meshes). Invariant of the loop over the faces: faces before the present one have their upwind solvers on all sides, the others have zeros.
  `C91_upwind`, `C91_conservative` (two sides of one mesh or of two partitions' meshes), `C91_upwind_state`, `C91_star` (with C59's `C59_jacobian`), `C91_time_step`,
  `C91_statistics`. The additional factor six for tetrahedra of order one is part of `isUp` (`used`).
* **C92** `AdvK` models the kernels `TimePred`, `VolInt` and `SurfInt` of the advection equation with arbitrary scalars, fused simulations and junk in the scratch memory. Specification in
  `AdvKSpec`: operator, its powers, Taylor sums and surface terms. In any ring (`AdvKV`): `C92_predict`, `C92_volume`, `C92_surface_local`, `C92_surface_neigh`. With real numbers and
  the matrices of EDGEpre (C84), `AdvKR` shows that the operator is the derivative along the characteristics (chain rule for polynomials, `char_lim`), and Taylor's theorem for
  functions whose n-th derivative vanishes (`taylor`): `C92_equation` (all element types), `C92_transport` (triangles and tetrahedra: the prediction is the exact solution),
  `C92_upstream` (the same in physical coordinates, with `C91_star`). `C92_weak_volume`, `C92_weak_local`, `C92_weak_neigh`: the kernels compute the integrals of the weak form.
  `C92_amount`: what moves through a face is speed times area times mean. `C92_amount_six`, `C92_amount_refuted`: finding 52.
* **C93** The element steps `local` and `neigh` of the advection solver (`AdvK`: time buffers of full, half and summed steps, send and receive buffers) are run by arbitrary schedules.
  `AdvLtsSpec` specifies the scheme as a recurrence of the elements' states and the admissible schedules (as for C77, elements of any partition, messages in flight as queues). The invariant
  (`AdvLts`) says what every time buffer, send buffer, message and receive buffer holds. `C93_scheme_exists`, `C93_schedule`, `C93_again` (sequences of schedules), `C93_same_result`.
  `AdvConsSpec`/`AdvCons`: `C93_balance`, `C93_conserved` in any ring; with EDGEpre's matrices and the flux solvers of C91, `C93_amount` (balance with the outflow through the boundary) and
  `C93_mass` (arrays of the solver after any schedule on a mesh without boundary). Finding 16 (the steps of the time groups pass null pointers for the messages) remains: the statements about
  messages are about the solver's functions.
* **C94** `Visc` models the relaxation frequencies, the least squares system of the anelastic coefficients, the conversion to elastic Lame parameters, the source matrices, the loop over the
  elements and the exchange of the parameters between partitions. Eigen's solver is a parameter. `ViscSpec` (independent of the code) has complex moduli, wave numbers, quality factors, the
  equations of a viscoelastic medium and least squares. `C94_frequencies`; `C94_plane_wave_P`, `C94_plane_wave_S`: plane waves with the complex wave number of the modulus are solutions of the
  equations; `C94_phase_velocity_P`, `C94_phase_velocity_S`, `C94_waves_exist`: at the central frequency they travel with the velocities of the given parameters; `C94_quality_P`,
  `C94_quality_S`, `C94_quality_one`: fit of the quality factors; `C94_kernel_frequencies`, `C94_all_elements`. `C94_zero_lambda_refuted`, `C94_partition_refuted`,
  `C94_one_mechanism_centre_refuted`: findings 53-55. `LeastSq.lsSolve` shows that the assumption about the solver can be met for all sizes.
* **C95** `EvModels` models `Refinement::init`, `Grid::init`, `GridExpression::init`, `seismic::Expression::init`, `Model::getElAve` and the order of the calls in EDGE-V's main. An expression is any
  function on its variables (the expression library is a parameter); the variables live as long as the thread. The work is distributed to threads by any partition of the indices (`EvSpec.distribution`).
  `C95_refinement`, `C95_refinement_invalid`, `C95_grid`, `C95_grid_outside`, `C95_grid_expression`, `C95_seismic`, `C95_average`, `C95_bathymetry`. `C95_threads_refuted`, `C95_seismic_order_refuted`,
  `C95_grid_size_refuted`, `C95_grid_first_line_refuted`, `C95_centroid_vertex`, `C95_centroid_refuted`, `C95_bathymetry_zero`: findings 56-60. Proof by invariants of the loops.
* **C96** `SeisSetup` models the material parameters of `setup.inc`, `getVelP`, `getVelS`, `getTimeStep`, `getTimeStepStatistics`, the global minimum and the full time steps of the groups in the solver's main,
  the relative time steps of `EdgeV`, and the search for the fundamental time step in EDGE-V's main. `C96_mesh_speeds`, `C96_mesh_accepted`, `C96_from_mesh`, `C96_domains`, `C96_domains_missing`,
  `C96_statistics`, `C96_global_minimum`, `C96_one_group`, `C96_rate_two`, `C96_search`. `C96_lts_stable` composes them with the preprocessor (C26): CFL time steps, groups, solver. `C96_mesh_matches`: its
  assumption about the speeds holds for the velocity model of the mesh. `C96_attenuation_refuted`, `C96_one_group_fundamental_refuted`: findings 62 and 63. Proof by invariants and composition.
* **C97** `Llf` models the set-up, the time step and the net-updates of `Llf.hpp` and the boundary conditions of `Boundary.hpp`. `C97_central`, `C97_setup`, `C97_step`, `C97_net_updates`: the step is the
  finite-volume scheme of `LlfSpec` with the fluxes of `ElSpec`. `C97_conservation`, `C97_face_conservation`, `C97_uniform`. `C97_energy`: stability of a whole mesh (`joined`: every sub-face has an opposite one or
  zeros behind it) under a CFL condition. `C97_boundary`. `C97_free_surface_refuted`: finding 64. Proof: invariants of the loops, then a cell-wise energy estimate, summed over pairs of sub-faces by an involution.
* **C98** `ScQuad` models the generation of the sub-grids of quads (`grid/Quad.py`) and the search for adjacent sub-cells by sets of vertex ids (`grid/Generic.py`). `C98_lattice`: vertices, adjacency and types are those of
  the lattice described by `look` in `ScQuadSpec`, under a numbering of its squares. `C98_tiling`, `C98_subfaces`, `C98_neighbour`: geometry. `C98_grid`, `C98_solver`: the tables meet the hypotheses of C97 for
  parallelograms, and the theorems of C97 hold with them. Proof: the lists are images of an enumeration of squares and ghosts; two faces have the same vertices iff they are the same edge of the lattice, which has at most two sides.
* **C99** `ScProj` models the assembly of the scatter and gather matrices (`ops/Project.py`). The integral over the reference element is any linear functional, the inverse of a matrix any function which returns inverses
  (`inverts`) and fails only for singular matrices (`complete`). `C99_scatter`, `C99_inverse`, `C99_conservation`, `C99_best`: means, round trip, conservation, unique constrained optimum. `C99_line`: for lines of every degree the
  sub-cells tile the element and the system is regular. `gauss` in `ScProjInv` meets both contracts, so they are not vacuous. Proof: the system is the optimality condition with a Lagrange multiplier; on lines the anti-derivative of a polynomial with zero means has 2N+2 equal values at distinct points, so the polynomial is zero.
* **C100** `ScLine` models the generation of the sub-grids of lines (`grid/Line.py`), with the loop over the vertices, and of the maps of their sub-cells (`grid/Generic.py`). `C100_vertices`: the loop ends. `C100_numbering`,
  `C100_tables`, `C100_ghosts`: the tables. `C100_ghost_order_refuted`: finding 65. `C100_maps`: maps and determinants. `C100_project`: the theorems of C99 with the generated tables, for every degree. Proof: induction on the
  vertices left, cases on inner, first and last sub-cells.
* **C101** `SubGrid` models `src/sc/SubGrid.hpp`: the search for the sub-cell of a point (`ptSc`) and the sub-grids of faces (`faSg`), with accesses outside of arrays as errors. `C101_closest`: the sub-cell returned. `C101_contains`:
  composed with the generated tables of quads (C98), for every degree. `C101_faces`: the numbering, for all tables whose ids are valid and fit. `C101_quads`, `C101_lines`: composed with the generated tables of quads and lines;
  `C101_lines_zero_refuted`: finding 65 reaches the solver's face numbering. Proof: loop invariants; the sum of squared distances of congruent squares is smallest for the square whose ends enclose the point, in each direction.
* **C102** `IbWriter` models `src/io/InternalBoundary.hpp`: points and cells of the boundary faces, the copy to the buffer, and what is handed over to the VTK writer. `C102_init`: points and cells, with the face numbering of C101.
  `C102_quads`: the generated tables of quads (C98) meet the hypotheses, for every degree whose ids fit. `C102_values`: the copy. `C102_write`: the file of the first boundary faces. `C102_shifted`: the file of any range;
  `C102_first_refuted`: finding 67. Proof: the nested loops are one loop over triples which writes distinct entries; rows of equal length are addressed by their offsets.
* **C103** `SuperCell` models `src/sc/ibnd/SuperCell.hpp`: the stencils of the faces and their application. The assembly over several elements (`stAssemble` with more than one element) is not modelled, the only caller passes single ones.
  `C103_stencils`: the pairs. `C103_conserve`, `C103_bounds`: any stencils. `C103_average`: disjoint stencils. `C103_super`: set-up and application together, if every face has as many pairs as the code's number of stencils; with fewer
  the remaining stencils would be uninitialized. Non-vacuity: the table of tets of second order of the project's test. Proof: the loops are folds; induction over the sub-faces and over the stencils.
* **C104** `ScInit` models the way of tables from `tools/edge_pre/edge_pre/io/ArrStr.py` through `tools/edge_pre/cpp.py` and the initialization of C++ arrays to `src/sc/Init.hpp`. Text is a list of lines of fields; numbers are not printed and parsed.
  `C104_text`: entries of the arrays. `C104_connect`, `C104_ops`: from the tables to the solver. `C104_stops`, `C104_ops_stop`: arbitrary arrays; the program stops if and only if they do not fit. `C104_quads`, `C104_lines`: composition with the generated sub-grids of quads (C98) and lines (C100).
  `C104_rejected`: rows which are too long and ids out of range do not compile. `C104_padded`, `C104_ragged_refuted`: rows with missing entries (finding 68). Non-vacuity: a line with three sub-cells, a quad of degree one. Proof: a copy with a running pointer reads what is encoded at the pointer, for one more dimension by induction.
* **C105** `LiDup` models `Init::liDoLiDu` of `src/sc/Init.hpp`: the reset of the links, the nested search over the limited elements to be sent, and the search for a free entry with its check. Ids are natural numbers, the invalid id is arbitrary.
  `C105_links`: the links are the ascending list of all duplicates. `C105_stops`: the program stops if and only if there are more duplicates than faces. `C105_once`: a duplicate is linked from one element only. Assumed: the mappings of the elements to be sent are in range, and inner.size does not exceed nEntsOwn. The pinned version declares, allocates and sets the links, and does not read them elsewhere.
  Non-vacuity: three elements to be sent with two duplicates. Proof: invariants of the two loops.
* **C106** `ScData` models the sizes of `src/sc/Memory.hpp` (`alloc`, the arrays which `data` sets) and the loops of `Init::data` of `src/sc/Init.hpp`, with one list per allocated array, and row by row addresses. Not modelled: alignment and overflow.
  `C106_reset`: there is no access out of bounds, sizes are kept and all entries are set, with loops in order. `C106_threads`: the loops over elements write to different addresses, and every order of the writes sets all entries (threads). `data` declares the argument for four sets of flags as an array of three; this has no effect in C++. Non-vacuity: arrays with other values. Proof: the set entries are a growing prefix of the arrays.
* **C107** `ErrOut` models `src/io/ErrorNorms.cpp` and the type of `src/io/ErrorNorms.h`. Documents are trees with names, texts and children. Not modelled: printing of numbers, a failing save of the file (logged by the code), the headline.
  `C107_print`: the lines are exactly the norms. `C107_file`: a reader gets exactly the norms from the document. `C107_types`: the type selects the outputs. Non-vacuity: norms of two quantities. Proof: the loops append, the reader's filters are the identity.

## Trusted base

* The kernel of Coq 8.16.1 (`coqc`); `vm_compute` and `reflexivity` are used for examples.
* The reading of the C++ source which is recorded in the comments of the model files, and the statements in `Props_*.v` with the specifications beside
  them.
* `Print Assumptions`: every theorem `C##_...` is "Closed under the global context", except `C46_reals` and `C57_reals` (`Props_FwaveR.v`)
  the theorems of C62-C65 (`Props_GeomV.v`), those of C94 (`Props_Visc.v`), those of C95 (`Props_EvModels.v`), those of C96 (`Props_SeisSetup.v`, also `Classical_Prop.classic` through the square root), those of C97 (`Props_Llf.v`), `C98_grid` and `C98_solver` (`Props_ScQuad.v`), those of C99 (`Props_ScProj.v`), `C100_maps` and `C100_project` (`Props_ScLine.v`), those of C66-C70 (`Props_Elastic.v`) except `C66_sparse` and `C66_sparse_anelastic`, those of C71-C73 (`Props_Fault.v`),
  `C75_prediction`, `C75_prediction_exact` (`Props_AderR.v`), `C79_momentum`, `C79_momentum_outflow` (`Props_AderCons.v`), those of C89 (`Props_Qpts.v`) and C90 (`Props_InitDofs.v`), those of C80 (`Props_InitFs.v`), C91 (`Props_AdvFs.v`), those of C92 about real numbers (`Props_AdvK.v`), `C93_amount` and `C93_mass` (`Props_AdvLts.v`), those of C83 (`Props_Basis.v`) and C84 (`Props_EdgePre.v`), and `C88_average` (`Props_SnapR.v`). These use the axioms of the standard library's real numbers: `ClassicalDedekindReals.sig_forall_dec`, `ClassicalDedekindReals.sig_not_dec`,
  `FunctionalExtensionality.functional_extensionality_dep`, and some of them (trigonometry, derivatives) `Classical_Prop.classic`.
* `lia` loads `Coq.micromega.ZifyBool`, which imports the standard library's `ssr` files; a listing of all axioms in loaded libraries (`coqchk -o`)
  therefore shows the parameters of the module type `Coq.ssr.ssrunder.Under_rel`. No theorem depends on them.
* No axioms, no functors or module types, no plugins beyond those of the standard distribution.

## What is modelled

* `src/time`: Manager (compute, simulate, schedule of all three builds), TimeGroupStatic.
* `src/parallel`: Shared, LoadBalancing, Distributed (layout, sync, min/max), MpiRemix, the notifications of Gaspi.
* `src/impl/seismic`: steps.inc, buffer handling of AderDg (local, neigh), receivers in the local update, PointSources, Elasticity.cpp, ViscoElasticity.{h,cpp} (star matrices, flux solvers, attenuation set-up), FakeMats, AderDgInit::setUpFs and initFs, InternalBoundary, FrictionLaws, RuptureInit (one sub-face and simulation), the generated matrices, the vanilla kernels of time prediction, volume and surface integration, the LIBXSMM kernels for single and fused simulations, and AderDg's local and neigh with values.
* `src/impl/seismic/sc`: Llf (without the additional normals of `linalg::Geom::sfAdd`, which are inputs), Boundary.
* `src/setups`: InitialDofs.
* `src/impl/advection`, `src/impl/swe`: steps, AderDg buffers, set-up of the advection equation (flux solvers, star matrices, time steps), its kernels (TimePred, VolInt, SurfInt), AderDg (local, neigh) with values, FiniteVolume (qtsLr, nusN, update), Fwave.
* `src/data`: SparseEntities, Dynamic, DataLayout, EntityLayout, common (allocation), MmVanilla.
* `src/linalg`: Matrix, Series, Domain, HalfSpace, Shape, Mappings. `src/dg`: QuadraturePoints, QuadratureEval (points of faces), Basis (evalBasis, modal2ptval, the tables behind qpts2modal and modal2refPtVal, the generated expressions, the getters of the generated matrices), storage of the matrices in SurfInt and TimePred, `src/constants.hpp` (reference elements). `src/mesh`: EdgeV (setElLayout, setLtsTypes, getters), SparseTypes.
* `src/impl/seismic/setup.inc` (materials), `common.hpp` (wave speeds, time steps). `src/mesh/EdgeV.cpp`: relative time steps.
* `src/main.cpp`: the loop over the synchronization points, global minimum of the time steps. `src/io`: Receivers, WaveField, Vtk, FileSystem, the settings of times in Config. `src/sc`: Detections, Kernels (extrema, scatter, gather), Steering, SubGrid::faSg.
* `tools/edge_v/src`: Mesh, Communication, Partition, Groups, Cfl (grouping part), Gmsh (lookup, reorder), geometry (normVesFas, ids of shared faces; lengths, areas, volumes, normals, tangents, in-diameters), Refinement, Grid (assignment of points), models (Model, GridExpression, seismic Expression). `tools/edge_pre`: the basis functions, the matrices, the sub-grids of lines and quads (the symbolic maps of sub-cells for lines only), the search for sub-cells and the sub-grids of faces, the output of internal boundaries (not the format of the files, their names and single precision), the super-cells at internal boundaries (of single elements), the way of the tables of the sub-grid into the solver (not printing and parsing of numbers), the links to duplicates of limited elements, the initialization of the limiter's memory, the output of error norms, the scatter and gather matrices (the integral and the inverse of a matrix are parameters). `tools/edge_cut`: mesh/Extrude.

## What is not modelled

* Rounding of floating point numbers; overflow of integers except where a finding says so; the memory model of C++ (steps of the model are sequentially
  consistent; a block of the scheduler between two reads of the shared statuses is atomic).
* Rounding of the generated matrices and the numerical quadrature `Scalar.int` of EDGEpre uses for long expressions (C84 takes exact integrals). The singular value decomposition of the attenuation set-up (Eigen): a parameter of the model.
* LIBXSMM itself: an arbitrary record of functions with the properties of `XsmmSpec`, which are hypotheses of the theorems that need them.
* File formats (HDF5, NetCDF, the VTK library visit_writer, XML, CSV writing besides the receivers), command line, logging, timers.
* MPI and GASPI libraries: an idealised network (messages of a channel arrive in order).
* METIS and Gmsh: their results are arbitrary inputs. The expression library exprtk: expressions are arbitrary functions on their variables. UCVM and PROJ: not modelled.
* The sub-cell limiter beyond its kernels: `src/sc/Limiter.hpp` is fatal in the pinned commit ("missing implementation").

## Findings

Deviations from the stated properties in the code at the pinned commit. "proved" means: a theorem with the witness exists.

1. `Series::integrate` is wrong if both ends lie strictly between the same two samples (proved: `C38_fine_steps_refuted`).
2. `src/impl/seismic/steps.inc:57`: the index `(u/nCB)%nCB` of the receive pointers is wrong for two communication buffers (proved:
   `C17_two_buffers_refuted`).
3. `Gaspi::finSends` compares pointers instead of values; `Gaspi::reset` is declared but not defined.
4. `SparseEntities::linkSpAdjSst` leaves slots of undefined adjacencies unwritten (proved: `C20_linkSpAdjSst_unset_refuted`) and reads the
   characteristics of adjacency 0 even if all are undefined.
5. EDGE-V `Partition::getWeights` returns edge weights in the order of faces, while the dual graph is sorted (proved: `C31_weights_refuted`).
6. EDGE-V `Mesh::getCentroidsEl`/`Generic::centroid` accumulate into uninitialised memory.
7. Local face ids are wrong if two elements share more than one face (proved: `C34_two_shared_refuted`).
8. `ReceiversSf` creates the directory of rank `g_nRanks` but writes to that of `g_rank`.
9. The window of receiver samples is open at both ends: a sample exactly at `t+dt-TOL` is never written and the receiver stays stuck (proved:
   `C40_stuck_refuted`).
10. EDGE-V main: the dry tolerance has no effect (lines 485-490).
11. `Matrix::fillInQfma` skips later chunks (values unaffected).
12. `Fwave::nusN` does not pass the gravity constant to `evs`; the CFL time step of the shallow water solver ignores the second momentum in 2D.
13. EDGE-V `normalizeElTgs` returns the number of updates instead of normalised elements (proved: `C25_count_refuted`); partition ids are truncated
    to 16 bits in `getPaTgPairs`, loops over `unsigned short` partitions do not terminate for more than 65535 partitions.
14. `EntityLayout`: sizes of the receive regions are ignored.
15. `man_sched.inc:165`: `m_recvs.flushIf()` runs on the scheduling thread while workers may write receiver buffers (data race).
16. `src/impl/advection/inc/time/tgs_steps.inc:25-28, 42-46`: expression statements without assignment; send and receive pointers stay null with MPI.
17. EDGE-V `getPaElComm` aborts if a partition without communicating elements lies between communicating ones (proved:
    `C28_isolated_partition_refuted`).
18. Trailing empty partitions: `nPaEls` leaves entries unwritten (part of `C27_counts`), the constructor of `Communication` reads an unset offset.
19. Physical groups of faces are combined with `|`, while `setPeriodicBnds` compares with `==`.
20. `setPeriodicBnds`: a face with two opposite faces misaligns the partners (hypothesis of `C51_periodic`).
21. `MmVanilla::add` accepts a non-fused kernel with one simulation for which running the kernel is fatal.
22. `Matrix::denseToCsc` with scalar type double and real_base float: the mark of fill-ins is not recognised after narrowing.
23. Receivers with equal names append to the same file.
24. `PointSources::init` 826-831: several threads update the sparse type of the same element (data race).
25. The sub-cell limiter always aborts.
26. Three dimensions have no flux solver for fluids: with mu = 0 the shear entries of `flMid`/`frMid` are 0/0, without a check (two dimensions have one);
    the anelastic solvers divide by zero for mu = 0 in both.
27. `AderDgInit.hpp:513`: `l_exR = l_exL && ...` should read `l_exR`; without effect as long as the left element of a face always lists the face (C51).
28. Two-dimensional friction: the sign of the shear traction is taken from the background stress instead of from the total shear traction; with background
    stress zero (or of opposite sign) the traction drives the slip (proved: `C72_friction2_refuted`).
29. `RuptureInit`: with fault data and no domain the friction coefficient stays at `max()` until the end of the first time step (proved: `C73_data_refuted`);
    faces outside of all domains keep background stresses `max()` without a check.
30. `RuptureInit` reads the material of a missing right element; `InternalBoundary` replaces it by the left one.
31. The three-dimensional law weakens with the length of the vector of the accumulated absolute slips of the two shear directions, which depends on the choice of
    the tangents (the length of the slip path does not). Dynamic coefficients above the static one pass the checks.
32. Time prediction with attenuation (`TimePredVanilla.hpp:288`, `TimePredSingle.hpp:279`, `TimePredFused.hpp:506`): the relaxation term of the memory
    variables enters with a plus sign; the volume integration (`VolIntVanilla.hpp:236`) uses a minus sign, as the equations do (proved: `C74_relaxation_sign_refuted`
    and, for the volume integration, `C76_volume`). The unit test repeats the sign.
33. `evalTimePrediction` adds the first CK(de) modes of derivative de also with attenuation, where all modes are non-zero (`integrate` distinguishes the
    cases); receivers see a prediction without the contribution of the source terms to these modes (proved: `C75_eval_attenuation_refuted`).
34. `AderDgInit.hpp:513` sets `l_exR = l_exL && ...` instead of `l_exR && ...`: a periodic face which only the right element has in its list of faces gets no flux
    solvers, the element keeps numeric_limits::max() (shown: `xr_right_alone`; the mirrored input is set, `xr_left_alone`). `fsWf` excludes this case.
35. `VolIntFused.hpp` zeroes the scratch memory once, before the loop over the dimensions; `TimePredFused.hpp:468` does it in every dimension for elements other than
    triangles and tetrahedra, because the kernels leave columns without entries untouched. With attenuation and quadrilaterals or hexahedra, columns of the previous
    dimension are added again if the library does so (proved: `C82_volume_quads_refuted`).
36. `SurfIntFused.hpp:339` passes k = TL_N_QTS_M to the generator of the anelastic flux solver kernel, the pattern has TL_N_QTS_E columns. The theorems for attenuation
    need a library which does not use k for compressed rows (`FuSpec.ignoresK`).
37. `TimePredFused.hpp:286` reads `l_maxNzCols[0]`, which does not exist for order 1 in time; with attenuation and order 1 the generation has undefined behaviour
    (hypothesis `0 < nRm -> 1 < cTi` of `C82_time_prediction`).
38. `TimePredFused.hpp`: if the non-zero block of a derivative does not shrink, its offsets point behind the last values instead of the values in use (hypothesis `blocks`).
39. The fill-in of `denseToCsc` for KNM (`qfma`) may store zeros in rows at or above the k of `VolIntFused`'s kernels; `C82_volume` is for targets without it.
40. `src/dg/generated/{tria3,tet4}*.inc`: from order four on expressions divide by `2*xi_2-2`, `2*xi_3-2`, `2*xi_2+2*xi_3-2` or powers of these (`sympy.cancel` in EDGEpre's
    `Tria.py` and `Tet.py` was not effective). At the vertex (0,1) of triangles and along the edge from (0,1,0) to (0,0,1) of tetrahedra the program computes 0/0, thus every
    value reconstructed there is NaN, although the polynomials have values (proved: `C83_singular_refuted`). Receivers are moved to the closest point of an element
    (`Receivers.cpp`) and point sources are evaluated where they are given (`PointSources.hpp` 473), so both may hit such points.
41. `Basis.cpp` 379: for lines the derivative has number 1, the documentation and all other element types use 0 for the first coordinate. `initEvalQpRefEl` (Basis.cpp 121-129)
    passes 0 and stores values as derivatives for lines (proved: `C83_line_derivative_refuted`); the solver doesn't read these.
42. EDGEcut (`Extrude.cpp` 301-302) checks that the grid consists of whole coarse cells, but not that it has room for the rings of all levels (at least 4(R-1)+1 points per direction
    for the ratio R). Smaller grids are accepted: for 3 times 3 points and one level all four corners of the ring are the same cell, and the surface is not closed (proved: `C85_room_refuted`).
43. EDGEcut (`Extrude.cpp` 326-327) compares only the highest point to the bottom. If the bottom cuts the surface, triangles of the sides are turned inwards (proved: `C85_height_refuted`).
44. EDGEcut has a tolerance for x-coordinates within a column (1E-3 in main.cpp), but std::sort compares exactly: deviations below the tolerance change the order within a column, and
    triangles of the top are turned over (proved: `C85_tolerance_refuted`). In the first column this also makes the minimum of the y-distances negative, and its quotient
    is converted to std::size_t.
45. EDGEcut (`Extrude.cpp` 314-318): the loop for the minimum coarse distance in y-direction subtracts the coordinate of point `l_ve` from that of `(l_ve+1)*m_refRatio`; the former lacks
    the factor m_refRatio. With coarsening and varying distances the minimum is too large and the sides have too few rows (proved: `C86_rows_refuted`).
46. EDGEcut (`Extrude.cpp` 244-252) writes coordinates with the default precision of six digits: distinct points with large coordinates (e.g. UTM) coincide in the file. The surface stays
    closed (`C85_watertight` holds for all formats), but triangles may degenerate.
47. `main.cpp` 335: if the interval of the wave field is exactly the end time, then the initial field is not written and file 0 shows the end (proved: `C87_whole_interval_refuted`); the
    log calls it wave field #1. `main.cpp` 385 passes the length of the step instead of the simulated time to the writer, which ignores it.
48. `FileSystem::createDir` stops at an empty component ("out//run") and takes backslashes for separators, thus the directory of the files might not exist
    (proved: `C88_double_slash_refuted`, `C88_backslash_refuted`). It calls `fsync` with the return value of `mkdir` (0: standard input) instead of a file.
49. `WaveField::write` does not look at the type: with an unknown type (e.g. "none", or a typo) and an interval, ASCII files without the user's name are written to the working
    directory (proved: `C88_no_type_refuted`).
50. `QuadraturePoints.h` documents that the weights sum up to the volume of the element. The rule of one point per dimension for tetrahedra gives three quarters of it, as the
    weights include a factor of degree two (proved: `C89_tet_one_refuted`). `Basis` tabulates this rule; the initial values use at least two points. The asserts on the determinants
    (debug builds only) use the absolute tolerance of 1E-9 or 1E-5, thus valid, but small elements are rejected (`C89_reject`).
51. `InitialDofs::dg` sets the quantities to zero before every evaluation of a user's expression, `InitialDofs::err` does not. For an expression which leaves out a quantity, the
    initial value is zero, but the error norms compare with the value of the evaluation before, initially the largest floating point number: the error of the initial values
    against the very same expression is then that number (proved: `C90_skipped_refuted`).
52. The flux solvers of the advection equation for tetrahedra and order one (`common.hpp` 298-304) divide the determinant by six, "the effect of the inverse mass matrix". EDGEpre's matrices
    contain the inverse mass matrix for every order: six times the flux is applied (proved: `C92_amount_six`, `C92_amount_refuted`). Amounts are conserved, but the quantity moves six
    times too fast and the time step is too large for it.
53. Attenuation with lambda = 0 (`ViscoElasticity.cpp` 168-172, "adjust lambda coefficients"): the coefficients of lambda are divided by the elastic lambda. For equal quality factors of P and S waves
    the elastic lambda is zero if the given one is, so the source matrices are NaN, although the product lambda times coefficient, which is all that is used, is well defined (proved:
    `C94_zero_lambda_refuted`).
54. Attenuation and partitions: `setup.inc` 248-263 exchanges the background parameters before the constructor of the solver converts them to elastic ones (`AderDg.hpp` 272-283). The flux solvers at
    partition boundaries use the neighbour's unconverted parameters (`AderDgInit.hpp` 499), so results depend on the partitioning, and the two sides of such a face use different solvers (proved:
    `C94_partition_refuted`).
55. With one relaxation mechanism, its frequency is the lower end of the band (central frequency divided by the square root of the ratio), not the central frequency
    (`ViscoElasticity.h` 168-184; `C94_one_mechanism`, `C94_one_mechanism_centre_refuted`).
56. EDGE-V expressions keep the values of their variables between elements. If an expression does not assign its results in all cases, the target lengths and tsunami speeds depend on the number of threads
    (`Refinement.cpp` 46-110, `GridExpression.cpp` 52-91), the seismic speeds on the order of the points (`seismic/Expression.cpp` 83-98) (proved: `C95_threads_refuted`, `C95_seismic_order_refuted`).
57. `Grid.cpp` checks that the number of values is a multiple of the numbers of grid lines in x and y, not that it is their product: values behind the array are read (proved: `C95_grid_size_refuted`).
58. `Grid.cpp` rejects points on the first grid lines (proved: `C95_grid_first_line_refuted`).
59. EDGE-V `main.cpp` 263-267 and 523-527: centroid based time steps re-initialise the model at the centroids, but the bathymetry grid still has the values of the vertices: element i uses the bathymetry of
    vertex i; with more elements than vertices memory behind the values is read (proved: `C95_centroid_vertex`, `C95_centroid_refuted`, example `C95_centroid_ex`).
60. EDGE-V `Config.cpp` 80: a missing dry tolerance is zero, not the default of -25 (`Config.h` 69), and then has no effect (`C95_bathymetry_zero`). Heights between zero and the negative of the tolerance are raised,
    too; the documentation (`Config.h` 201-203) only mentions those below zero.
61. EDGE-V `main.cpp` prefers a seismic expression to the tsunami model at first (205-215) and the tsunami model after reordering (420-427): with both configured, the null pointer `l_tsunamiGridBath` is used (by reading).
62. With attenuation the solver replaces the Lame parameters by the unrelaxed ones (`AderDg.hpp` 270-283) before the time steps are derived (`setup.inc` 327-331). EDGE-V's groups use the phase velocities. If the
    quality factor is lower in elements of larger groups, these exceed their stable time step (proved: `C96_attenuation_refuted`).
63. `EdgeV.cpp` 227-241: with a single time group the relative time step is 1, the fundamental time step of EDGE-V (e.g. 0.5) is not used (proved: `C96_one_group_fundamental_refuted`).
64. `sc/Boundary.hpp` 88-96: the ghost sub-cells of a free surface copy the stresses of the sub-cell as well. The flux through the surface is that of the sub-cell's own stress: the surface carries its traction instead of
    none (proved: `C97_free_surface_refuted`). The class is included by `ts_dep.inc` but not called in the pinned commit.
65. `tools/edge_pre/edge_pre/sc/grid/Line.py` 59: for degree zero the left ghost sub-cell of a line lists the undefined vertex (-1) first; for the right ghost and for all other degrees (line 72) the element's vertex comes first. The
    table is written to file (`edge_pre.py` 629), and consumers take the first vertices of a ghost (`SubGrid.hpp` 141-153, `ReceiversSf.hpp` 209-211): for lines of first order they would get the invalid id (proved of the table:
    `C100_ghost_order_refuted`; of the first consumer: `C101_lines_zero_refuted`).
66. `sc/cexprs.inc` 30-38 has no case for points, the faces of lines: they have 65535 sub-vertices, of which `faSg` sets at most the first (`C101_lines`, with any number of them). `InternalBoundary.hpp` 279-281 reads the coordinates
    of all of them, outside of the array of sub-vertices. The pinned commit instantiates the class for triangles only, in a test.
67. `io/InternalBoundary.hpp` 296-301 counts the points of all boundary faces in the ids of the cells, but `write` (344-353) hands over the points from the first boundary face of the range on. For every range which does not start with
    boundary face 0 the ids are too high by the points left out, and those of the last face are no points of the file (`C102_first_refuted`). The test comments its first face as 1, but passes 0, and does not read the files.
68. `tools/edge_pre/cpp.py` derives the number of columns from the first line and computes the size entry as the product of the dimensions. A later row with a missing entry is completed with zeros by the C++ compiler, the size check of `src/sc/Init.hpp` passes and the solver uses vertex or sub-cell 0 (`C104_ragged_refuted`). The generated tables of quads and lines are not affected (`C104_quads`, `C104_lines`).

## Seeded faults

`seeded/LOG.jsonl` has one line per edit of the model in a scratch copy. `first_failure` was observed: the first lemma or theorem of each file the build stopped at. `theorems_failed` is derived from it, by a script: the theorems
which use `first_failure` by name, directly or through other lemmas, in files that import its file. They cannot be rebuilt as they stand; they were not compiled one by one. A failure shows that the proof does not survive the edit. That the
claim is false of the edited model was judged by reading, not proved. Entries with no failed theorem survived at first, or failed only in an example or an unused lemma; `note` and `theorems_tightened` say what followed.
Up to commit ad74e8d `theorems_failed` was derived by name only and listed, in 160 entries, theorems of unrelated files with lemmas of the same name.

# FVENS formal model: design

Source: `/repo` (Slaedr/FVENS, pinned commit), read as text only, never built or run. Prover: Coq 8.16.1.
Build: `coq_makefile -f _CoqProject -o Makefile && make -j4` in `rocq/`.

Contents: 1 layout, 2 modelling decisions, 3 what is modelled and what is not, 4 the properties,
5 defects of the code found by the proofs, 6 trusted base, 7 testing of the theorems.

## 1. Layout of `rocq/theories`

* `Base*.v` – bounds-checked arrays, loop combinators, finite sums, real vectors; no FVENS content.
* `M_*.v`   – the model. Every definition cites the file and lines it models and its simplifications.
* `S_*.v`   – specifications: what a property means, written without the model's helpers.
* `Pf_*.v`, `ChkMesh.v` – proofs.
* `P_*.v`   – property files: each theorem of `MANIFEST.json`, with `Print Assumptions` beneath, and
              `Example`s (`…_ex`) showing that the hypotheses are met by a concrete, non-trivial case.

A name ending in `_refuted` is a theorem that the natural claim is false of the code, with a concrete
witness; it stands next to the strongest statement that does hold. A name ending in `_partial` would be
a proof of part of a claim; there is none at present. `properties.jsonl` states the claims in words,
`MANIFEST.json` maps each claim to its theorems.

## 2. Modelling decisions

* **Failure is a value.** Functions that can fail return `option` (or `option (exc A)` where exceptions
  are also possible). `None` stands for undefined behaviour of C++: an access out of bounds, a read of a
  null pointer, a division of integers by zero. So a theorem `f x = Some y` also says that `f` commits no
  memory error on `x`.
* **Uninitialised memory** is an arbitrary function argument (`junk`, `jx`, …) and theorems hold for all
  values of it.
* **Indices** are natural numbers; where the code stores -1 the model uses `Z` or `option`. Overflow of
  machine integers is not modelled.
* **Floating point** numbers are the real numbers of Coq's standard library: rounding, overflow and NaN are
  not modelled. Theorems whose code divides carry hypotheses under which the divisor is not zero (positive
  density, distinct points, …), or the division is checked in the model and gives `None` (limiters, output
  averages). Where the code's behaviour at a zero divisor matters (relative residuals) IEEE comparison is
  modelled explicitly.
* **Loops** are folds with explicit state (`floop n body s`); proofs use invariant rules.
* Static arrays of size NDIM = 2, NVARS = 4 become records (`v2`, `st`, `mat4`, `grad`).
* **MPI**: every rank is a process; messages travel on FIFO channels per ordered pair of ranks; buffering
  is arbitrary; theorems quantify over all interleavings. Collective operations add up the contributions.
* **OpenMP**: a threaded loop is the set of all interleavings of its iterations; atomic updates are single
  steps, non-atomic ones a load and a store (`M_Conc.v`). The other models run loops in order, which C55
  justifies where updates are atomic, and is a finding where they are not.
* **PETSc** vectors are arrays (a rank's entries followed by its ghost entries), matrices are what is
  inserted into them; the Krylov solver returns an arbitrary vector (C72, C88 take the exact solution as a
  hypothesis where needed). Boost property trees are association lists.
* **Templates** over scalar types (double, ADOL-C) have one instance: the reals.

## 3. What is modelled and what is not

| source file | modelled (by) | not modelled |
|---|---|---|
| mesh/mesh.cpp, mesh.hpp | topology, face data, areas, centres, orientation, reordering, periodic map, points around points, boundary points, Gmsh writer (M_Mesh, M_Geom, M_MeshUtil, M_BPoint, M_Gmsh) | 3D or high-order geometry |
| mesh/meshreaders.cpp | `readMesh` (M_Conv), `readGmsh2` (M_Gmsh), `readSU2` (M_SU2) | Rdgflo/Domn readers are not in the file; stream formatting of numbers |
| utilities/convertformat.cpp | `main` (`convert` in M_Conv) | command-line parsing by the C runtime; the contents written are those of the writers' models |
| mesh/meshordering.cpp | anisotropy, lines, graph vertices, graph entries, hybrid ordering (M_MeshUtil), `lineReorder`, `hybridLineReorder` (M_Prep) | PETSc's ordering itself (an arbitrary permutation) |
| mesh/meshpartitioning.cpp | all of the replicated partitioner (M_Part) | Scotch (an arbitrary assignment of ranks to cells) |
| mesh/ameshutils.cpp | `levelSchedule`, `compareMeshes`, `preprocessMesh`, `constructMesh`, `reorderMeshPetsc` (M_MeshUtil, M_Compare, M_Prep) | timing, printing |
| linalg/tracevector.cpp | communication pattern, both halves of the exchange (M_Trace, M_Async) | – |
| linalg/petscutils.cpp | the four Vec handlers (M_Handler) | – |
| linalg/alinalg.cpp | preallocation, matrix-free product (M_Linalg); numbering and updates of ghosted vectors (M_Dist), getPC (M_Solver) | BLASTed set-up, KSP/PC options |
| physics/aphysics*.{hpp,cpp} | all functions (M_Gas) | – |
| physics/viscousphysics.cpp | states, flux and flux Jacobian (M_Visc) | `compute_viscous_flux_approximate_jacobian` (unused) |
| spatial/anumericalflux.{hpp,cpp} | all seven fluxes; Jacobians of LLF (both), AUSM, HLL, Roe, HLLC (M_Flux) | `AUSMPlus`/`VanLeer` Jacobians (not implemented in the code) |
| spatial/abc.cpp, abctypemap.cpp | all conditions, creation, name map (M_BC, M_BCConf) | – |
| spatial/agradientschemes.cpp | zero, Green-Gauss, weighted least squares (M_Grad) | – |
| spatial/areconstruction.cpp, limitedlinear…, muscl… | all five reconstructions (M_Recon) | – |
| spatial/aspatial.cpp | constructor, face gradients, Jacobian assembly (M_Space, M_Visc, M_Resid), ghost centres about a face (M_Ghost) | – |
| spatial/flow_spatial.cpp | boundary states, fluxes, time step, residual of both orders, local Jacobians, surface data (M_Resid, M_Out) | printing |
| spatial/diffusion.cpp | `Diffusion`, `DiffusionMA`, scalar point output (M_Diff, M_Out) | – |
| spatial/aoutput.cpp | entropy error, cell and point values, surface tables, VTU files (M_Out, M_Vtu) | formatting of numbers, volume export text |
| ode/aodesolver.cpp, nonlinearrelaxation.cpp | ramps, steady forward/backward Euler, TVD Runge-Kutta, relaxation (M_Ode), the explicit loop on several ranks (M_Dist), the implicit one (M_DistImp) | timing, log text, PETSc solver set-up |
| utilities/aarray2d, helper_algorithms | all but printing (M_Array) | – |
| utilities/controlparser.cpp | the whole parser (M_Ctl, M_BCConf) | the text format of property trees (boost), text to numbers (arbitrary functions) |
| utilities/afactory.cpp | fluxes, gradients, reconstructions, update schemes (M_Ctl, M_Flux) | – |
| utilities/casesolvers.cpp, fvens_steady.cpp | steady cases, `run`, `run_output`, exit status (M_Case); functionals reported by several processes (M_Report); initial state and the two discretizations (M_Start) | unsteady case (cannot be instantiated), timing, printing, KSP options |
| aoptionparser, mpiutils | optional integer lists (M_Solver) | other command-line and wait wrappers |

## 4. The properties

Statements in words are in `properties.jsonl`, exact ones in the theorems. For each: what is modelled, how it is proved, the theorems.

**C01 Elements surrounding a point are listed exactly** (proved; P_Mesh)
* model: compute_elementsSurroundingPoints: count, prefix sum, store and shift loops on arrays (M_Mesh)
* proof: invariants of the three loops; the specification is the filter of the cells that contain the point
* theorems: `C01_cells_around_points`, `C01_meaning`
* note: cells as lists of nodes; out-of-range access is a distinct outcome

**C02 Cell neighbours are exact and symmetric** (proved; P_Mesh)
* model: compute_elementsSurroundingElements (M_Mesh)
* proof: invariants of the nested search with the help array; uniqueness of the match from conformity
* theorems: `C02_cell_neighbours`
* note: mesh valid and conforming

**C03 Every internal face appears exactly once** (proved; P_Mesh)
* model: compute_topological as a whole (M_Mesh)
* proof: invariants for the counting and the storing loop; junk contents of all arrays arbitrary
* theorems: `C03_face_list`
* note: whole of compute_topological, uninitialised storage arbitrary

**C04 Cell-to-face map is the inverse of the face list** (proved; P_Mesh)
* model: elemface in compute_faceConnectivity (M_Mesh)
* proof: the inverse follows from C03 and the orientation of neighbouring cells
* theorems: `C04_elemface`
* note: needs consistently oriented neighbouring cells

**C05 Boundary faces find their host cell and are oriented with it** (proved; P_Mesh)
* model: correctBoundaryFaceOrientation, compute_phyBFaceNeighboringElements (M_Mesh)
* proof: invariant per face; the outcomes without host and with several hosts are separate cases
* theorems: `C05_boundary_orientation`, `C05_host_search`
* note: includes undefined behaviour without host and exception with several

**C06 Face normals are unit vectors of the right length and direction** (proved; P_Geom)
* model: compute_face_data (M_Geom)
* proof: real algebra; orientation from C03 and C05
* theorems: `C06_face_normals`
* note: unit outward normal and length of every face

**C07 Every cell is closed** (proved; P_Geom)
* model: face data and cell corners (M_Geom)
* proof: the sum over the faces of a cell is reindexed to the cycle of corners and telescopes
* theorems: `C07_closed_cells`

**C08 Cell areas are the polygon areas** (proved; P_Geom)
* model: compute_areas (M_Geom)
* proof: shoelace formula by `field`; additivity and the total by induction over the cycle and the
  cancellation of inner edges
* theorems: `C08_areas`, `C08_area_laws`, `C08_total_area`

**C09 Renumbering cells only renumbers them** (proved; P_MeshUtil)
* model: reorder_cells (M_Mesh)
* proof: list lemmas on permutations; witness for the tags by computation
* theorems: `C09_reorder_cells`, `C09_regions_refuted`
* note: cells renumbered exactly; region tags refuted by a concrete witness

**C10 Level scheduling never couples two cells in one level** (proved; P_MeshUtil)
* model: levelSchedule (M_MeshUtil)
* proof: loop invariant over levels; conflicts expressed by adjacency only
* theorems: `C10_level_schedule`

**C11 Line ordering is a permutation made of lines of neighbouring cells** (proved; P_Lines, P_MeshUtil)
* model: anisotropy, findLines, hybrid ordering (M_MeshUtil)
* proof: invariants on visited flags; what each step of the search compares, by induction on the lines; two
  runs with different memory in lockstep; sort and PETSc's ordering are arbitrary
* theorems: `C11_line_orderings`, `C11_lines_meaning`, `C11_lines_determined`
* note: std::sort's tie order and PETSc's ordering are arbitrary; the meaning of the lines is for weights
  between 0 and 10^20

**C12 Periodic pairing is an involution** (proved; P_MeshUtil)
* model: compute_periodic_map (M_MeshUtil)
* proof: loop invariant: the map restricted to processed faces is an involution; witness by computation
* theorems: `C12_periodic_map`, `C12_double_pairing_refuted`
* note: involution under two-by-two matching; without it a face can be paired twice (witness)

**C13 Point neighbours are exact** (proved; P_MeshUtil)
* model: compute_pointsSurroundingPoints (M_MeshUtil)
* proof: loop invariant as in C01
* theorems: `C13_points_around_points`

**C14 Trivial partition covers all cells and leaves no rank empty** (proved; P_Part)
* model: trivial partitioner (M_Part)
* proof: arithmetic on quotients and remainders
* theorems: `C14_trivial_partition`, `C14_constructor`
* note: For all cell and rank counts.

**C15 Restriction to a subdomain preserves geometry and connectivity** (proved; P_Part)
* model: restrictMeshToPartitions (M_Part)
* proof: invariants of the cell, point and face loops; union by the partition of the cell set
* theorems: `C15_restriction`, `C15_union`
* note: restrictMeshToPartitions never fails on a tiled serial mesh with its topology; cells, points,
  coordinates, tags, union over ranks.

**C16 Every physical boundary face ends up on exactly one rank** (proved; P_Part)
* model: extraction of boundary faces (M_Part)
* proof: counting: each global face is found on the rank of its host cell only
* theorems: `C16_boundary_faces`, `C15_restriction`
* note: The faces of all ranks are the global faces, each once.

**C17 Partition interfaces are all found as connectivity faces** (proved; P_Part)
* model: connectivity faces (M_Part)
* proof: the exact set of faces found; a two-rank mesh as witness for the missed ones
* theorems: `C17_connectivity_faces`, `C17_matching`, `C17_interfaces_refuted`
* note: Exact set of connectivity faces found; matching between ranks if all interfaces are seen; the
  unconditional claim is refuted by a concrete mesh.

**C18 Cell adjacency graph handed to the partitioner is exact** (proved; P_Part)
* model: adjacency lists for Scotch (M_Part)
* proof: invariant of the CSR loop
* theorems: `C18_adjacency`, `C18_symmetric`
* note: CSR lists exact, symmetric, no self loops.

**C19 Trace exchange delivers the neighbour's value on the same face** (proved; P_Trace)
* model: updateSharedFacesBegin/End (M_Trace, M_Async)
* proof: transition system over FIFO channels; invariant on all reachable states
* theorems: `C19_trace_exchange`, `C19_frame`, `C19_partition_pairs`, `C19_unpaired_truncation`
* note: After k updates the right value on a shared face is the left value the neighbour had; for all message
  interleavings and bufferings; meshes from the partitioner satisfy the hypothesis when all interfaces are
  seen from both sides. Mismatched lists make the exchange fail.

**C20 Trace exchange terminates and rounds do not mix** (proved; P_Trace)
* model: the same system (M_Async)
* proof: progress lemma, a decreasing measure and confluence
* theorems: `C20_no_deadlock`, `C20_schedule_independent`, `C20_unpaired_deadlock`
* note: Every reachable state of the asynchronous exchange can move until all rounds are done, executions are
  bounded, results are schedule independent. Unpaired neighbours deadlock.

**C21 Gmsh write/read round trip** (proved; P_Gmsh)
* model: writeGmsh2, readGmsh2 on tokens (M_Gmsh)
* proof: the writer produces the text of a list of records, the reader inverts any such text
* theorems: `C21_round_trip`
* note: Reader and writer are modelled token by token. Stated for linear or quadratic meshes; tags beyond the
  ones in the mesh are the ones the writer makes up, and are stated too.

**C22 Gmsh reader needs boundary records first** (proved; P_Gmsh)
* model: readGmsh2 (M_Gmsh)
* proof: the reader's result for any order of records
* theorems: `C22_boundary_first`, `C22_other_order`
* note: For every file in another order the theorem exhibits a cell stored as a boundary face, its marker
  being a node number, and a boundary record stored as a cell without nodes.

**C23 Vector handlers always return the array they borrowed** (proved; P_Handler)
* model: the four Vec handlers as state machines (M_Handler)
* proof: refinement to attached/detached for all programs
* theorems: `C23_handlers`, `C23_all_returned`, `C23_attached_throws`, `C23_copy_refuted`,
  `C23_failed_get_refuted`, `C23_failed_ghosted_ctor_refuted`
* note: Refinement to an attached/detached specification for all programs; copies and failing PETSc calls
  break the protocol.

**C24 Array and scan utilities** (proved; P_Array)
* model: Array2d on a heap; inclusive_scan (M_Array)
* proof: refinement to independent matrices for all programs; invariant for the scan
* theorems: `C24_value_semantics`, `C24_no_leak`, `C24_self_assignment_refuted`, `C24_row_major`,
  `C24_column_overrun`, `C24_inclusive_scan`
* note: Refinement of the heap model to independent matrices for all programs; self-assignment in release
  builds loses the contents.

**C25 Conserved and primitive variables convert back and forth exactly** (proved; P_Gas)
* model: conversion functions (M_Gas)
* proof: `field` under positive density
* theorems: `C25_round_trip`, `C25_round_trip_temperature`, `C25_in_place`

**C26 Equation of state functions are mutually consistent** (proved; P_Gas)
* model: equation of state functions (M_Gas)
* proof: `field`, square roots; C26_primitive_temperature: temperature of both forms of primitive variables
* theorems: `C26_equation_of_state`, `C26_primitive_temperature`

**C27 Free-stream state has the requested Mach number and direction** (proved; P_Gas)
* model: compute_freestream_state (M_Gas)
* proof: `field`, trigonometric identity
* theorems: `C27_freestream`

**C28 Analytical flux Jacobian is the derivative of the flux** (proved; P_Gas)
* model: flux and its Jacobian (M_Gas)
* proof: derivative along arbitrary curves (`derivable_pt_lim`)
* theorems: `C28_flux_jacobian`, `C28_flux_jacobian_partials`

**C29 Gradient conversions obey the chain rule** (proved; P_Gas)
* model: gradient conversions (M_Gas)
* proof: derivative along curves
* theorems: `C29_gradient_chain_rule`, `C29_gradient_from_primitive`

**C30 Scalar Jacobians are derivatives** (proved; P_Gas)
* model: scalar Jacobians (M_Gas)
* proof: derivative along curves
* theorems: `C30_scalar_jacobians`, `C30_vars_jacobian`, `C30_accumulation`, `C30_derived_jacobians`

**C31 Sutherland viscosity and its Jacobian** (proved; P_Gas)
* model: Sutherland viscosity (M_Gas)
* proof: derivative of the real power; the difference of the two exponents is non-zero for T other than 1
* theorems: `C31_sutherland`, `C31_sutherland_jacobian_refuted`
* note: the coded Jacobian of the viscosity is wrong at every temperature other than 1

**C32 Pressure change estimate used for under-relaxation** (proved; P_Gas)
* model: getDeltaPressureFromConserved (M_Gas)
* proof: `field`; witness
* theorems: `C32_delta_pressure_x`, `C32_delta_pressure_y`, `C32_delta_pressure_value`,
  `C32_delta_pressure_refuted`
* note: finding: the function does not return the pressure change

**C33 Viscous stress tensor is symmetric, Galilean invariant and objective** (proved; P_Gas)
* model: stress tensor (M_Gas)
* proof: algebra; rotation matrices
* theorems: `C33_stress_tensor`, `C33_stress_objective`

**C34 Every numerical flux is consistent** (proved; P_Flux)
* model: all seven fluxes (M_Flux)
* proof: case analysis of branches and `field`, per flux
* theorems: `C34_flux_consistent`
* note: All seven selectable fluxes.

**C35 Every numerical flux is conservative** (proved; P_Flux, P_Flux2)
* model: all seven fluxes
* proof: branch-wise swap of sides; for HLLC the wave order from Roe averages; witness for gamma = 11/10
* theorems: `C35_flux_conservative`, `C35_hllc_refuted`
* note: All fluxes for gamma > 1, HLLC for gamma >= 5/4; for gamma = 11/10 a concrete pair of states refutes
  HLLC.

**C36 Supersonic flow is fully upwinded** (proved; P_Flux, P_Flux2)
* model: all seven fluxes
* proof: branch selection by the signs of the signal speeds; concrete states for the exceptions
* theorems: `C36_supersonic_upwind`, `C36_not_upwinded_refuted`
* note: Exact condition for each flux; for LLF, AUSM+ (tangential velocity) and Roe (entropy-fix margin 1e-4)
  plain supersonic flow is not enough, refuted by concrete states.

**C37 LLF and HLL signal speeds bound the physical wave speeds** (proved; P_Flux)
* model: LLF, HLL
* proof: bounds on maxima and minima of wave speeds
* theorems: `C37_rusanov`, `C37_hll`
* note: Exact formulas with bounds on the signal speeds.

**C38 HLLC waves are ordered and star states are physical** (proved; P_Flux, P_Flux2)
* model: HLLC
* proof: order by real inequalities (`nra`) in a normalised parametrisation; witness for gamma = 11/10
* theorems: `C38_hllc_waves`, `C38_hllc_refuted`
* note: gamma >= 5/4; also equal star pressures and star velocities. For gamma = 11/10 refuted by concrete
  states.

**C39 Stationary contact discontinuities are preserved** (proved; P_Flux)
* model: HLLC, Roe
* proof: `field`; exact leak of Roe
* theorems: `C39_hllc_contact`, `C39_roe_contact_leak`, `C39_roe_contact_refuted`
* note: HLLC preserves contacts; the claim is false for Roe because of the entropy fix, exact leak proved.

**C40 Roe averaging satisfies the Roe property** (proved; P_Flux)
* model: Roe averages
* proof: `field` with square roots of the densities
* theorems: `C40_roe_property`

**C41 Frozen-coefficient flux Jacobians** (proved; P_FluxJac)
* model: LLF, HLL Jacobians
* proof: derivative along curves with held coefficients
* theorems: `C41_llf`, `C41_hll`
* note: Held-coefficient flux agrees with the coded flux at the point, and the returned matrices are its joint
  derivative (minus left, plus right).

**C42 Exact flux Jacobians** (proved; P_FluxJac)
* model: AUSM, HLLC Jacobians
* proof: derivative along curves, per branch
* theorems: `C42_ausm`, `C42_hllc`
* note: AUSM exact whenever the interface Mach number is nonzero (also at |M|=1); HLLC exact off its branch
  boundaries.

**C43 Advertised exact Jacobians that are not** (proved; P_FluxJac)
* model: LLF and Roe Jacobians
* proof: exact error terms and classes of states where they differ from zero
* theorems: `C43_llf_error`, `C43_llf_wrong`, `C43_llf_refuted`, `C43_roe_true`, `C43_roe_code`,
  `C43_fix_error`, `C43_roe_exact_off_fix`, `C43_roe_wrong`, `C43_roe_refuted`
* note: Exact error of the full LLF Jacobian and of the Roe entropy-fix derivative, with the classes of states
  where they are wrong.

**C44 Fluxes do not depend on the orientation of the axes** (proved; P_Flux)
* model: all seven fluxes
* proof: invariance of the scalar quantities the flux is made of
* theorems: `C44_flux_rotation`

**C45 Nothing passes through a slip wall** (proved; P_Flux)
* model: all seven fluxes with the slip wall (M_Flux, M_BC)
* proof: the mirror state swaps the sides
* theorems: `C45_slip_wall_no_flux`

**C46 Boundary ghost-state Jacobians are derivatives** (proved; P_BC)
* model: all conditions with Jacobian (M_BC)
* proof: derivative along curves
* theorems: `C46_bc_jacobian`, `C46_freestream_ok`, `C46_isothermal_wrong`, `C46_isothermal_error`
* note: All conditions that implement a Jacobian; the isothermal wall is shown wrong at every state.
  Total-condition inflow has no Jacobian (the code exits).

**C47 Inflow/outflow ghost state** (proved; P_BC)
* model: InOutFlow (M_BC)
* proof: case analysis on normal Mach number
* theorems: `C47_inout`, `C47_switch_mismatch`

**C48 Defective boundary conditions** (proved; P_BC)
* model: Adiabaticwall, InFlow (M_BC)
* proof: index out of range is an outcome; real powers
* theorems: `C48_adiabaticwall_overrun`, `C48_inflow_formula`, `C48_inflow_outward`, `C48_inflow_refuted`
* note: Rpower models pow with a real exponent.

**C49 Wall ghost states impose the wall values on average** (proved; P_BC)
* model: wall conditions (M_BC)
* proof: `field`
* theorems: `C49_adiabatic`, `C49_moving_wall`, `C49_moving_wall_refuted`, `C49_isothermal`

**C50 Viscous flux: Newtonian and Fourier, zero in uniform flow and conservative** (proved; P_Visc)
* model: viscous flux and the primitive states and gradients it is built from (M_Visc)
* proof: unfolding to the Newtonian and Fourier flux of the specification; at second order the face gradient
  resolved along and across the line of centres, the temperature gradient by differentiation along lines of
  states
* theorems: `C50_formula`, `C50_zero_linear`, `C50_second_order`, `C50_conservative`, `C50_uniform`,
  `C50_dissipates`
* note: The flux is the Newtonian/Fourier flux of the specification; zero, linear and antisymmetric for both
  orders and both viscosity laws; at second order its velocity and temperature gradients are the differences
  of the cells' velocities and temperatures along the line of centres and the means of the cell gradients
  across it; the stress never produces energy.

**C51 Adiabatic wall conducts no heat** (proved; P_Visc)
* model: viscous flux at walls (M_Visc, M_BC)
* proof: algebra of mirrored states
* theorems: `C51_no_gradient_along`, `C51_no_energy_flux`
* note: Stationary wall (Adiabaticwall2D with zero tangential velocity). First order: energy flux exactly
  zero. Second order: no temperature gradient along the line of centres.

**C52 Viscous flux Jacobian** (proved; P_Visc)
* model: viscous flux Jacobian (M_Visc)
* proof: derivative along curves
* theorems: `C52_constant_viscosity`, `C52_variable_viscosity`, `C52_variable_wrong`
* note: Constant viscosity exact. Variable viscosity: exact error formula and proof that it is not the
  derivative when T<>1 and the flux is not zero (follows from the Sutherland derivative finding).

**C53 Least-squares gradients are exact for linear fields** (proved; P_Grad)
* model: WLS constructor and gradient loops (M_Grad)
* proof: sums over faces; the normal equations determine the gradient as the matrix is regular
  (Cauchy-Schwarz)
* theorems: `C53_wls_exact`
* note: All meshes built by the set-up; every cell whose neighbour centres are distinct from its own and not
  all on one line. WLS_ctor / WLS_gradients with their three face loops.

**C54 Green-Gauss gradients of a constant vanish** (proved; P_Grad)
* model: Green-Gauss (M_Grad)
* proof: sums over faces and C07
* theorems: `C54_formula`, `C54_constant`
* note: Green-Gauss; closedness of cells is proved (C07), not assumed. Centres must differ from the face
  midpoints (otherwise the code divides by zero).

**C55 Threaded accumulation is order independent** (proved; P_Grad, P_Resid)
* model: threads as interleavings (M_Conc)
* proof: commuting atomic steps; reachability of a lost update
* theorems: `C55_atomic_order`, `C55_gradient_loops`, `C55_green_gauss_race`, `C55_green_gauss_no_race`,
  `C55_residual_loops`
* note: Any order of atomic updates gives the serial result (generic and for the loops of the gradient
  schemes). FINDING: the boundary and connectivity loops of the Green-Gauss scheme are not atomic; for every
  mesh with a cell with two boundary faces there is an execution that loses a contribution.

**C56 Face gradient is consistent** (proved; P_Visc)
* model: face gradient (M_Visc)
* proof: linear algebra
* theorems: `C56_along`, `C56_across`, `C56_linear`, `C56_symmetric`, `C56_thin_layer`

**C57 Linear reconstruction is exact for linear fields** (proved; P_Recon)
* model: LinearUnlimitedReconstruction (M_Recon)
* proof: loop invariants and C53
* theorems: `C57_formula`, `C57_linear_exact`, `C57_with_least_squares`
* note: LinearUnlimited; left values at all faces, right values at subdomain faces (right values at boundary
  and connectivity faces are left to boundary conditions and to the exchange, and are proved untouched). Also
  the composition with the least-squares gradients.

**C58 Barth-Jespersen reconstruction creates no new extrema** (proved; P_Recon)
* model: Barth-Jespersen (M_Recon)
* proof: invariants for minima, maxima and limiter
* theorems: `C58_no_new_extrema`, `C58_inactive`
* note: For solution arrays that have rows for the boundary ghost cells; as called in the code such rows are
  missing (C62).

**C59 Venkatakrishnan limiter lies in [0,1]** (proved; P_Recon)
* model: Venkatakrishnan (M_Recon)
* proof: inequalities on the limiter function
* theorems: `C59_limiter_range`, `C59_zero_K_refuted`
* note: Division by zero is an error outcome of the model; K>0 excludes it, K=0 gives 0/0 on every uniform
  field.

**C60 WENO gradient is a convex combination** (proved; P_Recon)
* model: WENO (M_Recon)
* proof: positive weights; sums
* theorems: `C60_convex`, `C60_linear_exact`

**C61 Van Albada MUSCL reconstruction** (proved; P_Recon)
* model: Van Albada MUSCL (M_Recon)
* proof: inequalities; witness
* theorems: `C61_formula`, `C61_limiter`, `C61_bounded`, `C61_linear_exact`, `C61_no_new_extrema_refuted`
* note: Mirror symmetry is the statement that both sides get the same function of (own, other) data. Exact at
  the midpoint of the two centres, which is the face centre only for boundary faces.

**C62 Limiters read outside the solution array at physical boundaries** (proved; P_Recon)
* model: limiters called with the solution array (M_Recon)
* proof: first out-of-range read on any mesh with a boundary face
* theorems: `C62_out_of_bounds`

**C63 The scheme is globally conservative** (proved; P_Resid)
* model: residual assembly (M_Resid)
* proof: exchange of sums over faces and cells
* theorems: `C63_any_face_states`, `C63_first_order`, `C63_second_order`, `C63_second_order_runs`
* note: Sum of residuals over real cells = minus fluxes through physical boundary and connectivity faces, for
  arbitrary face states, first and second order; completion of second order shown for all gradient schemes
  with linear, WENO and Van Albada reconstruction.

**C64 Partitioned runs are globally conservative** (proved; P_Par)
* model: residual assembly on every rank (M_Resid, M_Part)
* proof: pairing of interface copies, C35
* theorems: `C64_copies_cancel`, `C64_first_order`, `C64_second_order`, `C64_runs_exist`
* note: Fluxes through the two copies of every interface face cancel in the sum over all ranks, for all seven
  fluxes, viscous or not, first and second order, whenever the exchanged data come from the other copy; the
  residuals of all ranks then add up to minus the flux through the physical boundary. Hypotheses: every
  interface found by both sides (C17 shows when this fails), distinct face ends, physical states on interface
  faces, 1 < gamma (5/4 <= gamma for HLLC). C64_runs_exist: the hypotheses are met by every such split of
  every mesh.

**C65 Free stream is preserved** (proved; P_Resid)
* model: residual assembly with boundary conditions
* proof: consistency, closed cells, C34, C07
* theorems: `C65_first_order`, `C65_second_order`, `C65_limiters_overrun`
* note: All seven fluxes, inviscid or viscous; far-field, inflow-outflow, extrapolation and slip boundaries
  that admit the state; second order with zero, Green-Gauss, least-squares gradients and linear, WENO, Van
  Albada reconstruction. With Barth-Jespersen or Venkatakrishnan the second-order residual reads out of bounds
  on every mesh with a physical boundary (finding).

**C66 Residuals do not depend on the partition** (proved; P_Par, P_Par2)
* model: residual assembly on a rank and on the whole mesh, first and second order
* proof: bijection between the faces of a cell on the rank and on the mesh; fluxes, gradients and
  reconstructions rewritten as functions of what one cell sees through its faces
* theorems: `C66_partition_independent`, `C66_gradients`, `C66_face_states`, `C66_time_steps`,
  `C66_second_order`, `C66_exchange_exists`
* note: First order: for every tiled mesh, partition, flux, boundary conditions by tag and physical states,
  each cell's residual on its rank equals the residual on the whole mesh (exact real arithmetic), given
  correct ghost centres and states. Second order (zero, Green-Gauss or least-squares gradients; linear, WENO
  or Van Albada reconstruction; all fluxes, viscous or not): with gradients and face states exchanged between
  the owners of shared faces, each rank computes the gradients, the face states on the side of its cells, the
  time steps and the residual of the run on one process; such an exchange exists whenever the run on one
  process completes. Residual: face states of the whole-mesh run physical. The Barth-Jespersen and
  Venkatakrishnan limiters read out of bounds on every mesh with boundary faces (C62), so no run with them
  completes.

**C67 Assembled Jacobian is the derivative of the residual** (proved; P_Jac)
* model: Jacobian assembly (M_Resid)
* proof: derivative of a finite sum; blocks by position
* theorems: `C67_assembled_jacobian`
* note: Along every curve of states. Hypotheses: exact face and boundary Jacobians (shown for AUSM and for Roe
  off the entropy fix, constant viscosity; boundary conditions as in C46). The assembled matrix is minus the
  derivative of the vector that compute_residual returns.

**C68 Local time steps are positive and satisfy the CFL identity** (proved; P_Resid)
* model: time step (M_Resid)
* proof: sums of positive terms
* theorems: `C68_time_step`, `C68_first_order`
* note: Includes the viscous part; face lengths positive because cell corners are distinct.

**C69 Matrix preallocation** (proved; P_Linalg)
* model: preallocation (M_Linalg)
* proof: positions of all insertions counted per row
* theorems: `C69_diagonal`, `C69_off_diagonal`, `C69_too_small`, `C69_off_diagonal_refuted`
* note: Positions of all block insertions of the assembly against the preallocated row sizes, block and scalar
  format. Finding: one off-diagonal block per row is too few for a cell with two connectivity faces (costs
  reallocation, since the allocation error is switched off).

**C70 Matrix-free Jacobian product** (proved; P_Linalg)
* model: matrix-free product (M_Linalg)
* proof: difference quotients; limits
* theorems: `C70_difference`, `C70_affine_exact`, `C70_linear`, `C70_limit`, `C70_one_unknown`,
  `C70_ghosts_not_cleared`, `C70_clearing_refuted`
* note: Difference quotient for every residual, exact for affine ones, converges to the derivative. Finding:
  the loop meant to clear ghost entries of the new vector lacks the factor nvars, so what the vector held
  there enters the product.

**C71 CFL ramps stay within bounds** (proved; P_Ode)
* model: CFL ramps (M_Ode)
* proof: monotonicity; induction over steps
* theorems: `C71_linear_ramp`, `C71_residual_ramp`, `C71_residual_ramp_law`, `C71_history`, `C71_second_step`
* note: Ramps stay in their limits, are monotone and follow the documented law; the history of every run stays
  in the limits. Finding: the second CFL number depends on the absolute size of the first residual.

**C72 Steady solvers report convergence truthfully** (proved; P_Ode)
* model: steady solvers (M_Ode)
* proof: induction over steps with all outcomes
* theorems: `C72_forward`, `C72_backward`, `C72_forward_converges`, `C72_forward_last_step`,
  `C72_backward_converges`, `C72_steady_start`, `C72_no_steps`, `C72_returned_state_refuted`
* note: Full characterisation of what the steady solvers return or throw, for every residual function.
  Findings: convergence in the last permitted step is reported as failure; backward Euler throws on an exactly
  steady start; with tol >= 1 it divides by zero and converts to int; the residual of the returned state is
  never checked.

**C73 Explicit pseudo-time update ignores the ramped CFL number** (proved; P_Ode)
* model: forward Euler (M_Ode)
* proof: induction over steps
* theorems: `C73_initial_cfl`, `C73_final_cfl_unused`, `C73_reported_refuted`
* note: Forward Euler always steps with the initial CFL number; the ramped one is only reported.

**C74 TVD Runge-Kutta of any order is one backward-in-time Euler step** (proved; P_Ode2)
* model: TVD Runge-Kutta (M_Ode)
* proof: induction over stages
* theorems: `C74_step`, `C74_order_2_is_order_1`, `C74_opposite_sign`, `C74_order_0_stuck`,
  `C74_order_4_unset_refuted`
* note: Findings: with the sign convention of the residual the explicit solver steps backwards in time; orders
  2 and 3 reduce to one Euler step because the residual is evaluated at the old state in every stage; order 0
  never ends, orders above 3 use unset coefficients.

**C75 Under-relaxation factor is in [minfactor,1] and protects the density** (proved; P_Ode2)
* model: relaxation (M_Ode)
* proof: real inequalities; witnesses
* theorems: `C75_factor`, `C75_constructor`, `C75_density_refuted`, `C75_pressure_refuted`
* note: Factor range proved. The claimed protection of positivity is refuted by concrete states.

**C76 Point output averages** (proved; P_Out)
* model: point and cell output (M_Out)
* proof: sums over cells around a point
* theorems: `C76_point_values`, `C76_convex_refuted`, `C76_cell_values`, `C76_scalar_undefined`
* note: Refuted as hoped for: densities and pressures at points are a quarter of the area-weighted average
  (velocity, Mach number, temperature are right); the scalar version reads beyond its array on every mesh with
  more than one cell.

**C77 Surface coefficients** (proved; P_Out, P_Out2)
* model: surface data (M_Out)
* proof: sums over faces of a marker; partition by C16
* theorems: `C77_coefficients`, `C77_distribution`, `C77_partition`, `C77_freestream_pressure`,
  `C77_pressure_level`, `C77_closed`, `C77_no_faces`, `C77_friction_sign_refuted`,
  `C77_constant_viscosity_refuted`
* note: Friction drag has the wrong sign and always uses Sutherland viscosity; a marker without faces gives
  0/0.

**C78 Boundary type names** (proved; P_BC)
* model: name map and creation (M_BCConf)
* proof: case analysis
* theorems: `C78_names`, `C78_periodic_fails`, `C78_create`

**C79 Diffusion operator** (proved; P_Diff)
* model: Diffusion (M_Diff)
* proof: sums over faces; C07; quadratic form
* theorems: `C79_residual`, `C79_constant`, `C79_linear`, `C79_jacobian`, `C79_boundary_jacobian_refuted`,
  `C79_energy`, `C79_needs_timestep_vector`, `C79_getGradients`, `C79_components`
* note: Residual formula, conservation and time step on every built mesh; vanishing on constants and linear
  fields; matrix exact on cells without physical boundary faces and short by one conductance per boundary face
  elsewhere (refutation of the full Jacobian claim with a witness); symmetry and positive semidefiniteness; a
  null time-step Vec makes the residual throw (matrix-free diffusion); getGradients undefined without physical
  boundary faces.

**C80 Steady forward Euler conserves totals** (proved; P_Ode2, P_Ode3)
* model: solvers with the residual (M_Ode, M_Resid)
* proof: C63, C45 and induction over steps
* theorems: `C80_step`, `C80_closed_box`, `C80_runge_kutta`, `C80_local_steps_refuted`
* note: Mass and energy in boxes closed by slip walls (all meshes, all fluxes, any number of steps with equal
  time steps); momentum changes by the wall forces. With the local time steps the code uses the total is not
  conserved (refuted by a two-cell box).

**C81 Cell centres** (proved; P_Geom)
* model: cell centres (M_Geom)
* proof: loop invariant
* theorems: `C81_cell_centres`

**C82 Half-faces tile the cells** (proved; P_Geom)
* model: half-faces (M_Geom)
* proof: algebra on triangles
* theorems: `C82_half_faces`

**C83 Graph of lines and points handed to PETSc** (proved; P_MeshUtil)
* model: graph of lines (M_MeshUtil)
* proof: invariants; adjacency of lines
* theorems: `C83_line_graph`

**C84 Reordering a distributed mesh keeps its parallel bookkeeping** (proved; P_Part)
* model: reordering after restriction (M_Part, M_Mesh)
* proof: witness by computation
* theorems: `C84_reorder_after_restriction_refuted`
* note: Claim refuted by a concrete mesh: the bookkeeping goes stale.

**C85 Boundary sections of the control file** (proved; P_BC)
* model: boundary sections of the control file (M_BCConf)
* proof: induction over sections
* theorems: `C85_parse`, `C85_gap_ignored`, `C85_short_values_refuted`

**C86 Spatial set-up never fails on a valid mesh** (proved; P_Grad)
* model: spatial constructor (M_Space)
* proof: all array accesses in range; ghost centres by mirror formula
* theorems: `C86_setup_total`, `C86_ghost_centres`

**C87 Unsteady solver on several ranks** (proved; P_Ode2)
* model: Runge-Kutta on ranks (M_Ode)
* proof: values of ghosts are never written
* theorems: `C87_ghosts_stale`, `C87_ranks_drift`
* note: Negative results about the code.

**C88 Implicit system is the linearised backward Euler step** (proved; P_Ode2)
* model: implicit system (M_Ode, M_Resid)
* proof: algebra on blocks and C67
* theorems: `C88_pseudo_time`, `C88_scalar_variant`, `C88_linearised_step`

**C89 Rows of surface files** (proved; P_Out2)
* model: surface table rows (M_Out)
* proof: per-row formulas
* theorems: `C89_wall_rows`, `C89_other_rows`

**C90 Entropy error** (proved; P_Out2)
* model: entropy error (M_Out)
* proof: sum of squares; permutation over ranks
* theorems: `C90_value`, `C90_distribution`
* note: The mesh size printed beside the error uses the local number of cells (not modelled).

**C91 The SU2 reader** (proved; P_SU2)
* model: readSU2 on tokens (M_SU2), writer (M_Gmsh)
* proof: the reader inverts the text of the specification line by line; C21 for the conversion;
  counterexamples by computation
* theorems: `C91_read`, `C91_conversion`, `C91_names_ignored`, `C91_section_order_refuted`,
  `C91_empty_marker_refuted`, `C91_unknown_type_refuted`, `C91_no_marker_refuted`
* note: Tokenised file. The statement about what happens outside the form is four counterexamples (findings).

**C92 VTU files** (proved; P_Vtu)
* model: the three VTU writers as token lists (M_Vtu)
* proof: the tokens are compared with the mesh position by position; running sums by induction; counterexample
  on a hybrid mesh by computation
* theorems: `C92_cell_data`, `C92_point_data`, `C92_no_data`, `C92_short_data`, `C92_mesh_only`,
  `C92_hybrid_mesh_refuted`
* note: writeMeshToVtu uses nnode(i)*(i+1) as end offset: right exactly for meshes of one cell size, and names
  the nine-node type wrongly

**C93 Boundary point numbering** (proved; P_BPoint)
* model: compute_boundary_points (M_BPoint)
* proof: loop invariants: flags, counter and numbers after each face; closed curves by counting beginnings and
  ends
* theorems: `C93_boundary_points`, `C93_closed_boundary`

**C94 Comparison of meshes and the one-rank check** (proved; P_Compare)
* model: compareMeshes (M_Compare), constructMesh on one rank (M_Part)
* proof: each flag is a conjunction over a range; C20 for the restriction; counterexample with an unused point
* theorems: `C94_flags`, `C94_smaller`, `C94_one_rank`, `C94_orphan_point_refuted`
* note: A point that belongs to no cell is dropped by the restriction, and the debug check then reads past the
  local coordinates (finding).

**C95 Control file to solver configuration** (proved; P_Ctl)
* model: parse_flow_controlfile on property trees (M_Ctl), factories (M_Ctl)
* proof: each stage is evaluated under the specified set of entries; conversely a missing entry stops the
  parse
* theorems: `C95_accepted`, `C95_values`, `C95_more_values`, `C95_physics`, `C95_boundaries`, `C95_case`,
  `C95_order`, `C95_mesh_override`, `C95_mesh_needed`, `C95_determined`, `C95_limiter_parameter_refuted`,
  `C95_starter_flag_refuted`, `C95_schemes`, `C95_names`
* note: The property tree (boost) is modelled as a tree with ordered children and first-match lookup;
  translators from text to numbers are arbitrary functions. Fields the file does not set keep arbitrary
  contents. Finding: limiter_parameter is never read, and usestarter is not set without an initialization
  section.

**C96 Running a steady case** (proved; P_Case)
* model: case driver (M_Case) over the steady solvers (M_Ode)
* proof: symbolic evaluation of each outcome of the two solves, with the live objects and files as state; C72
  for the solver
* theorems: `C96_starter`, `C96_execute`, `C96_tolerance`, `C96_converged`, `C96_history`,
  `C96_unrecorded_history_refuted`, `C96_no_steps`, `C96_leaks`, `C96_run_output`, `C96_no_walls_refuted`,
  `C96_run`, `C96_exit_status_refuted`
* note: The steady solvers are those of C72; PETSc objects are tracked as a multiset of live objects and files
  as a list. Findings: exit status 0 without convergence; solver objects leak when a solve throws; lwalls[0]
  of an empty list.

**C97 A boundary section of the control file does what it says** (proved; P_BCFile)
* model: boundary sections (M_BCConf), boundary objects and ghost states (M_BC)
* proof: the parsed list is searched for the last entry with the marker, the object made from it is compared
  with a specification of each boundary type by name; real algebra for each ghost state
* theorems: `C97_names`, `C97_boundary_sections`, `C97_wall_temperature_unit`, `C97_inlet_temperature_unit`
* note: The meaning of each boundary type is specified by its name in the file; the deciding section is the
  last of those numbered without a gap. The documented unit of the temperatures (kelvin) is refuted: the value
  is used in units of the free-stream temperature.

**C98 A case starts in the free stream and, if that satisfies the boundary conditions, stays there** (proved; P_Start)
* model: initial state, discretizations from the options (M_Start) over the residual (M_Resid), solvers
  (M_Ode) and case driver (M_Case)
* proof: loop invariants for the initial array; C27 and C65 (generalised to a time step request) for the
  residual; one symbolic step of each solver; C96 for the run
* theorems: `C98_initial_state`, `C98_discretization`, `C98_residual`, `C98_explicit_run`,
  `C98_implicit_run_refuted`, `C98_example`
* note: The part about implicit runs is refuted: they end unconverged or with an exception (finding). Exact
  arithmetic; one process.

**C99 A case runs on the mesh of the file, in the cell order asked for, with tables that belong to that order** (proved; P_Prep)
* model: constructMesh, preprocessMesh, reorderMeshPetsc, lineReorder, hybridLineReorder (M_Prep) over the
  mesh, partition and ordering models
* proof: permuting cells keeps the mesh tiled; C11 for the lines, a loop invariant for the graph given to
  PETSc; C14, C15, C17 for the parts; the order is shown not to depend on the numbering of points
* theorems: `C99_mesh_of_a_case`, `C99_part_of_a_case`, `C99_petsc_order_of_parts`,
  `C99_petsc_order_of_parts_refuted`, `C99_example`
* note: Orderings of PETSc on several processes are refuted: the assembly reads past the end of a vector
  (finding). PETSc's orderings are arbitrary functions that return permutations.

**C100 The order of the cells does not change the result of an explicit run** (proved; P_Renum, P_Renum2)
* model: the spatial discretizations and the explicit solver (M_Resid, M_Start, M_Ode, M_Case) on two meshes
  from M_Prep
* proof: one mesh is a part, in the sense of C17, that contains all cells of the other: faces, metrics,
  gradients and boundary states agree, fluxes are antisymmetric; sums over cells are permuted; simulation of
  the two runs by induction over the steps; C99 for the two meshes
* theorems: `C100_residual`, `C100_explicit_run`, `C100_reordering`, `C100_reordering_run`, `C100_example`
* note: For explicit runs on one process, in exact arithmetic; every state at which fluxes are evaluated is
  assumed physical. The two limiters that read out of bounds are excluded.

**C101 Ghost entries of distributed vectors stand for the cells the connectivity faces name** (proved; P_Dist)
* model: PETSc's numbering of ghosted vectors, VecGhostUpdate (M_Dist) over the partition and the restricted
  meshes (M_Part)
* proof: a partition in order concatenates to the mesh's numbering (C14, C15), so block numbers are cell
  numbers; connectivity faces by C17; counterexample on a scattered partition of seven triangles
* theorems: `C101_blocks`, `C101_ghost_update`, `C101_scattered_refuted`
* note: proved for the partition every case uses; refuted for a partition that is not in order (as
  ScotchRGMPartitioner may return); C102_example gives a mesh on two ranks

**C102 An explicit run gives the same result on any number of processes** (proved; P_Dist)
* model: residual, time steps, forward Euler loop and case driver as executed by all ranks together, with
  ghost updates, reverse scatter, exchange of face states and sums over ranks (M_Dist), against M_Resid,
  M_Start, M_Ode, M_Case on one process
* proof: the three phases of one evaluation composed equal compute_residual2 with the exchanged data; C66 for
  the values per cell; sums over ranks are sums over cells; simulation of the serial loop by the ranks' loop
  by induction over the steps
* theorems: `C102_residual`, `C102_explicit_run`, `C102_example`
* note: real arithmetic: floating-point sums taken in another order differ in rounding; explicit solver only

**C103 The implicit matrix does not depend on the partition, nor on the side from which a face is seen** (proved; P_JacPart)
* model: `assemble_ranks` (M_Dist) over `assemble_jacobian` (M_Resid) with the rows and columns of `arow`,
  `acol`
* proof: mirror laws of the five flux Jacobians and of the viscous Jacobian (Pf_JacSwap), assembled rows as
  sums over the faces of a cell (Pf_JacPart, generic law of outflow over the restricted mesh), blocks
  recovered from their action on unit vectors
* theorems: `C103_face`, `C103_matrix`, `C103_tie_refuted`, `C103_example`
* note: C103_matrix: every mesh, partition, flux with Jacobian, viscous or not; states where the switching
  speed of AUSM, ROE or HLLC is not zero or both states are equal. C103_tie_refuted: the AUSM Jacobian at a
  face at rest with different impedances depends on the side.

**C104 The reported functionals do not depend on the number of processes** (proved; P_Report, P_Report3)
* model: getGradients, the entropy error, mesh size, surface integration and reductions of run_output as
  executed by all ranks (M_Report) over M_Dist and M_Out2
* proof: the gradients of a rank agree cell by cell with those of one process (C102 machinery, C17 for the
  restricted mesh); sums over the wall faces are regrouped by the cell that holds them, and cells are held by
  one rank each; counterexamples on the ring on two ranks and on a one-row channel
* theorems: `C104_report`, `C104_explicit_case`, `C104_no_room`, `C104_mesh_size`, `C104_mesh_size_refuted`,
  `C104_room_refuted`, `C104_functionals`
* note: Entropy error, lift and drag reported by any number of processes equal those of one process, for any
  physical state and at the end of an explicit run (the entropy error, Cl, Cdp and Cdf; per process no more
  output-wall faces than cells). The claim about the mesh size and the claim about room for the output are
  refuted with witnesses; C104_mesh_size says exactly when the mesh size agrees and C104_no_room that more
  wall faces than cells always overrun the array.

**C105 An implicit run does not depend on the number of processes, given the linear solver** (proved; P_DistImp)
* model: addPseudoTimeTerm and the backward Euler loop as executed by all ranks, within a case (M_DistImp)
  over M_Dist, M_Ode, M_Case; the linear solver is an arbitrary function of the step and the system
* proof: invariant of the loop: the state of every rank is the restriction of that of one process, the
  recorded quantities are equal (Pf_DistImp); residual by C102's `ranks_eval`, matrix by C103_matrix,
  pseudo-time rows by the one-to-one numbering of cells; ring on two ranks with any linear solver
* theorems: `C105_implicit_run`, `C105_example`
* note: Started from the free stream. That the result of the linear solver does not depend on the distribution
  of the system is an assumption of the model (true for converged solves, not for per-process preconditioners
  with a loose tolerance). Exact arithmetic.

**C106 The order of the cells does not change what an implicit run computes, given the linear solver** (proved; P_RenumImp)
* model: the backward Euler case of M_Ode/M_Case over meshes made by constructMesh (M_Prep) with two values of
  -mesh_reorder; the linear solvers are arbitrary functions related by the permutation of the cells
* proof: the assembled matrices are permutations of each other (rows of C28's assembly compared face by face,
  Pf_RenumImp), then an invariant of the loop as for C100; the global numbers used by the pseudo-time term are
  positions because constructMesh on one process leaves them so (`mesh_of_case`); the ring in reverse order
  with a Jacobi sweep
* theorems: `C106_matrix`, `C106_implicit_run`, `C106_reordering_run`, `C106_example`
* note: for linear solvers that commute with permuting the unknowns; faces on which the Jacobian flux switches
  formula must not lie between different states

**C107 Searching a tree of solvers for a preconditioner** (proved; P_Solver)
* model: trees of solvers as PETSc holds them and getPC (M_Solver); the coarse solver is the smoother of level
  0, as in PETSc
* proof: induction over the tree: a call either leaves *pcfound and there is no occurrence, or its result is
  the occurrence on the coarse or finest level; uniqueness of the first occurrence; counterexamples on a
  three-level multigrid
* theorems: `C107_search`, `C107_subdomains`, `C107_first_partial`, `C107_first_unique`, `C107_first_refuted`,
  `C107_unset`
* note: the documented "first occurrence" is refuted by C107_first_refuted (multigrid, two finer levels with
  the type) and proved where no two finer levels have it; C107_unset: nothing tells the caller that the type
  was not found

**C108 The steps in which the AMG interpolation is computed anew** (proved; P_Solver)
* model: parseOptionalPetscCmd_intArray and the flag of the backward Euler loop (M_Solver)
* proof: induction over the steps; a list of four numbers as counterexample for the fourth
* theorems: `C108_schedule`, `C108_fourth_refuted`
* note: numbers after the third are ignored (C108_fourth_refuted)

**C109 The reported functionals do not depend on the order of the cells** (proved; P_Report2)
* model: run_output (M_Report) on the two meshes constructMesh (M_Prep) makes from one file with two values of
  -mesh_reorder
* proof: gradients agree cell by cell (`gradients2`), sums over wall faces are regrouped by the cell that
  holds the face and then permuted (`walls2`, `cells2`); combined with the runs of C100 and C106; the ring in
  reverse order
* theorems: `C109_report`, `C109_reordering`, `C109_explicit_case`, `C109_implicit_case`, `C109_example`
* note: for linear solvers that commute with the order in the implicit case; the wall must fit the output
  array (C104_room_refuted)

**C110 Ghost cell centres reflected about the boundary faces** (proved; P_Ghost)
* model: compute_ghost_cell_coords_about_face (M_Ghost)
* proof: the point of intersection computed from slopes equals the one from the unit normal, by field with the
  square of the normal 1; next to an axis the error is bounded by the small part of the normal; loop invariant
  for the array
* theorems: `C110_ghosts`, `C110_one_image`, `C110_near_axis_refuted`
* note: the mirror image exactly for normals clear of the axes, to within 2e-12 of the distance otherwise;
  C110_near_axis_refuted shows that it is not exact next to an axis

**C111 Choice of the mesh reader and conversion of mesh files** (proved; P_Conv)
* model: readMesh and the main function of convertformat (M_Conv) over the readers and writers of M_SU2,
  M_Gmsh, M_Vtu
* proof: the last part of boost::split characterised by induction over the string; composition of C91, C21 and
  C92 through a file system in which the written file replaces what was there
* theorems: `C111_reader`, `C111_missing`, `C111_to_msh`, `C111_su2_to_msh`, `C111_to_vtu`,
  `C111_other_format`, `C111_few_arguments_refuted`
* note: The last clause is refuted: with too few arguments the program prints its message, goes on and makes a
  string from a null pointer (C111_few_arguments_refuted).

**C112 The position of the mesh in the plane does not matter** (proved; P_Shift)
* model: setup of the discretization (M_Space) and everything that reads coordinates: M_Grad, M_Recon, M_Visc,
  M_Resid, M_Start, M_Report, M_Out
* proof: equality of each function on the two meshes, from equality of coordinate differences, through the
  loops by extensionality; centres by the sums of points that the setup is known to compute
* theorems: `C112_mesh`, `C112_discretization`, `C112_residual`, `C112_report`, `C112_run`
* note: exact equality in real arithmetic, for one process; the source term of the model diffusion problem
  depends on the position and is not part of the claim

**C113 The unit of length does not matter to an explicit inviscid run** (proved; P_Scale)
* model: the same functions as C112, with face lengths and areas multiplied by k and k^2, and the forward
  Euler solver of M_Ode and the case driver of M_Case
* proof: relation between the two evaluations carried through the loops (accumulated increments commute with
  multiplication by a constant), algebra of one face for gradients, extrapolation and limiters; induction over
  the steps of the solver with the residual norms related by k^2; the implicit counterexample computes two
  passes of the loop for one cell
* theorems: `C113_mesh`, `C113_discretization`, `C113_residual`, `C113_solve`, `C113_relative`, `C113_run`,
  `C113_implicit_cfl_refuted`
* note: Inviscid flow on one process, every reconstruction but WENO (fixed 1e-5 in its weights). The implicit
  solver depends on the unit of length: refuted with a one-cell system.

**C114 The direction of the axes does not matter to an explicit inviscid run without limiter** (proved; P_Turn)
* model: the same functions as C113, with the mesh, the free stream and the states rotated
* proof: relation between the two evaluations carried through the loops, for the work arrays only on the
  entries already written; rotation of one face (fluxes, ghost states, Green-Gauss and least squares terms,
  inverse of the 2x2 matrix); induction over the steps of the solver; the MUSCL counterexample is computed for
  one face
* theorems: `C114_mesh`, `C114_discretization`, `C114_initial`, `C114_residual`, `C114_solve`, `C114_run`,
  `C114_muscl_refuted`
* note: Inviscid flow on one process, first order or linear reconstruction, forward Euler solver. Refuted for
  MUSCL with one face.

## 5. Defects of the code found by the proofs

Each is proved of the model; the theorem is named. Line numbers are in the comments of the model.

Mesh
* A boundary face contained in no cell makes the host search read element 0 of an empty vector; with several hosts it throws (C05_host_search).
* `reorder_cells` does not permute the region tags (C09_regions_refuted).
* `compute_periodic_map` can pair one face twice (C12_double_pairing_refuted).
* An interface edge of the partition with both end points on the physical boundary is not recorded as connectivity face, possibly by one side only (C17_interfaces_refuted); unmatched records make the exchange truncate a message or deadlock (C19_unpaired_truncation, C20_unpaired_deadlock).
* Reordering after restriction leaves `connface` and `globalElemIndex` stale (C84).
* The Gmsh reader stores cells as boundary faces unless all boundary records come first (C22_other_order).
* The SU2 reader ignores section names (points before cells are read as cells, silently), skips a line after an empty marker, loses its place at an unknown cell type, and leaves `nnofa` unset without markers (C91_*_refuted).

Utilities
* `Array2d` self-assignment loses the contents (C24_self_assignment_refuted); a column overrun stays undetected inside the block (C24_column_overrun).
* Vec handlers are copyable and then give arrays back twice; a failing get leaves them attached (C23_*_refuted).
* A control file with `periodic` always fails at creation (C78_periodic_fails); boundary sections after a gap in the numbering are ignored (C85_gap_ignored); too few boundary values are read out of range (C85_short_values_refuted).

Physics
* The Jacobian of the Sutherland viscosity has the wrong exponent (C31_sutherland_jacobian_refuted), hence the viscous flux Jacobian is wrong for variable viscosity (C52_variable_wrong).
* `getDeltaPressureFromConserved` does not return the pressure change (C32_delta_pressure_refuted).
* `getJacobianVarsWrtConserved` is right only for outputs that are zero on entry (C30_accumulation).

Numerical fluxes
* Roe's entropy fix acts on the contact wave: a stationary contact leaks (C39_roe_contact_refuted).
* LLF `get_jacobian_2` is wrong unless the density is one; the Roe Jacobian differentiates the entropy fix at the already fixed eigenvalue (C43_llf_wrong, C43_roe_wrong).
* In plain supersonic flow LLF, AUSM+ (tangential velocity) and Roe (entropy fix) are not the upwind flux (C36_not_upwinded_refuted).
* For an adiabatic index near one the HLLC contact speed can leave the interval of its signal speeds, and then the flux seen from the two sides of the face differs (C35_hllc_refuted, C38_hllc_refuted, both with gamma = 11/10; the order is proved for gamma >= 5/4).

Boundary conditions
* `Adiabaticwall` indexes its wall velocity past the end (C48_adiabaticwall_overrun).
* `InFlow` uses the wrong invariant and sets an outward velocity (C48_inflow_outward, C48_inflow_refuted).
* A moving adiabatic wall changes pressure and temperature (C49_moving_wall_refuted).
* The isothermal-wall Jacobian is wrong at every state (C46_isothermal_wrong).
* `InOutFlow` takes different branches in residual and Jacobian at normal Mach number one (C47_switch_mismatch).

Space discretisation
* Green-Gauss boundary and connectivity loops update without atomics: a lost update is reachable (C55_green_gauss_race).
* Barth-Jespersen and Venkatakrishnan limiters read the solution out of range at physical boundaries, so second order with them is undefined on every mesh with a boundary (C62_out_of_bounds, C65_limiters_overrun); K = 0 gives 0/0 (C59_zero_K_refuted).
* Van Albada reconstruction creates small new extrema (C61_no_new_extrema_refuted).
* Off-diagonal preallocation is too small for a cell with two connectivity faces (C69_off_diagonal_refuted).
* The ghost-clearing loop of the matrix-free product lacks the factor nvars (C70_clearing_refuted).
* Diffusion: the boundary block of the matrix misses a factor two (C79_boundary_jacobian_refuted); the residual throws without a time-step vector, so the matrix-free product fails (C79_needs_timestep_vector); `getGradients` is undefined without boundary faces (C79_getGradients).

Time stepping
* The second CFL number depends on the absolute size of the first residual (C71_second_step).
* Convergence in the last permitted step is reported as failure; backward Euler throws on an exactly steady start and is undefined for tolerance >= 1; the returned state's residual is not checked (C72_*).
* Forward Euler ignores the ramped CFL number (C73_*).
* The Runge-Kutta solver steps against the sign of the residual, evaluates all stages at the old state, does not end for order 0 and reads unset coefficients above order 3 (C74_*); its ghost values are never updated and the ranks' time steps differ (C87_*).
* Relaxation does not protect density or pressure (C75_density_refuted, C75_pressure_refuted).
* Local time steps do not conserve totals in a closed box (C80_local_steps_refuted; inherent, not an error).

Output
* Point densities and pressures are a quarter of the average (C76_convex_refuted); the scalar version reads out of range for more than one cell (C76_scalar_undefined).
* Friction drag has the wrong sign and always uses Sutherland viscosity (C77_friction_sign_refuted, C77_constant_viscosity_refuted); a marker without faces gives 0/0 (C77_no_faces).

Meshes and files
* `writeMeshToVtu` writes offsets `nnode(i)*(i+1)`, wrong on hybrid meshes, and no valid type for nine-node cells (C92).
* A point that belongs to no cell is dropped by the restriction; the debug comparison on one rank then reads past the local arrays (C94_orphan_point_refuted). `compareMeshes` reads out of bounds if its second mesh is smaller (C94_smaller).
* `createGhostedSystemVector` passes element numbers of the mesh to `VecCreateGhostBlock` as block numbers. They agree for the partition into consecutive ranges that every case uses (C101_blocks); for another partition, such as that of `ScotchRGMPartitioner` (which stands commented out beside it, ameshutils.cpp 123), ghost cells receive the values of other cells (C101_scattered_refuted).
* `-mesh_reorder` with an ordering of PETSc on several processes: `reorderMeshPetsc` makes a sequential vector with the entries of the cells only, and `assemble_jacobian` reads the entries of the ghost cells behind its end (C99_petsc_order_of_parts, C99_petsc_order_of_parts_refuted). A name longer than 29 characters is cut before it is looked up. Any name that contains `line` counts as a line ordering, and only what follows its one underscore matters.

Configuration
* `limiter_parameter` is never read: the limiter uses uninitialised memory (C95_limiter_parameter_refuted).
* `usestarter` and the starter's settings are uninitialised without an `initialization` section (C95_starter_flag_refuted); the ramp lengths are never set.
* A misspelled `flow_type` silently means inviscid flow; a misspelled gradient gives second order with zero gradients; an unknown flux or limiter name gives a null pointer (C95_schemes).
* For explicit stepping no Jacobian flux is created; `Jacobian_inviscid_flux` is looked up at the top level of the file. The mesh entry is needed even if the mesh is given on the command line (C95_mesh_needed).

Running a case
* The exit status of the program is 0 whether or not the solve converged, and the functionals and files are those of the state reached (C96_exit_status_refuted, C96_run_output).
* An empty list of output walls is indexed after the whole solve (C96_no_walls_refuted).
* A solve that throws leaves its vectors, matrices, linear solver and update scheme allocated (C96_leaks).
* A history that was not recorded is read past its end when `execute` is asked to write it (C96_unrecorded_history_refuted).
* No permitted steps count as failure to converge (C96_no_steps).
* By reading: `UnsteadyFlowCase::execute` does not override the pure virtual function, so the class cannot be instantiated.
* `doc/example-control-file.ctrl` asks for wall and inlet temperatures in kelvin; the code uses the numbers in units of the free-stream temperature, so a wall given at the free-stream temperature of 290 K is 290 times as hot as the free stream, and an inlet has 1/290 of the density (C97_wall_temperature_unit, C97_inlet_temperature_unit).
* An implicit run that starts in an exact steady state is reported as failed: the residual of the first step is zero, the loop ends, and the test after it wants the residual to be below the tolerance times the initial residual, which is 0/0. `execute_main` turns the Numerical_error into "not converged"; `execute_starter` does not catch it, so with the starter on the program ends with an exception. The explicit solver reports convergence (C98_implicit_run_refuted, C98_explicit_run). In floating point the first residual is usually rounding error rather than zero.
* By reading: `mpi_all_reduce` (mpiutils.cpp) and aodesolver.cpp 528 pass one buffer as both send and receive buffer of MPI_Allreduce, which the MPI standard forbids without MPI_IN_PLACE; the models take it to work in place.
* The AUSM Jacobian at a face where the gas is at rest but rho c differs on the two sides depends on which cell is called left, because the sign of a zero interface Mach number is taken as plus; there the matrix of a partitioned run may differ from that of a serial run (C103_tie_refuted).
* The mesh-size parameter h that `run_output` reports is 1/sqrt of the number of cells of the process, not of the mesh, so a convergence study on several processes uses a different h on each process count (C104_mesh_size_refuted).
* `computeSurfaceData` writes one row per wall face into `output`, which `run_output` allocates with one row per cell of the process: a process with more output-wall faces than cells writes outside the array, also on one process, for example on a channel one cell wide whose two walls carry the same marker (C104_no_room, C104_room_refuted).
* `getPC` is documented to return the first occurrence of a preconditioner type; in a multigrid with the type on two finer levels and not on the coarse one it returns that of the finest level (C107_first_refuted). If there is none it succeeds and leaves the pointer uninitialised (C107_unset). Of the numbers given with `-amg_recompute_interpolation` only three count (C108_fourth_refuted).
* `compute_ghost_cell_coords_about_face` treats a face whose normal is within 1e-12 of an axis as along it: the ghost centre is then not the mirror image (C110_near_axis_refuted), by at most 2e-12 times the distance of the centre from the face (C110_ghosts). It writes row `ied`, not `ied - gPhyBFaceStart()`; the two agree because physical boundary faces come first.
* `convertformat` prints a message if it is given fewer than three arguments and then goes on: it constructs a string from a null pointer, which is undefined (C111_few_arguments_refuted).
* The CFL ramp of the implicit solver divides the previous residual norm by the current one, and the previous norm starts as 1, so that the CFL number of the second step depends on the absolute size of the first residual norm, hence on the unit of length of the mesh (C113_implicit_cfl_refuted; explicit runs do not use that number, C113_run).
* MUSCL with Van Albada's limiter limits each velocity component by itself, so that its face values depend on the direction of the axes (C114_muscl_refuted); without limiter they do not (C114_residual).

## 6. Trusted base

* Coq 8.16.1's kernel and its `vm_compute` (used for concrete witnesses).
* The axioms listed below, all of Coq's standard library: `forall_dec` and `not_dec` are
  `ClassicalDedekindReals.sig_forall_dec` and `sig_not_dec` (construction of the real numbers), `funext` is
  `FunctionalExtensionality.functional_extensionality_dep`, `classic` is `Classical_Prop.classic`. No other
  axiom is used or declared, and no library but the standard one.
* That the `M_*.v` files say what the cited lines of C++ do, up to the simplifications of section 2 and of the
  comments. Nothing extracts the model from the code; it was written by reading.
* That the specifications (`S_*.v` and the statements in `P_*.v`) express the sentences of `properties.jsonl`.

What `Print Assumptions` lists for each theorem:

**nothing (closed under the global context)** (74)

`C01_cells_around_points`, `C01_meaning`, `C02_cell_neighbours`, `C03_face_list`, `C04_elemface`,
`C05_boundary_orientation`, `C05_host_search`, `C09_reorder_cells`, `C09_regions_refuted`,
`C10_level_schedule`, `C13_points_around_points`, `C14_trivial_partition`, `C14_constructor`, `C18_adjacency`,
`C18_symmetric`, `C19_trace_exchange`, `C19_frame`, `C19_unpaired_truncation`, `C20_no_deadlock`,
`C20_schedule_independent`, `C20_unpaired_deadlock`, `C21_round_trip`, `C22_boundary_first`,
`C22_other_order`, `C23_handlers`, `C23_all_returned`, `C23_attached_throws`, `C23_copy_refuted`,
`C23_failed_get_refuted`, `C23_failed_ghosted_ctor_refuted`, `C24_value_semantics`, `C24_no_leak`,
`C24_self_assignment_refuted`, `C24_row_major`, `C24_column_overrun`, `C24_inclusive_scan`, `C78_names`,
`C78_periodic_fails`, `C78_create`, `C82_half_faces`, `C85_parse`, `C85_gap_ignored`, `C91_read`,
`C91_conversion`, `C91_names_ignored`, `C91_section_order_refuted`, `C91_empty_marker_refuted`,
`C91_unknown_type_refuted`, `C91_no_marker_refuted`, `C92_cell_data`, `C92_point_data`, `C92_no_data`,
`C92_short_data`, `C92_mesh_only`, `C92_hybrid_mesh_refuted`, `C93_boundary_points`, `C93_closed_boundary`,
`C95_names`, `C97_names`, `C107_search`, `C107_subdomains`, `C107_first_partial`, `C107_first_unique`,
`C107_first_refuted`, `C107_unset`, `C108_schedule`, `C108_fourth_refuted`, `C111_reader`, `C111_missing`,
`C111_to_msh`, `C111_su2_to_msh`, `C111_to_vtu`, `C111_other_format`, `C111_few_arguments_refuted`

**forall_dec** (10)

`C15_restriction`, `C15_union`, `C16_boundary_faces`, `C17_connectivity_faces`, `C17_matching`,
`C17_interfaces_refuted`, `C19_partition_pairs`, `C48_adiabaticwall_overrun`, `C70_one_unknown`,
`C84_reorder_after_restriction_refuted`

**forall_dec, funext** (64)

`C08_areas`, `C08_area_laws`, `C08_total_area`, `C11_line_orderings`, `C11_lines_meaning`,
`C11_lines_determined`, `C12_periodic_map`, `C12_double_pairing_refuted`, `C25_round_trip`,
`C25_round_trip_temperature`, `C25_in_place`, `C26_primitive_temperature`, `C28_flux_jacobian`,
`C28_flux_jacobian_partials`, `C29_gradient_chain_rule`, `C29_gradient_from_primitive`, `C30_vars_jacobian`,
`C30_derived_jacobians`, `C32_delta_pressure_x`, `C32_delta_pressure_y`, `C32_delta_pressure_value`,
`C32_delta_pressure_refuted`, `C33_stress_tensor`, `C33_stress_objective`, `C43_fix_error`, `C50_dissipates`,
`C55_atomic_order`, `C61_limiter`, `C61_bounded`, `C61_no_new_extrema_refuted`, `C71_linear_ramp`, `C74_step`,
`C74_order_2_is_order_1`, `C74_opposite_sign`, `C74_order_0_stuck`, `C74_order_4_unset_refuted`, `C75_factor`,
`C75_constructor`, `C75_density_refuted`, `C75_pressure_refuted`, `C76_scalar_undefined`, `C80_step`,
`C80_runge_kutta`, `C81_cell_centres`, `C83_line_graph`, `C85_short_values_refuted`, `C87_ghosts_stale`,
`C87_ranks_drift`, `C88_pseudo_time`, `C88_scalar_variant`, `C94_flags`, `C94_smaller`, `C94_one_rank`,
`C94_orphan_point_refuted`, `C96_starter`, `C96_execute`, `C96_tolerance`, `C96_run_output`,
`C96_no_walls_refuted`, `C96_run`, `C96_exit_status_refuted`, `C110_one_image`, `C113_relative`,
`C114_muscl_refuted`

**forall_dec, funext, not_dec** (116)

`C06_face_normals`, `C07_closed_cells`, `C26_equation_of_state`, `C27_freestream`, `C30_scalar_jacobians`,
`C30_accumulation`, `C34_flux_consistent`, `C35_flux_conservative`, `C35_hllc_refuted`,
`C36_supersonic_upwind`, `C36_not_upwinded_refuted`, `C37_rusanov`, `C37_hll`, `C38_hllc_waves`,
`C38_hllc_refuted`, `C39_hllc_contact`, `C39_roe_contact_leak`, `C39_roe_contact_refuted`, `C40_roe_property`,
`C41_llf`, `C41_hll`, `C42_ausm`, `C42_hllc`, `C43_llf_error`, `C43_llf_wrong`, `C43_llf_refuted`,
`C43_roe_true`, `C43_roe_code`, `C43_roe_exact_off_fix`, `C43_roe_wrong`, `C43_roe_refuted`,
`C44_flux_rotation`, `C45_slip_wall_no_flux`, `C46_freestream_ok`, `C48_inflow_formula`, `C53_wls_exact`,
`C54_formula`, `C54_constant`, `C55_gradient_loops`, `C55_green_gauss_race`, `C55_green_gauss_no_race`,
`C56_along`, `C56_across`, `C56_linear`, `C56_symmetric`, `C56_thin_layer`, `C57_formula`, `C57_linear_exact`,
`C57_with_least_squares`, `C58_no_new_extrema`, `C58_inactive`, `C59_limiter_range`, `C59_zero_K_refuted`,
`C60_convex`, `C60_linear_exact`, `C61_formula`, `C61_linear_exact`, `C62_out_of_bounds`, `C64_runs_exist`,
`C70_difference`, `C70_affine_exact`, `C70_linear`, `C70_limit`, `C70_ghosts_not_cleared`,
`C70_clearing_refuted`, `C76_point_values`, `C76_convex_refuted`, `C76_cell_values`, `C77_closed`,
`C79_residual`, `C79_constant`, `C79_linear`, `C79_jacobian`, `C79_boundary_jacobian_refuted`, `C79_energy`,
`C79_needs_timestep_vector`, `C79_getGradients`, `C79_components`, `C86_setup_total`, `C86_ghost_centres`,
`C89_other_rows`, `C95_accepted`, `C95_values`, `C95_more_values`, `C95_physics`, `C95_boundaries`,
`C95_case`, `C95_order`, `C95_mesh_override`, `C95_mesh_needed`, `C95_determined`,
`C95_limiter_parameter_refuted`, `C95_starter_flag_refuted`, `C95_schemes`, `C98_initial_state`,
`C98_discretization`, `C99_mesh_of_a_case`, `C99_part_of_a_case`, `C99_petsc_order_of_parts`,
`C99_petsc_order_of_parts_refuted`, `C99_example`, `C100_reordering`, `C101_blocks`, `C101_ghost_update`,
`C101_scattered_refuted`, `C103_face`, `C103_tie_refuted`, `C110_ghosts`, `C110_near_axis_refuted`,
`C112_mesh`, `C112_discretization`, `C113_mesh`, `C113_discretization`, `C114_mesh`, `C114_discretization`,
`C114_initial`

**classic, forall_dec, funext, not_dec** (125)

`C31_sutherland`, `C31_sutherland_jacobian_refuted`, `C46_bc_jacobian`, `C46_isothermal_wrong`,
`C46_isothermal_error`, `C47_inout`, `C47_switch_mismatch`, `C48_inflow_outward`, `C48_inflow_refuted`,
`C49_adiabatic`, `C49_moving_wall`, `C49_moving_wall_refuted`, `C49_isothermal`, `C50_formula`,
`C50_zero_linear`, `C50_second_order`, `C50_conservative`, `C50_uniform`, `C51_no_gradient_along`,
`C51_no_energy_flux`, `C52_constant_viscosity`, `C52_variable_viscosity`, `C52_variable_wrong`,
`C55_residual_loops`, `C63_any_face_states`, `C63_first_order`, `C63_second_order`, `C63_second_order_runs`,
`C64_copies_cancel`, `C64_first_order`, `C64_second_order`, `C65_first_order`, `C65_second_order`,
`C65_limiters_overrun`, `C66_partition_independent`, `C66_gradients`, `C66_face_states`, `C66_time_steps`,
`C66_second_order`, `C66_exchange_exists`, `C67_assembled_jacobian`, `C68_time_step`, `C68_first_order`,
`C69_diagonal`, `C69_off_diagonal`, `C69_too_small`, `C69_off_diagonal_refuted`, `C71_residual_ramp`,
`C71_residual_ramp_law`, `C71_history`, `C71_second_step`, `C72_forward`, `C72_backward`,
`C72_forward_converges`, `C72_forward_last_step`, `C72_backward_converges`, `C72_steady_start`,
`C72_no_steps`, `C72_returned_state_refuted`, `C73_initial_cfl`, `C73_final_cfl_unused`,
`C73_reported_refuted`, `C77_coefficients`, `C77_distribution`, `C77_partition`, `C77_freestream_pressure`,
`C77_pressure_level`, `C77_no_faces`, `C77_friction_sign_refuted`, `C77_constant_viscosity_refuted`,
`C80_closed_box`, `C80_local_steps_refuted`, `C88_linearised_step`, `C89_wall_rows`, `C90_value`,
`C90_distribution`, `C96_converged`, `C96_history`, `C96_unrecorded_history_refuted`, `C96_no_steps`,
`C96_leaks`, `C97_boundary_sections`, `C97_wall_temperature_unit`, `C97_inlet_temperature_unit`,
`C98_residual`, `C98_explicit_run`, `C98_implicit_run_refuted`, `C98_example`, `C100_residual`,
`C100_explicit_run`, `C100_reordering_run`, `C100_example`, `C102_residual`, `C102_explicit_run`,
`C102_example`, `C103_matrix`, `C103_example`, `C104_report`, `C104_explicit_case`, `C104_no_room`,
`C104_mesh_size`, `C104_mesh_size_refuted`, `C104_room_refuted`, `C104_functionals`, `C105_implicit_run`,
`C105_example`, `C106_matrix`, `C106_implicit_run`, `C106_reordering_run`, `C106_example`, `C109_report`,
`C109_reordering`, `C109_explicit_case`, `C109_implicit_case`, `C109_example`, `C112_residual`, `C112_report`,
`C112_run`, `C113_residual`, `C113_solve`, `C113_run`, `C113_implicit_cfl_refuted`, `C114_residual`,
`C114_solve`, `C114_run`

## 7. Testing of the theorems

`seeded/LOG.jsonl` records edits of the model, made in a scratch copy, that imitate realistic bugs, with the
claim each breaks, the first lemma or theorem of each file that then fails (files depending on a failed one
are not reached), and the theorems tightened when an edit went unnoticed.

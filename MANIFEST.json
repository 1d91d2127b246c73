{
 "claims": [
  {
   "property": "C01",
   "status": "proved",
   "theorems": [
    "C01_cells_around_points",
    "C01_meaning"
   ],
   "note": "cells as lists of nodes; out-of-range access is a distinct outcome"
  },
  {
   "property": "C02",
   "status": "proved",
   "theorems": [
    "C02_cell_neighbours"
   ],
   "note": "mesh valid and conforming"
  },
  {
   "property": "C03",
   "status": "proved",
   "theorems": [
    "C03_face_list"
   ],
   "note": "whole of compute_topological, uninitialised storage arbitrary"
  },
  {
   "property": "C04",
   "status": "proved",
   "theorems": [
    "C04_elemface"
   ],
   "note": "needs consistently oriented neighbouring cells"
  },
  {
   "property": "C05",
   "status": "proved",
   "theorems": [
    "C05_boundary_orientation",
    "C05_host_search"
   ],
   "note": "includes undefined behaviour without host and exception with several"
  },
  {
   "property": "C06",
   "status": "proved",
   "theorems": [
    "C06_face_normals"
   ],
   "note": "unit outward normal and length of every face"
  },
  {
   "property": "C07",
   "status": "proved",
   "theorems": [
    "C07_closed_cells"
   ],
   "note": ""
  },
  {
   "property": "C08",
   "status": "proved",
   "theorems": [
    "C08_areas",
    "C08_area_laws",
    "C08_total_area"
   ],
   "note": ""
  },
  {
   "property": "C09",
   "status": "proved",
   "theorems": [
    "C09_reorder_cells",
    "C09_regions_refuted"
   ],
   "note": "cells renumbered exactly; region tags refuted by a concrete witness"
  },
  {
   "property": "C10",
   "status": "proved",
   "theorems": [
    "C10_level_schedule"
   ],
   "note": ""
  },
  {
   "property": "C100",
   "status": "proved",
   "theorems": [
    "C100_residual",
    "C100_explicit_run",
    "C100_reordering",
    "C100_reordering_run",
    "C100_example"
   ],
   "note": "For explicit runs on one process, in exact arithmetic; every state at which fluxes are evaluated is assumed physical. The two limiters that read out of bounds are excluded."
  },
  {
   "property": "C101",
   "status": "proved",
   "theorems": [
    "C101_blocks",
    "C101_ghost_update",
    "C101_scattered_refuted"
   ],
   "note": "proved for the partition every case uses; refuted for a partition that is not in order (as ScotchRGMPartitioner may return); C102_example gives a mesh on two ranks"
  },
  {
   "property": "C102",
   "status": "proved",
   "theorems": [
    "C102_residual",
    "C102_explicit_run",
    "C102_example"
   ],
   "note": "real arithmetic: floating-point sums taken in another order differ in rounding; explicit solver only"
  },
  {
   "property": "C103",
   "status": "proved",
   "theorems": [
    "C103_face",
    "C103_matrix",
    "C103_tie_refuted",
    "C103_example"
   ],
   "note": "C103_matrix: every mesh, partition, flux with Jacobian, viscous or not; states where the switching speed of AUSM, ROE or HLLC is not zero or both states are equal. C103_tie_refuted: the AUSM Jacobian at a face at rest with different impedances depends on the side."
  },
  {
   "property": "C104",
   "status": "proved",
   "theorems": [
    "C104_report",
    "C104_explicit_case",
    "C104_no_room",
    "C104_mesh_size",
    "C104_mesh_size_refuted",
    "C104_room_refuted",
    "C104_functionals"
   ],
   "note": "Entropy error, lift and drag reported by any number of processes equal those of one process, for any physical state and at the end of an explicit run (the entropy error, Cl, Cdp and Cdf; per process no more output-wall faces than cells). The claim about the mesh size and the claim about room for the output are refuted with witnesses; C104_mesh_size says exactly when the mesh size agrees and C104_no_room that more wall faces than cells always overrun the array."
  },
  {
   "property": "C105",
   "status": "proved",
   "theorems": [
    "C105_implicit_run",
    "C105_example"
   ],
   "note": "Started from the free stream. That the result of the linear solver does not depend on the distribution of the system is an assumption of the model (true for converged solves, not for per-process preconditioners with a loose tolerance). Exact arithmetic."
  },
  {
   "property": "C106",
   "status": "proved",
   "theorems": [
    "C106_matrix",
    "C106_implicit_run",
    "C106_reordering_run",
    "C106_example"
   ],
   "note": "for linear solvers that commute with permuting the unknowns; faces on which the Jacobian flux switches formula must not lie between different states"
  },
  {
   "property": "C107",
   "status": "proved",
   "theorems": [
    "C107_search",
    "C107_subdomains",
    "C107_first_partial",
    "C107_first_unique",
    "C107_first_refuted",
    "C107_unset"
   ],
   "note": "the documented \"first occurrence\" is refuted by C107_first_refuted (multigrid, two finer levels with the type) and proved where no two finer levels have it; C107_unset: nothing tells the caller that the type was not found"
  },
  {
   "property": "C108",
   "status": "proved",
   "theorems": [
    "C108_schedule",
    "C108_fourth_refuted"
   ],
   "note": "numbers after the third are ignored (C108_fourth_refuted)"
  },
  {
   "property": "C109",
   "status": "proved",
   "theorems": [
    "C109_report",
    "C109_reordering",
    "C109_explicit_case",
    "C109_implicit_case",
    "C109_example"
   ],
   "note": "for linear solvers that commute with the order in the implicit case; the wall must fit the output array (C104_room_refuted)"
  },
  {
   "property": "C11",
   "status": "proved",
   "theorems": [
    "C11_line_orderings",
    "C11_lines_meaning",
    "C11_lines_determined"
   ],
   "note": "std::sort's tie order and PETSc's ordering are arbitrary; the meaning of the lines is for weights between 0 and 10^20"
  },
  {
   "property": "C110",
   "status": "proved",
   "theorems": [
    "C110_ghosts",
    "C110_one_image",
    "C110_near_axis_refuted"
   ],
   "note": "the mirror image exactly for normals clear of the axes, to within 2e-12 of the distance otherwise; C110_near_axis_refuted shows that it is not exact next to an axis"
  },
  {
   "property": "C111",
   "status": "proved",
   "theorems": [
    "C111_reader",
    "C111_missing",
    "C111_to_msh",
    "C111_su2_to_msh",
    "C111_to_vtu",
    "C111_other_format",
    "C111_few_arguments_refuted"
   ],
   "note": "The last clause is refuted: with too few arguments the program prints its message, goes on and makes a string from a null pointer (C111_few_arguments_refuted)."
  },
  {
   "property": "C112",
   "status": "proved",
   "theorems": [
    "C112_mesh",
    "C112_discretization",
    "C112_residual",
    "C112_report",
    "C112_run"
   ],
   "note": "exact equality in real arithmetic, for one process; the source term of the model diffusion problem depends on the position and is not part of the claim"
  },
  {
   "property": "C113",
   "status": "proved",
   "theorems": [
    "C113_mesh",
    "C113_discretization",
    "C113_residual",
    "C113_solve",
    "C113_relative",
    "C113_run",
    "C113_implicit_cfl_refuted"
   ],
   "note": "Inviscid flow on one process, every reconstruction but WENO (fixed 1e-5 in its weights). The implicit solver depends on the unit of length: refuted with a one-cell system."
  },
  {
   "property": "C114",
   "status": "proved",
   "theorems": [
    "C114_mesh",
    "C114_discretization",
    "C114_initial",
    "C114_residual",
    "C114_solve",
    "C114_run",
    "C114_muscl_refuted"
   ],
   "note": "Inviscid flow on one process, first order or linear reconstruction, forward Euler solver. Refuted for MUSCL with one face."
  },
  {
   "property": "C12",
   "status": "proved",
   "theorems": [
    "C12_periodic_map",
    "C12_double_pairing_refuted"
   ],
   "note": "involution under two-by-two matching; without it a face can be paired twice (witness)"
  },
  {
   "property": "C13",
   "status": "proved",
   "theorems": [
    "C13_points_around_points"
   ],
   "note": ""
  },
  {
   "property": "C14",
   "status": "proved",
   "theorems": [
    "C14_trivial_partition",
    "C14_constructor"
   ],
   "note": "For all cell and rank counts."
  },
  {
   "property": "C15",
   "status": "proved",
   "theorems": [
    "C15_restriction",
    "C15_union"
   ],
   "note": "restrictMeshToPartitions never fails on a tiled serial mesh with its topology; cells, points, coordinates, tags, union over ranks."
  },
  {
   "property": "C16",
   "status": "proved",
   "theorems": [
    "C16_boundary_faces",
    "C15_restriction"
   ],
   "note": "The faces of all ranks are the global faces, each once."
  },
  {
   "property": "C17",
   "status": "proved",
   "theorems": [
    "C17_connectivity_faces",
    "C17_matching",
    "C17_interfaces_refuted"
   ],
   "note": "Exact set of connectivity faces found; matching between ranks if all interfaces are seen; the unconditional claim is refuted by a concrete mesh."
  },
  {
   "property": "C18",
   "status": "proved",
   "theorems": [
    "C18_adjacency",
    "C18_symmetric"
   ],
   "note": "CSR lists exact, symmetric, no self loops."
  },
  {
   "property": "C19",
   "status": "proved",
   "theorems": [
    "C19_trace_exchange",
    "C19_frame",
    "C19_partition_pairs",
    "C19_unpaired_truncation"
   ],
   "note": "After k updates the right value on a shared face is the left value the neighbour had; for all message interleavings and bufferings; meshes from the partitioner satisfy the hypothesis when all interfaces are seen from both sides. Mismatched lists make the exchange fail."
  },
  {
   "property": "C20",
   "status": "proved",
   "theorems": [
    "C20_no_deadlock",
    "C20_schedule_independent",
    "C20_unpaired_deadlock"
   ],
   "note": "Every reachable state of the asynchronous exchange can move until all rounds are done, executions are bounded, results are schedule independent. Unpaired neighbours deadlock."
  },
  {
   "property": "C21",
   "status": "proved",
   "theorems": [
    "C21_round_trip"
   ],
   "note": "Reader and writer are modelled token by token. Stated for linear or quadratic meshes; tags beyond the ones in the mesh are the ones the writer makes up, and are stated too."
  },
  {
   "property": "C22",
   "status": "proved",
   "theorems": [
    "C22_boundary_first",
    "C22_other_order"
   ],
   "note": "For every file in another order the theorem exhibits a cell stored as a boundary face, its marker being a node number, and a boundary record stored as a cell without nodes."
  },
  {
   "property": "C23",
   "status": "proved",
   "theorems": [
    "C23_handlers",
    "C23_all_returned",
    "C23_attached_throws",
    "C23_copy_refuted",
    "C23_failed_get_refuted",
    "C23_failed_ghosted_ctor_refuted"
   ],
   "note": "Refinement to an attached/detached specification for all programs; copies and failing PETSc calls break the protocol."
  },
  {
   "property": "C24",
   "status": "proved",
   "theorems": [
    "C24_value_semantics",
    "C24_no_leak",
    "C24_self_assignment_refuted",
    "C24_row_major",
    "C24_column_overrun",
    "C24_inclusive_scan"
   ],
   "note": "Refinement of the heap model to independent matrices for all programs; self-assignment in release builds loses the contents."
  },
  {
   "property": "C25",
   "status": "proved",
   "theorems": [
    "C25_round_trip",
    "C25_round_trip_temperature",
    "C25_in_place"
   ],
   "note": ""
  },
  {
   "property": "C26",
   "status": "proved",
   "theorems": [
    "C26_equation_of_state",
    "C26_primitive_temperature"
   ],
   "note": ""
  },
  {
   "property": "C27",
   "status": "proved",
   "theorems": [
    "C27_freestream"
   ],
   "note": ""
  },
  {
   "property": "C28",
   "status": "proved",
   "theorems": [
    "C28_flux_jacobian",
    "C28_flux_jacobian_partials"
   ],
   "note": ""
  },
  {
   "property": "C29",
   "status": "proved",
   "theorems": [
    "C29_gradient_chain_rule",
    "C29_gradient_from_primitive"
   ],
   "note": ""
  },
  {
   "property": "C30",
   "status": "proved",
   "theorems": [
    "C30_scalar_jacobians",
    "C30_vars_jacobian",
    "C30_accumulation",
    "C30_derived_jacobians"
   ],
   "note": ""
  },
  {
   "property": "C31",
   "status": "proved",
   "theorems": [
    "C31_sutherland",
    "C31_sutherland_jacobian_refuted"
   ],
   "note": "the coded Jacobian of the viscosity is wrong at every temperature other than 1"
  },
  {
   "property": "C32",
   "status": "proved",
   "theorems": [
    "C32_delta_pressure_x",
    "C32_delta_pressure_y",
    "C32_delta_pressure_value",
    "C32_delta_pressure_refuted"
   ],
   "note": "finding: the function does not return the pressure change"
  },
  {
   "property": "C33",
   "status": "proved",
   "theorems": [
    "C33_stress_tensor",
    "C33_stress_objective"
   ],
   "note": ""
  },
  {
   "property": "C34",
   "status": "proved",
   "theorems": [
    "C34_flux_consistent"
   ],
   "note": "All seven selectable fluxes."
  },
  {
   "property": "C35",
   "status": "proved",
   "theorems": [
    "C35_flux_conservative",
    "C35_hllc_refuted"
   ],
   "note": "All fluxes for gamma > 1, HLLC for gamma >= 5/4; for gamma = 11/10 a concrete pair of states refutes HLLC."
  },
  {
   "property": "C36",
   "status": "proved",
   "theorems": [
    "C36_supersonic_upwind",
    "C36_not_upwinded_refuted"
   ],
   "note": "Exact condition for each flux; for LLF, AUSM+ (tangential velocity) and Roe (entropy-fix margin 1e-4) plain supersonic flow is not enough, refuted by concrete states."
  },
  {
   "property": "C37",
   "status": "proved",
   "theorems": [
    "C37_rusanov",
    "C37_hll"
   ],
   "note": "Exact formulas with bounds on the signal speeds."
  },
  {
   "property": "C38",
   "status": "proved",
   "theorems": [
    "C38_hllc_waves",
    "C38_hllc_refuted"
   ],
   "note": "gamma >= 5/4; also equal star pressures and star velocities. For gamma = 11/10 refuted by concrete states."
  },
  {
   "property": "C39",
   "status": "proved",
   "theorems": [
    "C39_hllc_contact",
    "C39_roe_contact_leak",
    "C39_roe_contact_refuted"
   ],
   "note": "HLLC preserves contacts; the claim is false for Roe because of the entropy fix, exact leak proved."
  },
  {
   "property": "C40",
   "status": "proved",
   "theorems": [
    "C40_roe_property"
   ],
   "note": ""
  },
  {
   "property": "C41",
   "status": "proved",
   "theorems": [
    "C41_llf",
    "C41_hll"
   ],
   "note": "Held-coefficient flux agrees with the coded flux at the point, and the returned matrices are its joint derivative (minus left, plus right)."
  },
  {
   "property": "C42",
   "status": "proved",
   "theorems": [
    "C42_ausm",
    "C42_hllc"
   ],
   "note": "AUSM exact whenever the interface Mach number is nonzero (also at |M|=1); HLLC exact off its branch boundaries."
  },
  {
   "property": "C43",
   "status": "proved",
   "theorems": [
    "C43_llf_error",
    "C43_llf_wrong",
    "C43_llf_refuted",
    "C43_roe_true",
    "C43_roe_code",
    "C43_fix_error",
    "C43_roe_exact_off_fix",
    "C43_roe_wrong",
    "C43_roe_refuted"
   ],
   "note": "Exact error of the full LLF Jacobian and of the Roe entropy-fix derivative, with the classes of states where they are wrong."
  },
  {
   "property": "C44",
   "status": "proved",
   "theorems": [
    "C44_flux_rotation"
   ],
   "note": ""
  },
  {
   "property": "C45",
   "status": "proved",
   "theorems": [
    "C45_slip_wall_no_flux"
   ],
   "note": ""
  },
  {
   "property": "C46",
   "status": "proved",
   "theorems": [
    "C46_bc_jacobian",
    "C46_freestream_ok",
    "C46_isothermal_wrong",
    "C46_isothermal_error"
   ],
   "note": "All conditions that implement a Jacobian; the isothermal wall is shown wrong at every state. Total-condition inflow has no Jacobian (the code exits)."
  },
  {
   "property": "C47",
   "status": "proved",
   "theorems": [
    "C47_inout",
    "C47_switch_mismatch"
   ],
   "note": ""
  },
  {
   "property": "C48",
   "status": "proved",
   "theorems": [
    "C48_adiabaticwall_overrun",
    "C48_inflow_formula",
    "C48_inflow_outward",
    "C48_inflow_refuted"
   ],
   "note": "Rpower models pow with a real exponent."
  },
  {
   "property": "C49",
   "status": "proved",
   "theorems": [
    "C49_adiabatic",
    "C49_moving_wall",
    "C49_moving_wall_refuted",
    "C49_isothermal"
   ],
   "note": ""
  },
  {
   "property": "C50",
   "status": "proved",
   "theorems": [
    "C50_formula",
    "C50_zero_linear",
    "C50_second_order",
    "C50_conservative",
    "C50_uniform",
    "C50_dissipates"
   ],
   "note": "The flux is the Newtonian/Fourier flux of the specification; zero, linear and antisymmetric for both orders and both viscosity laws; at second order its velocity and temperature gradients are the differences of the cells' velocities and temperatures along the line of centres and the means of the cell gradients across it; the stress never produces energy."
  },
  {
   "property": "C51",
   "status": "proved",
   "theorems": [
    "C51_no_gradient_along",
    "C51_no_energy_flux"
   ],
   "note": "Stationary wall (Adiabaticwall2D with zero tangential velocity). First order: energy flux exactly zero. Second order: no temperature gradient along the line of centres."
  },
  {
   "property": "C52",
   "status": "proved",
   "theorems": [
    "C52_constant_viscosity",
    "C52_variable_viscosity",
    "C52_variable_wrong"
   ],
   "note": "Constant viscosity exact. Variable viscosity: exact error formula and proof that it is not the derivative when T<>1 and the flux is not zero (follows from the Sutherland derivative finding)."
  },
  {
   "property": "C53",
   "status": "proved",
   "theorems": [
    "C53_wls_exact"
   ],
   "note": "All meshes built by the set-up; every cell whose neighbour centres are distinct from its own and not all on one line. WLS_ctor / WLS_gradients with their three face loops."
  },
  {
   "property": "C54",
   "status": "proved",
   "theorems": [
    "C54_formula",
    "C54_constant"
   ],
   "note": "Green-Gauss; closedness of cells is proved (C07), not assumed. Centres must differ from the face midpoints (otherwise the code divides by zero)."
  },
  {
   "property": "C55",
   "status": "proved",
   "theorems": [
    "C55_atomic_order",
    "C55_gradient_loops",
    "C55_green_gauss_race",
    "C55_green_gauss_no_race",
    "C55_residual_loops"
   ],
   "note": "Any order of atomic updates gives the serial result (generic and for the loops of the gradient schemes). FINDING: the boundary and connectivity loops of the Green-Gauss scheme are not atomic; for every mesh with a cell with two boundary faces there is an execution that loses a contribution."
  },
  {
   "property": "C56",
   "status": "proved",
   "theorems": [
    "C56_along",
    "C56_across",
    "C56_linear",
    "C56_symmetric",
    "C56_thin_layer"
   ],
   "note": ""
  },
  {
   "property": "C57",
   "status": "proved",
   "theorems": [
    "C57_formula",
    "C57_linear_exact",
    "C57_with_least_squares"
   ],
   "note": "LinearUnlimited; left values at all faces, right values at subdomain faces (right values at boundary and connectivity faces are left to boundary conditions and to the exchange, and are proved untouched). Also the composition with the least-squares gradients."
  },
  {
   "property": "C58",
   "status": "proved",
   "theorems": [
    "C58_no_new_extrema",
    "C58_inactive"
   ],
   "note": "For solution arrays that have rows for the boundary ghost cells; as called in the code such rows are missing (C62)."
  },
  {
   "property": "C59",
   "status": "proved",
   "theorems": [
    "C59_limiter_range",
    "C59_zero_K_refuted"
   ],
   "note": "Division by zero is an error outcome of the model; K>0 excludes it, K=0 gives 0/0 on every uniform field."
  },
  {
   "property": "C60",
   "status": "proved",
   "theorems": [
    "C60_convex",
    "C60_linear_exact"
   ],
   "note": ""
  },
  {
   "property": "C61",
   "status": "proved",
   "theorems": [
    "C61_formula",
    "C61_limiter",
    "C61_bounded",
    "C61_linear_exact",
    "C61_no_new_extrema_refuted"
   ],
   "note": "Mirror symmetry is the statement that both sides get the same function of (own, other) data. Exact at the midpoint of the two centres, which is the face centre only for boundary faces."
  },
  {
   "property": "C62",
   "status": "proved",
   "theorems": [
    "C62_out_of_bounds"
   ],
   "note": ""
  },
  {
   "property": "C63",
   "status": "proved",
   "theorems": [
    "C63_any_face_states",
    "C63_first_order",
    "C63_second_order",
    "C63_second_order_runs"
   ],
   "note": "Sum of residuals over real cells = minus fluxes through physical boundary and connectivity faces, for arbitrary face states, first and second order; completion of second order shown for all gradient schemes with linear, WENO and Van Albada reconstruction."
  },
  {
   "property": "C64",
   "status": "proved",
   "theorems": [
    "C64_copies_cancel",
    "C64_first_order",
    "C64_second_order",
    "C64_runs_exist"
   ],
   "note": "Fluxes through the two copies of every interface face cancel in the sum over all ranks, for all seven fluxes, viscous or not, first and second order, whenever the exchanged data come from the other copy; the residuals of all ranks then add up to minus the flux through the physical boundary. Hypotheses: every interface found by both sides (C17 shows when this fails), distinct face ends, physical states on interface faces, 1 < gamma (5/4 <= gamma for HLLC). C64_runs_exist: the hypotheses are met by every such split of every mesh."
  },
  {
   "property": "C65",
   "status": "proved",
   "theorems": [
    "C65_first_order",
    "C65_second_order",
    "C65_limiters_overrun"
   ],
   "note": "All seven fluxes, inviscid or viscous; far-field, inflow-outflow, extrapolation and slip boundaries that admit the state; second order with zero, Green-Gauss, least-squares gradients and linear, WENO, Van Albada reconstruction. With Barth-Jespersen or Venkatakrishnan the second-order residual reads out of bounds on every mesh with a physical boundary (finding)."
  },
  {
   "property": "C66",
   "status": "proved",
   "theorems": [
    "C66_partition_independent",
    "C66_gradients",
    "C66_face_states",
    "C66_time_steps",
    "C66_second_order",
    "C66_exchange_exists"
   ],
   "note": "First order: for every tiled mesh, partition, flux, boundary conditions by tag and physical states, each cell's residual on its rank equals the residual on the whole mesh (exact real arithmetic), given correct ghost centres and states. Second order (zero, Green-Gauss or least-squares gradients; linear, WENO or Van Albada reconstruction; all fluxes, viscous or not): with gradients and face states exchanged between the owners of shared faces, each rank computes the gradients, the face states on the side of its cells, the time steps and the residual of the run on one process; such an exchange exists whenever the run on one process completes. Residual: face states of the whole-mesh run physical. The Barth-Jespersen and Venkatakrishnan limiters read out of bounds on every mesh with boundary faces (C62), so no run with them completes."
  },
  {
   "property": "C67",
   "status": "proved",
   "theorems": [
    "C67_assembled_jacobian"
   ],
   "note": "Along every curve of states. Hypotheses: exact face and boundary Jacobians (shown for AUSM and for Roe off the entropy fix, constant viscosity; boundary conditions as in C46). The assembled matrix is minus the derivative of the vector that compute_residual returns."
  },
  {
   "property": "C68",
   "status": "proved",
   "theorems": [
    "C68_time_step",
    "C68_first_order"
   ],
   "note": "Includes the viscous part; face lengths positive because cell corners are distinct."
  },
  {
   "property": "C69",
   "status": "proved",
   "theorems": [
    "C69_diagonal",
    "C69_off_diagonal",
    "C69_too_small",
    "C69_off_diagonal_refuted"
   ],
   "note": "Positions of all block insertions of the assembly against the preallocated row sizes, block and scalar format. Finding: one off-diagonal block per row is too few for a cell with two connectivity faces (costs reallocation, since the allocation error is switched off)."
  },
  {
   "property": "C70",
   "status": "proved",
   "theorems": [
    "C70_difference",
    "C70_affine_exact",
    "C70_linear",
    "C70_limit",
    "C70_one_unknown",
    "C70_ghosts_not_cleared",
    "C70_clearing_refuted"
   ],
   "note": "Difference quotient for every residual, exact for affine ones, converges to the derivative. Finding: the loop meant to clear ghost entries of the new vector lacks the factor nvars, so what the vector held there enters the product."
  },
  {
   "property": "C71",
   "status": "proved",
   "theorems": [
    "C71_linear_ramp",
    "C71_residual_ramp",
    "C71_residual_ramp_law",
    "C71_history",
    "C71_second_step"
   ],
   "note": "Ramps stay in their limits, are monotone and follow the documented law; the history of every run stays in the limits. Finding: the second CFL number depends on the absolute size of the first residual."
  },
  {
   "property": "C72",
   "status": "proved",
   "theorems": [
    "C72_forward",
    "C72_backward",
    "C72_forward_converges",
    "C72_forward_last_step",
    "C72_backward_converges",
    "C72_steady_start",
    "C72_no_steps",
    "C72_returned_state_refuted"
   ],
   "note": "Full characterisation of what the steady solvers return or throw, for every residual function. Findings: convergence in the last permitted step is reported as failure; backward Euler throws on an exactly steady start; with tol >= 1 it divides by zero and converts to int; the residual of the returned state is never checked."
  },
  {
   "property": "C73",
   "status": "proved",
   "theorems": [
    "C73_initial_cfl",
    "C73_final_cfl_unused",
    "C73_reported_refuted"
   ],
   "note": "Forward Euler always steps with the initial CFL number; the ramped one is only reported."
  },
  {
   "property": "C74",
   "status": "proved",
   "theorems": [
    "C74_step",
    "C74_order_2_is_order_1",
    "C74_opposite_sign",
    "C74_order_0_stuck",
    "C74_order_4_unset_refuted"
   ],
   "note": "Findings: with the sign convention of the residual the explicit solver steps backwards in time; orders 2 and 3 reduce to one Euler step because the residual is evaluated at the old state in every stage; order 0 never ends, orders above 3 use unset coefficients."
  },
  {
   "property": "C75",
   "status": "proved",
   "theorems": [
    "C75_factor",
    "C75_constructor",
    "C75_density_refuted",
    "C75_pressure_refuted"
   ],
   "note": "Factor range proved. The claimed protection of positivity is refuted by concrete states."
  },
  {
   "property": "C76",
   "status": "proved",
   "theorems": [
    "C76_point_values",
    "C76_convex_refuted",
    "C76_cell_values",
    "C76_scalar_undefined"
   ],
   "note": "Refuted as hoped for: densities and pressures at points are a quarter of the area-weighted average (velocity, Mach number, temperature are right); the scalar version reads beyond its array on every mesh with more than one cell."
  },
  {
   "property": "C77",
   "status": "proved",
   "theorems": [
    "C77_coefficients",
    "C77_distribution",
    "C77_partition",
    "C77_freestream_pressure",
    "C77_pressure_level",
    "C77_closed",
    "C77_no_faces",
    "C77_friction_sign_refuted",
    "C77_constant_viscosity_refuted"
   ],
   "note": "Friction drag has the wrong sign and always uses Sutherland viscosity; a marker without faces gives 0/0."
  },
  {
   "property": "C78",
   "status": "proved",
   "theorems": [
    "C78_names",
    "C78_periodic_fails",
    "C78_create"
   ],
   "note": ""
  },
  {
   "property": "C79",
   "status": "proved",
   "theorems": [
    "C79_residual",
    "C79_constant",
    "C79_linear",
    "C79_jacobian",
    "C79_boundary_jacobian_refuted",
    "C79_energy",
    "C79_needs_timestep_vector",
    "C79_getGradients",
    "C79_components"
   ],
   "note": "Residual formula, conservation and time step on every built mesh; vanishing on constants and linear fields; matrix exact on cells without physical boundary faces and short by one conductance per boundary face elsewhere (refutation of the full Jacobian claim with a witness); symmetry and positive semidefiniteness; a null time-step Vec makes the residual throw (matrix-free diffusion); getGradients undefined without physical boundary faces."
  },
  {
   "property": "C80",
   "status": "proved",
   "theorems": [
    "C80_step",
    "C80_closed_box",
    "C80_runge_kutta",
    "C80_local_steps_refuted"
   ],
   "note": "Mass and energy in boxes closed by slip walls (all meshes, all fluxes, any number of steps with equal time steps); momentum changes by the wall forces. With the local time steps the code uses the total is not conserved (refuted by a two-cell box)."
  },
  {
   "property": "C81",
   "status": "proved",
   "theorems": [
    "C81_cell_centres"
   ],
   "note": ""
  },
  {
   "property": "C82",
   "status": "proved",
   "theorems": [
    "C82_half_faces"
   ],
   "note": ""
  },
  {
   "property": "C83",
   "status": "proved",
   "theorems": [
    "C83_line_graph"
   ],
   "note": ""
  },
  {
   "property": "C84",
   "status": "proved",
   "theorems": [
    "C84_reorder_after_restriction_refuted"
   ],
   "note": "Claim refuted by a concrete mesh: the bookkeeping goes stale."
  },
  {
   "property": "C85",
   "status": "proved",
   "theorems": [
    "C85_parse",
    "C85_gap_ignored",
    "C85_short_values_refuted"
   ],
   "note": ""
  },
  {
   "property": "C86",
   "status": "proved",
   "theorems": [
    "C86_setup_total",
    "C86_ghost_centres"
   ],
   "note": ""
  },
  {
   "property": "C87",
   "status": "proved",
   "theorems": [
    "C87_ghosts_stale",
    "C87_ranks_drift"
   ],
   "note": "Negative results about the code."
  },
  {
   "property": "C88",
   "status": "proved",
   "theorems": [
    "C88_pseudo_time",
    "C88_scalar_variant",
    "C88_linearised_step"
   ],
   "note": ""
  },
  {
   "property": "C89",
   "status": "proved",
   "theorems": [
    "C89_wall_rows",
    "C89_other_rows"
   ],
   "note": ""
  },
  {
   "property": "C90",
   "status": "proved",
   "theorems": [
    "C90_value",
    "C90_distribution"
   ],
   "note": "The mesh size printed beside the error uses the local number of cells (not modelled)."
  },
  {
   "property": "C91",
   "status": "proved",
   "theorems": [
    "C91_read",
    "C91_conversion",
    "C91_names_ignored",
    "C91_section_order_refuted",
    "C91_empty_marker_refuted",
    "C91_unknown_type_refuted",
    "C91_no_marker_refuted"
   ],
   "note": "Tokenised file. The statement about what happens outside the form is four counterexamples (findings)."
  },
  {
   "property": "C92",
   "status": "proved",
   "theorems": [
    "C92_cell_data",
    "C92_point_data",
    "C92_no_data",
    "C92_short_data",
    "C92_mesh_only",
    "C92_hybrid_mesh_refuted"
   ],
   "note": "writeMeshToVtu uses nnode(i)*(i+1) as end offset: right exactly for meshes of one cell size, and names the nine-node type wrongly"
  },
  {
   "property": "C93",
   "status": "proved",
   "theorems": [
    "C93_boundary_points",
    "C93_closed_boundary"
   ],
   "note": ""
  },
  {
   "property": "C94",
   "status": "proved",
   "theorems": [
    "C94_flags",
    "C94_smaller",
    "C94_one_rank",
    "C94_orphan_point_refuted"
   ],
   "note": "A point that belongs to no cell is dropped by the restriction, and the debug check then reads past the local coordinates (finding)."
  },
  {
   "property": "C95",
   "status": "proved",
   "theorems": [
    "C95_accepted",
    "C95_values",
    "C95_more_values",
    "C95_physics",
    "C95_boundaries",
    "C95_case",
    "C95_order",
    "C95_mesh_override",
    "C95_mesh_needed",
    "C95_determined",
    "C95_limiter_parameter_refuted",
    "C95_starter_flag_refuted",
    "C95_schemes",
    "C95_names"
   ],
   "note": "The property tree (boost) is modelled as a tree with ordered children and first-match lookup; translators from text to numbers are arbitrary functions. Fields the file does not set keep arbitrary contents. Finding: limiter_parameter is never read, and usestarter is not set without an initialization section."
  },
  {
   "property": "C96",
   "status": "proved",
   "theorems": [
    "C96_starter",
    "C96_execute",
    "C96_tolerance",
    "C96_converged",
    "C96_history",
    "C96_unrecorded_history_refuted",
    "C96_no_steps",
    "C96_leaks",
    "C96_run_output",
    "C96_no_walls_refuted",
    "C96_run",
    "C96_exit_status_refuted"
   ],
   "note": "The steady solvers are those of C72; PETSc objects are tracked as a multiset of live objects and files as a list. Findings: exit status 0 without convergence; solver objects leak when a solve throws; lwalls[0] of an empty list."
  },
  {
   "property": "C97",
   "status": "proved",
   "theorems": [
    "C97_names",
    "C97_boundary_sections",
    "C97_wall_temperature_unit",
    "C97_inlet_temperature_unit"
   ],
   "note": "The meaning of each boundary type is specified by its name in the file; the deciding section is the last of those numbered without a gap. The documented unit of the temperatures (kelvin) is refuted: the value is used in units of the free-stream temperature."
  },
  {
   "property": "C98",
   "status": "proved",
   "theorems": [
    "C98_initial_state",
    "C98_discretization",
    "C98_residual",
    "C98_explicit_run",
    "C98_implicit_run_refuted",
    "C98_example"
   ],
   "note": "The part about implicit runs is refuted: they end unconverged or with an exception (finding). Exact arithmetic; one process."
  },
  {
   "property": "C99",
   "status": "proved",
   "theorems": [
    "C99_mesh_of_a_case",
    "C99_part_of_a_case",
    "C99_petsc_order_of_parts",
    "C99_petsc_order_of_parts_refuted",
    "C99_example"
   ],
   "note": "Orderings of PETSc on several processes are refuted: the assembly reads past the end of a vector (finding). PETSc's orderings are arbitrary functions that return permutations."
  }
 ]
}